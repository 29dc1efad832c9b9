(* Property C20: workloads can be made into e-graphs.  Reference notions: TotalSpec.v. *)
From Coq Require Import NArith ZArith QArith Qcanon.
From Verif Require Import Base Sexp Workload Lang LangProofs Util Syntax Rule Analysis.
From Verif Require Import BV BoolDom PosDom Rational Halide Egraph Synth Domains PlainSpec MinimizeSpec TotalSpec TotalProofs TotalDomains PropertiesDomains PropertiesSat.
Open Scope string_scope.
Open Scope list_scope.

(* Any workload of bitvector or boolean terms, one of which has a variable, becomes
   an e-graph: no panic, whatever the union-find's choices.  Two levels of the
   constant-folding recursion are enough. *)
Theorem C20_bv : forall w check keep k wl ss ts, force wl = Val ss -> Forall2 (reads (bv_lang w check)) ss ts ->
  mentions_var bv_to_var ts -> exists g, to_egraph (bv_lang w check) keep (S (S k)) wl = Val g.
Proof. intros w check keep k wl ss ts Hf F M. apply (bv_total keep w check k wl ss ts Hf F). now apply mentions_tvars. Qed.
Print Assumptions C20_bv.
Theorem C20_bool : forall keep k wl ss ts, force wl = Val ss -> Forall2 (reads bool_lang) ss ts ->
  mentions_var bool_to_var ts -> exists g, to_egraph bool_lang keep (S (S k)) wl = Val g.
Proof. intros keep k wl ss ts Hf F M. apply (bool_total keep k wl ss ts Hf F). now apply mentions_tvars. Qed.
Print Assumptions C20_bool.
(* Positive numbers are not evaluated on samples: no variable is needed. *)
Theorem C20_pos : forall depth keep k wl ss ts, force wl = Val ss -> Forall2 (reads (pos_lang depth)) ss ts ->
  exists g, to_egraph (pos_lang depth) keep (S (S k)) wl = Val g.
Proof. intros depth keep. exact (pos_total keep depth). Qed.
Print Assumptions C20_pos.
(* For rationals and Halide, when no term's evaluation on the samples panics. *)
Theorem C20_rational : forall ov check keep k wl ss ts, force wl = Val ss -> Forall2 (reads (math_lang ov check)) ss ts ->
  mentions_var math_to_var ts ->
  (forall n vs t, math_init (first_seen (flat_map (tvars math_to_var) ts)) = Val (n, vs) -> In t ts ->
    exists v, cvec_term (math_eval ov) math_to_var n (var_cvec vs) t = Val v) ->
  exists g, to_egraph (math_lang ov check) keep (S (S k)) wl = Val g.
Proof. intros ov check keep k wl ss ts Hf F M Ev. apply (math_total keep ov check k wl ss ts Hf F); [now apply mentions_tvars|exact Ev]. Qed.
Print Assumptions C20_rational.
Theorem C20_halide : forall check keep k wl ss ts, force wl = Val ss -> Forall2 (reads (hal_lang check)) ss ts ->
  mentions_var hal_to_var ts ->
  (forall n vs t, hal_init (first_seen (flat_map (tvars hal_to_var) ts)) = Val (n, vs) -> In t ts ->
    exists v, cvec_term hal_eval hal_to_var n (var_cvec vs) t = Val v) ->
  exists g, to_egraph (hal_lang check) keep (S (S k)) wl = Val g.
Proof. intros check keep k wl ss ts Hf F M Ev. apply (hal_total keep check k wl ss ts Hf F); [now apply mentions_tvars|exact Ev]. Qed.
Print Assumptions C20_halide.
(* In particular for terms without the operators that negate. *)
Theorem C20_rational_plain : forall ov check keep k wl ss ts, force wl = Val ss -> Forall2 (reads (math_lang ov check)) ss ts ->
  mentions_var math_to_var ts -> Forall (without MNeg) ts -> Forall (without MAbs) ts ->
  exists g, to_egraph (math_lang ov check) keep (S (S k)) wl = Val g.
Proof.
  intros ov check keep k wl ss ts Hf F M Nn Na. apply (C20_rational ov check keep k wl ss ts Hf F M). intros n vs t _ It. rewrite Forall_forall in Nn, Na.
  apply math_evaluates; auto. pose proof (reads_typed (math_lang ov check) math_arity math_from_op_arity ss ts F) as Wt. rewrite Forall_forall in Wt. auto.
Qed.
Print Assumptions C20_rational_plain.
Theorem C20_halide_plain : forall check keep k wl ss ts, force wl = Val ss -> Forall2 (reads (hal_lang check)) ss ts ->
  mentions_var hal_to_var ts -> Forall (without HNeg) ts ->
  exists g, to_egraph (hal_lang check) keep (S (S k)) wl = Val g.
Proof.
  intros check keep k wl ss ts Hf F M Nn. apply (C20_halide check keep k wl ss ts Hf F M). intros n vs t _ It. rewrite Forall_forall in Nn.
  apply hal_evaluates; auto. pose proof (reads_typed (hal_lang check) hal_arity CalmDomains.hal_from_op_arity ss ts F) as Wt. rewrite Forall_forall in Wt. auto.
Qed.
Print Assumptions C20_halide_plain.
(* Without a variable there is a panic in the four domains that sample: every
   workload of closed terms, even the empty one, is refused. *)
Theorem C20_closed_panics : forall keepv keepb keepm keeph fuel wl ss, force wl = Val ss ->
  (forall w check ts, Forall2 (reads (bv_lang w check)) ss ts -> ~ mentions_var bv_to_var ts -> to_egraph (bv_lang w check) keepv fuel wl = Panic) /\
  (forall ts, Forall2 (reads bool_lang) ss ts -> ~ mentions_var bool_to_var ts -> to_egraph bool_lang keepb fuel wl = Panic) /\
  (forall ov check ts, Forall2 (reads (math_lang ov check)) ss ts -> ~ mentions_var math_to_var ts -> to_egraph (math_lang ov check) keepm fuel wl = Panic) /\
  (forall check ts, Forall2 (reads (hal_lang check)) ss ts -> ~ mentions_var hal_to_var ts -> to_egraph (hal_lang check) keeph fuel wl = Panic).
Proof.
  intros keepv keepb keepm keeph fuel wl ss Hf. destruct (novars_panic keepv keepb keepm keeph fuel wl ss Hf) as (A & B & D & E).
  assert (K : forall O (tv : O -> option string) ts, ~ mentions_var tv ts -> flat_map (tvars tv) ts = []).
  { intros O tv ts N. destruct (flat_map (tvars tv) ts) eqn:Ef; [reflexivity|]. destruct N. apply mentions_tvars. rewrite Ef. discriminate. }
  split; [|split; [|split]]; intros; eauto.
Qed.
Print Assumptions C20_closed_panics.
(* The property as a user would state it is false: a workload of one closed term, and
   the negation of the smallest integer. *)
Theorem C20_refuted :
  (exists wl ss ts, force wl = Val ss /\ Forall2 (reads bool_lang) ss ts /\ ts <> [] /\ forall keep fuel, to_egraph bool_lang keep fuel wl = Panic) /\
  (exists wl ss ts, forall check, force wl = Val ss /\ Forall2 (reads (hal_lang check)) ss ts /\ mentions_var hal_to_var ts /\ forall keep, to_egraph (hal_lang check) keep 5 wl = Panic).
Proof.
  split.
  - exists (WSet [Lst [Atom "~"; Atom "true"]]), [Lst [Atom "~"; Atom "true"]], [T BNot [T (BLit true) []]].
    split; [reflexivity|]. split; [repeat constructor|]. split; [discriminate|]. intros keep fuel.
    destruct (C20_closed_panics (fun _ _ _ => true) keep (fun _ _ _ => true) (fun _ _ _ => true) fuel (WSet [Lst [Atom "~"; Atom "true"]]) _ eq_refl) as (_ & B & _).
    apply (B [T BNot [T (BLit true) []]]); [repeat constructor|]. intros M. apply mentions_tvars in M. now apply M.
  - exists (WSet [Lst [Atom "+"; Atom "a"; Lst [Atom "-"; Atom "-9223372036854775808"]]]), [Lst [Atom "+"; Atom "a"; Lst [Atom "-"; Atom "-9223372036854775808"]]],
      [T HAdd [T (HVar "a") []; T HNeg [T (HLit (-9223372036854775808)%Z) []]]].
    intros check. split; [reflexivity|]. split; [repeat constructor|]. split.
    + apply mentions_tvars. discriminate.
    + intros keep. vm_compute. reflexivity.
Qed.
Print Assumptions C20_refuted.
Example C20_hyp : exists wl ss ts, force wl = Val ss /\ Forall2 (reads (bv_lang 4 ex_check)) ss ts /\ mentions_var bv_to_var ts /\ length ts = 3.
Proof.
  exists (WSet [Lst [Atom "+"; Atom "a"; Atom "b"]; Atom "0"; Lst [Atom "~"; Atom "1"]]). do 2 eexists. split; [reflexivity|]. split; [|split].
  - apply Forall2_cons with (y := T VAdd [T (VVar "a") []; T (VVar "b") []]); [vm_compute; reflexivity|]. apply Forall2_cons with (y := T (VLit 0) []); [vm_compute; reflexivity|].
    apply Forall2_cons with (y := T VNot [T (VLit 1) []]); [vm_compute; reflexivity|]. constructor.
  - apply mentions_tvars. discriminate.
  - reflexivity.
Qed.
Example C20_hyp_plain : exists wl ss ts, force wl = Val ss /\ Forall2 (reads (hal_lang (fun _ _ => Unsat))) ss ts /\ mentions_var hal_to_var ts /\ Forall (without HNeg) ts.
Proof.
  exists (WSet [Lst [Atom "+"; Atom "a"; Atom "-3"]]). do 2 eexists. split; [reflexivity|]. split; [|split].
  - apply Forall2_cons with (y := T HAdd [T (HVar "a") []; T (HLit (-3)%Z) []]); [vm_compute; reflexivity|constructor].
  - apply mentions_tvars. discriminate.
  - apply Forall_cons; [|constructor]. intros us I. cbn in I. repeat (destruct I as [I|I]; [discriminate I|]). destruct I.
Qed.
