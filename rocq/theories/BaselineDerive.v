(* What a derivability report says of the rules that are not true. *)
From Coq Require Import NArith ZArith QArith Qcanon.
From Verif Require Import Base BaseProofs Lang LangProofs Syntax Rule Ruleset RulesetProofs BV BVSpec BVProofs Rational RationalSpec Halide HalideSpec Domains Workload
  Egraph EgraphSpec EgraphProofs Synth Apply Sched SynthSpec SynthProofs DeriveProofs DomainSpec DomainAlg DomainSound Infer Report OpsSpec LearntSpec LearntProofs StrictProofs Baselines BaselineSpec
  BaselineProofs BaselineHalide BaselineHalideA BaselineHalideB BaselineBV BaselineRational.
Open Scope list_scope.

Section Derive.
  Context {O C : Type}.
  Variable L : lang O C.
  Hypothesis eqb_eq : forall a b, l_eqb L a b = true <-> a = b.
  (* the sides of a derived rule are in one class *)
  Lemma derive_same keep rs fuel lo iter r : Forall (fun e => DeriveProofs.readable (snd e)) rs -> can_derive L keep fuel lo iter rs r true ->
    exists g c tl tr, made L keep rs g /\ tree (instantiate (l_mk_var L) (rlhs r)) = Val tl /\ tree (instantiate (l_mk_var L) (rrhs r)) = Val tr /\ repr g tl c /\ repr g tr c.
  Proof.
    intros Hr (g & out & Hg & Hs & Ha).
    assert (Mo : made L keep rs out). { apply (M_run L keep rs fuel (Saturating iter) g out); [exact (derive_start_made L keep _ _ _ _ _ Hg)|exact I|exact Hs]. }
    assert (all_hold L unit_alg rs) as H0 by (eapply Forall_impl; [|exact Hr]; intros e; apply unit_holds).
    pose proof (proj1 (made_moves L eqb_eq keep _ _ (unit_interprets L) rs H0 out Mo)) as W.
    unfold derive_answer in Ha.
    destruct (lookup_expr (l_eqb L) out (instantiate (l_mk_var L) (rlhs r))) as [[l|]|] eqn:El; try discriminate Ha. cbn in Ha.
    destruct (lookup_expr (l_eqb L) out (instantiate (l_mk_var L) (rrhs r))) as [[i|]|] eqn:Er; try discriminate Ha. cbn in Ha.
    inversion Ha as [Hi]. apply Nat.eqb_eq in Hi. subst i.
    destruct (lookup_expr_repr L eqb_eq _ _ _ W El) as (t1 & T1 & R1). destruct (lookup_expr_repr L eqb_eq _ _ _ W Er) as (t2 & T2 & R2).
    exists out, l, t1, t2. auto.
  Qed.
  Lemma readable_inst r tl tr : tree (instantiate (l_mk_var L) (rlhs r)) = Val tl -> tree (instantiate (l_mk_var L) (rrhs r)) = Val tr -> DeriveProofs.readable r.
  Proof.
    intros E1 E2. rewrite tree_inst in E1, E2. apply rmap_val in E1 as (a & A & _). apply rmap_val in E2 as (b & B & _). now exists a, b.
  Qed.
  Lemma report_wrong rs against wrong : NoDup (map fst against) -> (forall k r, In (k, r) against -> rname r = k) -> incl wrong (map fst against) ->
    (forall k r, In (k, r) against -> In k wrong -> forall keep fuel lo iter, ~ can_derive L keep fuel lo iter rs r true) -> never_derived L wrong rs against.
  Proof.
    intros N K Iw H keep fuel lo cs ns (can & cannot & (answer & Ha & Hp) & E) s Is. injection E as -> ->. unfold to_str_vec.
    assert (keyed against) as Kd by (apply Forall_forall; intros [k r] I; symmetry; exact (K k r I)).
    rewrite (partition_spec (fun r => Val (answer r)) answer against N Kd (fun e _ => eq_refl)) in Hp. injection Hp as <- <-.
    assert (forall e, In e against -> fst e = s -> answer (snd e) = false) as G.
    { intros [k r] I E. cbn in E |- *. subst k. destruct (answer r) eqn:X; [|reflexivity]. elim (H s r I Is keep fuel lo deriving_iter). rewrite <- X. exact (Ha _ I). }
    split.
    - intros I. apply in_map_iff in I as (e & E & I). apply filter_In in I as [I X]. rewrite (G e I E) in X. discriminate X.
    - specialize (Iw s Is). apply in_map_iff in Iw as (e & E & I). apply in_map_iff. exists e. split; [exact E|]. apply filter_In. split; [exact I|]. now rewrite (G e I E).
  Qed.
End Derive.

(* a text of lines that are names of rules *)
Definition clean (ls : list string) : bool := forallb (fun l => EnumSpec.all_chars (fun c => negb (Ascii.eqb c Lines.newline)) l && EnumSpec.all_chars (fun c => negb (Ascii.eqb c Lines.carriage)) l) ls.
Lemma file_loads {O} (from_op : string -> nat -> option O) name P ls : Forall (line from_op name P) ls -> NoDup ls -> clean ls = true ->
  exists rs, loads from_op name ls rs /\ forall k r, In (k, r) rs -> P r.
Proof. intros F N C. destruct (file_ok from_op name P ls F N C) as (rs & E & K & H). exists rs. split; [split; [exact E|split; [exact K|]]|]; intros k r I; apply (H k r I). Qed.
Lemma loaded {O} (from_op : string -> nat -> option O) name P ls rs : Forall (line from_op name P) ls -> NoDup ls -> clean ls = true ->
  loads from_op name ls rs -> forall k r, In (k, r) rs -> P r.
Proof. intros F N C (E & _). destruct (file_loads from_op name P ls F N C) as (rs' & (E' & _) & H). rewrite E in E'. injection E' as <-. exact H. Qed.
Lemma loaded_line {O} (from_op : string -> nat -> option O) name P Q ls rs s : Forall (line from_op name P) ls -> NoDup ls -> clean ls = true ->
  loads from_op name ls rs -> In s ls -> line from_op name Q s -> exists r, In (s, r) rs /\ Q r.
Proof.
  intros F N C Hl I Hq. assert (F' : Forall (line from_op name (fun r => rname r = s -> Q r)) ls).
  { rewrite Forall_forall in *. intros s' I'. destruct (F s' I') as (r & E & Nm & _). exists r. split; [exact E|]. split; [exact Nm|]. intros X. rewrite X in Nm. subst s'.
    destruct Hq as (r' & E' & _ & H). rewrite E in E'. now injection E' as <-. }
  destruct Hl as (E & K & G). rewrite <- K in I. apply in_map_iff in I as ([k r] & X & I). cbn in X. subst k. exists r. split; [exact I|].
  exact (loaded _ _ _ _ _ F' N C (conj E (conj K G)) s r I (G s r I)).
Qed.
Fixpoint distinct (ls : list string) : bool := match ls with [] => true | s :: ls => negb (existsb (String.eqb s) ls) && distinct ls end.
Lemma nodup_of (ls : list string) : distinct ls = true -> NoDup ls.
Proof.
  induction ls as [|s ls IH]; cbn; intros H; constructor; apply andb_prop in H as [H1 H2]; [|auto]. intros I.
  assert (X : existsb (String.eqb s) ls = true) by (apply existsb_exists; exists s; split; [exact I|apply String.eqb_refl]). rewrite X in H1. discriminate H1.
Qed.

Lemma bool_text : NoDup bool_baseline /\ clean bool_baseline = true. Proof. split; [apply nodup_of|]; vm_compute; reflexivity. Qed.
Lemma bv4_text : NoDup bv4_baseline /\ clean bv4_baseline = true. Proof. split; [apply nodup_of|]; vm_compute; reflexivity. Qed.
Lemma bv32_text : NoDup bv32_baseline /\ clean bv32_baseline = true. Proof. split; [apply nodup_of|]; vm_compute; reflexivity. Qed.
Lemma halide_text : NoDup halide_baseline /\ clean halide_baseline = true. Proof. split; [apply nodup_of|]; vm_compute; reflexivity. Qed.
Lemma oopsla_text : NoDup oopsla_halide /\ clean oopsla_halide = true. Proof. split; [apply nodup_of|]; vm_compute; reflexivity. Qed.
Lemma rational_text : NoDup rational_baseline /\ clean rational_baseline = true. Proof. split; [apply nodup_of|]; vm_compute; reflexivity. Qed.
Lemma herbie_text : NoDup herbie_rational /\ clean herbie_rational = true. Proof. split; [apply nodup_of|]; vm_compute; reflexivity. Qed.

Section Marked.
  Context {O : Type}.
  Variable from_op : string -> nat -> option O.
  Variable name : O -> string.
  Lemma marked (P Q : rule O -> Prop) ls wrong : Forall (fun s => line from_op name P s \/ In s wrong) ls -> Forall (line from_op name Q) wrong ->
    Forall (line from_op name (fun r => (In (rname r) wrong -> Q r) /\ (In (rname r) wrong \/ P r))) ls.
  Proof.
    intros F W. rewrite Forall_forall in *. intros s I.
    assert (D : In s wrong \/ ~ In s wrong) by (destruct (in_dec string_dec s wrong); auto). destruct D as [D|D].
    - eapply line_impl; [|exact (W s D)]. intros r Nm H. cbv beta in H. rewrite Nm. auto.
    - destruct (F s I) as [H|H]; [|tauto]. eapply line_impl; [|exact H]. intros r Nm Hp. cbv beta in Hp. rewrite Nm. tauto.
  Qed.
  Lemma marked_only (P Q : rule O -> Prop) ls wrong : (forall r, P r -> ~ Q r) -> Forall (fun s => line from_op name P s \/ In s wrong) ls -> Forall (line from_op name Q) wrong ->
    Forall (line from_op name (fun r => P r <-> ~ In (rname r) wrong)) ls.
  Proof. intros N F W. apply split_ok; [exact F|]. eapply Forall_impl; [|exact W]. intros s. apply line_impl. intros r _ Hq Hp. exact (N r Hp Hq). Qed.
End Marked.
Lemma incl_of (a b : list string) : forallb (fun s => existsb (String.eqb s) b) a = true -> incl a b.
Proof. intros H s I. rewrite forallb_forall in H. specialize (H s I). apply existsb_exists in H as (x & Ix & E). apply String.eqb_eq in E. now subst x. Qed.

(* ---- Halide ---- *)
Lemma halide_lines : Forall (fun s => hline hal_id s \/ In s halide_wrong) halide_baseline.
Proof.
  unfold halide_baseline. exact (proj2 (Forall_app _ _ _) (conj lines1 (proj2 (Forall_app _ _ _) (conj lines2 (proj2 (Forall_app _ _ _) (conj lines3
    (proj2 (Forall_app _ _ _) (conj lines4 (proj2 (Forall_app _ _ _) (conj lines5 lines6)))))))))).
Qed.
Lemma halide_not_derived check rs : hal_unsat_right check -> learnt (hal_lang check) (read_rules (hal_lang check)) rs ->
  forall r, hal_differs r -> forall keep fuel lo iter, ~ can_derive (hal_lang check) keep fuel lo iter rs r true.
Proof.
  intros Hu Hl r (tl & tr & env & v & v' & T1 & T2 & _ & D1 & D2 & Ne) keep fuel lo iter Hd.
  destruct (derive_same (hal_lang check) hal_eqb_eq keep rs fuel lo iter r) as (g & c & tl' & tr' & M & E1 & E2 & R1 & R2); [|exact Hd|].
  - apply Forall_forall. intros [k r'] I. destruct (hal_true check Hu rs Hl k r' I) as (a & b & A & B & _). exact (readable_inst (hal_lang check) _ _ _ A B).
  - cbn [l_mk_var hal_lang] in E1, E2. rewrite T1 in E1. rewrite T2 in E2. injection E1 as <-. injection E2 as <-.
    exact (Ne (hal_rewrites check Hu rs Hl keep g M _ _ _ R1 R2 env v v' D1 D2)).
Qed.
Lemma halide_report check rs against : hal_unsat_right check -> learnt (hal_lang check) (read_rules (hal_lang check)) rs ->
  loads hal_from_op hal_name halide_baseline against -> never_derived (hal_lang check) halide_wrong rs against.
Proof.
  intros Hu Hl Ha. destruct halide_text as [N C]. pose proof (loaded _ _ _ _ _ (marked _ _ _ _ _ _ halide_lines wrong_lines) N C Ha) as G.
  destruct Ha as (E & K & Kn). apply report_wrong.
  - rewrite K. exact N.
  - exact Kn.
  - rewrite K. apply incl_of. vm_compute. reflexivity.
  - intros k r I Iw. apply (halide_not_derived check rs Hu Hl). apply (G k r I). now rewrite (Kn k r I).
Qed.

(* ---- bit-vectors ---- *)
Definition bv_shape (w : N) (r : rule bv_op) : Prop := forall t, tree (instantiate VVar (rlhs r)) = Val t \/ tree (instantiate VVar (rrhs r)) = Val t ->
  wf_term bv_arity t /\ tall (lit_ok w) t.
Lemma narrow_shape w : Forall (vline w (bv_shape w)) bv4_narrow.
Proof.
  unfold bv4_narrow. repeat apply Forall_cons; [..|apply Forall_nil].
  all: eexists; split; [vm_compute; reflexivity|]; split; [vm_compute; reflexivity|]; cbv [bv_shape rlhs rrhs]; intros t [E|E]; vm_compute in E; injection E as <-; split; repeat first [exact I | reflexivity | constructor].
Qed.
Lemma bv_not_derived w check rs : (w <= 64)%N -> unsat_right w check -> learnt (bv_lang w check) (read_rules (bv_lang w check)) rs ->
  forall r, bv_shape w r -> differs VVar (inr w) (bv_den w) r -> forall keep fuel lo iter, ~ can_derive (bv_lang w check) keep fuel lo iter rs r true.
Proof.
  intros Hw Hu Hl r Sh (tl & tr & env & v & v' & T1 & T2 & Re & D1 & D2 & Ne) keep fuel lo iter Hd.
  destruct (derive_same (bv_lang w check) bv_eqb_eq keep rs fuel lo iter r) as (g & c & tl' & tr' & M & E1 & E2 & R1 & R2); [|exact Hd|].
  - apply Forall_forall. intros [k r'] I. destruct (bv_true w check Hw Hu rs Hl k r' I) as (a & b & A & B & _). exact (readable_inst (bv_lang w check) _ _ _ A B).
  - cbn [l_mk_var bv_lang] in E1, E2. rewrite T1 in E1. rewrite T2 in E2. injection E1 as <-. injection E2 as <-.
    destruct (Sh tl (or_introl T1)) as [W1 L1]. destruct (Sh tr (or_intror T2)) as [W2 L2].
    destruct (bv_rewrites w check Hw Hu rs Hl keep g M _ _ _ R1 R2 W1 W2 L1 L2 env Re) as (u & U1 & U2). congruence.
Qed.
Lemma bv_report w check rs against : (4 < w)%N -> (w <= 64)%N -> unsat_right w check -> learnt (bv_lang w check) (read_rules (bv_lang w check)) rs ->
  loads (bv_from_op w) bv_name bv4_baseline against -> never_derived (bv_lang w check) bv4_narrow rs against.
Proof.
  intros Hw1 Hw Hu Hl Ha. destruct bv4_text as [N C].
  assert (W : Forall (vline w (fun r => bv_shape w r /\ differs VVar (inr w) (bv_den w) r)) bv4_narrow).
  { pose proof (narrow_shape w) as A. pose proof (wide_lines w Hw1) as B. rewrite Forall_forall in *. intros s I. exact (line_fun _ _ _ _ _ (A s I) (B s I)). }
  pose proof (loaded _ _ _ _ _ (marked _ _ _ _ _ _ (bv4_lines w ltac:(lia)) W) N C Ha) as G.
  destruct Ha as (E & K & Kn). apply report_wrong.
  - rewrite K. exact N.
  - exact Kn.
  - rewrite K. apply incl_of. vm_compute. reflexivity.
  - intros k r I Iw. destruct (proj1 (G k r I)) as [A B]; [now rewrite (Kn k r I)|]. exact (bv_not_derived w check rs Hw Hu Hl r A B).
Qed.

(* ---- rationals ---- *)
Lemma math_not_derived ov check rs : real_unsat_right check -> learnt (math_lang ov check) (read_rules (math_lang ov check)) rs -> Forall (fun e => strict_rule (snd e)) rs ->
  forall r, math_differs r -> forall keep fuel lo iter, ~ can_derive (math_lang ov check) keep fuel lo iter rs r true.
Proof.
  intros Hu Hl Hs r (tl & tr & env & v & v' & T1 & T2 & _ & D1 & D2 & Ne) keep fuel lo iter Hd.
  destruct (derive_same (math_lang ov check) math_eqb_eq keep rs fuel lo iter r) as (g & c & tl' & tr' & M & E1 & E2 & R1 & R2); [|exact Hd|].
  - apply Forall_forall. intros [k r'] I. destruct (math_true ov check Hu rs Hl k r' I) as (a & b & A & B & _). exact (readable_inst (math_lang ov check) _ _ _ A B).
  - cbn [l_mk_var math_lang] in E1, E2. rewrite T1 in E1. rewrite T2 in E2. injection E1 as <-. injection E2 as <-.
    exact (Ne (math_rewrites ov check Hu rs Hl Hs keep g M _ _ _ R1 R2 env v v' D1 D2)).
Qed.
Lemma math_report ov check rs against ls wrong P : real_unsat_right check -> learnt (math_lang ov check) (read_rules (math_lang ov check)) rs -> Forall (fun e => strict_rule (snd e)) rs ->
  NoDup ls -> clean ls = true -> incl wrong ls -> Forall (fun s => mline P s \/ In s wrong) ls -> Forall (mline math_differs) wrong ->
  loads math_from_op math_name ls against -> never_derived (math_lang ov check) wrong rs against.
Proof.
  intros Hu Hl Hs N C Iw F W Ha. pose proof (loaded _ _ _ _ _ (marked _ _ _ _ _ _ F W) N C Ha) as G.
  destruct Ha as (E & K & Kn). apply report_wrong.
  - rewrite K. exact N.
  - exact Kn.
  - rewrite K. exact Iw.
  - intros k r I Iw'. apply (math_not_derived ov check rs Hu Hl Hs). apply (G k r I). now rewrite (Kn k r I).
Qed.

(* a rule that tells values apart is no identity of the rationals *)
Definition if_less (r : rule math_op) : Prop := forall t, tree (instantiate MVar (rlhs r)) = Val t \/ tree (instantiate MVar (rrhs r)) = Val t -> tall (fun o => o <> MIf) t.
Lemma differs_rational r : math_differs r -> if_less r -> ~ rational_identity r.
Proof.
  intros (tl & tr & env & v & v' & T1 & T2 & _ & D1 & D2 & Ne) Hi (ul & ur & U1 & U2 & Hv & Hn). rewrite T1 in U1. rewrite T2 in U2. injection U1 as <-. injection U2 as <-.
  destruct (Hn (no_if_safe _ (Hi tl (or_introl T1))) (no_if_safe _ (Hi tr (or_intror T2))) env) as [A B]. rewrite D1, D2 in A, B.
  destruct v as [p|], v' as [q|].
  - apply Ne. f_equal. exact (Hv env p q D1 D2).
  - discriminate (B eq_refl).
  - discriminate (A eq_refl).
  - now apply Ne.
Qed.
Ltac math_if_less :=
  repeat apply Forall_cons; [..|apply Forall_nil];
  (eexists; split; [vm_compute; reflexivity|]; split; [vm_compute; reflexivity|]; cbv [if_less rlhs rrhs]; intros t [E|E]; vm_compute in E; injection E as <-;
   repeat first [discriminate | constructor]).
Lemma rational_if_less : Forall (mline if_less) rational_undefined. Proof. unfold rational_undefined. math_if_less. Qed.
Lemma herbie_if_less : Forall (mline if_less) herbie_undefined. Proof. unfold herbie_undefined. math_if_less. Qed.
Lemma both_lines {O} (from_op : string -> nat -> option O) name (P Q : rule O -> Prop) ls : Forall (line from_op name P) ls -> Forall (line from_op name Q) ls -> Forall (line from_op name (fun r => P r /\ Q r)) ls.
Proof. intros A B. rewrite Forall_forall in *. intros s I. exact (line_fun _ _ _ _ _ (A s I) (B s I)). Qed.
Lemma math_file ls wrong : NoDup ls -> clean ls = true -> Forall (fun s => mline same_value s \/ In s wrong) ls -> Forall (mline rational_values) wrong ->
  Forall (mline math_differs) wrong -> Forall (mline if_less) wrong ->
  exists rs, loads math_from_op math_name ls rs /\ forall k r, In (k, r) rs -> rational_values r /\ (rational_identity r <-> ~ In k wrong).
Proof.
  intros N C F Hv Hd Hi.
  pose proof (marked _ _ _ _ _ _ F (both_lines _ _ _ _ _ Hv (both_lines _ _ _ _ _ Hd Hi))) as M.
  destruct (file_loads _ _ _ _ M N C) as (rs & Ld & H). exists rs. split; [exact Ld|]. intros k r I. destruct (H k r I) as [A B]. destruct Ld as (_ & _ & Kn). rewrite (Kn k r I) in *.
  destruct B as [B|B].
  - destruct (A B) as (V & D & X). split; [exact V|]. split; [intros Y; elim (differs_rational r D X Y)|tauto].
  - pose proof (same_identity r B) as Id. split; [exact (identity_values r Id)|]. split; [|auto]. intros _ Iw. destruct (A Iw) as (_ & D & X). exact (differs_rational r D X Id).
Qed.

(* ---- rules that leave one value only ---- *)
Section One.
  Context {O C : Type}.
  Variable L : lang O C.
  Variables (zero one div mul : O).
  Definition collapses (V : Type) (A : algebra O C V) : Prop :=
    (forall x, a_dom A x -> a_sem A div [a_sem A zero []; x] = a_sem A zero []) /\ (forall x, a_dom A x -> a_sem A div [x; x] = a_sem A one []) /\
    (forall x, a_dom A x -> a_sem A mul [a_sem A zero []; x] = a_sem A zero []) /\ (forall x, a_dom A x -> a_sem A mul [a_sem A one []; x] = x).
  Lemma collapse V (A : algebra O C V) : interprets L A -> collapses V A -> forall x y, a_dom A x -> a_dom A y -> x = y.
  Proof.
    intros Hi (D0 & D1 & M0 & M1). pose proof (in_dom _ _ Hi zero [] (Forall_nil _)) as Z.
    assert (E : a_sem A zero [] = a_sem A one []) by (rewrite <- (D1 _ Z), (D0 _ Z); reflexivity).
    assert (G : forall x, a_dom A x -> x = a_sem A zero []) by (intros x Dx; rewrite <- (M1 x Dx), <- E; apply M0; exact Dx).
    intros x y Dx Dy. now rewrite (G x Dx), (G y Dy).
  Qed.
End One.
Ltac holds_line := eexists; split; [vm_compute; reflexivity|]; split; [vm_compute; reflexivity|];
  intros (tl & tr & E1 & E2 & H) x Dx; vm_compute in E1, E2; injection E1 as <-; injection E2 as <-; exact (H (fun _ => x) (fun _ => Dx) I).
Lemma held {O C} (L : lang O C) from_op name P ls rs V (A : algebra O C V) : Forall (line from_op name P) ls -> NoDup ls -> clean ls = true -> loads from_op name ls rs -> all_hold L A rs ->
  forall (Q : Prop) s, existsb (String.eqb s) ls = true -> line from_op name (fun r => holds L A r -> Q) s -> Q.
Proof.
  intros F N C0 Ld Ha Q s I H. apply existsb_exists in I as (s' & I & E). apply String.eqb_eq in E. subst s'. destruct (loaded_line _ _ _ _ _ _ s F N C0 Ld I H) as (r & Ir & G).
  unfold all_hold in Ha. rewrite Forall_forall in Ha. exact (G (Ha _ Ir)).
Qed.
Lemma halide_one check rs : loads hal_from_op hal_name halide_baseline rs -> one_value (hal_lang check) rs.
Proof.
  intros Ld V A Hi Ha. destruct halide_text as [N C]. pose proof (held _ _ _ _ _ _ _ A (marked _ _ _ _ _ _ halide_lines wrong_lines) N C Ld Ha) as K. clear Ld Ha N C.
  apply (collapse (hal_lang check) (HLit 0) (HLit 1) HDiv HMul V A Hi). clear Hi. split; [|split; [|split]].
  - apply (K _ "(/ 0 ?x) ==> 0"%string); [vm_compute; reflexivity|]. clear K. holds_line.
  - apply (K _ "(/ ?x ?x) ==> 1"%string); [vm_compute; reflexivity|]. clear K. holds_line.
  - apply (K _ "(* 0 ?x) ==> 0"%string); [vm_compute; reflexivity|]. clear K. holds_line.
  - apply (K _ "(* 1 ?x) ==> ?x"%string); [vm_compute; reflexivity|]. clear K. holds_line.
Qed.
Lemma herbie_one ov check rs : loads math_from_op math_name herbie_rational rs -> one_value (math_lang ov check) rs.
Proof.
  intros Ld V A Hi Ha. destruct herbie_text as [N C]. pose proof (held _ _ _ _ _ _ _ A (marked _ _ _ _ _ _ herbie_lines herbie_wrong) N C Ld Ha) as K. clear Ld Ha N C.
  apply (collapse (math_lang ov check) (MLit (Q2Qc 0)) (MLit (Q2Qc 1)) MDiv MMul V A Hi). clear Hi. split; [|split; [|split]].
  - apply (K _ "(/ 0 ?a) ==> 0"%string); [vm_compute; reflexivity|]. clear K. holds_line.
  - apply (K _ "(/ ?a ?a) ==> 1"%string); [vm_compute; reflexivity|]. clear K. holds_line.
  - apply (K _ "(* 0 ?a) ==> 0"%string); [vm_compute; reflexivity|]. clear K. holds_line.
  - apply (K _ "(* 1 ?a) ==> ?a"%string); [vm_compute; reflexivity|]. clear K. holds_line.
Qed.
