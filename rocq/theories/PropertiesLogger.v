(* Properties C53 (the log file) and C58 (derivability reports).  Reference notions:
   LoggerSpec.v. *)
From Coq Require Import NArith Permutation.
From Verif Require Import Base BaseProofs Logger LoggerSpec LoggerProofs.
From Verif Require Import Lang LangProofs Syntax Rule Ruleset RulesetProofs RuleSpec BV BVSpec BVProofs Domains DomainSound Egraph Synth Apply Sched SynthSpec Minimize Report.
From Verif Require Import PropertiesDomains PropertiesRules PropertiesSat.
Open Scope string_scope.
Open Scope list_scope.

(* ---------------- C53 ---------------- *)

(* Calls one after the other: whatever the sizes of the reads and writes the system
   makes, the log holds the rows of before followed by the new ones. *)
Theorem C53_appends : forall J print (parse : list ascii -> option (list J)), json_right print parse ->
  forall f rows, holds_rows print f rows ->
  (forall new, exists f', calls print parse f new f') /\
  forall new f', calls print parse f new f' -> holds_rows print f' (rows ++ new).
Proof.
  intros J print parse R f rows H. split; [intros new; exact (calls_total print parse R new f rows H)|].
  intros new f' C. exact (calls_rows print parse R f new f' rows C H).
Qed.
Print Assumptions C53_appends.
(* A single call never panics and can always be completed from where it is. *)
Theorem C53_completes : forall J print (parse : list ascii -> option (list J)), json_right print parse ->
  forall f rows r f1 p, holds_rows print f rows -> steps print parse f (Start r) f1 p ->
  p <> Panicked /\ exists f2, steps print parse f1 p f2 Done /\ holds_rows print f2 (rows ++ [r]).
Proof.
  intros J print parse R f rows r f1 p H S. pose proof (good_steps print parse R rows r _ _ _ _ S (conj eq_refl H)) as G.
  split; [intros ->; exact G|]. destruct (finish print parse R rows r f1 p G) as (f2 & S2). exists f2. split; [exact S2|].
  pose proof (good_steps print parse R rows r _ _ _ _ S2 G) as G2. cbn in G2. subst f2. constructor.
Qed.
Print Assumptions C53_completes.
(* Where a crash leaves the file: unchanged rows, or the beginning of the new text. *)
Theorem C53_crash : forall J print (parse : list ascii -> option (list J)), json_right print parse ->
  forall f rows r f1 p, holds_rows print f rows -> steps print parse f (Start r) f1 p ->
  holds_rows print f1 rows \/ exists pre rest, f1 = Some pre /\ pre ++ rest = print (rows ++ [r]).
Proof.
  intros J print parse R f rows r f1 p H S. pose proof (good_steps print parse R rows r _ _ _ _ S (conj eq_refl H)) as G.
  destruct p as [r'|r' got|r' text|todo off| |]; cbn [good] in G; try (left; apply G).
  - right. destruct G as (pre & -> & _ & E). exists pre, todo. auto.
  - right. exists (print (rows ++ [r])), []. rewrite app_nil_r. auto.
  - destruct G.
Qed.
Print Assumptions C53_crash.
(* A file that is not an array of rows is left as it is, and the call does not
   complete. *)
Theorem C53_torn_file_kept : forall J print (parse : list ascii -> option (list J)) text r f' p,
  text <> [] -> parse text = None -> steps print parse (Some text) (Start r) f' p -> f' = Some text /\ p <> Done.
Proof.
  intros J print parse text r f' p N E S. apply (torn_steps print parse text r f' p); [|exact S]. destruct text; [congruence|exact E].
Qed.
Print Assumptions C53_torn_file_kept.
(* A crash can lose every row: the file is empty after it, and the next call starts
   a new log without an error. *)
Theorem C53_crash_refuted : forall J print (parse : list ascii -> option (list J)), json_right print parse ->
  forall rows r r2, exists p f2, p <> Done /\ steps print parse (Some (print rows)) (Start r) (Some []) p /\
    steps print parse (Some []) (Start r2) f2 Done /\ holds_rows print f2 [r2].
Proof.
  intros J print parse R rows r r2. destruct (crash_loses print parse R rows r) as (p & S & N).
  destruct (C53_completes J print parse R (Some []) [] r2 (Some []) (Start r2) (HR_empty print) (Steps_refl _ _ _ _)) as (_ & f2 & S2 & H2).
  exists p, f2. auto.
Qed.
Print Assumptions C53_crash_refuted.
(* Two concurrent calls that both succeed can lose one of the new rows, or all rows
   logged before. *)
Theorem C53_concurrent_refuted : forall J print (parse : list ascii -> option (list J)), json_right print parse ->
  forall rows r1 r2,
  steps2 print parse (Some (print rows)) (Start r1) (Start r2) (Some (print (rows ++ [r2]))) Done Done /\
  steps2 print parse (Some (print rows)) (Start r1) (Start r2) (Some (print [r2])) Done Done.
Proof. intros J print parse R rows r1 r2. split; [apply race_new|apply race_all]; exact R. Qed.
Print Assumptions C53_concurrent_refuted.

(* rows that are single letters *)
Definition ex_print (l : list ascii) : list ascii := "["%char :: l ++ ["]"%char].
Definition ex_parse (s : list ascii) : option (list ascii) :=
  match s with
  | c :: r => if Ascii.eqb c "[" then match rev r with d :: m => if Ascii.eqb d "]" then Some (rev m) else None | [] => None end else None
  | [] => None
  end.
Example C53_hyp : json_right ex_print ex_parse /\ holds_rows ex_print (Some ["["; "a"; "]"]%char) ["a"%char] /\
  ex_parse ["["; "a"]%char = None /\ (* a torn file *)
  exists f, calls ex_print ex_parse None ["a"; "b"]%char f /\ f = Some ["["; "a"; "b"; "]"]%char.
Proof.
  assert (R : json_right ex_print ex_parse).
  { split; [|discriminate]. intros rows. unfold ex_print, ex_parse. cbn [Ascii.eqb Bool.eqb]. rewrite rev_app_distr. cbn. now rewrite rev_involutive. }
  split; [exact R|]. split; [exact (HR_rows ex_print ["a"%char])|]. split; [reflexivity|].
  destruct (C53_appends _ _ _ R None [] (HR_missing _)) as [T A]. destruct (T ["a"; "b"]%char) as (f & Cf). exists f. split; [exact Cf|].
  pose proof (A _ _ Cf) as H. inversion H as [| |rows E1 E2]. reflexivity.
Qed.

(* ---------------- C58 ---------------- *)

(* A report on [against] splits its names: each rule is on exactly one side, on the
   side its run says, and the order is kept. *)
Theorem C58_split : forall O C (L : lang O C) keep fuel lhs_only rs (against : ruleset O) can cannot,
  NoDup (map fst against) -> (forall e, In e against -> fst e = rname (snd e)) ->
  get_derivability L keep fuel lhs_only rs against (can, cannot) ->
  Permutation (map fst against) (can ++ cannot) /\ NoDup (can ++ cannot) /\
  exists answer : string -> bool, can = List.filter answer (map fst against) /\ cannot = List.filter (fun k => negb (answer k)) (map fst against) /\
    forall k r, In (k, r) against -> can_derive L keep fuel lhs_only 5 rs r (answer k).
Proof.
  intros O C L keep fuel lo rs ag can cannot N K (c & d & (ans & Ha & P) & E). injection E as -> ->.
  rewrite (partition_spec _ ans ag N) in P; [|apply Forall_forall; exact K|reflexivity]. injection P as <- <-. unfold to_str_vec.
  set (answer := fun k => match lookup ag k with Some r => ans r | None => false end).
  assert (Ea : forall e, In e ag -> answer (fst e) = ans (snd e)).
  { intros [k r] I. unfold answer. cbn. now rewrite (lookup_in_nodup _ _ _ N I). }
  assert (F : forall (p : bool -> bool) m, incl m ag -> map fst (List.filter (fun e => p (ans (snd e))) m) = List.filter (fun k => p (answer k)) (map fst m)).
  { intros p. induction m as [|e m IH]; intros I; [reflexivity|]. cbn [List.filter map]. rewrite (Ea e) by (apply I; now left). destruct (p (ans (snd e))); cbn [map]; rewrite IH by (intros x X; apply I; now right); reflexivity. }
  assert (F1 := F (fun b => b) ag (incl_refl _)). assert (F2 := F negb ag (incl_refl _)). cbn beta in F1, F2.
  assert (Pm : Permutation (map fst ag) (map fst (List.filter (fun e => ans (snd e)) ag) ++ map fst (List.filter (fun e => negb (ans (snd e))) ag))).
  { rewrite F1, F2. generalize (map fst ag). intros l. induction l as [|k l IH]; [constructor|]. cbn. destruct (answer k); cbn; [now constructor|]. now apply Permutation_cons_app. }
  split; [exact Pm|]. split; [exact (Permutation_NoDup Pm N)|]. exists answer. split; [exact F1|]. split; [exact F2|].
  intros k r I. change k with (fst (k, r)). rewrite (Ea _ I). exact (Ha _ I).
Qed.
Print Assumptions C58_split.

(* What is reported as derivable holds, when the rules used do. *)
Theorem C58_bv_reported_holds : forall w check, (w <= 128)%N -> unsat_right w check ->
  forall keep fuel rs against, validated (bv_lang w check) rs ->
  Forall (fun e => lits64 w (rlhs (snd e)) /\ lits64 w (rrhs (snd e))) (rs ++ against) ->
  NoDup (map fst against) -> (forall e, In e against -> fst e = rname (snd e)) ->
  forall lhs_only can cannot, get_derivability (bv_lang w check) keep fuel lhs_only rs against (can, cannot) ->
  forall k r, In (k, r) against -> In k can -> general (bv_lang w check) (rlhs r) -> general (bv_lang w check) (rrhs r) ->
  exists tl tr, tree (instantiate VVar (rlhs r)) = Val tl /\ tree (instantiate VVar (rrhs r)) = Val tr /\
    (wf_term bv_arity tl -> wf_term bv_arity tr ->
     forall env, (forall s, inr w (env s)) -> exists v, bv_den w env tl = Val v /\ bv_den w env tr = Val v).
Proof.
  intros w check W U keep fuel rs ag Hv Hl N K lo can cannot G k r I Ic G1 G2. apply Forall_app in Hl as [Hl Ha].
  destruct (C58_split _ _ _ _ _ _ _ _ _ _ N K G) as (_ & _ & answer & -> & -> & Hd). apply filter_In in Ic as [_ Hk].
  specialize (Hd k r I). rewrite Hk in Hd. rewrite Forall_forall in Ha. destruct (Ha _ I) as [L1 L2].
  exact (C47_bv_derivable_holds w check W U keep rs Hv Hl fuel lo 5 r Hd G1 G2 L1 L2).
Qed.
Print Assumptions C58_bv_reported_holds.

(* The row about rules ported from four bits: the ported rules listed are those the
   validator accepts, and the comparison is made with these only. *)
Theorem C58_ported : forall O C (L : lang O C) keep fuel domain gen ported row, NoDup (map fst ported) ->
  (forall e, In e ported -> fst e = rname (snd e)) -> write_bv_derivability L keep fuel domain gen ported row ->
  v_direct row = map fst gen /\
  (forall k r, In (k, r) ported -> In k (v_ported row) <-> l_validate L (rlhs r) (rrhs r) = Val Valid) /\
  exists sound, v_ported row = map fst sound /\ incl sound ported /\
    (forall e, In e sound -> l_validate L (rlhs (snd e)) (rrhs (snd e)) = Val Valid) /\
    get_derivability L keep fuel true sound gen (v_lhs row) /\ get_derivability L keep fuel false sound gen (v_lhs_rhs row).
Proof.
  intros O C L keep fuel domain gen ported row N K (sound & bad & P & _ & Ed & Ep & D1 & D2).
  destruct (C37_partition_exact O (is_valid L) ported sound bad N K P) as (A & B & _ & _).
  assert (V : forall r, is_valid L r = Val true <-> l_validate L (rlhs r) (rrhs r) = Val Valid).
  { intros r. unfold is_valid. destruct (l_validate L (rlhs r) (rrhs r)) as [[]|]; cbn; split; intros H; try discriminate H; reflexivity. }
  split; [exact Ed|]. split.
  - intros k r I. rewrite Ep. unfold to_str_vec. split.
    + intros X. apply in_map_iff in X as ([k' r'] & E & X). cbn in E. subst k'. apply A in X as [X Hv]. cbn in Hv.
      assert (r' = r) as ->; [|now apply V]. pose proof (lookup_in_nodup _ _ _ N I). pose proof (lookup_in_nodup _ _ _ N X). congruence.
    + intros Hv. change k with (fst (k, r)). apply in_map. apply A. split; [exact I|]. now apply V.
  - exists sound. split; [exact Ep|]. split; [intros e X; now apply A|]. split; [intros e X; apply V; now apply A|]. auto.
Qed.
Print Assumptions C58_ported.

(* The row about a baseline: both directions, except for the two pairs that are
   skipped, and the number of lines of the recipe. *)
Theorem C58_baseline : forall O C (L : lang O C) keep fuel rs spec baseline name recipe row,
  write_baseline L keep fuel rs spec baseline name recipe row ->
  b_rules row = map fst rs /\
  (b_loc row = match recipe with Some text => Recipe.show_nat (length (Lines.lines text)) | None => "-" end) /\
  (b_enumo row = None <-> spec = "herbie" /\ (name = "rational_replicate" \/ name = "rational_best")) /\
  (b_baseline row = None <-> name = "herbie" /\ (spec = "rational_replicate" \/ spec = "rational_best")) /\
  (forall x y, b_enumo row = Some (x, y) -> get_derivability L keep fuel true rs baseline x /\ get_derivability L keep fuel false rs baseline y) /\
  (forall x y, b_baseline row = Some (x, y) -> get_derivability L keep fuel true baseline rs x /\ get_derivability L keep fuel false baseline rs y).
Proof.
  intros O C L keep fuel rs spec baseline name recipe row (_ & _ & El & Er & B1 & B2). split; [exact Er|]. split; [rewrite El; destruct recipe; reflexivity|].
  assert (Sk : forall a b, skipped a b = true <-> a = "herbie" /\ (b = "rational_replicate" \/ b = "rational_best")).
  { intros a b. unfold skipped, skip_derive. cbn [existsb fst snd]. rewrite orb_false_r, orb_true_iff, !andb_true_iff, !String.eqb_eq. intuition congruence. }
  assert (N : forall a b rs ag out, both_ways L keep fuel a b rs ag out -> (out = None <-> skipped a b = true) /\
     forall x y, out = Some (x, y) -> get_derivability L keep fuel true rs ag x /\ get_derivability L keep fuel false rs ag y).
  { intros a b m ag out H. unfold both_ways in H. destruct (skipped a b).
    - subst out. split; [tauto|]. intros x y E. discriminate E.
    - destruct H as (x & y & H1 & H2 & ->). split; [split; discriminate|]. intros x' y' E. injection E as <- <-. auto. }
  destruct (N _ _ _ _ _ B1) as [N1 G1]. destruct (N _ _ _ _ _ B2) as [N2 G2]. rewrite N1, N2, !Sk. tauto.
Qed.
Print Assumptions C58_baseline.

(* commutativity is reported as derivable from itself *)
Example C58_hyp : exists rs, rs_new (bv_from_op 4) bv_name ["(+ ?a ?b) ==> (+ ?b ?a)"] = Val rs /\ NoDup (map fst rs) /\
  (forall e, In e rs -> fst e = rname (snd e)) /\
  get_derivability (bv_lang 4 ex_check) ex_keep 5 false rs rs (["(+ ?a ?b) ==> (+ ?b ?a)"], []) /\
  get_derivability (bv_lang 4 ex_check) ex_keep 5 false [] rs ([], ["(+ ?a ?b) ==> (+ ?b ?a)"]).
Proof.
  destruct C47_hyp as (rs & r & E & -> & Hd & Hn). exists [(rname r, r)]. split; [exact E|]. split; [repeat constructor; intros []|]. split; [intros e [<-|[]]; reflexivity|].
  assert (Nm : rname r = "(+ ?a ?b) ==> (+ ?b ?a)") by (vm_compute in E; inversion E; reflexivity).
  (* rounds in which nothing is found *)
  assert (M : forall n iter rs b, can_derive (bv_lang 4 ex_check) ex_keep 5 false iter rs r b -> can_derive (bv_lang 4 ex_check) ex_keep 5 false (n + iter) rs r b).
  { induction n as [|n IH]; intros iter m b H; [exact H|]. destruct (IH iter m b H) as (g & out & A & (sat & other & g1 & g2 & P & R & Q) & D). exists g, out.
    split; [exact A|]. split; [|exact D]. exists sat, other, g1, g2. split; [exact P|]. split; [|exact Q].
    apply (SR_round _ _ _ _ _ (n + iter) g g g g1); [eexists; apply RS_refl|eexists; apply RS_refl|exact R]. }
  apply (M 4) in Hd. apply (M 4) in Hn. rewrite <- Nm. split.
  - exists [(rname r, r)], []. split; [|reflexivity]. exists (fun _ => true). split; [intros e [<-|[]]; exact Hd|reflexivity].
  - exists [], [(rname r, r)]. split; [|reflexivity]. exists (fun _ => false). split; [intros e [<-|[]]; exact Hn|reflexivity].
Qed.
