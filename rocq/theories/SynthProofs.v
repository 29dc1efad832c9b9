(* Equality saturation with SynthAnalysis keeps the values of an algebra that is closed
   under its operators: SafeProofs.v, with nothing undefined. *)
From Verif Require Import Base BaseProofs Lang LangProofs Rule Ruleset RulesetProofs Analysis AnalysisSpec Generalize
  Egraph EgraphSpec EgraphProofs EgraphSound Synth Apply Sched SynthSpec SafeSpec.
From Verif Require Export SafeProofs.
From Coq Require Import Permutation.
Open Scope list_scope.

Section Sound.
  Context {O C V : Type}.
  Variable L : lang O C.
  Hypothesis eqb_eq : forall a b, l_eqb L a b = true <-> a = b.
  Variable keep : eg O C -> nat -> nat -> bool.
  Variable fuel : nat.
  Variable A : algebra O C V.
  Hypothesis In_alg : interprets L A.
  Local Notation sem := (a_sem A).
  Local Notation dom := (a_dom A).

  Lemma aval_dom : forall t, dom (aval sem t).
  Proof.
    induction t as [o ts IH] using term_ind'; cbn. apply (in_dom _ _ In_alg). induction IH; cbn; constructor; auto.
  Qed.
  Lemma paval_dom : forall s t, (forall v, dom (s v)) -> dom (paval sem s t).
  Proof.
    intros s t D. induction t as [[o|v] ts IH] using term_ind'; cbn; [|apply D]. apply (in_dom _ _ In_alg). induction IH; cbn; constructor; auto.
  Qed.
  Lemma all_rec_ok : forall r, rec_ok A r.
  Proof. intros r ts _. apply Forall_forall. intros t _. apply aval_dom. Qed.
  Lemma interprets_steady : steady L A.
  Proof.
    constructor.
    - intros o is i vs D _ F E. exact (in_itvs _ _ In_alg o is i vs D F E).
    - exact (in_merge _ _ In_alg).
    - intros a b v D S E. split; [apply all_rec_ok|]. intros t Tr. exact (in_const _ _ In_alg a b v t D S E Tr).
    - intros val g i ts W Li D M H r I. split; [apply all_rec_ok|]. intros t Tr. exact (in_custom _ _ In_alg val g i ts W Li D M H r t I Tr).
  Qed.
  Lemma interprets_starts : starts L A.
  Proof.
    intros vars n vs v c ts Ei I. split; [apply (in_dom _ _ In_alg); constructor|]. intros r J. split; [apply all_rec_ok|].
    intros t Tr. exact (in_init _ _ In_alg vars n vs v c ts r t Ei I J Tr).
  Qed.
  Lemma holds_safe : forall r, holds L A r -> safe L A r.
  Proof.
    intros r (tl & tr & Tl & Tr & H). exists tl, tr. split; [exact Tl|]. split; [exact Tr|]. intros s D G _. split; [|auto].
    intros ts _. apply Forall_forall. intros t _. now apply paval_dom.
  Qed.

  Local Notation snd := (sound (A := nat) sem (sdok A)).
  Definition good (g : eg O C) (ms : list (rule O * nat * subst)) : Prop :=
    Forall (fun m => let '(r, c, s) := m in holds L A r /\ matches g r c s) ms.
  Lemma rstep_ok : forall rules, Forall (holds L A) rules -> forall x y, rstep L keep fuel rules x y ->
    wf (fst x) -> good (fst x) (Datatypes.snd x) ->
    wf (fst y) /\ ext (fst x) (fst y) /\ good (fst y) (Datatypes.snd y) /\
    forall val, snd val (fst x) -> carries sem (sdok A) val (fst x) (fst y).
  Proof. exact (SafeProofs.rstep_ok L eqb_eq keep fuel A interprets_steady (holds L A) holds_safe). Qed.
  Lemma rsteps_moves : forall rules, Forall (holds L A) rules -> forall x y, rsteps L keep fuel rules x y ->
    wf (fst x) -> good (fst x) (Datatypes.snd x) -> moves A (fst x) (fst y).
  Proof. exact (SafeProofs.rsteps_moves L eqb_eq keep fuel A interprets_steady (holds L A) holds_safe). Qed.
  Lemma rebuild_moves : forall g g', wf g -> s_rebuild L keep fuel g = Val g' -> moves A g g' /\ congruent g' /\ canonical g'.
  Proof. exact (SafeProofs.rebuild_moves L eqb_eq keep fuel A interprets_steady). Qed.
  Lemma simple_moves : forall rs g g', all_hold L A rs -> wf g -> simple L keep fuel rs g g' -> moves A g g' /\ congruent g' /\ canonical g'.
  Proof. exact (SafeProofs.simple_moves L eqb_eq keep fuel A interprets_steady (holds L A) holds_safe). Qed.
  Lemma union_groups_moves : forall gs (g : eg O C) g', wf g -> union_groups L keep fuel g gs = Val g' ->
    wf g' /\ ext g g' /\ forall val, snd val g -> Forall (alike val (size g)) gs -> carries sem (sdok A) val g g'.
  Proof. exact (SafeProofs.union_groups_moves L eqb_eq keep fuel A interprets_steady). Qed.
  Lemma s_add_expr_moves : forall (g : eg O C) r g' i, wf g -> s_add_expr L keep fuel g r = Val (g', i) -> moves A g g'.
  Proof. intros g r g' i W. exact (SafeProofs.s_add_expr_moves L eqb_eq keep fuel A interprets_steady g r g' i W (all_rec_ok r)). Qed.
  Lemma initialize_vars_moves : forall (g : eg O C) vars g', wf g -> initialize_vars L keep fuel g vars = Val g' -> moves A g g'.
  Proof. exact (SafeProofs.initialize_vars_moves L eqb_eq keep fuel A interprets_steady interprets_starts). Qed.
  Lemma to_egraph_moves : forall w g, to_egraph L keep fuel w = Val g -> moves A eg_default g.
  Proof.
    intros w g. apply (SafeProofs.to_egraph_moves L eqb_eq keep fuel A interprets_steady interprets_starts). intros ss es _ _. apply Forall_forall. intros r _. apply all_rec_ok.
  Qed.
  Lemma scheduled_moves : forall st rs g g', fair st ->
    all_hold L A rs -> wf g -> scheduled L keep fuel st rs g g' -> moves A g g' /\ congruent g' /\ canonical g'.
  Proof. exact (SafeProofs.scheduled_moves L eqb_eq keep fuel A interprets_steady (holds L A) holds_safe). Qed.
End Sound.
