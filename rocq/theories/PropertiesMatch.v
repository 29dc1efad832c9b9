(* Properties C43-C45: candidates.  Reference notions: MatchSpec.v (matching vectors,
   smallest terms, names of candidates), EgraphSpec.v (classes and terms),
   RuleSpec.v (well-formed rulesets). *)
From Coq Require Import NArith ZArith QArith Qcanon Permutation.
From Verif Require Import Base BaseProofs Sexp Workload Lang LangProofs Syntax Rule Ruleset RuleSpec Rational.
From Verif Require Import BV BVSpec BVProofs DomainSpec Analysis AnalysisSpec Generalize Egraph EgraphSpec EgraphProofs.
From Verif Require Import Synth Apply Sched SynthSpec SynthProofs DeriveProofs MinimizeLoop Domains DomainAlg CheckRules.
From Verif Require Import Extract ExtractProofs Match MatchSpec MatchProofs PropertiesDomains PropertiesSat.
Local Open Scope nat_scope.
Open Scope string_scope.
Open Scope list_scope.

(* ---------------- C43 ---------------- *)

(* [best i] is the term extracted for the class [i], and [props] the pairs of
   classes for which rules are proposed.  It holds for every order in which classes
   and their nodes are stored ([order], [arrange]). *)
Theorem C43_cvec_match : forall O C (L : lang O C) ar, regular L ar ->
  forall g, wf g -> ready L ar g ->
  forall arrange, (forall l, Permutation l (arrange l)) -> forall order, Permutation (class_ids g) order ->
  exists f0 best, (forall i, i < size g -> smallest (fun _ => true) g i (best i)) /\
  forall f, f0 <= f -> exists rs props, cvec_match L f arrange order g = Val rs /\ ruleset_ok (l_from_op L) (l_name L) ar rs /\
    (forall k, In k (map fst rs) <-> exists i j, In (i, j) props /\ named L (best i) (best j) k) /\
    (forall i j, In (i, j) props \/ In (j, i) props <->
      find g i = Val i /\ find g j = Val j /\ i <> j /\ exists v w, vec g i v /\ vec g j w /\ somewhere v /\ somewhere w /\ agree v w).
Proof. exact @cvec_match_spec. Qed.
Print Assumptions C43_cvec_match.

(* every e-graph a user can get at is well formed *)
Theorem C43_reachable : forall O C (L : lang O C), (forall a b, l_eqb L a b = true <-> a = b) ->
  forall keep rs g, Forall (fun e => readable (snd e)) rs -> made L keep rs g -> wf g.
Proof.
  intros O C L E keep rs g Hr M.
  assert (Hh : all_hold L unit_alg rs). { eapply Forall_impl; [|exact Hr]. intros e (tl & tr & H1 & H2). exists tl, tr. split; [exact H1|]. split; [exact H2|]. intros s _ _. destruct (paval _ s tl), (paval _ s tr). reflexivity. }
  exact (proj1 (made_moves L E keep unit unit_alg (unit_interprets L) rs Hh g M)).
Qed.
Print Assumptions C43_reachable.

(* The comment above the function (and the paper) also ask for a sample at which
   both terms are defined and agree; that is not tested.  In the rational domain
   1/(|x| - x) is defined for negative x only and 1/(|x| + x) for positive x only;
   they are proposed as a rule. *)
Definition ex_math : lang math_op Qc := math_lang (fun _ _ _ => false) (fun _ => SUnknown).
Definition ex_apart : workload := WSet
  [Lst [Atom "/"; Atom "1"; Lst [Atom "-"; Lst [Atom "fabs"; Atom "x"]; Atom "x"]];
   Lst [Atom "/"; Atom "1"; Lst [Atom "+"; Lst [Atom "fabs"; Atom "x"]; Atom "x"]]].
Definition ex_neg : term math_op := T MDiv [T (MLit 1%Qc) []; T MSub [T MAbs [T (MVar "x") []]; T (MVar "x") []]].
Definition ex_pos : term math_op := T MDiv [T (MLit 1%Qc) []; T MAdd [T MAbs [T (MVar "x") []]; T (MVar "x") []]].
Definition apart_b {C} (v w : cvec C) : bool :=
  forallb (fun p => match p with (Some _, Some _) => false | _ => true end) (combine v w).
Lemma apart_b_ok {C} (v w : cvec C) : apart_b v w = true -> forall k a b, ~ both v w k a b.
Proof.
  unfold apart_b, both. revert w. induction v as [|x v IH]; intros w H [|k] a b [H1 H2]; try discriminate; destruct w as [|y w]; try discriminate; cbn in *.
  - injection H1 as ->. injection H2 as ->. discriminate.
  - apply andb_true_iff in H as [_ H]. exact (IH w H k a b (conj H1 H2)).
Qed.
Theorem C43_common_sample_refuted : exists g i j v w rs,
  to_egraph ex_math ex_keep 9 ex_apart = Val g /\
  lookup_expr math_eqb g (to_rec ex_neg) = Val (Some i) /\ lookup_expr math_eqb g (to_rec ex_pos) = Val (Some j) /\
  vec g i v /\ vec g j w /\ (forall k a b, ~ both v w k a b) /\
  cvec_match ex_math 100 (fun l => l) (class_ids g) g = Val rs /\
  In "(/ 1 (- (fabs ?a) ?a)) ==> (/ 1 (+ (fabs ?a) ?a))" (map fst rs).
Proof.
  pose (g := match to_egraph ex_math ex_keep 9 ex_apart with Val g => g | Panic => eg_default end).
  pose (rs := match cvec_match ex_math 100 (fun l => l) (class_ids g) g with Val m => m | Panic => [] end).
  exists g, 4, 6, (cv g 4), (cv g 6), rs.
  assert (V : forall i, (exists d, class_data g i = Val d) -> vec g i (cv g i)). { intros i [d E]. exists d. split; [exact E|]. unfold cv, cvec_of. now rewrite E. }
  split; [unfold g; vm_compute; reflexivity|]. split; [vm_compute; reflexivity|]. split; [vm_compute; reflexivity|].
  split; [apply V; vm_compute; eexists; reflexivity|]. split; [apply V; vm_compute; eexists; reflexivity|].
  split; [apply apart_b_ok; vm_compute; reflexivity|]. split; [unfold rs; vm_compute; reflexivity|].
  vm_compute. left. reflexivity.
Qed.
Print Assumptions C43_common_sample_refuted.

Lemma bv_regular w check : regular (bv_lang w check) bv_arity.
Proof.
  constructor.
  - exact bv_eqb_eq.
  - intros a b. cbn. apply N.eqb_eq.
  - reflexivity.
  - intros o H. destruct o; cbn in H; try (now destruct H); reflexivity.
Qed.
Lemma made_to_egraph {O C} (L : lang O C) keep fuel w g : to_egraph L keep fuel w = Val g -> made L keep [] g.
Proof. apply M_workload. Qed.
(* on the e-graph of a+b and b+a *)
Example C43_hyp : exists g rs, to_egraph (bv_lang 4 ex_check) ex_keep 5 ex_w = Val g /\
  regular (bv_lang 4 ex_check) bv_arity /\ wf g /\ ready (bv_lang 4 ex_check) bv_arity g /\
  cvec_match (bv_lang 4 ex_check) 9 (fun l => l) (class_ids g) g = Val rs /\ map fst rs = ["(+ ?b ?a) ==> (+ ?a ?b)"; "(+ ?a ?b) ==> (+ ?b ?a)"].
Proof.
  do 2 eexists. split; [vm_compute; reflexivity|]. split; [apply bv_regular|]. split.
  - apply (C43_reachable _ _ (bv_lang 4 ex_check) bv_eqb_eq ex_keep []); [constructor|]. apply (M_workload _ _ _ 5 ex_w). vm_compute. reflexivity.
  - split; [apply (ready_b_ok (bv_lang 4 ex_check) bv_eqb_eq); vm_compute; reflexivity|]. split; vm_compute; reflexivity.
Qed.

(* ---------------- C44 ---------------- *)

Theorem C44_fast_match : forall O C (L : lang O C) ar, regular L ar ->
  forall g, wf g -> ready L ar g ->
  forall arrange, (forall l, Permutation l (arrange l)) -> forall order, Permutation (class_ids g) order ->
  exists f0 best, (forall i, i < size g -> smallest (fun _ => true) g i (best i)) /\
  forall f, f0 <= f -> exists rs props, fast_cvec_match L f arrange order g = Val rs /\ ruleset_ok (l_from_op L) (l_name L) ar rs /\
    (forall k, In k (map fst rs) <-> exists i j, In (i, j) props /\ named L (best i) (best j) k) /\
    (forall i j, In (i, j) props \/ In (j, i) props <->
      find g i = Val i /\ find g j = Val j /\ i <> j /\ exists v, vec g i v /\ vec g j v /\ (v = [] \/ somewhere v)).
Proof. exact @fast_match_spec. Qed.
Print Assumptions C44_fast_match.

(* rules: at most those of cvec_match when there are samples, the same ones when
   every vector has a value for every sample *)
Theorem C44_fast_within : forall O C (L : lang O C) ar, regular L ar ->
  forall g, wf g -> ready L ar g ->
  forall arrange, (forall l, Permutation l (arrange l)) -> forall order, Permutation (class_ids g) order ->
  exists f0, forall f, f0 <= f -> exists rs rf, cvec_match L f arrange order g = Val rs /\ fast_cvec_match L f arrange order g = Val rf /\
    ((forall i, find g i = Val i -> ~ vec g i []) -> incl (map fst rf) (map fst rs)) /\
    ((forall i j v w, find g i = Val i -> find g j = Val j -> vec g i v -> vec g j w -> v <> [] /\ everywhere v /\ length v = length w) -> incl (map fst rs) (map fst rf)).
Proof. exact @fast_within. Qed.
Print Assumptions C44_fast_within.

(* Without samples (an e-graph that was not made from a workload) the fast version
   proposes every pair and the other one none. *)
Definition ex_2x : recexpr bv_op := [Node (VVar "x") []; Node VAdd [0; 0]].
Theorem C44_within_refuted : exists g rf, made (bv_lang 4 ex_check) ex_keep [] g /\
  cvec_match (bv_lang 4 ex_check) 9 (fun l => l) (class_ids g) g = Val [] /\
  fast_cvec_match (bv_lang 4 ex_check) 9 (fun l => l) (class_ids g) g = Val rf /\ In "?a ==> (+ ?a ?a)" (map fst rf).
Proof.
  do 2 eexists. split; [eapply (M_add _ _ _ 5 eg_default ex_2x); [apply M_new|vm_compute; reflexivity]|].
  split; [vm_compute; reflexivity|]. split; [vm_compute; reflexivity|]. vm_compute. auto.
Qed.
Print Assumptions C44_within_refuted.

Example C44_hyp : exists g rs, to_egraph (bv_lang 4 ex_check) ex_keep 5 ex_w = Val g /\
  wf g /\ ready (bv_lang 4 ex_check) bv_arity g /\
  forallb (fun d => match sg_cvec d with [] => false | v => forallb (fun x => match x with Some _ => true | None => false end) v && Nat.eqb (length v) (g_an g) end) (g_data g) = true /\
  fast_cvec_match (bv_lang 4 ex_check) 9 (fun l => l) (class_ids g) g = Val rs /\ map fst rs = ["(+ ?b ?a) ==> (+ ?a ?b)"; "(+ ?a ?b) ==> (+ ?b ?a)"].
Proof.
  do 2 eexists. split; [vm_compute; reflexivity|]. split.
  - apply (C43_reachable _ _ (bv_lang 4 ex_check) bv_eqb_eq ex_keep []); [constructor|]. apply (M_workload _ _ _ 5 ex_w). vm_compute. reflexivity.
  - split; [apply (ready_b_ok (bv_lang 4 ex_check) bv_eqb_eq); vm_compute; reflexivity|]. repeat split; vm_compute; reflexivity.
Qed.

(* ---------------- C45 ---------------- *)

(* [g2] comes from [g1], so ids of [g1] are ids of [g2].  A rule is proposed iff it
   is made from the terms extracted for two different classes of [g1] which are one
   class in [g2], and both classes have a term of allowed operators (of less than
   2^64 - 1 nodes). *)
Theorem C45_extract_candidates : forall O C (L : lang O C) ar, regular L ar ->
  forall g1 g2 : eg O C, wf g1 -> congruent g1 -> ready L ar g1 -> size g1 <= size g2 ->
  forall arrange order uorder, (forall l, Permutation l (arrange l)) -> Permutation (class_ids g1) order -> (forall l, Permutation l (uorder l)) ->
  exists f0 best, (forall i, i < size g1 -> smallest (l_allowed L) g1 i (best i)) /\
  forall f, f0 <= f -> exists rs, extract_candidates L f arrange order uorder g1 g2 = Val rs /\ ruleset_ok (l_from_op L) (l_name L) ar rs /\
    (forall k, In k (map fst rs) <-> exists i j, find g1 i = Val i /\ find g1 j = Val j /\ i <> j /\ eqv g2 i j /\
      (exists t, repr g1 t i /\ all_allowed (l_allowed L) t = true /\ (tsize t < usize_max)%N) /\
      (exists t, repr g1 t j /\ all_allowed (l_allowed L) t = true /\ (tsize t < usize_max)%N) /\
      named L (best i) (best j) k).
Proof. exact @extract_candidates_spec. Qed.
Print Assumptions C45_extract_candidates.

(* the terms extracted use allowed operators only, wherever the class has such a
   term *)
Theorem C45_allowed_terms : forall O (allowed : O -> bool) D A (g : egraph O D A) i e, smallest allowed g i e ->
  (exists t, repr g t i /\ all_allowed allowed t = true /\ (tsize t < usize_max)%N) ->
  exists t, tree e = Val t /\ repr g t i /\ all_allowed allowed t = true /\
    forall u, repr g u i -> all_allowed allowed u = true -> (tsize t <= tsize u)%N.
Proof.
  intros O allowed D A g i e (t & T & Rt & Mn) (u & Ru & Au & Su). exists t. split; [exact T|]. split; [exact Rt|].
  assert (H : all_allowed allowed t = true /\ (tsize t < usize_max)%N).
  { apply tcost_max. apply N.le_lt_trans with (tcost allowed u); [now apply Mn|]. apply tcost_max. auto. }
  split; [apply H|]. intros v Rv Av. specialize (Mn v Rv). unfold tcost in Mn. rewrite (proj1 H), Av in Mn. destruct H as [_ H]. lia.
Qed.
Print Assumptions C45_allowed_terms.

(* a+b and b+a are one class after the rule of C46_hyp was applied *)
Example C45_hyp : exists g1 g2 rs, to_egraph (bv_lang 4 ex_check) ex_keep 5 ex_w = Val g1 /\
  wf g1 /\ congruent g1 /\ ready (bv_lang 4 ex_check) bv_arity g1 /\ size g1 <= size g2 /\
  s_union (bv_lang 4 ex_check) ex_keep 5 g1 2 3 = Val (g2, true) /\
  extract_candidates (bv_lang 4 ex_check) 9 (fun l => l) (class_ids g1) (fun l => l) g1 g2 = Val rs /\
  map fst rs = ["(+ ?b ?a) ==> (+ ?a ?b)"; "(+ ?a ?b) ==> (+ ?b ?a)"].
Proof.
  eexists. eexists. eexists. split; [vm_compute; reflexivity|]. 
  match goal with |- wf ?g /\ _ => assert (W : wf g) end.
  { apply (C43_reachable _ _ (bv_lang 4 ex_check) bv_eqb_eq ex_keep []); [constructor|]. apply (M_workload _ _ _ 5 ex_w). vm_compute. reflexivity. }
  split; [exact W|]. split.
  { apply (canonical_congruent bv_eqb bv_eqb_eq); [exact W| |vm_compute; reflexivity].
    intros n i H. cbn in H. repeat (destruct H as [H|H]; [inversion H; subst; repeat constructor|]). destruct H. }
  split; [apply (ready_b_ok (bv_lang 4 ex_check) bv_eqb_eq); vm_compute; reflexivity|].
  assert (forall P Q R : Prop, Q /\ P /\ R -> P /\ Q /\ R) as Sw by tauto. apply Sw. split; [vm_compute; reflexivity|].
  split; [cbn; lia|]. split; vm_compute; reflexivity.
Qed.
