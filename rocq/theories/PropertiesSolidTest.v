(* C79: the test that lifts rules about solids.  Reference notions: SolidTestSpec.v (the
   solids it learns from), SolidSpec.v (the points of a solid), FinishSpec.v. *)
From Coq Require Import NArith ZArith.
From Verif Require Import Base Sexp Lang Rule Ruleset Workload Egraph Infer OpsSpec Solid SolidSpec ForwardSpec RecipesSpec FinishSpec SolidTest SolidTestSpec SolidTestTerms SolidTestProofs PropertiesSolid.
Open Scope string_scope.
Open Scope list_scope.

(* ---- the workloads ---- *)
Theorem C79_terms : forall n, 1 <= n -> exactly (iter_szalinski n) (fun u => In u (solids n)).
Proof. exact solid_terms. Qed.
Print Assumptions C79_terms.
Example C79_terms_hyp : length (solids 2) = 131 /\ In (Lst [Atom "Scale"; vec3 (Atom "a") (Atom "b") (Atom "c"); Lst [Atom "Trans"; vec3 (Atom "d") (Atom "e") (Atom "f"); Atom "s"]]) (solids 3).
Proof.
  split; [vm_compute; reflexivity|]. right. apply in_or_app. right. apply in_flat_map. exists "Scale". split; [now left|]. apply in_flat_map. eexists. split; [do 3 right; left; reflexivity|].
  apply in_map_iff. eexists. split; [reflexivity|]. right. apply in_or_app. right. apply in_flat_map. exists "Trans". split; [right; now left|]. apply in_flat_map. eexists. split; [do 4 right; left; reflexivity|]. now left.
Qed.
(* ---- what the test learns, from any of its workloads ---- *)
Theorem C79_learned : forall keep fuel ns all learned, solid_test keep fuel ns all learned ->
  (forall k r, In (k, r) all -> equation r /\ preserves r) /\
  (forall k r, In (k, r) learned -> equation r /\ preserves r /\ without lowered (rlhs r) /\ without lowered (rrhs r)).
Proof. intros keep fuel ns all learned (prior & ex & ws & Ep & Ex & _ & H). exact (C70_layers keep fuel prior ex ws all learned Ep Ex H). Qed.
Print Assumptions C79_learned.
Theorem C79_account : forall keep fuel ns all learned prior, cf_prior = Val prior -> solid_test keep fuel ns all learned ->
  (forall e, In e all <-> In e prior \/ In e learned) /\ (forall e, In e learned -> ~ In (fst e) (map fst prior)).
Proof. exact solid_account. Qed.
Print Assumptions C79_account.
Theorem C79_saved : forall keep fuel ns all learned, solid_test keep fuel ns all learned -> NoDup (map fst learned) /\ reloads cf_lang learned.
Proof. exact solid_saved. Qed.
Print Assumptions C79_saved.
(* ---- after any sizes the next step can be finished, and there is a result ---- *)
Theorem C79_finishes :
  (forall keep fuel ns n all learned ex, Forall (le 1) ns -> 1 <= n -> cf_exploratory = Val ex -> solid_test keep fuel ns all learned ->
     exists w, iter_szalinski n = Val w /\ forall keep', forwards cf_lang keep' ex w all) /\
  (forall keep ns, Forall (le 1) ns -> exists f0 all learned, forall f, f0 <= f -> solid_test keep f ns all learned).
Proof. exact (conj solid_goes_on solid_runs). Qed.
Print Assumptions C79_finishes.
(* the test's own sizes *)
Example C79_hyp : Forall (le 1) test_sizes /\ exists f all learned, solid_test (fun _ _ _ => true) f test_sizes all learned.
Proof.
  assert (F : Forall (le 1) test_sizes) by (repeat constructor). split; [exact F|]. destruct (solid_runs (fun _ _ _ => true) test_sizes F) as (f & all & learned & H). exists f, all, learned. exact (H f (le_n _)).
Qed.
