(* C78: the tests that enumerate a domain by size. *)
From Coq Require Import NArith ZArith Permutation.
From Verif Require Import Base Sexp Lang LangProofs Syntax Rule Ruleset RuleSpec NatDom PosDom BoolDom DomainSpec Workload EnumSpec Egraph Synth Apply Sched Match Minimize Infer Domains DomainSound OpsSpec LearntSpec ForwardSpec LiveSpec FinishSpec.
From Verif Require Import MaxMin Recipes RecipesSpec SizedTests SizedSpec SizedProofs SizedDomains SizedFinish SizedKept.
Open Scope string_scope.
Open Scope list_scope.

(* Of every size the workload has the terms that have a variable, each of them once. *)
Theorem C78_terms : forall n, 1 <= n ->
  lists (iter_bool n) (open_terms ["true"; "false"] ["a"; "b"; "c"] ["~"] ["&"; "|"; "^"; "->"] n) /\
  lists (iter_nat n) (open_terms ["Z"] ["a"; "b"; "c"] ["S"] ["+"; "*"] n) /\
  lists (iter_pos n) (open_terms ["XH"] ["a"; "b"; "c"] ["XO"; "XI"] ["+"; "*"] n) /\
  lists (mm_work n) (open_terms [] ["a"; "b"] [] ["max"; "min"] n).
Proof.
  intros n Hn. split; [|split; [|split]].
  - exact (sized_lists ["true"; "false"] abc ["~"] ["&"; "|"; "^"; "->"] n eq_refl Hn).
  - exact (sized_lists ["Z"] abc ["S"] ["+"; "*"] n eq_refl Hn).
  - exact (sized_lists ["XH"] abc ["XO"; "XI"] ["+"; "*"] n eq_refl Hn).
  - exact (sized_lists [] ["a"; "b"] [] ["max"; "min"] n eq_refl Hn).
Qed.
Print Assumptions C78_terms.
(* the numbers that the tests assert *)
Theorem C78_counts : Forall (fun e => exists w us, fst (fst e) (snd (fst e)) = Val w /\ force w = Val us /\ N.of_nat (length us) = snd e) asserted.
Proof. exact asserted_right. Qed.
Print Assumptions C78_counts.
(* What the tests of booleans and naturals learn, whatever the sizes, is true, has no
   variables of the language, and can be saved. *)
Theorem C78_learned : forall ns all, Forall (fun n => 1 <= n) ns ->
  (bool_dsl ns all \/ bool_simple ns all -> delivers bool_lang bool_arity (fun o => bool_to_var o = None) (identity BVar (fun _ => True) bool_den) all) /\
  forall depth rng check final, int_unsat_right check -> nat_simple depth rng check ns final ->
    delivers (nat_lang depth rng check) nat_arity (fun o => nat_to_var o = None) (identity NVar (fun _ => True) nat_den) final.
Proof. intros ns all Fn. split; [exact (bool_tests ns all Fn)|]. intros depth rng check final Hu H. exact (nat_tests depth rng check Hu ns final Fn H). Qed.
Print Assumptions C78_learned.
(* The rules lifted to binary positives are true; those that were not given do not
   mention zero and successor. *)
Theorem C78_lifted : forall depth ns all given, pos_lifting depth ns all -> pos_nat_rules = Val given ->
  NoDup (map fst all) /\ forall k r, In (k, r) all -> true_rule (pos_lang depth) PVar (fun _ => True) pos_den r /\
    (In (k, r) given \/ without (fun o => o = PZ \/ o = PS) (rlhs r) /\ without (fun o => o = PZ \/ o = PS) (rrhs r)).
Proof. exact pos_tests. Qed.
Print Assumptions C78_lifted.
(* One more size adds what the run over the terms of that size chose, and nothing else. *)
Theorem C78_account :
  one_more bool_dsl iter_bool (by_hand bool_lang) /\
  one_more bool_simple iter_bool (fun w p new => learned bool_lang w p false new) /\
  (forall depth rng check, one_more (nat_simple depth rng check) iter_nat (fun w p new => learned (nat_lang depth rng check) w p false new)) /\
  (forall depth ex, pos_exploratory = Val ex -> one_more (pos_lifting depth) iter_pos (fun w p new => forwarded (pos_lang depth) ex w p new)).
Proof. exact sized_account. Qed.
Print Assumptions C78_account.
(* What was learned from the first sizes stays as it was, whatever sizes follow. *)
Theorem C78_kept : forall ns ms,
  (forall all, bool_dsl (ns ++ ms) all -> exists mid, bool_dsl ns mid /\ incl mid all) /\
  (forall all, bool_simple (ns ++ ms) all -> exists mid, bool_simple ns mid /\ incl mid all) /\
  (forall depth rng check all, nat_simple depth rng check (ns ++ ms) all -> exists mid, nat_simple depth rng check ns mid /\ incl mid all) /\
  (forall depth all, pos_lifting depth (ns ++ ms) all -> exists mid, pos_lifting depth ns mid /\ incl mid all).
Proof. exact sized_kept. Qed.
Print Assumptions C78_kept.
(* and so do the rules that were given *)
Theorem C78_given : forall depth ns all given, pos_lifting depth ns all -> pos_nat_rules = Val given -> incl given all.
Proof. exact given_kept. Qed.
Print Assumptions C78_given.
(* Whatever was learned from some sizes, the run for the next can be finished; so the
   tests have results. *)
Theorem C78_finishes : forall ns, Forall (fun n => 1 <= n) ns ->
  (exists all, bool_dsl ns all) /\ (forall depth, exists all, pos_lifting depth ns all) /\
  (forall all n keep, bool_dsl ns all \/ bool_simple ns all -> 1 <= n -> exists w, iter_bool n = Val w /\ finishes bool_lang keep w all false) /\
  (forall depth all n keep ex, pos_lifting depth ns all -> 1 <= n -> pos_exploratory = Val ex -> exists w, iter_pos n = Val w /\ forwards (pos_lang depth) keep ex w all).
Proof.
  intros ns Fn. destruct (bool_tests_finish ns Fn) as [B1 B2]. split; [exact B1|]. split; [intros depth; exact (proj1 (pos_tests_finish depth ns Fn))|]. split; [exact B2|].
  intros depth. exact (proj2 (pos_tests_finish depth ns Fn)).
Qed.
Print Assumptions C78_finishes.
(* what the tests expect to derive is true *)
Theorem C78_expected :
  (exists rs, rs_new bool_from_op bool_name bool_expected = Val rs /\ length rs = 43 /\ forall k r, In (k, r) rs -> identity BVar (fun _ => True) bool_den r) /\
  (exists rs, rs_new nat_from_op nat_name nat_expected = Val rs /\ length rs = 12 /\ forall k r, In (k, r) rs -> identity NVar (fun _ => True) nat_den r) /\
  (exists rs, rs_new pos_from_op pos_name pos_expected = Val rs /\ length rs = 20 /\ forall k r, In (k, r) rs -> identity PVar (fun _ => True) pos_den r).
Proof.
  destruct bool_expected_true as (b & Eb & Fb). destruct nat_expected_true as (n & En & Fn). destruct pos_expected_true as (p & Ep & Fp).
  split; [exists b; split; [exact Eb|]; split; [vm_compute in Eb; injection Eb as <-; reflexivity|exact Fb]|].
  split; [exists n; split; [exact En|]; split; [vm_compute in En; injection En as <-; reflexivity|exact Fn]|].
  exists p; split; [exact Ep|]; split; [vm_compute in Ep; injection Ep as <-; reflexivity|exact Fp].
Qed.
Print Assumptions C78_expected.

(* ---- a run ----
   The naturals with at most three atoms.  The solver knows only that the product of
   two variables commutes. *)
Definition ex_check (a b : zint) : sat_result :=
  match a, b with IMul (IConst x) (IConst y), IMul (IConst y') (IConst x') => if String.eqb x x' && String.eqb y y' then Unsat else SUnknown | _, _ => SUnknown end.
Lemma ex_check_right : int_unsat_right ex_check.
Proof.
  intros a b H env. unfold ex_check in H. destruct a as [?|?|? ?|[x|?|? ?|? ?] [y|?|? ?|? ?]]; try discriminate H. destruct b as [?|?|? ?|[y'|?|? ?|? ?] [x'|?|? ?|? ?]]; try discriminate H.
  destruct (String.eqb x x' && String.eqb y y') eqn:E; [|discriminate H]. apply andb_true_iff in E. destruct E as [E1 E2]. apply String.eqb_eq in E1, E2. rewrite E1, E2. cbn. apply Z.mul_comm.
Qed.
Definition ex_nats : lang nat_op Z := nat_lang 5 (fun n => Z.of_nat (n * n + 7 * n)) ex_check.
Definition ex_keep (g : eg nat_op Z) (i j : nat) : bool := true.
Definition ex_w3 : workload := match iter_nat 3 with Val w => w | Panic => wempty end.
Definition ex_g3 : eg nat_op Z := Eval vm_compute in match to_egraph ex_nats ex_keep 5 ex_w3 with Val g => g | Panic => eg_default end.
Definition ex_c3 : ruleset nat_op := Eval vm_compute in match cvec_match ex_nats 5 (fun l => l) (class_ids ex_g3) ex_g3 with Val c => c | Panic => [] end.
Ltac ex_order := split; [intros X; apply Permutation_refl|].
Ltac ex_idle := eexists; split; [eexists; split; [eexists; apply RS_refl|vm_compute; reflexivity]|vm_compute; reflexivity].
Ltac ex_round := eapply Rs_more; [eapply Round; [discriminate|vm_compute; reflexivity|do 3 eexists; split; [vm_compute; reflexivity|]; split; [ex_idle|vm_compute; reflexivity]]|].
Lemma ex_nat_run : exists new, learned ex_nats ex_w3 [] false new /\ map fst (extend [] new) = ["(* ?a ?b) ==> (* ?b ?a)"; "(* ?b ?a) ==> (* ?a ?b)"].
Proof.
  eexists. split.
  - exists ex_keep, 5. eexists ex_g3, ex_g3, ex_c3. split; [vm_compute; reflexivity|]. split; [exists (fun l => l); ex_order; ex_idle|]. split.
    + exists (class_ids ex_g3), (fun l => l). split; [split; [apply Permutation_refl|intros X; apply Permutation_refl]|]. vm_compute. reflexivity.
    + split; [|intros _; shelve]. exists (fun l => l). eexists. ex_order. eexists. split; [ex_round; ex_round; ex_round; apply Rs_done|vm_compute; reflexivity].
  - vm_compute. reflexivity.
  Unshelve. discriminate.
Qed.
Example C78_hyp : apart ["Z"] abc ["S"] ["+"; "*"] = true /\ Forall (fun n => 1 <= n) test_sizes /\
  (exists all, bool_dsl test_sizes all) /\ (exists all, pos_lifting 5 test_sizes all) /\ (exists given, pos_nat_rules = Val given /\ given <> []) /\
  int_unsat_right ex_check /\
  exists all, nat_simple 5 (fun n => Z.of_nat (n * n + 7 * n)) ex_check [3] all /\ map fst all = ["(* ?a ?b) ==> (* ?b ?a)"; "(* ?b ?a) ==> (* ?a ?b)"].
Proof.
  split; [vm_compute; reflexivity|]. assert (F : Forall (fun n => 1 <= n) test_sizes) by (repeat constructor). split; [exact F|].
  destruct (C78_finishes test_sizes F) as (B & P & _). split; [exact B|]. split; [exact (P 5)|].
  split; [eexists; split; [vm_compute; reflexivity|discriminate]|]. split; [exact ex_check_right|].
  destruct ex_nat_run as (new & H & E). exists (extend [] new). split; [|exact E].
  exists ex_w3, new. split; [vm_compute; reflexivity|]. split; [exact H|reflexivity].
Qed.
Print Assumptions C78_hyp.
