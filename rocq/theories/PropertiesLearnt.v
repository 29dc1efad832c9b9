(* Properties C59, C62 and C63: the operators of learned rules, saving and loading
   what was learned, truth of what was learned.  Reference notions: OpsSpec.v (terms
   and patterns over a set of operators, reading a saved ruleset back), LearntSpec.v
   (rulesets that a recipe learns, rules that are identities). *)
From Coq Require Import Permutation NArith ZArith QArith Qcanon.
From Verif Require Import Base Sexp Reader Filter Workload Recipe EnumSpec Lang Syntax Rule RuleSpec Ruleset.
From Verif Require Import BV BVSpec BVProofs BoolDom NatDom PosDom BvBoolDom Number Rational RationalSpec Halide HalideSpec DomainSpec LangProofs.
From Verif Require Import Egraph EgraphSpec Synth SynthSpec Domains DomainAlg Apply Sched Extract Match Minimize Infer LearnSpec LearnDomains OpsSpec OpsDomains SaveProofs LearntSpec SaveDomains LearntProofs StrictProofs.
From Verif Require Import SyntaxProofs PropertiesDomains PropertiesSat PropertiesInfer PropertiesLearn.
Open Scope string_scope.
Open Scope list_scope.

(* ---- C59: operators ----
   [over L ar A]: variables and operators in A with the right number of children.
   What is learned from a workload, prior rules and exploratory rules over A is
   over A in the bit-vector, Halide and Pos domains.  In the other domains the
   analysis adds constants: booleans, rationals, Z and S, and in the mixed domain
   bit-vectors of two bits with the projections and the pairing. *)
Theorem C59_operators :
  (forall w check A, learns_only (bv_lang w check) bv_arity A A) /\
  (forall check A, learns_only (hal_lang check) hal_arity A A) /\
  (forall depth A, learns_only (pos_lang depth) pos_arity A A) /\
  (forall A, learns_only bool_lang bool_arity A (fun o => A o \/ exists b, o = BLit b)) /\
  (forall ov check A, learns_only (math_lang ov check) math_arity A (fun o => A o \/ exists q, o = MLit q)) /\
  (forall depth rng check A, learns_only (nat_lang depth rng check) nat_arity A (fun o => A o \/ o = NZ \/ o = NS)) /\
  (forall A, learns_only bb_lang bb_arity A (fun o => A o \/ bb_added o)).
Proof.
  split; [exact bv_learns|]. split; [exact hal_learns|]. split; [exact pos_learns|]. split; [exact bool_learns|]. split; [exact math_learns|].
  split; [exact nat_learns|exact bb_learns].
Qed.
Print Assumptions C59_operators.

(* ---- C62: what was learned can be saved, loaded and used again ----
   Workloads are arbitrary; the rules to start from came from text, which is how
   rulesets are made. *)
Theorem C62_text : forall O C (L : lang O C) lines rs, rs_new (l_from_op L) (l_name L) lines = Val rs -> read_rules L rs.
Proof. exact (@rules_read). Qed.
Print Assumptions C62_text.
Theorem C62_saved :
  (forall w check, (w <= 128)%N -> ready (bv_lang w check)) /\ ready bool_lang /\ (forall depth rng check, ready (nat_lang depth rng check)) /\
  (forall depth, ready (pos_lang depth)) /\ (forall check, ready (hal_lang check)) /\ ready bb_lang /\ (forall ov check, ready (math_lang ov check)).
Proof.
  split; [intros w check H; exact (readable_ready _ _ _ _ _ (bv_readable w check H))|]. split; [exact (readable_ready _ _ _ _ _ bool_readable)|].
  split; [intros depth rng check; exact (readable_ready _ _ _ _ _ (nat_readable depth rng check))|]. split; [intros depth; exact (readable_ready _ _ _ _ _ (pos_readable depth))|].
  split; [intros check; exact (readable_ready _ _ _ _ _ (hal_readable check))|]. split; [exact (readable_ready _ _ _ _ _ bb_readable)|].
  intros ov check. exact (readable_ready _ _ _ _ _ (math_readable ov check)).
Qed.
Print Assumptions C62_saved.

(* ---- C63: what was learned is true ----
   whatever the workloads, and whether or not the rules to start from are true *)
Theorem C63_bitvectors : forall w check, (w <= 64)%N -> unsat_right w check -> forall rs, learnt (bv_lang w check) (read_rules (bv_lang w check)) rs ->
  (forall k r, In (k, r) rs -> identity VVar (inr w) (bv_den w) r) /\
  forall keep g, made (bv_lang w check) keep rs g -> forall t u c, repr g t c -> repr g u c ->
    wf_term bv_arity t -> wf_term bv_arity u -> tall (lit_ok w) t -> tall (lit_ok w) u ->
    forall env, (forall s, inr w (env s)) -> exists v, bv_den w env t = Val v /\ bv_den w env u = Val v.
Proof. intros w check Hw Hu rs H. split; [exact (bv_true w check Hw Hu rs H)|exact (bv_rewrites w check Hw Hu rs H)]. Qed.
Print Assumptions C63_bitvectors.
Theorem C63_naturals : forall depth rng check, int_unsat_right check -> forall rs, learnt (nat_lang depth rng check) (read_rules (nat_lang depth rng check)) rs ->
  (forall k r, In (k, r) rs -> identity NVar (fun _ => True) nat_den r) /\
  forall keep g, made (nat_lang depth rng check) keep rs g -> forall t u c, repr g t c -> repr g u c ->
    wf_term nat_arity t -> wf_term nat_arity u -> forall env, exists v, nat_den env t = Val v /\ nat_den env u = Val v.
Proof. intros depth rng check Hu rs H. split; [exact (nat_true depth rng check Hu rs H)|exact (nat_rewrites depth rng check Hu rs H)]. Qed.
Print Assumptions C63_naturals.
Theorem C63_halide : forall check, hal_unsat_right check -> forall rs, learnt (hal_lang check) (read_rules (hal_lang check)) rs ->
  (forall k r, In (k, r) rs -> identity HVar (fun _ => True) (hal_den div_smt) r) /\
  forall keep g, made (hal_lang check) keep rs g -> forall t u c, repr g t c -> repr g u c ->
    forall env v v', hal_den div_smt env t = Val v -> hal_den div_smt env u = Val v' -> v = v'.
Proof. intros check Hu rs H. split; [exact (hal_true check Hu rs H)|exact (hal_rewrites check Hu rs H)]. Qed.
Print Assumptions C63_halide.
Theorem C63_rationals : forall ov check, real_unsat_right check -> forall rs, learnt (math_lang ov check) (read_rules (math_lang ov check)) rs ->
  forall k r, In (k, r) rs -> rational_identity r.
Proof. exact math_true. Qed.
Print Assumptions C63_rationals.
(* Rewriting rational terms keeps their value, and whether they have one, if the
   rules have no conditional and the same variables on both sides. *)
Theorem C63_rational_rewriting : forall ov check, real_unsat_right check -> forall rs, learnt (math_lang ov check) (read_rules (math_lang ov check)) rs ->
  Forall (fun e => strict_rule (snd e)) rs ->
  forall keep g, made (math_lang ov check) keep rs g -> forall t u c, repr g t c -> repr g u c ->
  forall env v v', math_den env t = Val v -> math_den env u = Val v' -> v = v'.
Proof. exact math_rewrites. Qed.
Print Assumptions C63_rational_rewriting.
(* Without that condition an undefined term gets merged with a number: the rule
   "0 times ?a ==> 0" is validated and puts 0 * (1 / 0) and 0 into one class. *)
Definition no_ov (o : math_op) (x y : Qc) : bool := false.
Definition ex_zero : recexpr math_op := [Node (MLit qzero) []; Node (MLit (Q2Qc 1)) []; Node MDiv [1; 0]; Node MMul [0; 2]].

Definition ex_zero_t : term math_op := T MMul [T (MLit qzero) []; T MDiv [T (MLit (Q2Qc 1)) []; T (MLit qzero) []]].
Theorem C63_undefined_refuted : exists rs, rs_new math_from_op math_name ["(* 0 ?a) ==> 0"] = Val rs /\
  (forall ov check, (forall f, (forall div0 env, fden div0 env f = false) -> check f = Unsat) ->
     Forall (fun e => l_validate (math_lang ov check) (rlhs (snd e)) (rrhs (snd e)) = Val Valid) rs) /\
  forall check, exists g c u, made (math_lang no_ov check) ex_keep rs g /\ repr g ex_zero_t c /\ repr g u c /\
    forall env, math_den env ex_zero_t = Val None /\ exists q, math_den env u = Val (Some q).
Proof.
  eexists. split; [vm_compute; reflexivity|]. split.
  - intros ov check H. repeat constructor. cbn [snd l_validate math_lang rlhs rrhs]. unfold math_validate.
    match goal with |- context [fold_rec math_to_z3 ?x] => destruct (fold_rec math_to_z3 x) as [le|] eqn:E1; vm_compute in E1; [|discriminate] end.
    cbn [rbind].
    match goal with |- context [fold_rec math_to_z3 ?x] => destruct (fold_rec math_to_z3 x) as [re|] eqn:E2; vm_compute in E2; [|discriminate] end.
    inversion E1; inversion E2; subst le re. cbn [rbind].
    match goal with |- context [pat_to_sexp ?x] => destruct (pat_to_sexp x) as [ls|] eqn:E3; vm_compute in E3; [|discriminate] end. inversion E3; subst ls. cbn [rbind].
    match goal with |- context [error_conditions ?s ?p] => destruct (error_conditions s p) as [lc|] eqn:E5; vm_compute in E5; [|discriminate] end.
    inversion E5; subst lc. cbn [rbind].
    match goal with |- context [pat_to_sexp ?x] => destruct (pat_to_sexp x) as [rs|] eqn:E4; vm_compute in E4; [|discriminate] end. inversion E4; subst rs. cbn [rbind].
    match goal with |- context [error_conditions ?s ?p] => destruct (error_conditions s p) as [rc|] eqn:E6; vm_compute in E6; [|discriminate] end.
    inversion E6; subst rc. cbn [rbind].
    rewrite H; [reflexivity|]. intros div0 env. cbn [math_assertion fold_left app f_or fold_right fden rden].
    match goal with |- context [Qc_eq_dec ?a ?b] => destruct (Qc_eq_dec a b) as [|N]; [reflexivity|elim N] end.
    change ({| this := 0; Qcanon.canon := Qred_involutive 0 |}) with (Q2Qc 0). ring.
  - intros check. eexists. exists 0, (T (MLit qzero) []). split; [|split; [|split]].
    + eapply M_run with (fuel := 9) (st := Simple).
      * eapply M_add with (fuel := 9) (r := ex_zero); [apply M_new|]. vm_compute. reflexivity.
      * exact I.
      * eexists. split.
        -- eexists. eapply RS_step.
           ++ eapply (RSearch _ _ _ _ _ _ _ 3 [("a", 2)]); [left; reflexivity|]. split.
              ** eexists. split; [reflexivity|]. apply PM_node with [0; 2].
                 --- constructor; [|constructor; [|constructor]].
                     +++ apply PM_node with []; [constructor|]. exists (Node (MLit qzero) []), 0. split; [cbn; tauto|]. split; [reflexivity|]. split; [constructor|eqv_tac].
                     +++ eapply PM_var; [reflexivity|eqv_tac].
                 --- exists (Node MMul [0; 2]), 3. split; [cbn; tauto|]. split; [reflexivity|]. split; [repeat constructor; eqv_tac|eqv_tac].
              ** repeat constructor.
           ++ eapply RS_step; [|apply RS_refl]. eapply RApply; [left; reflexivity|]. vm_compute. reflexivity.
        -- vm_compute. reflexivity.
    + assert (R0 : forall g : eg math_op Qc, In (Node (MLit qzero) [], 0) (g_nodes g) -> eqv g 0 0 -> repr g (T (MLit qzero) []) 0).
      { intros g I E. apply (Rp _ _ _ [] 0); [constructor|]. exists (Node (MLit qzero) []), 0. split; [exact I|]. split; [reflexivity|]. split; [constructor|exact E]. }
      apply (Rp _ MMul _ [0; 2] 0); [constructor; [|constructor; [|constructor]]|].
      * apply R0; [cbn; tauto|eqv_tac].
      * apply (Rp _ MDiv _ [1; 0] 2); [constructor; [|constructor; [|constructor]]|].
        -- apply (Rp _ _ _ [] 1); [constructor|]. exists (Node (MLit (Q2Qc 1)) []), 1. split; [cbn; tauto|]. split; [reflexivity|]. split; [constructor|eqv_tac].
        -- apply R0; [cbn; tauto|eqv_tac].
        -- exists (Node MDiv [1; 0]), 2. split; [cbn; tauto|]. split; [reflexivity|]. split; [repeat constructor; eqv_tac|eqv_tac].
      * exists (Node MMul [0; 2]), 3. split; [cbn; tauto|]. split; [reflexivity|]. split; [repeat constructor; eqv_tac|eqv_tac].
    + apply (Rp _ _ _ [] 0); [constructor|]. exists (Node (MLit qzero) []), 0. split; [cbn; tauto|]. split; [reflexivity|]. split; [constructor|eqv_tac].
    + intros env. split; [vm_compute; reflexivity|]. exists qzero. reflexivity.
Qed.
Print Assumptions C63_undefined_refuted.
(* the boolean domain has no validator; there the rules to start from must not
   mention variables of the language (C60_variables_refuted) *)
Theorem C63_booleans : forall rs, learnt bool_lang (plain_rules bool_lang bool_arity) rs ->
  (forall k r, In (k, r) rs -> identity BVar (fun _ => True) bool_den r) /\
  forall keep g, made bool_lang keep rs g -> forall t u c, repr g t c -> repr g u c -> wf_term bool_arity t -> wf_term bool_arity u ->
    forall env, exists v, bool_den env t = Val v /\ bool_den env u = Val v.
Proof.
  intros rs H. destruct (bool_learnt rs H) as [_ F]. split.
  - intros k r I. rewrite Forall_forall in F. exact (bool_identity r (proj1 (F _ I))).
  - intros keep. exact (bool_learned_sound keep rs F).
Qed.
Print Assumptions C63_booleans.

(* run_workload on {a + b, b + a} learns commutativity in both directions *)
Example C63_hyp : exists new, run_workload (bv_lang 4 ex_check) ex_keep 5 ex_w [] true new /\
  learnt (bv_lang 4 ex_check) (read_rules (bv_lang 4 ex_check)) new /\ unsat_right 4 ex_check /\
  map fst new = ["(+ ?a ?b) ==> (+ ?b ?a)"; "(+ ?b ?a) ==> (+ ?a ?b)"].
Proof.
  assert (E : exists new, run_workload (bv_lang 4 ex_check) ex_keep 5 ex_w [] true new /\ map fst new = ["(+ ?a ?b) ==> (+ ?b ?a)"; "(+ ?b ?a) ==> (+ ?a ?b)"]).
  { eexists. split.
    - do 3 eexists. split; [vm_compute; reflexivity|]. split; [|split; [|split]].
      + exists (fun l => l). split; [intros X; apply Permutation_refl|]. eexists. split; [eexists; split; [eexists; apply RS_refl|vm_compute; reflexivity]|vm_compute; reflexivity].
      + exists [0; 1; 2; 3], (fun l => l). split; [split; [vm_compute; apply Permutation_refl|intros X; apply Permutation_refl]|vm_compute; reflexivity].
      + exists (fun l => l). eexists. split; [intros X; apply Permutation_refl|]. eexists. split.
        * eapply Rs_more; [|apply Rs_done]. eapply Round; [discriminate|vm_compute; reflexivity|].
          do 3 eexists. split; [vm_compute; reflexivity|]. split.
          { eexists. split; [eexists; split|]. eexists. eapply RS_step.
            - eapply (RSearch _ _ _ _ _ _ _ 2 [("a", 0); ("b", 1)]); [right; left; reflexivity|]. split.
              + eexists. split; [reflexivity|]. apply PM_node with [1; 0].
                * repeat constructor; (eapply PM_var; [reflexivity|eqv_tac]).
                * exists (Node VAdd [1; 0]), 2. split; [cbn; tauto|]. split; [reflexivity|]. split; [repeat constructor; eqv_tac|eqv_tac].
              + repeat constructor.
            - eapply RS_step; [|apply RS_refl]. eapply RApply; [left; reflexivity|]. vm_compute. reflexivity.
            - vm_compute. reflexivity.
            - vm_compute. reflexivity. }
          { vm_compute. reflexivity. }
        * vm_compute. reflexivity.
      + discriminate.
    - vm_compute. reflexivity. }
  destruct E as (new & R & E). exists new. split; [exact R|]. split; [|split; [exact (ex_check_right 4)|exact E]].
  exact (Lt_workload _ _ _ _ _ [] _ _ _ (NoDup_nil _) (Forall_nil _) R).
Qed.
(* and the terms of that workload are over addition *)
Example C59_hyp : workload_fits (bv_lang 4 ex_check) (over (bv_lang 4 ex_check) bv_arity (fun o => o = VAdd)) ex_w.
Proof.
  intros ss ts E F. vm_compute in E. injection E as <-.
  assert (V : forall s, fits (over (bv_lang 4 ex_check) bv_arity (fun o => o = VAdd)) (T (VVar s) [])) by (intros s; constructor; [split; [reflexivity|left; discriminate]|constructor]).
  assert (A : forall s s', fits (over (bv_lang 4 ex_check) bv_arity (fun o => o = VAdd)) (T VAdd [T (VVar s) []; T (VVar s') []])).
  { intros s s'. constructor; [split; [reflexivity|now right]|]. constructor; [apply V|]. constructor; [apply V|constructor]. }
  inversion F as [|x1 t1 l1 l2 R1 F1]; subst. inversion F1 as [|x2 t2 l3 l4 R2 F2]; subst. inversion F2; subst.
  assert (G : forall s t u, TotalSpec.reads (bv_lang 4 ex_check) s t -> parse_rec (bv_from_op 4) (display s) = Some (to_rec u) -> t = u).
  { intros s t u R E. unfold TotalSpec.reads in R. cbn [l_from_op bv_lang] in R. rewrite E in R. injection R as R.
    assert (X : tree (to_rec u) = tree (to_rec t)) by now rewrite R. rewrite !tree_to_rec in X. now injection X as ->. }
  rewrite (G _ _ ex_ab R1 eq_refl), (G _ _ ex_ba R2 eq_refl). constructor; [apply A|]. constructor; [apply A|constructor].
Qed.
(* a run of inference with a prior rule read from text *)
Example C62_hyp : exists prior w new, rs_new bool_from_op bool_name ["(~ (~ ?a)) ==> ?a"] = Val prior /\ read_rules bool_lang prior /\ NoDup (map fst prior) /\
  run_workload_internal bool_lang ex_keep 5 w prior true true new /\ learnt bool_lang (read_rules bool_lang) new /\ new <> [].
Proof.
  destruct C60_hyp as (prior & all & E & N & _ & R & A). inversion R as [|n rec w new R0 Ew Rw]; subst. inversion R0; subst.
  assert (P : read_rules bool_lang prior) by (exact (C62_text _ _ bool_lang _ _ E)).
  assert (X : extend [] prior = prior) by (vm_compute in E; injection E as <-; reflexivity). rewrite X in *.
  exists prior, w, new. split; [exact E|]. split; [exact P|]. split; [exact N|]. split; [exact Rw|]. split; [exact (Lt_workload _ _ _ _ _ _ _ _ _ N P Rw)|].
  intros ->. vm_compute in E. injection E as <-. discriminate A.
Qed.
