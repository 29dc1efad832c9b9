(* Properties C46, C47 and C56: equality saturation.  Reference notions: EgraphSpec.v
   (classes, represented terms, value of a term in an algebra) and SynthSpec.v
   (rules that hold, e-graphs a user can get at). *)
From Coq Require Import NArith ZArith QArith Qcanon.
From Verif Require Import Base BaseProofs Sexp Workload Lang LangProofs Syntax Rule Ruleset RuleSpec.
From Verif Require Import BV BVSpec BVProofs BoolDom NatDom PosDom BvBoolDom DomainSpec Rational RationalSpec Halide HalideSpec.
From Verif Require Import Analysis Egraph EgraphSpec EgraphProofs EgraphSound Synth Apply Sched SynthSpec SynthProofs DeriveProofs.
From Verif Require Import Domains DomainAlg DomainSound PropertiesDomains.
Open Scope string_scope.
Open Scope list_scope.

(* ---------------- C46 ---------------- *)

(* [L] is any language, [A] any algebra that agrees with its compile-time
   evaluation, [rs] any rules that hold in [A].  Terms in one class of an e-graph
   built from workloads, additional terms and any number of scheduler runs have the
   same value. *)
Theorem C46_saturation_sound : forall O C (L : lang O C), (forall a b, l_eqb L a b = true <-> a = b) ->
  forall V (A : algebra O C V) rs, interprets L A -> all_hold L A rs ->
  forall keep g, made L keep rs g ->
  forall t u c, repr g t c -> repr g u c -> aval (a_sem A) t = aval (a_sem A) u.
Proof.
  intros O C L E V A rs I H keep g M t u c. exact (default_moves A g (made_moves L E keep V A I rs H g M) t u c).
Qed.
Print Assumptions C46_saturation_sound.

(* One scheduler run from an arbitrary e-graph: known equalities and represented
   terms are kept, the result is congruence closed, and a valuation of the classes
   carries over. *)
Theorem C46_one_run : forall O C (L : lang O C), (forall a b, l_eqb L a b = true <-> a = b) ->
  forall V (A : algebra O C V) rs, interprets L A -> all_hold L A rs ->
  forall keep fuel st g g', fair st -> wf g -> scheduled L keep fuel st rs g g' ->
  wf g' /\ congruent g' /\
  (forall i j, eqv g i j -> eqv g' i j) /\ (forall t c, repr g t c -> repr g' t c) /\
  forall val, models (a_sem A) val g -> (forall i d, class_data g i = Val d -> a_dom A (val i) /\ a_says A (sg_itv d) (val i)) ->
    exists val', (forall i, i < size g -> val' i = val i) /\ models (a_sem A) val' g'.
Proof.
  intros O C L E V A rs I H keep fuel st g g' F W S.
  destruct (scheduled_moves L E keep fuel A I st rs g g' F H W S) as [(W' & X & Cr) [K _]].
  split; [exact W'|]. split; [exact K|]. split; [apply X|]. split; [intros t c; exact (repr_ext g g' X t c)|].
  intros val M D. destruct (Cr val (conj M D)) as (val' & Ag & [M' _]). eauto.
Qed.
Print Assumptions C46_one_run.

(* the rule and the e-graph of the examples *)
Definition ex_keep {O C} (g : eg O C) (i j : nat) : bool := true.
Definition ex_w : workload := WSet [Lst [Atom "+"; Atom "a"; Atom "b"]; Lst [Atom "+"; Atom "b"; Atom "a"]].
Definition ex_ab : term bv_op := T VAdd [T (VVar "a") []; T (VVar "b") []].
Definition ex_ba : term bv_op := T VAdd [T (VVar "b") []; T (VVar "a") []].
Ltac eqv_tac := eexists; split; reflexivity.
Ltac has_tac := do 2 eexists; repeat split; [|reflexivity| |];
  [match goal with |- In _ _ => cbn; repeat (try (left; reflexivity); right) end|repeat constructor; eqv_tac|eqv_tac].

(* the two sums are in different classes at first; one application of the rule puts
   them into one class *)
Example C46_hyp : exists rs g0 g1 c,
  rs_new (bv_from_op 4) bv_name ["(+ ?a ?b) ==> (+ ?b ?a)"] = Val rs /\
  to_egraph (bv_lang 4 ex_check) ex_keep 5 ex_w = Val g0 /\
  scheduled (bv_lang 4 ex_check) ex_keep 5 Simple rs g0 g1 /\
  lookup_expr bv_eqb g0 (to_rec ex_ab) = Val (Some 2) /\ lookup_expr bv_eqb g0 (to_rec ex_ba) = Val (Some 3) /\
  lookup_expr bv_eqb g1 (to_rec ex_ab) = Val (Some c) /\ lookup_expr bv_eqb g1 (to_rec ex_ba) = Val (Some c).
Proof.
  eexists. eexists. eexists. eexists. split; [vm_compute; reflexivity|]. split; [vm_compute; reflexivity|]. split.
  - eexists. split.
    + eexists. eapply RS_step.
      * eapply (RSearch _ _ _ _ _ _ _ 2 [("a", 0); ("b", 1)]); [left; reflexivity|]. split.
        { eexists. split; [reflexivity|]. apply PM_node with [0; 1].
          - repeat constructor; (eapply PM_var; [reflexivity|eqv_tac]).
          - exists (Node VAdd [0; 1]), 2. split; [cbn; tauto|]. split; [reflexivity|]. split; [repeat constructor; eqv_tac|eqv_tac]. }
        { repeat constructor. }
      * eapply RS_step; [|apply RS_refl]. eapply RApply; [left; reflexivity|]. vm_compute. reflexivity.
    + vm_compute. reflexivity.
  - repeat split; vm_compute; reflexivity.
Qed.

(* ---------------- C47 ---------------- *)

(* [env] gives the values of the language's own variables, [s] those of the
   variables of the rule's patterns *)
Theorem C47_derivable_holds : forall O C (L : lang O C), (forall a b, l_eqb L a b = true <-> a = b) ->
  (forall v, l_to_var L (l_mk_var L v) = Some v) ->
  forall V (A : algebra O C V) rs, (exists v, a_dom A v) ->
  (forall env, (forall v, a_dom A (env v)) -> interprets L (set_vars L A env) /\ all_hold L (set_vars L A env) rs) ->
  forall keep fuel lhs_only iter r, can_derive L keep fuel lhs_only iter rs r true ->
  exists tl tr, tree (rlhs r) = Val tl /\ tree (rrhs r) = Val tr /\
    (closed L tl -> closed L tr -> forall s, (forall v, a_dom A (s v)) -> paval (a_sem A) s tl = paval (a_sem A) s tr).
Proof.
  intros O C L E Mv V A rs D H keep fuel lo iter r K. exact (can_derive_holds L E keep V A Mv rs H D fuel lo iter r K).
Qed.
Print Assumptions C47_derivable_holds.

Theorem C47_bv_derivable_holds : forall w check, (w <= 128)%N -> unsat_right w check ->
  forall keep rs, validated (bv_lang w check) rs -> Forall (fun e => lits64 w (rlhs (snd e)) /\ lits64 w (rrhs (snd e))) rs ->
  forall fuel lhs_only iter r, can_derive (bv_lang w check) keep fuel lhs_only iter rs r true ->
  general (bv_lang w check) (rlhs r) -> general (bv_lang w check) (rrhs r) -> lits64 w (rlhs r) -> lits64 w (rrhs r) ->
  exists tl tr, tree (instantiate VVar (rlhs r)) = Val tl /\ tree (instantiate VVar (rrhs r)) = Val tr /\
    (wf_term bv_arity tl -> wf_term bv_arity tr ->
     forall env, (forall s, inr w (env s)) -> exists v, bv_den w env tl = Val v /\ bv_den w env tr = Val v).
Proof. exact bv_derive. Qed.
Print Assumptions C47_bv_derivable_holds.

(* commutativity is derivable from itself; nothing but a reflexive rule is derivable
   from no rules *)
Example C47_hyp : exists rs r, rs_new (bv_from_op 4) bv_name ["(+ ?a ?b) ==> (+ ?b ?a)"] = Val [(rname r, r)] /\ rs = [(rname r, r)] /\
  can_derive (bv_lang 4 ex_check) ex_keep 5 false 1 rs r true /\ can_derive (bv_lang 4 ex_check) ex_keep 5 false 1 [] r false.
Proof.
  eexists. eexists (Rule _ _ _ _). split; [vm_compute; reflexivity|]. split; [reflexivity|]. split.
  - eexists. eexists. split; [vm_compute; reflexivity|]. split.
    + eexists. eexists. eexists. eexists. split; [vm_compute; reflexivity|]. split; [|split].
      * eapply SR_round; [| |apply SR_done].
        { eexists. eapply RS_step.
          - eapply (RSearch _ _ _ _ _ _ _ 2 [("a", 0); ("b", 1)]); [left; reflexivity|]. split.
            + eexists. split; [reflexivity|]. apply PM_node with [0; 1].
              * repeat constructor; (eapply PM_var; [reflexivity|eqv_tac]).
              * exists (Node VAdd [0; 1]), 2. split; [cbn; tauto|]. split; [reflexivity|]. split; [repeat constructor; eqv_tac|eqv_tac].
            + repeat constructor.
          - eapply RS_step; [|apply RS_refl]. eapply RApply; [left; reflexivity|]. vm_compute. reflexivity. }
        { eexists. apply RS_refl. }
      * eexists. apply RS_refl.
      * vm_compute. reflexivity.
    + vm_compute. reflexivity.
  - eexists. eexists. split; [vm_compute; reflexivity|]. split.
    + exists [], []. eexists. eexists. split; [reflexivity|]. split; [|split].
      * eapply SR_round; [| |apply SR_done]; eexists; apply RS_refl.
      * eexists. apply RS_refl.
      * vm_compute. reflexivity.
    + vm_compute. reflexivity.
Qed.

(* ---------------- C56 ---------------- *)

Theorem C56_bv : forall w check, (w <= 128)%N -> unsat_right w check ->
  forall keep rs, validated (bv_lang w check) rs -> Forall (fun e => lits64 w (rlhs (snd e)) /\ lits64 w (rrhs (snd e))) rs ->
  forall g, made (bv_lang w check) keep rs g -> forall t u c, repr g t c -> repr g u c ->
  wf_term bv_arity t -> wf_term bv_arity u -> tall (lit_ok w) t -> tall (lit_ok w) u ->
  forall env, (forall s, inr w (env s)) -> exists v, bv_den w env t = Val v /\ bv_den w env u = Val v.
Proof. exact bv_end_to_end. Qed.
Print Assumptions C56_bv.

Theorem C56_nat : forall depth rng check keep rs, int_unsat_right check -> validated (nat_lang depth rng check) rs ->
  forall g, made (nat_lang depth rng check) keep rs g -> forall t u c, repr g t c -> repr g u c ->
  wf_term nat_arity t -> wf_term nat_arity u -> forall env, exists v, nat_den env t = Val v /\ nat_den env u = Val v.
Proof. exact nat_end_to_end. Qed.
Print Assumptions C56_nat.

(* division and remainder as in the solver (Euclidean, x/0 fixed), see C28 *)
Theorem C56_halide : forall check keep rs, hal_unsat_right check -> validated (hal_lang check) rs ->
  forall g, made (hal_lang check) keep rs g -> forall t u c, repr g t c -> repr g u c ->
  forall env v v', hal_den div_smt env t = Val v -> hal_den div_smt env u = Val v' -> v = v'.
Proof. exact hal_end_to_end. Qed.
Print Assumptions C56_halide.

(* bool.rs validates by comparing cvecs only; so the rules are assumed to hold *)
Theorem C56_bool : forall keep rs, Forall (fun e => exists tl tr, tree (instantiate BVar (rlhs (snd e))) = Val tl /\
    tree (instantiate BVar (rrhs (snd e))) = Val tr /\ general bool_lang (rlhs (snd e)) /\ general bool_lang (rrhs (snd e)) /\
    forall env, exists v, bool_den env tl = Val v /\ bool_den env tr = Val v) rs ->
  forall g, made bool_lang keep rs g -> forall t u c, repr g t c -> repr g u c ->
  wf_term bool_arity t -> wf_term bool_arity u -> forall env, exists v, bool_den env t = Val v /\ bool_den env u = Val v.
Proof. exact bool_end_to_end. Qed.
Print Assumptions C56_bool.

(* the rules that tests/pos.rs and tests/bv-bool.rs write down *)
Theorem C56_pos : forall depth keep m1 m2, pos_exploratory = Val m1 -> pos_nat_rules = Val m2 ->
  forall g, made (pos_lang depth) keep (m1 ++ m2) g -> forall t u c, repr g t c -> repr g u c ->
  forall env v v', pos_den env t = Val v -> pos_den env u = Val v' -> v = v'.
Proof. exact pos_end_to_end. Qed.
Print Assumptions C56_pos.

Theorem C56_bv_bool : forall keep m, bb_exploratory = Val m ->
  forall g, made bb_lang keep m g -> forall t u c, repr g t c -> repr g u c ->
  forall genv v, bb_den genv t = Val v -> forall v', bb_den genv u = Val v' -> v = v'.
Proof. exact bb_end_to_end. Qed.
Print Assumptions C56_bv_bool.

(* the ruleset of C46_hyp meets the hypotheses of C56_bv *)
Example C56_hyp : exists rs, rs_new (bv_from_op 4) bv_name ["(+ ?a ?b) ==> (+ ?b ?a)"] = Val rs /\
  validated (bv_lang 4 ex_check) rs /\ Forall (fun e => lits64 4 (rlhs (snd e)) /\ lits64 4 (rrhs (snd e))) rs /\
  unsat_right 4 ex_check /\
  wf_term bv_arity ex_ab /\ wf_term bv_arity ex_ba /\ tall (lit_ok 4) ex_ab /\ tall (lit_ok 4) ex_ba.
Proof.
  eexists. split; [vm_compute; reflexivity|]. split; [|split; [|split]].
  - constructor; [|constructor]. split; [vm_compute; reflexivity|]. split; intros n o Hn E; cbn in Hn, E;
      destruct Hn as [<-|[<-|[<-|[]]]]; cbn in E; try discriminate E; inversion E; reflexivity.
  - constructor; [|constructor]. split; intros n o Hn E; cbn in Hn, E;
      destruct Hn as [<-|[<-|[<-|[]]]]; cbn in E; discriminate E.
  - apply ex_check_right.
  - repeat split; repeat constructor.
Qed.
