(* Property C60: what the samples guarantee about running rules and about learned
   rules, whether or not the rules that were run are true.  Reference notions:
   LearnSpec.v. *)
From Coq Require Import Permutation NArith.
From Verif Require Import Base Sexp Reader Filter Workload Recipe EnumSpec Lang LangProofs Syntax Rule Ruleset RuleSpec DomainSpec.
From Verif Require Import BV BoolDom NatDom Rational Halide Egraph EgraphSpec Synth Domains Apply Sched SynthSpec Extract Match MatchSpec Minimize Infer.
From Verif Require Import DomainAlg Util Analysis CalmSpec TotalSpec PlainSpec LearnSpec SettleProofs SampledDomains LearnProofs LearnDomains PropertiesDomains PropertiesSat PropertiesInfer.
Open Scope string_scope.
Open Scope list_scope.

(* the domains the theorems are about *)
Theorem C60_domains :
  (sampled bool_lang bool_arity /\ regular bool_lang bool_arity) /\
  (forall w check, sampled (bv_lang w check) bv_arity /\ regular (bv_lang w check) bv_arity) /\
  (forall depth rng check, sampled (nat_lang depth rng check) nat_arity /\ regular (nat_lang depth rng check) nat_arity) /\
  (forall ov check, sampled (math_lang ov check) math_arity /\ regular (math_lang ov check) math_arity) /\
  (forall check, sampled (hal_lang check) hal_arity /\ regular (hal_lang check) hal_arity).
Proof.
  split; [split; [apply bool_sampled|apply bool_reg]|]. split; [intros; split; [apply bv_sampled|apply bv_reg]|]. split; [intros; split; [apply nat_sampled|apply nat_reg]|].
  split; [intros; split; [apply math_sampled|apply math_reg]|]. intros; split; [apply hal_sampled|apply hal_reg].
Qed.
Print Assumptions C60_domains.

(* After any rules were run on the e-graph of a workload, every term in it is
   well typed, uses the variables of the workload only, and its value at each sample
   is what its class says (where the term has a value). *)
Theorem C60_vectors : forall O C (L : lang O C) ar, sampled L ar -> forall keep w g, ran L (plain_rhs L ar) keep w g ->
  exists ts n vs, samples_of L w ts n vs /\
  forall t c, repr g t c -> wf_term ar t /\ incl (tvars (l_to_var L) t) (wvars L ts) /\
    exists v u, cvec_term (l_eval L) (l_to_var L) n (var_cvec vs) t = Val v /\ vec g c u /\ length u = n /\ below v u.
Proof.
  intros O C L ar Sp keep w g R. destruct (ran_settled L ar Sp keep w g R) as (ts & n & vs & S & H). exists ts, n, vs. split; [exact S|].
  intros t c Rt. destruct (H t c Rt) as (v & u & E & V & B & Lu & W & I). split; [exact W|]. split; [exact I|]. exists v, u. auto.
Qed.
Print Assumptions C60_vectors.

(* So no sample tells two terms of one class apart. *)
Theorem C60_one_class : forall O C (L : lang O C) ar, sampled L ar -> forall keep w g, ran L (plain_rhs L ar) keep w g ->
  exists ts n vs, samples_of L w ts n vs /\
  forall t1 t2 c, repr g t1 c -> repr g t2 c -> untold L ar (wvars L ts) n vs t1 t2.
Proof.
  intros O C L ar Sp keep w g R. destruct (ran_settled L ar Sp keep w g R) as (ts & n & vs & S & H). exists ts, n, vs. split; [exact S|].
  intros t1 t2 c R1 R2. destruct (H t1 c R1) as (v & u & _ & V & _). refine (ran_untold L ar Sp keep w g ts n vs R S t1 t2 c c u u R1 R2 V V _). intros k a b [X Y]. congruence.
Qed.
Print Assumptions C60_one_class.

(* For booleans the samples are all assignments: whatever the rules say, merged terms
   have the same truth value (a rule that says otherwise makes the run panic). *)
Theorem C60_boolean : forall keep w g, ran bool_lang (plain_rhs bool_lang bool_arity) keep w g ->
  forall t1 t2 c, repr g t1 c -> repr g t2 c -> forall env, exists v, bool_den env t1 = Val v /\ bool_den env t2 = Val v.
Proof.
  intros keep w g R t1 t2 c R1 R2. destruct (C60_one_class _ _ _ _ bool_sampled keep w g R) as (ts & n & vs & S & H).
  exact (bool_untold w ts n vs t1 t2 S (H t1 t2 c R1 R2)).
Qed.
Print Assumptions C60_boolean.

(* Every rule that run_workload, run_fast_forwarding or recursive_rules learns has two
   sides of the right shape over pattern variables only, and comes from two terms over
   the variables of the workload that no sample tells apart.  The prior and exploratory
   rules may be false. *)
Theorem C60_workload : forall O C (L : lang O C) ar, sampled L ar -> regular L ar -> forall keep fuel w prior fast allow_empty new,
  NoDup (map fst prior) -> plain_rules L ar prior -> run_workload_internal L keep fuel w prior fast allow_empty new ->
  exists ts n vs, samples_of L w ts n vs /\ forall k r, In (k, r) new -> from_terms L ar (untold L ar (wvars L ts) n vs) r.
Proof.
  intros O C L ar Sp Rg keep fuel w prior fast ae new N P R. destruct (workload_learned L ar Sp Rg keep fuel w prior fast ae new N P R) as (ts & n & vs & S & F).
  exists ts, n, vs. split; [exact S|]. intros k r I. rewrite Forall_forall in F. exact (F _ I).
Qed.
Print Assumptions C60_workload.
Theorem C60_fast_forwarding : forall O C (L : lang O C) ar, sampled L ar -> regular L ar -> forall keep fuel exploratory w prior new,
  NoDup (map fst prior) -> plain_rules L ar prior -> plain_rules L ar exploratory -> run_fast_forwarding L keep fuel exploratory w prior new ->
  exists ts n vs, samples_of L w ts n vs /\ forall k r, In (k, r) new -> from_terms L ar (untold L ar (wvars L ts) n vs) r.
Proof.
  intros O C L ar Sp Rg keep fuel ex w prior new N P X R. destruct (forwarding_learned L ar Sp Rg keep fuel ex w prior new N P X R) as (ts & n & vs & S & F).
  exists ts, n, vs. split; [exact S|]. intros k r I. rewrite Forall_forall in F. exact (F _ I).
Qed.
Print Assumptions C60_fast_forwarding.
Theorem C60_recursive : forall O C (L : lang O C) ar, sampled L ar -> regular L ar -> forall keep fuel met l prior n all,
  NoDup (map fst prior) -> plain_rules L ar prior -> recursive_rules L keep fuel met l prior n all ->
  plain_rules L ar all /\
  forall k r, In (k, r) all -> In (k, r) prior \/ exists m w ts n' vs, m <= n /\ sized_workload met m l = Val w /\ samples_of L w ts n' vs /\
    from_terms L ar (untold L ar (wvars L ts) n' vs) r.
Proof.
  intros O C L ar Sp Rg keep fuel met l prior n all N P R. destruct (recursive_learned L ar Sp Rg keep fuel met l prior n all N P R) as [Pa H].
  split; [exact Pa|]. intros k r I. exact (H _ I).
Qed.
Print Assumptions C60_recursive.

(* Learned boolean rules are tautologies, although the boolean validator accepts
   everything and whatever the prior and exploratory rules are. *)
Theorem C60_boolean_rules : forall keep fuel prior, NoDup (map fst prior) -> plain_rules bool_lang bool_arity prior ->
  (forall w fast allow_empty new, run_workload_internal bool_lang keep fuel w prior fast allow_empty new -> forall k r, In (k, r) new -> tautology r) /\
  (forall exploratory w new, plain_rules bool_lang bool_arity exploratory -> run_fast_forwarding bool_lang keep fuel exploratory w prior new ->
     forall k r, In (k, r) new -> tautology r) /\
  (forall met l n all, recursive_rules bool_lang keep fuel met l prior n all -> forall k r, In (k, r) all -> In (k, r) prior \/ tautology r).
Proof.
  intros keep fuel prior N P. split; [|split].
  - intros w fast ae new R k r I. destruct (C60_workload _ _ _ _ bool_sampled bool_reg keep fuel w prior fast ae new N P R) as (ts & n & vs & S & H).
    exact (bool_learned_true w ts n vs r S (H k r I)).
  - intros ex w new X R k r I. destruct (C60_fast_forwarding _ _ _ _ bool_sampled bool_reg keep fuel ex w prior new N P X R) as (ts & n & vs & S & H).
    exact (bool_learned_true w ts n vs r S (H k r I)).
  - intros met l n all R k r I. destruct (C60_recursive _ _ _ _ bool_sampled bool_reg keep fuel met l prior n all N P R) as [_ H].
    destruct (H k r I) as [Hp|(m & w & ts & n' & vs & _ & _ & S & F)]; [now left|right]. exact (bool_learned_true w ts n' vs r S F).
Qed.
Print Assumptions C60_boolean_rules.

(* Rewriting any boolean terms with what run_workload learned is therefore sound. *)
Theorem C60_boolean_sound : forall keep fuel w prior fast allow_empty new, NoDup (map fst prior) -> plain_rules bool_lang bool_arity prior ->
  run_workload_internal bool_lang keep fuel w prior fast allow_empty new ->
  forall keep' g, made bool_lang keep' new g -> forall t u c, repr g t c -> repr g u c -> wf_term bool_arity t -> wf_term bool_arity u ->
  forall env, exists v, bool_den env t = Val v /\ bool_den env u = Val v.
Proof.
  intros keep fuel w prior fast ae new N P R keep'. apply bool_learned_sound. apply Forall_forall. intros [k r] I. cbn [snd].
  split; [exact (proj1 (C60_boolean_rules keep fuel prior N P) w fast ae new R k r I)|].
  destruct (C60_workload _ _ _ _ bool_sampled bool_reg keep fuel w prior fast ae new N P R) as (ts & n & vs & _ & H). destruct (H k r I) as (P1 & P2 & _). auto.
Qed.
Print Assumptions C60_boolean_sound.

(* rules must not mention variables of the language: "(& ?a ?a) ==> b" runs without a
   panic on the workload {(& a a)} and merges b with (& a a) *)
Definition bad_w : workload := WSet [Lst [Atom "&"; Atom "a"; Atom "a"]].
Theorem C60_variables_refuted : exists rs g g' c env,
  rs_new bool_from_op bool_name ["(& ?a ?a) ==> b"] = Val rs /\ to_egraph bool_lang ex_keep 5 bad_w = Val g /\
  scheduled bool_lang ex_keep 5 Simple rs g g' /\
  repr g' (T BAnd [T (BVar "a") []; T (BVar "a") []]) c /\ repr g' (T (BVar "b") []) c /\
  bool_den env (T BAnd [T (BVar "a") []; T (BVar "a") []]) <> bool_den env (T (BVar "b") []).
Proof.
  do 3 eexists. exists 1, (fun s => String.eqb s "a"). split; [vm_compute; reflexivity|]. split; [vm_compute; reflexivity|]. split.
  { eexists. split.
    - eexists. eapply RS_step.
      + eapply (RSearch _ _ _ _ _ _ _ 1 [("a", 0)]); [left; reflexivity|]. split.
        * eexists. split; [reflexivity|]. apply PM_node with [0; 0].
          -- repeat constructor; (eapply PM_var; [reflexivity|eqv_tac]).
          -- exists (Node BAnd [0; 0]), 1. split; [cbn; tauto|]. split; [reflexivity|]. split; [repeat constructor; eqv_tac|eqv_tac].
        * repeat constructor.
      + eapply RS_step; [|apply RS_refl]. eapply RApply; [left; reflexivity|]. vm_compute. reflexivity.
    - vm_compute. reflexivity. }
  split; [|split].
  - apply (Rp _ BAnd _ [0; 0] 1).
    + assert (X : forall g : eg bool_op bool, Forall2 (repr g) [T (BVar "a") []; T (BVar "a") []] [0; 0] <-> repr g (T (BVar "a") []) 0) by (intros; split; [intros H; now inversion H|repeat constructor; assumption]).
      apply X. apply (Rp _ _ _ [] 0); [constructor|]. exists (Node (BVar "a") []), 0. split; [cbn; tauto|]. split; [reflexivity|]. split; [constructor|eqv_tac].
    + exists (Node BAnd [0; 0]), 1. split; [cbn; tauto|]. split; [reflexivity|]. split; [repeat constructor; eqv_tac|eqv_tac].
  - apply (Rp _ _ _ [] 1); [constructor|]. exists (Node (BVar "b") []), 2. split; [cbn; tauto|]. split; [reflexivity|]. split; [constructor|eqv_tac].
  - cbn. discriminate.
Qed.
Print Assumptions C60_variables_refuted.

(* the recursive run of C52 meets the hypotheses *)
Example C60_hyp : exists prior all, rs_new bool_from_op bool_name ["(~ (~ ?a)) ==> ?a"] = Val prior /\ NoDup (map fst prior) /\
  plain_rules bool_lang bool_arity prior /\ recursive_rules bool_lang ex_keep 5 Lists ex_lang prior 1 all /\
  map fst all = ["?a ==> (& ?a ?a)"; "(& ?a ?a) ==> ?a"; "(~ (~ ?a)) ==> ?a"].
Proof.
  destruct C52_hyp as (_ & _ & prior & all & E & N & R & A). exists prior, all. split; [exact E|]. split; [exact N|]. split; [|auto].
  vm_compute in E. injection E as <-. repeat constructor.
Qed.
(* and so does the e-graph of a + b and b + a after commutativity was run *)
Example C60_ran_hyp : exists rs g g', rs_new (bv_from_op 4) bv_name ["(+ ?a ?b) ==> (+ ?b ?a)"] = Val rs /\
  to_egraph (bv_lang 4 ex_check) ex_keep 5 ex_w = Val g /\ plain_rules (bv_lang 4 ex_check) bv_arity rs /\
  scheduled (bv_lang 4 ex_check) ex_keep 5 Simple rs g g' /\ ran (bv_lang 4 ex_check) (plain_rhs (bv_lang 4 ex_check) bv_arity) ex_keep ex_w g'.
Proof.
  destruct C46_hyp as (rs & g & g' & c & E1 & E2 & S & _).
  assert (P : plain_rules (bv_lang 4 ex_check) bv_arity rs) by (vm_compute in E1; injection E1 as <-; repeat constructor).
  exists rs, g, g'. repeat (split; [assumption|]). exists 5, Simple, rs, g. split; [exact (Gr_start _ _ _ _ 5 g E2)|]. auto.
Qed.
