(* C61 and C64: fast-forwarding learns consequences of the rules it is given, and
   proposes what the allowed rules alone do not give. *)
From Coq Require Import NArith Permutation.
From Verif Require Import Base Sexp Reader Lang Syntax Rule Ruleset DomainSpec BV BVText BoolDom NatDom PosDom Halide Rational BvBoolDom Workload Analysis Generalize Egraph EgraphSpec Synth Apply Sched SynthSpec Domains DomainAlg
  Extract Match MatchSpec Minimize Infer OpsSpec SaveDomains LearntSpec ForwardSpec ForwardDomains PropertiesSat SaveProofs.
Open Scope string_scope.
Open Scope list_scope.

(* ---- C61: consequences without forbidden operators ---- *)
Theorem C61_consequences :
  (forall w check, (w <= 128)%N -> lifts (bv_lang w check)) /\ lifts bool_lang /\ (forall depth rng check, lifts (nat_lang depth rng check)) /\
  (forall depth, lifts (pos_lang depth)) /\ (forall check, lifts (hal_lang check)) /\ lifts bb_lang /\ (forall ov check, lifts (math_lang ov check)).
Proof.
  split; [intros w check H; exact (readable_lifts _ _ _ _ _ (bv_readable w check H))|]. split; [exact (readable_lifts _ _ _ _ _ bool_readable)|].
  split; [intros depth rng check; exact (readable_lifts _ _ _ _ _ (nat_readable depth rng check))|]. split; [intros depth; exact (readable_lifts _ _ _ _ _ (pos_readable depth))|].
  split; [intros check; exact (readable_lifts _ _ _ _ _ (hal_readable check))|]. split; [exact (readable_lifts _ _ _ _ _ bb_readable)|].
  intros ov check. exact (readable_lifts _ _ _ _ _ (math_readable ov check)).
Qed.
Print Assumptions C61_consequences.
(* the operators that learned rules are without: Z and S, and in the mixed domain the
   boolean operators and the two projections *)
Lemma allowed_without : forall O C (L : lang O C) (forbidden : O -> Prop) p, (forall o, l_allowed L o = true -> ~ forbidden o) -> allowed_side L p -> without forbidden p.
Proof. intros O C L forbidden p H (t & E & T). exists t. split; [exact E|]. revert T. apply LangProofs.tall_impl. intros [o|v]; auto. Qed.
Theorem C61_forbidden :
  (forall depth keep fuel exploratory w prior new, NoDup (map fst prior) -> read_rules (pos_lang depth) prior -> read_rules (pos_lang depth) exploratory ->
    run_fast_forwarding (pos_lang depth) keep fuel exploratory w prior new ->
    forall k r, In (k, r) new -> without (fun o => o = PZ \/ o = PS) (rlhs r) /\ without (fun o => o = PZ \/ o = PS) (rrhs r)) /\
  (forall keep fuel exploratory w prior new, NoDup (map fst prior) -> read_rules bb_lang prior -> read_rules bb_lang exploratory ->
    run_fast_forwarding bb_lang keep fuel exploratory w prior new ->
    forall k r, In (k, r) new -> without (fun o => boolean_op o \/ o = XFirst \/ o = XSecond) (rlhs r) /\ without (fun o => boolean_op o \/ o = XFirst \/ o = XSecond) (rrhs r)).
Proof.
  split.
  - intros depth keep fuel ex w prior new N P E R k r I. destruct (readable_lifts _ _ _ _ _ (pos_readable depth) keep fuel ex w prior new N P E R k r I) as (_ & A & B).
    split; (eapply allowed_without; [|eassumption]); intros o H [->| ->]; discriminate H.
  - intros keep fuel ex w prior new N P E R k r I. destruct (readable_lifts _ _ _ _ _ bb_readable keep fuel ex w prior new N P E R k r I) as (_ & A & B).
    split; (eapply allowed_without; [|eassumption]); intros o H [F|[->| ->]]; try discriminate H; destruct o; try contradiction; discriminate H.
Qed.
Print Assumptions C61_forbidden.
(* ---- C61: the three phases ---- *)
Theorem C61_phases :
  (forall w check, (w <= 128)%N -> finds (bv_lang w check)) /\ finds bool_lang /\ (forall depth rng check, finds (nat_lang depth rng check)) /\
  (forall depth, finds (pos_lang depth)) /\ (forall check, finds (hal_lang check)) /\ finds bb_lang /\ (forall ov check, finds (math_lang ov check)).
Proof.
  split; [intros w check H; exact (readable_finds _ _ _ _ _ (bv_readable w check H))|]. split; [exact (readable_finds _ _ _ _ _ bool_readable)|].
  split; [intros depth rng check; exact (readable_finds _ _ _ _ _ (nat_readable depth rng check))|]. split; [intros depth; exact (readable_finds _ _ _ _ _ (pos_readable depth))|].
  split; [intros check; exact (readable_finds _ _ _ _ _ (hal_readable check))|]. split; [exact (readable_finds _ _ _ _ _ bb_readable)|].
  intros ov check. exact (readable_finds _ _ _ _ _ (math_readable ov check)).
Qed.
Print Assumptions C61_phases.

(* ---- C64: lifted rules are true ---- *)
Theorem C64_positives : forall depth keep fuel ex w prior new, pos_exploratory = Val ex -> NoDup (map fst prior) -> read_rules (pos_lang depth) prior ->
  (forall k q, In (k, q) prior -> true_rule (pos_lang depth) PVar (fun _ => True) pos_den q) ->
  run_fast_forwarding (pos_lang depth) keep fuel ex w prior new ->
  forall k r, In (k, r) new -> true_rule (pos_lang depth) PVar (fun _ => True) pos_den r.
Proof. exact pos_lifted. Qed.
Print Assumptions C64_positives.
Theorem C64_pairs : forall keep fuel ex w prior new, bb_exploratory = Val ex -> NoDup (map fst prior) -> read_rules bb_lang prior ->
  (forall k q, In (k, q) prior -> boolean_rule q \/ bits_true q) ->
  run_fast_forwarding bb_lang keep fuel ex w prior new -> forall k r, In (k, r) new -> bits_true r /\ bits_agree r.
Proof. exact bb_lifted. Qed.
Print Assumptions C64_pairs.

(* the terms of the example have no rule between them but by way of the exploratory
   rules *)
Definition ex_pos : lang pos_op N := pos_lang 5.
Definition ex_lift : workload := WSet [Lst [Atom "XO"; Atom "a"]; Lst [Atom "+"; Atom "a"; Atom "a"]].
Definition ex_rules : ruleset pos_op := match pos_exploratory with Val m => m | Panic => [] end.
Example C61_hyp : pos_exploratory = Val ex_rules /\ read_rules ex_pos ex_rules /\ exists new, run_fast_forwarding ex_pos ex_keep 5 ex_rules ex_lift [] new /\
  map fst new = ["(+ ?a ?a) ==> (XO ?a)"; "(XO ?a) ==> (+ ?a ?a)"].
Proof.
  assert (E : pos_exploratory = Val ex_rules) by (vm_compute; reflexivity). split; [exact E|]. split; [exact (rules_read _ _ ex_pos _ _ E)|]. eexists. split.
  - do 8 eexists. split; [vm_compute; reflexivity|]. split; [vm_compute; reflexivity|]. split; [|split; [|split; [|split; [|split]]]].
    + exists (fun l => l). split; [intros X; apply Permutation_refl|]. eexists. split; [eexists; split; [eexists; apply RS_refl|vm_compute; reflexivity]|vm_compute; reflexivity].
    + eexists. split.
      * eexists. eapply RS_step.
        { eapply (RSearch _ _ _ _ _ _ _ 1 [("a", 0)]); [right; right; left; reflexivity|]. split.
          - eexists. split; [reflexivity|]. apply PM_node with [0].
            + repeat constructor; (eapply PM_var; [reflexivity|eqv_tac]).
            + exists (Node PXO [0]), 1. split; [cbn; tauto|]. split; [reflexivity|]. split; [repeat constructor; eqv_tac|eqv_tac].
          - repeat constructor. }
        eapply RS_step; [|apply RS_refl]. eapply RApply; [left; reflexivity|]. vm_compute. reflexivity.
      * vm_compute. reflexivity.
    + exists [0; 1; 2], (fun l => l), (fun l => l). split; [split; [vm_compute; apply Permutation_refl|intros X; apply Permutation_refl]|]. split; [intros X; apply Permutation_refl|]. vm_compute. reflexivity.
    + exists (fun l => l). split; [intros X; apply Permutation_refl|]. eexists. split; [eexists; split; [eexists; apply RS_refl|vm_compute; reflexivity]|vm_compute; reflexivity].
    + exists [0; 2], (fun l => l), (fun l => l). split; [split; [vm_compute; apply Permutation_refl|intros X; apply Permutation_refl]|]. split; [intros X; apply Permutation_refl|]. vm_compute. reflexivity.
    + exists (fun l => l). eexists. split; [intros X; apply Permutation_refl|]. eexists. split.
      eapply Rs_more; [|apply Rs_done]. eapply Round; [discriminate|vm_compute; reflexivity|].
      do 3 eexists. split; [vm_compute; reflexivity|]. split.
      { eexists. split; [eexists; split|]. eexists. eapply RS_step.
        - eapply (RSearch _ _ _ _ _ _ _ 2 [("a", 0)]); [left; reflexivity|]. split.
          + eexists. split; [reflexivity|]. apply PM_node with [0; 0].
            * repeat constructor; (eapply PM_var; [reflexivity|eqv_tac]).
            * exists (Node PAdd [0; 0]), 2. split; [cbn; tauto|]. split; [reflexivity|]. split; [repeat constructor; eqv_tac|eqv_tac].
          + repeat constructor.
        - eapply RS_step; [|apply RS_refl]. eapply RApply; [left; reflexivity|]. vm_compute. reflexivity.
        - vm_compute. reflexivity.
        - vm_compute. reflexivity. }
      { vm_compute. reflexivity. }
      { vm_compute. reflexivity. }
  - vm_compute. reflexivity.
Qed.

Ltac node_tac o ch c := apply PM_node with ch;
  [repeat match goal with |- Forall2 _ _ _ => constructor end; try (eapply PM_var; [reflexivity|eqv_tac])|exists (Node o ch), c; split; [cbn; tauto|]; split; [reflexivity|]; split; [repeat constructor; eqv_tac|eqv_tac]].
(* (and a a) and a are known equal only by way of their two bits *)
Definition ex_and : workload := WSet [Lst [Atom "and"; Atom "a"; Atom "a"]].
Definition ex_bridge : ruleset bb_op := match bb_exploratory with Val m => m | Panic => [] end.
Definition ex_bool : ruleset bb_op := match rs_new bb_from_op bb_name ["(& ?a ?a) ==> ?a"] with Val m => m | Panic => [] end.
Example C64_hyp : bb_exploratory = Val ex_bridge /\ NoDup (map fst ex_bool) /\ read_rules bb_lang ex_bool /\
  (forall k q, In (k, q) ex_bool -> boolean_rule q) /\ exists new, run_fast_forwarding bb_lang ex_keep 5 ex_bridge ex_and ex_bool new /\
  map fst new = ["?a ==> (and ?a ?a)"; "(and ?a ?a) ==> ?a"].
Proof.
  assert (E : bb_exploratory = Val ex_bridge) by (vm_compute; reflexivity). assert (E2 : rs_new bb_from_op bb_name ["(& ?a ?a) ==> ?a"] = Val ex_bool) by (vm_compute; reflexivity).
  split; [exact E|]. split; [repeat constructor; cbn; tauto|]. split; [exact (rules_read _ _ bb_lang _ _ E2)|]. split.
  - intros k q [H|[]]. injection H as <- <-. split; [|split].
    + intros n o J Eo. cbn in J. destruct J as [<-|[<-|[<-|[]]]]; [discriminate Eo|discriminate Eo|]. injection Eo as <-. exact I.
    + intros n o J Eo. cbn in J. destruct J as [<-|[]]. discriminate Eo.
    + intros genv s. exists (s "a"). split; [cbn; now destruct (s "a")|reflexivity].
  - eexists. split.
    + do 8 eexists. split; [vm_compute; reflexivity|]. split; [vm_compute; reflexivity|]. split; [|split; [|split; [|split; [|split]]]].
      * exists (fun l => l). split; [intros X; apply Permutation_refl|]. eexists. split; [eexists; split; [eexists; apply RS_refl|vm_compute; reflexivity]|vm_compute; reflexivity].
      * eexists. split. eexists. eapply RS_step.
        { eapply (RSearch _ _ _ _ _ _ _ 4 [("a", 4)]); [do 8 right; left; reflexivity|]. split; [|repeat constructor].
          eexists. split; [reflexivity|]. eapply PM_var; [reflexivity|eqv_tac]. }
        eapply RS_step; [eapply RApply; [left; reflexivity|]; vm_compute; reflexivity|].
        eapply RS_step.
        { eapply (RSearch _ _ _ _ _ _ _ 5 [("a", 0); ("b", 0)]); [do 2 right; left; reflexivity|]. split; [|repeat constructor].
          eexists. split; [reflexivity|]. node_tac XFirst [4] 5. node_tac XBand [0; 0] 4. }
        eapply RS_step; [eapply RApply; [left; reflexivity|]; vm_compute; reflexivity|].
        eapply RS_step.
        { eapply (RSearch _ _ _ _ _ _ _ 6 [("a", 0); ("b", 0)]); [do 3 right; left; reflexivity|]. split; [|repeat constructor].
          eexists. split; [reflexivity|]. node_tac XSecond [4] 6. node_tac XBand [0; 0] 4. }
        eapply RS_step; [eapply RApply; [left; reflexivity|]; vm_compute; reflexivity|]. apply RS_refl. vm_compute. reflexivity.
      * eexists. exists (fun l => l), (fun l => l). split; [split; [vm_compute; apply Permutation_refl|intros X; apply Permutation_refl]|]. split; [intros X; apply Permutation_refl|]. vm_compute. reflexivity.
      * exists (fun l => l). split; [intros X; apply Permutation_refl|]. eexists. split; [eexists; split; [eexists|]|].
        { eapply RS_step.
          { eapply (RSearch _ _ _ _ _ _ _ 8 [("a", 1)]); [left; reflexivity|]. split; [|repeat constructor]. eexists. split; [reflexivity|]. node_tac XAnd [1; 1] 8. }
          eapply RS_step; [eapply RApply; [left; reflexivity|]; vm_compute; reflexivity|]. eapply RS_step.
          { eapply (RSearch _ _ _ _ _ _ _ 9 [("a", 2)]); [left; reflexivity|]. split; [|repeat constructor]. eexists. split; [reflexivity|]. node_tac XAnd [2; 2] 9. }
          eapply RS_step; [eapply RApply; [left; reflexivity|]; vm_compute; reflexivity|]. apply RS_refl. }
        { vm_compute. reflexivity. }
        { vm_compute. reflexivity. }
      * eexists. exists (fun l => l), (fun l => l). split; [split; [vm_compute; apply Permutation_refl|intros X; apply Permutation_refl]|]. split; [intros X; apply Permutation_refl|]. vm_compute. reflexivity.
      * exists (fun l => l). eexists. split; [intros X; apply Permutation_refl|]. eexists. split.
        eapply Rs_more; [|apply Rs_done]. eapply Round; [discriminate|vm_compute; reflexivity|].
        do 3 eexists. split; [vm_compute; reflexivity|]. split.
        { eexists. split; [eexists; split; [eexists|]|].
          { eapply RS_step.
            { eapply (RSearch _ _ _ _ _ _ _ 1 [("a", 0)]); [right; left; reflexivity|]. split; [|repeat constructor]. eexists. split; [reflexivity|]. node_tac XBand [0; 0] 1. }
            eapply RS_step; [eapply RApply; [left; reflexivity|]; vm_compute; reflexivity|]. apply RS_refl. }
          { vm_compute. reflexivity. }
          { vm_compute. reflexivity. } }
        { vm_compute. reflexivity. }
        { vm_compute. reflexivity. }
    + vm_compute. reflexivity.
Qed.
