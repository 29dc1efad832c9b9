(* Property C52: rule inference.  Reference notions: InferSpec.v (terms over a
   language), EnumSpec.v (size of a term, names that occur in it). *)
From Coq Require Import Permutation NArith.
From Verif Require Import Base Sexp Reader Filter Workload Recipe EnumSpec Lang Syntax Rule Ruleset.
From Verif Require Import BV BoolDom Egraph Synth Domains Apply Sched SynthSpec Extract Match Minimize.
From Verif Require Import Infer InferSpec GrammarProofs InferProofs PropertiesDomains PropertiesSat.
Open Scope string_scope.
Open Scope list_scope.

(* What run_workload returns: at least one rule, every rule accepted by the
   validator and none of the prior rules. *)
Theorem C52_workload : forall O C (L : lang O C) keep fuel w prior fast new, NoDup (map fst prior) ->
  run_workload L keep fuel w prior fast new ->
  new <> [] /\ NoDup (map fst new) /\
  forall k r, In (k, r) new -> l_validate L (rlhs r) (rrhs r) = Val Valid /\ ~ In k (map fst prior).
Proof.
  intros O C L keep fuel w prior fast new N R. split; [destruct R as (g & c & cands & _ & _ & _ & _ & H); now apply H|].
  destruct (workload_valid L keep fuel w prior fast false new N R) as [Nn V]. split; [exact Nn|]. intros k r I. exact (V _ I).
Qed.
Print Assumptions C52_workload.

(* The same for fast-forwarding, whatever the exploratory rules (which need not be
   valid); it may return no rule. *)
Theorem C52_fast_forwarding : forall O C (L : lang O C) keep fuel exploratory w prior new, NoDup (map fst prior) ->
  run_fast_forwarding L keep fuel exploratory w prior new ->
  NoDup (map fst new) /\
  forall k r, In (k, r) new -> l_validate L (rlhs r) (rrhs r) = Val Valid /\ ~ In k (map fst prior).
Proof.
  intros O C L keep fuel ex w prior new N R. destruct (forwarding_valid L keep fuel ex w prior new N R) as [Nn V].
  split; [exact Nn|]. intros k r I. exact (V _ I).
Qed.
Print Assumptions C52_fast_forwarding.

(* recursive_rules for sizes from 1: the prior rules and all rules found for the
   next smaller size are in the result, every other rule is new and was accepted. *)
Theorem C52_recursive : forall O C (L : lang O C) keep fuel met l prior n all, NoDup (map fst prior) ->
  recursive_rules L keep fuel met l prior (S n) all ->
  NoDup (map fst all) /\ incl prior all /\
  (forall k r, In (k, r) all -> In (k, r) prior \/ l_validate L (rlhs r) (rrhs r) = Val Valid) /\
  exists smaller, recursive_rules L keep fuel met l prior n smaller /\ incl smaller all /\
    forall k r, In (k, r) all -> In (k, r) smaller \/ In (k, r) prior \/
      (l_validate L (rlhs r) (rrhs r) = Val Valid /\ ~ In k (map fst smaller) /\ ~ In k (map fst prior)).
Proof.
  intros O C L keep fuel met l prior n all Np R. destruct (recursive_ok L keep fuel met l prior (S n) all Np R) as (Na & Ip & Va).
  split; [exact Na|]. split; [apply Ip; lia|]. split; [intros k r I; exact (Va _ I)|].
  destruct (recursive_grows L keep fuel met l prior n all Np R) as (rec & w & new & R' & _ & Rw & Ir & _ & _ & Cover). exists rec. split; [exact R'|]. split; [exact Ir|].
  intros k r I. destruct (Cover _ I) as [H|[H|H]]; [auto|auto|]. right. right.
  destruct (recursive_ok L keep fuel met l prior n rec Np R') as (Nr & _ & _).
  destruct (workload_valid L keep fuel w (extend rec prior) true _ new (extend_nodup' rec prior Nr) Rw) as [_ V]. destruct (V _ H) as [Hv Hk]. cbn [fst snd] in *.
  split; [exact Hv|]. split; intros X; apply Hk, extend_key'; auto.
Qed.
Print Assumptions C52_recursive.

(* For sizes from 3 there is a rule that is not in the prior and was not found for a
   smaller size (otherwise recursive_rules panics). *)
Theorem C52_recursive_learns : forall O C (L : lang O C) keep fuel met l prior n all, NoDup (map fst prior) -> 2 <= n ->
  recursive_rules L keep fuel met l prior (S n) all ->
  exists smaller k r, recursive_rules L keep fuel met l prior n smaller /\ In (k, r) all /\
    ~ In k (map fst smaller) /\ ~ In k (map fst prior) /\ l_validate L (rlhs r) (rrhs r) = Val Valid.
Proof.
  intros O C L keep fuel met l prior n all Np Hn R. destruct (recursive_grows L keep fuel met l prior n all Np R) as (rec & w & new & R' & _ & Rw & _ & _ & In' & _).
  destruct (recursive_ok L keep fuel met l prior n rec Np R') as (Nr & _ & _).
  destruct (workload_valid L keep fuel w (extend rec prior) true _ new (extend_nodup' rec prior Nr) Rw) as [_ V].
  destruct Rw as (g & c & cands & _ & _ & _ & _ & H). assert (Hf : Nat.ltb (S n) 3 = false) by (apply Nat.ltb_ge; lia). specialize (H Hf).
  destruct new as [|[k r] new]; [congruence|]. exists rec, k, r. destruct (V (k, r) (or_introl eq_refl)) as [Hv Hk]. cbn [fst snd] in *.
  split; [exact R'|]. split; [apply In'; now left|]. split; [|split; [|exact Hv]]; intros X; apply Hk, extend_key'; auto.
Qed.
Print Assumptions C52_recursive_learns.

(* The terms the step for size n looks at: those over the language that have a
   variable and are not larger.  None contains a placeholder. *)
Theorem C52_terms : forall met n l, plain_names l -> 2 <= length (w_ops l) ->
  exists w us, sized_workload met (S n) l = Val w /\ force w = Val us /\
    (forall u, In u us <-> lterm l true u /\ EnumSpec.size met u <= S n) /\
    (forall u s, In u us -> occurs s u -> ~ placeholder s).
Proof.
  intros met n l P H2. destruct (sized_terms met n l P H2) as (w & us & Ew & Ef & Iff). exists w, us.
  split; [exact Ew|]. split; [exact Ef|]. split; [exact Iff|]. intros u s Iu. apply Iff in Iu as [Lt _]. exact (lterm_plain l true u P Lt s).
Qed.
Print Assumptions C52_terms.

(* Size 0 gives no rules, not even the prior ones. *)
Theorem C52_zero_refuted : exists prior : ruleset bool_op, rs_new bool_from_op bool_name ["(~ (~ ?a)) ==> ?a"] = Val prior /\
  forall keep fuel met l all, recursive_rules bool_lang keep fuel met l prior 0 all -> ~ incl prior all.
Proof.
  eexists. split; [vm_compute; reflexivity|]. intros keep fuel met l all R X. inversion R; subst. exact (X _ (or_introl eq_refl)).
Qed.
Print Assumptions C52_zero_refuted.
(* With one list of operators the placeholder OP2 stays in the terms, and no rules
   are returned: the e-graph of the workload cannot be built. *)
Theorem C52_one_list_refuted : exists l w u, plain_names l /\ length (w_ops l) = 1 /\
  sized_workload Atoms 3 l = Val w /\ (exists us, force w = Val us /\ In u us /\ occurs "OP2" u) /\
  forall keep fuel prior all, ~ recursive_rules bool_lang keep fuel Atoms l prior 3 all.
Proof.
  exists (WLang [] ["a"] [["~"]]). eexists. exists (Lst [Atom "OP2"; Atom "a"; Atom "a"]). split; [|split; [reflexivity|split; [vm_compute; reflexivity|split]]].
  - intros x Hx. assert (x = "a" \/ x = "~") as X by (cbn in Hx; intuition auto). clear Hx. split.
    + destruct X as [->| ->]; repeat constructor; try discriminate.
    + intros [P|[P|[P|(i & P)]]]; destruct X as [->| ->]; discriminate P.
  - eexists. split; [vm_compute; reflexivity|]. split; [cbn; tauto|]. cbn; tauto.
  - intros keep fuel prior all R. inversion R as [|n rec w new R' Ew (g & c & cands & Eg & _)]; subst. vm_compute in Ew. injection Ew as <-.
    vm_compute in Eg. discriminate Eg.
Qed.
Print Assumptions C52_one_list_refuted.

(* One step for one variable, negation and conjunction, with a prior rule: the rules
   for (& a a) are found and the prior rule is kept. *)
Definition ex_lang : wlang := WLang [] ["a"] [["~"]; ["&"]].
Example C52_hyp : plain_names ex_lang /\ 2 <= length (w_ops ex_lang) /\
  exists prior all, rs_new bool_from_op bool_name ["(~ (~ ?a)) ==> ?a"] = Val prior /\ NoDup (map fst prior) /\
    recursive_rules bool_lang ex_keep 5 Lists ex_lang prior 1 all /\
    map fst all = ["?a ==> (& ?a ?a)"; "(& ?a ?a) ==> ?a"; "(~ (~ ?a)) ==> ?a"].
Proof.
  split; [|split; [cbn; lia|]].
  - intros x Hx. assert (x = "a" \/ x = "~" \/ x = "&") as X by (cbn in Hx; intuition auto). clear Hx. split.
    + destruct X as [->|[->| ->]]; repeat constructor; try discriminate.
    + intros [P|[P|[P|(i & P)]]]; destruct X as [->|[->| ->]]; discriminate P.
  - eexists. eexists. split; [vm_compute; reflexivity|]. split; [repeat constructor; cbn; tauto|]. split.
    + eapply RR_more; [apply RR_zero|vm_compute; reflexivity|].
      eexists. eexists. eexists. split; [vm_compute; reflexivity|]. split; [|split; [|split]].
      * exists (fun l => l). split; [intros X; apply Permutation_refl|]. eexists. split; [eexists; split; [eexists; apply RS_refl|vm_compute; reflexivity]|vm_compute; reflexivity].
      * exists [0; 1; 2], (fun l => l). split; [split; [vm_compute; apply Permutation_refl|intros X; apply Permutation_refl]|vm_compute; reflexivity].
      * exists (fun l => l). eexists. split; [intros X; apply Permutation_refl|]. eexists. split.
        eapply Rs_more; [|apply Rs_done]. eapply Round; [discriminate|vm_compute; reflexivity|].
        do 3 eexists. split; [vm_compute; reflexivity|]. split.
        { eexists. split; [eexists; split|]. eexists. eapply RS_step.
          - eapply (RSearch _ _ _ _ _ _ _ 1 [("a", 0)]); [right; left; reflexivity|]. split.
            + eexists. split; [reflexivity|]. apply PM_node with [0; 0].
              * repeat constructor; (eapply PM_var; [reflexivity|eqv_tac]).
              * exists (Node BAnd [0; 0]), 1. split; [cbn; tauto|]. split; [reflexivity|]. split; [repeat constructor; eqv_tac|eqv_tac].
            + repeat constructor.
          - eapply RS_step; [|apply RS_refl]. eapply RApply; [left; reflexivity|]. vm_compute. reflexivity.
          - vm_compute. reflexivity.
          - vm_compute. reflexivity. }
        { vm_compute. reflexivity. }
        { vm_compute. reflexivity. }
      * discriminate.
    + vm_compute. reflexivity.
Qed.
