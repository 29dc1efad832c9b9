(* What the sized tests learned from some sizes, they keep. *)
From Coq Require Import NArith.
From Verif Require Import Base BaseProofs Lang Syntax Rule Ruleset NatDom PosDom BoolDom Workload Egraph Synth Match Minimize MinimizeLoop Infer InferProofs Domains LearntSpec LearntProofs Recipes SizedTests SizedSpec SizedProofs SizedDomains SizedFinish.
Open Scope string_scope.
Open Scope list_scope.

(* a step that chooses no rule that is there already *)
Definition adds {O} (step : workload -> ruleset O -> ruleset O -> Prop) : Prop :=
  forall w prior new, NoDup (map fst prior) -> step w prior new -> NoDup (map fst new) /\ forall e, In e new -> ~ In (fst e) (map fst prior).
Lemma climb_keeps : forall O (step : workload -> ruleset O -> ruleset O -> Prop) iter, adds step -> forall ns all final, NoDup (map fst all) -> climb step iter ns all final -> NoDup (map fst final) /\ incl all final.
Proof.
  intros O step iter Ad. induction ns as [|n ns IH]; intros all final N H; cbn [climb] in H; [subst; split; [exact N|apply incl_refl]|].
  destruct H as (w & new & _ & St & H). destruct (Ad w all new N St) as [Nn D]. destruct (IH _ _ (extend_nodup' all new N) H) as [Nf I]. split; [exact Nf|].
  intros e J. apply I. apply extend_keeps; auto. intros K. apply in_map_iff in K as (e' & Ek & I'). apply (D e' I'). rewrite Ek. now apply in_map.
Qed.
Lemma climb_app : forall O (step : workload -> ruleset O -> ruleset O -> Prop) iter ns ms all final, climb step iter (ns ++ ms) all final <-> exists mid, climb step iter ns all mid /\ climb step iter ms mid final.
Proof.
  intros O step iter. induction ns as [|n ns IH]; intros ms all final; cbn [climb app].
  - split; [intros H; eauto|intros (mid & -> & H); exact H].
  - split.
    + intros (w & new & Ew & St & H). apply IH in H as (mid & H1 & H2). exists mid. split; [|exact H2]. exists w, new. auto.
    + intros (mid & (w & new & Ew & St & H1) & H2). exists w, new. split; [exact Ew|]. split; [exact St|]. apply IH. eauto.
Qed.
Lemma climb_splits : forall O (step : workload -> ruleset O -> ruleset O -> Prop) iter, adds step -> forall ns ms all final, NoDup (map fst all) -> climb step iter (ns ++ ms) all final ->
  exists mid, climb step iter ns all mid /\ incl mid final.
Proof.
  intros O step iter Ad ns ms all final N H. apply climb_app in H as (mid & H1 & H2). exists mid. split; [exact H1|].
  destruct (climb_keeps _ _ _ Ad _ _ _ N H1) as [Nm _]. exact (proj2 (climb_keeps _ _ _ Ad _ _ _ Nm H2)).
Qed.
Lemma learned_adds : forall O C (L : lang O C), adds (fun w p new => learned L w p false new).
Proof. intros O C L w prior new N (keep & fuel & R). destruct (workload_valid L keep fuel _ _ _ _ _ N R) as [Nn V]. split; [exact Nn|]. intros e J. exact (proj2 (V e J)). Qed.
Lemma by_hand_adds : forall O C (L : lang O C), adds (by_hand L).
Proof. intros O C L w prior new N H. apply by_hand_internal in H as (keep & fuel & R). destruct (workload_valid L keep fuel _ _ _ _ _ N R) as [Nn V]. split; [exact Nn|]. intros e J. exact (proj2 (V e J)). Qed.
Lemma forwarded_adds : forall O C (L : lang O C) ex, adds (fun w p new => forwarded L ex w p new).
Proof. intros O C L ex w prior new N (keep & fuel & R). destruct (forwarding_valid L keep fuel _ _ _ _ N R) as [Nn V]. split; [exact Nn|]. intros e J. exact (proj2 (V e J)). Qed.

Theorem sized_kept : forall ns ms,
  (forall all, bool_dsl (ns ++ ms) all -> exists mid, bool_dsl ns mid /\ incl mid all) /\
  (forall all, bool_simple (ns ++ ms) all -> exists mid, bool_simple ns mid /\ incl mid all) /\
  (forall depth rng check all, nat_simple depth rng check (ns ++ ms) all -> exists mid, nat_simple depth rng check ns mid /\ incl mid all) /\
  (forall depth all, pos_lifting depth (ns ++ ms) all -> exists mid, pos_lifting depth ns mid /\ incl mid all).
Proof.
  intros ns ms. split; [|split; [|split]].
  - intros all H. exact (climb_splits _ _ _ (by_hand_adds _ _ _) _ _ [] _ (NoDup_nil _) H).
  - intros all H. exact (climb_splits _ _ _ (learned_adds _ _ _) _ _ [] _ (NoDup_nil _) H).
  - intros depth rng check all H. exact (climb_splits _ _ _ (learned_adds _ _ _) _ _ [] _ (NoDup_nil _) H).
  - intros depth all (ex & prior & Ex & Ep & H). destruct (climb_splits _ _ _ (forwarded_adds _ _ _ ex) _ _ _ _ (proj1 (pos_start_good depth _ Ep)) H) as (mid & H1 & I).
    exists mid. split; [|exact I]. exists ex, prior. auto.
Qed.
Theorem given_kept : forall depth ns all given, pos_lifting depth ns all -> pos_nat_rules = Val given -> incl given all.
Proof.
  intros depth ns all given (ex & prior & Ex & Ep & H) Eg. rewrite Eg in Ep. injection Ep as <-.
  destruct (climb_keeps _ _ _ (forwarded_adds _ _ _ ex) _ _ _ (proj1 (pos_start_good depth _ Eg)) H) as [_ I]. intros e J. apply I. apply extend_has; [constructor| |exact J].
  assert (X : match pos_nat_rules with Val m => nodup string_dec (map fst m) = map fst m | Panic => False end) by (vm_compute; reflexivity). rewrite Eg in X. rewrite <- X. apply NoDup_nodup.
Qed.

Lemma climb_one : forall O (step : workload -> ruleset O -> ruleset O -> Prop) iter, adds step -> forall all ns n final, NoDup (map fst all) -> climb step iter (ns ++ [n]) all final ->
  exists w mid new, iter n = Val w /\ climb step iter ns all mid /\ step w mid new /\ forall e, In e final <-> In e mid \/ In e new.
Proof.
  intros O step iter Ad all ns n final N H. apply climb_app in H as (mid & H1 & (w & new & Ew & St & ->)). exists w, mid, new. split; [exact Ew|]. split; [exact H1|]. split; [exact St|].
  destruct (climb_keeps _ _ _ Ad _ _ _ N H1) as [Nm _]. destruct (Ad w mid new Nm St) as [Nn D].
  intros e. split; [apply extend_in'|]. intros [J|J]; [|now apply extend_has]. apply extend_keeps; auto. intros K. apply in_map_iff in K as (e' & Ek & I'). apply (D e' I'). rewrite Ek. now apply in_map.
Qed.
Theorem sized_account :
  one_more bool_dsl iter_bool (by_hand bool_lang) /\
  one_more bool_simple iter_bool (fun w p new => learned bool_lang w p false new) /\
  (forall depth rng check, one_more (nat_simple depth rng check) iter_nat (fun w p new => learned (nat_lang depth rng check) w p false new)) /\
  (forall depth ex, pos_exploratory = Val ex -> one_more (pos_lifting depth) iter_pos (fun w p new => forwarded (pos_lang depth) ex w p new)).
Proof.
  split; [|split; [|split]].
  - intros ns n all H. exact (climb_one _ _ _ (by_hand_adds _ _ _) [] _ _ _ (NoDup_nil _) H).
  - intros ns n all H. exact (climb_one _ _ _ (learned_adds _ _ _) [] _ _ _ (NoDup_nil _) H).
  - intros depth rng check ns n all H. exact (climb_one _ _ _ (learned_adds _ _ _) [] _ _ _ (NoDup_nil _) H).
  - intros depth ex Ex ns n all (ex' & prior & Ex' & Ep & H). rewrite Ex in Ex'. injection Ex' as <-.
    destruct (climb_one _ _ _ (forwarded_adds _ _ _ ex) _ _ _ _ (proj1 (pos_start_good depth _ Ep)) H) as (w & mid & new & Ew & H1 & R & S).
    exists w, mid, new. split; [exact Ew|]. split; [|split; [exact R|exact S]]. exists ex, prior. auto.
Qed.
