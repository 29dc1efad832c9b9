(* The exponential recipe keeps its starting rules, and learns no rule again. *)
From Coq Require Import NArith.
From Verif Require Import Base BaseProofs Lang Syntax Rule Ruleset Workload Egraph Synth Match Minimize Infer InferProofs Domains Exp Recipes.
Open Scope string_scope.
Open Scope list_scope.

Lemma names_in : forall O (m : ruleset O) e, In e m -> In (fst e) (map fst m).
Proof. intros. now apply in_map. Qed.
Section Kept.
  Variable rational starting : ruleset exp_op.
  Definition fresh (e : string * rule exp_op) : Prop := ~ In (fst e) (map fst rational) /\ ~ In (fst e) (map fst starting).
  Definition kept_state (s : ruleset exp_op * ruleset exp_op) : Prop :=
    NoDup (map fst (fst s)) /\ NoDup (map fst (snd s)) /\
    (forall k, In k (map fst rational) \/ In k (map fst starting) \/ In k (map fst (snd s)) -> In k (map fst (fst s))) /\
    incl starting (snd s) /\ forall e, In e (snd s) -> In e starting \/ fresh e.
  Lemma kept_layer : forall wl ex s s', exp_layer wl ex s s' -> kept_state s -> kept_state s'.
  Proof.
    intros wl ex s s' (w & r & _ & (keep & fuel & R) & ->) (Np & Ns & K & I & F). destruct (forwarding_valid exp_lang keep fuel _ _ _ _ Np R) as [Nr V].
    assert (Fr : forall e, In e r -> ~ In (fst e) (map fst (fst s))) by (intros e J; exact (proj2 (V e J))).
    unfold kept_state. cbn [fst snd]. split; [now apply extend_nodup'|]. split; [now apply extend_nodup'|]. split; [|split].
    - intros k H. rewrite extend_key'. destruct H as [H|[H|H]]; [left; apply K; auto|left; apply K; auto|]. rewrite extend_key' in H. destruct H as [H|H]; [left; apply K; auto|now right].
    - intros e J. apply extend_keeps; auto. intros X. apply in_map_iff in X as (e' & Ek & I'). apply (Fr e' I'). apply K. right; left. rewrite Ek. now apply names_in.
    - intros e J. apply extend_in' in J as [J|J]; [auto|]. right. split; intros X; apply (Fr e J); apply K; auto.
  Qed.
End Kept.
Theorem exp_kept : forall new rational starting, exponential_rules new -> exp_rational = Val rational -> exp_starting = Val starting ->
  incl starting new /\ forall e, In e new -> In e starting \/ ~ In (fst e) (map fst rational) /\ ~ In (fst e) (map fst starting).
Proof.
  intros new rational starting (r0 & s0 & ex & Er & Es & Ex & s1 & s2 & s3 & s4 & s5 & s6 & H1 & H2 & H3 & H4 & H5 & H6 & ->) E1 E2. rewrite E1 in Er. rewrite E2 in Es. injection Er as <-. injection Es as <-.
  assert (Nd : forall m, exp_rational = Val m \/ exp_starting = Val m -> NoDup (map fst m)).
  { intros m [E|E].
    - assert (X : match exp_rational with Val m => nodup string_dec (map fst m) = map fst m | Panic => False end) by (vm_compute; reflexivity). rewrite E in X. rewrite <- X. apply NoDup_nodup.
    - assert (X : match exp_starting with Val m => nodup string_dec (map fst m) = map fst m | Panic => False end) by (vm_compute; reflexivity). rewrite E in X. rewrite <- X. apply NoDup_nodup. }
  assert (K0 : kept_state rational starting (extend rational starting, extend [] starting)).
  { unfold kept_state. cbn [fst snd]. split; [apply extend_nodup'; auto|]. split; [apply extend_nodup'; constructor|]. split; [|split].
    - intros k H. rewrite extend_key'. rewrite (extend_key' starting []) in H. cbn in H. tauto.
    - intros e J. apply extend_has; auto. constructor.
    - intros e J. apply extend_in' in J as [[]|J]. now left. }
  destruct (kept_layer rational starting _ _ _ _ H6 (kept_layer _ _ _ _ _ _ H5 (kept_layer _ _ _ _ _ _ H4 (kept_layer _ _ _ _ _ _ H3 (kept_layer _ _ _ _ _ _ H2 (kept_layer _ _ _ _ _ _ H1 K0)))))) as (_ & _ & _ & I & F).
  split; [exact I|]. intros e J. destruct (F e J) as [G|G]; [now left|right; exact G].
Qed.
