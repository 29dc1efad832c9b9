(* Bitvectors, Halide and Pos know literals only (CalmSpec.v). *)
From Coq Require Import NArith ZArith.
From Verif Require Import Base BaseProofs Lang Util BV BVText PosDom Halide Syntax Rule Ruleset Analysis Egraph EgraphSpec Synth Sched SynthSpec
  Domains DomainAlg CalmSpec.
Open Scope list_scope.

Lemma no_links_nil : forall O C (r : res (nat * list (string * cvec C))) n vs v c (ts : list (recexpr O)),
  no_links r = Val (n, vs) -> In (v, c, ts) vs -> ts = [].
Proof.
  intros O C r n vs v c ts H I. unfold no_links in H. destruct r as [[m l]|]; [|discriminate H]. cbn in H. inversion H; subst.
  apply in_map_iff in I as (x & E & _). now inversion E.
Qed.

Ltac from_op_tac := intros s n o H;
  repeat match type of H with context [if ?b && Nat.eqb n ?k then _ else _] =>
    destruct (b && Nat.eqb n k) eqn:?; [inversion H; subst; match goal with Q : _ && _ = true |- _ => apply andb_true_iff in Q as [_ Q]; apply Nat.eqb_eq in Q; now subst end|] end.

Lemma bv_from_op_arity : forall w s n o, bv_from_op w s n = Some o -> bv_arity o = n.
Proof.
  intros w. unfold bv_from_op. from_op_tac.
  destruct (Nat.eqb_spec n 0) as [->|]; [|discriminate H]. destruct (parse_bv w s); inversion H; reflexivity.
Qed.
Lemma pos_from_op_arity : forall s n o, pos_from_op s n = Some o -> pos_arity o = n.
Proof. unfold pos_from_op. from_op_tac. destruct (Nat.eqb_spec n 0) as [->|]; [|discriminate H]. now inversion H. Qed.
Lemma hal_from_op_arity : forall s n o, hal_from_op s n = Some o -> hal_arity o = n.
Proof.
  intros s n o. unfold hal_from_op. destruct (if Nat.eqb n 0 then Number.parse_i64 s else None) as [z|] eqn:E.
  - destruct (Nat.eqb_spec n 0) as [->|]; [|discriminate E]. intros H. now inversion H.
  - clear E. revert s n o. from_op_tac. destruct (Nat.eqb_spec n 0) as [->|]; [|discriminate H]. now inversion H.
Qed.

Lemma bv_literal_only : forall w check, literal_only (bv_lang w check) bv_arity.
Proof.
  intros w check. constructor; cbn.
  - exact bv_eqb_eq.
  - intros o is i H. destruct o; cbn in H; try (inversion H; now left). right. exists c. unfold mk_itv in H. rewrite N.leb_refl in H. inversion H. auto.
  - intros a b H1 H2. apply N.leb_le in H1, H2. now apply N.le_antisymm.
  - reflexivity.
  - intros vars n vs v c ts. apply no_links_nil.
  - reflexivity.
  - apply bv_from_op_arity.
Qed.
Lemma hal_literal_only : forall check, literal_only (hal_lang check) hal_arity.
Proof.
  intros check. constructor; cbn.
  - exact hal_eqb_eq.
  - intros o is i H. inversion H. now left.
  - intros a b H1 H2. apply Z.leb_le in H1, H2. now apply Z.le_antisymm.
  - reflexivity.
  - intros vars n vs v c ts. apply no_links_nil.
  - reflexivity.
  - apply hal_from_op_arity.
Qed.
Lemma pos_literal_only : forall depth, literal_only (pos_lang depth) pos_arity.
Proof.
  intros depth. constructor; cbn.
  - exact pos_op_eqb_eq.
  - intros o is i H. inversion H. now left.
  - intros a b H1 H2. apply N.leb_le in H1, H2. now apply N.le_antisymm.
  - reflexivity.
  - intros vars n vs v c ts H I. inversion H; subst. destruct I.
  - reflexivity.
  - apply pos_from_op_arity.
Qed.
