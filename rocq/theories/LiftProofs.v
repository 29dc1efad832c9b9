(* Exploratory rules of the binary positive and bitvector/boolean domains. *)
From Coq Require Import NArith ZArith.
From Verif Require Import Base BaseProofs Lang LangProofs Syntax Rule Ruleset RuleSpec.
From Verif Require Import BV BVSpec BVProofs NatDom PosDom BvBoolDom DomainSpec.
Open Scope string_scope.
Open Scope list_scope.

Lemma pos_exploratory_sound : exists m, pos_exploratory = Val m /\ length m = 6 /\
  Forall (fun e => rule_sound pos_to_var pos_sem (snd e) /\ fst e = rname (snd e)) m.
Proof.
  eexists. split; [vm_compute; reflexivity|]. split; [reflexivity|].
  repeat (apply Forall_cons || apply Forall_nil); (split; [|reflexivity]);
    intros genv env v H; cbn -[N.add N.mul] in H |- *; rewrite <- H; f_equal; ring.
Qed.

Lemma pos_nat_rules_sound : exists m, pos_nat_rules = Val m /\ length m = 12 /\
  Forall (fun e => rule_sound pos_to_var pos_sem (snd e) /\ fst e = rname (snd e)) m.
Proof.
  eexists. split; [vm_compute; reflexivity|]. split; [reflexivity|].
  repeat (apply Forall_cons || apply Forall_nil); (split; [|reflexivity]);
    intros genv env v H; cbn -[N.add N.mul] in H |- *; rewrite <- H; f_equal; ring.
Qed.

(* ---- bitvectors and booleans ---- *)
Lemma bb_exploratory_sound : exists m, bb_exploratory = Val m /\ length m = 9 /\
  Forall (fun e => fst e = rname (snd e) /\
    match rkind (snd e) with
    | KRhs => rule_sound bb_to_var bb_sem (snd e)
    | KGuard g => forall genv env v,
        (exists hi lo, env g = BV2 hi lo) ->
        pden bb_to_var bb_sem genv env (rlhs (snd e)) = Val v ->
        pden bb_to_var bb_sem genv env (rrhs (snd e)) = Val v
    | KPat => False
    end) m.
Proof.
  eexists. split; [vm_compute; reflexivity|]. split; [reflexivity|].
  repeat (apply Forall_cons || apply Forall_nil); (split; [reflexivity|]); cbn [snd rkind].
  1-8: intros genv env v H; unfold pden, fold_rec in H |- *; simpl in H |- *; destruct (env "a"); try discriminate H;
    try (destruct (env "b"); try discriminate H); simpl in H |- *; exact H.
  intros genv env v (hi & lo & E) H. unfold pden, fold_rec in H |- *. simpl in H |- *. rewrite E in H |- *. cbn. exact H.
Qed.

(* nodes that pass the guard denote bitvectors *)
Lemma bb_allowed_bv o args v (genv : string -> bbv) :
  (forall s, exists hi lo, genv s = BV2 hi lo) -> bb_allowed o = true ->
  with_vars bb_to_var genv bb_sem o args = Val v -> exists hi lo, v = BV2 hi lo.
Proof.
  intros Hg Ho H. unfold with_vars in H. destruct o; try discriminate Ho; simpl in H;
    try (inversion H; subst; solve [eauto]);
    repeat (destruct args as [|[]]; try discriminate H); simpl in H; try discriminate H;
    inversion H; subst; unfold bits2; eauto.
Qed.

(* the interpretation by bits is the one of the two-bit vectors *)
Lemma bb_bits a b : (a < 4)%N -> (b < 4)%N ->
  bb_sem XBand [bits2 a; bits2 b] = Val (bits2 (bv_and 2 a b)) /\
  bb_sem XBor [bits2 a; bits2 b] = Val (bits2 (bv_or 2 a b)) /\
  bb_sem XBxor [bits2 a; bits2 b] = Val (bits2 (bv_xor 2 a b)) /\
  bb_sem XBnot [bits2 a] = Val (bits2 (bv_not 2 a)).
Proof.
  intros Ha Hb. assert (1 <= 2 <= 128)%N as Hw by lia.
  destruct (bv_ops_Z 2 a b Hw Ha Hb) as (_ & _ & _ & _ & _ & _ & _ & Hn & H1 & H2 & H3).
  unfold bits2; cbn [bb_sem]. rewrite !Hn, !H1, !H2, !H3. repeat split; reflexivity.
Qed.

Lemma make_const_bits x y : bits2 (make_const x y) = BV2 x y /\ (make_const x y < 4)%N.
Proof. destruct x, y; split; reflexivity. Qed.

Lemma bool_const_in nodes b : bool_const nodes = Some b -> exists n, In n nodes /\ nop n = XLit b.
Proof.
  induction nodes as [|n r IH]; simpl; [discriminate|].
  destruct (nop n) eqn:E; intros H; try (destruct (IH H) as (m & Hm & Em); eauto; fail).
  inversion H; subst. eauto.
Qed.

(* a valuation of classes under which all nodes of a class have its value *)
Definition consistent (genv : string -> bbv) (class : nat -> list (node bb_op)) (val : nat -> bbv) : Prop :=
  forall i n, In n (class i) ->
    with_vars bb_to_var genv bb_sem (nop n) (map val (nch n)) = Val (val i).

Lemma bb_custom_modify_sound genv class val id c : consistent genv class val ->
  bb_custom_modify class id = Some c -> val id = bits2 c /\ (c < 4)%N.
Proof.
  intros Hc H. unfold bb_custom_modify in H. destruct (existsb _ _); [discriminate|].
  assert (forall nodes, incl nodes (class id) -> fold_make class nodes = Some c ->
    val id = bits2 c /\ (c < 4)%N) as G; [|apply (G (class id)); auto using incl_refl].
  clear H. induction nodes as [|n r IH]; simpl; intros Hin H; [discriminate|].
  assert (fold_make class r = Some c -> val id = bits2 c /\ (c < 4)%N) as Hr
    by (intros; apply IH; auto; intros x Hx; apply Hin; simpl; auto).
  pose proof (Hc id n (Hin n (or_introl eq_refl))) as Hn.
  destruct (nop n) eqn:E; auto. destruct (nch n) as [|i [|j [|? ?]]]; auto.
  destruct (bool_const (class i)) as [x|] eqn:Ex; auto.
  destruct (bool_const (class j)) as [y|] eqn:Ey; auto.
  inversion H; subst c.
  apply bool_const_in in Ex as (nx & Ix & Ox). apply bool_const_in in Ey as (ny & Iy & Oy).
  pose proof (Hc i nx Ix) as Hx. pose proof (Hc j ny Iy) as Hy. rewrite Ox in Hx. rewrite Oy in Hy.
  cbn in Hx, Hy, Hn. destruct (map val (nch nx)); [|discriminate]. destruct (map val (nch ny)); [|discriminate].
  inversion Hx as [Vx]. inversion Hy as [Vy]. rewrite <- Vx, <- Vy in Hn. cbn in Hn. inversion Hn.
  destruct (make_const_bits x y) as [-> ?]. auto.
Qed.
