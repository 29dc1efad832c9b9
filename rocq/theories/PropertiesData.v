(* Properties C29-C32 and C54: the data kept for an e-class, extraction cost,
   candidates.  Reference notions: AnalysisSpec.v and RuleSpec.v. *)
From Coq Require Import NArith ZArith Permutation.
From Verif Require Import Base BaseProofs Lang LangProofs Util Syntax Rule Ruleset RuleSpec BV BVSpec NatDom.
From Verif Require Import Analysis AnalysisSpec AnalysisProofs Generalize GeneralizeProofs DomainSpec.
Open Scope string_scope.
Open Scope list_scope.

(* ---------------- C29 ---------------- *)

(* Two signatures that can describe one value: some samples lie above both
   vectors and some value lies in both intervals.  The result is the least upper
   bound of the samples and the intersection of the intervals, its term is the
   cheaper one, and the two flags say exactly whether the result differs from
   either argument. *)
Theorem C29_merge : forall O C (allowed : O -> bool) (ceqb cleb : C -> C -> bool) receqb (to from : sig O C) ct cf,
  is_eqb ceqb -> is_eqb receqb -> total_order cleb ->
  compatible (sg_cvec to) (sg_cvec from) ->
  (exists x, in_itv cleb (sg_itv to) x /\ in_itv cleb (sg_itv from) x) ->
  cost_rec allowed (sg_simplest to) = Val ct -> cost_rec allowed (sg_simplest from) = Val cf ->
  exists s a b, merge allowed ceqb cleb receqb to from = Val (s, (a, b)) /\
    cjoin (sg_cvec to) (sg_cvec from) (sg_cvec s) /\
    (forall x, in_itv cleb (sg_itv s) x <-> in_itv cleb (sg_itv to) x /\ in_itv cleb (sg_itv from) x) /\
    sg_simplest s = (if N.ltb cf ct then sg_simplest from else sg_simplest to) /\
    (a = true <-> s <> to) /\ (b = true <-> s <> from).
Proof.
  intros O C allowed ceqb cleb receqb to from ct cf H1 H2 H3 H4 H5 H6 H7.
  destruct (merge_ok allowed ceqb cleb receqb H1 H2 H3 to from ct cf H4 H5 H6 H7) as (s & a & b & M & J & I1 & _ & S & A & B).
  exists s, a, b. auto 10.
Qed.
Print Assumptions C29_merge.

(* It panics exactly when a sample has two values or no value is in both
   intervals. *)
Theorem C29_merge_panics : forall O C (allowed : O -> bool) (ceqb cleb : C -> C -> bool) receqb (c0 : C) (to from : sig O C) ct cf,
  is_eqb ceqb -> is_eqb receqb -> total_order cleb ->
  length (sg_cvec to) = length (sg_cvec from) ->
  cost_rec allowed (sg_simplest to) = Val ct -> cost_rec allowed (sg_simplest from) = Val cf ->
  (merge allowed ceqb cleb receqb to from = Panic <->
   ~ compatible (sg_cvec to) (sg_cvec from) \/
   ~ exists x, in_itv cleb (sg_itv to) x /\ in_itv cleb (sg_itv from) x).
Proof.
  intros O C allowed ceqb cleb receqb c0 to from ct cf H1 H2 H3.
  exact (merge_panics allowed ceqb cleb receqb H1 H2 H3 c0 to from ct cf).
Qed.
Print Assumptions C29_merge_panics.

(* Merging any number of signatures that describe one value (samples below [w],
   value [x]) never panics, and the order does not matter: same samples, same
   interval, same cost. *)
Theorem C29_order_independent : forall O C (allowed : O -> bool) (ceqb cleb : C -> C -> bool) receqb w x (s : sig O C) l s' l',
  is_eqb ceqb -> is_eqb receqb -> total_order cleb ->
  Permutation (s :: l) (s' :: l') ->
  (forall y, In y (s :: l) -> cbelow (sg_cvec y) w /\ in_itv cleb (sg_itv y) x /\
     exists k, cost_rec allowed (sg_simplest y) = Val k) ->
  exists r r' k, merge_all allowed ceqb cleb receqb s l = Val r /\ merge_all allowed ceqb cleb receqb s' l' = Val r' /\
    sg_cvec r = sg_cvec r' /\ sg_itv r = sg_itv r' /\
    cost_rec allowed (sg_simplest r) = Val k /\ cost_rec allowed (sg_simplest r') = Val k.
Proof.
  intros O C allowed ceqb cleb receqb w x s l s' l' H1 H2 H3.
  exact (merge_all_order allowed ceqb cleb receqb H1 H2 H3 w x s l s' l').
Qed.
Print Assumptions C29_order_independent.

(* When exactly one side has no samples the flags are wrong: the result differs
   from [from] but the second flag is not set. *)
Definition ex_req (a b : recexpr nat) : bool := true.
Definition ex_sig (c : cvec nat) (o : nat) (lo hi : option nat) : sig nat nat := Sig c [Node o []] (Itv lo hi).
Theorem C29_flags_one_empty_refuted : exists (to from s : sig nat nat) a,
  merge (fun _ => true) Nat.eqb Nat.leb ex_req to from = Val (s, (a, false)) /\ s <> from.
Proof.
  exists (ex_sig [] 0 None None), (ex_sig [Some 1] 0 None None). eexists. eexists. split; [reflexivity|]. discriminate.
Qed.
Print Assumptions C29_flags_one_empty_refuted.

Definition rec_eqb (a b : recexpr nat) : bool :=
  if list_eq_dec (fun a b : node nat => ltac:(decide equality; [apply (list_eq_dec Nat.eq_dec)|apply Nat.eq_dec])) a b then true else false.
Lemma rec_eqb_ok : is_eqb rec_eqb.
Proof. intros a b. unfold rec_eqb. destruct (list_eq_dec _ a b); split; congruence. Qed.
Lemma nat_leb_order : total_order Nat.leb.
Proof.
  constructor; intros; repeat match goal with H : Nat.leb _ _ = true |- _ => apply Nat.leb_le in H end;
    rewrite ?Nat.leb_le; lia.
Qed.
Example C29_hyp :
  let s1 := ex_sig [Some 1; None; Some 3] 0 (Some 1) None in
  let s2 := Sig [None; Some 2; Some 3] [Node 0 []; Node 1 [0]] (Itv None (Some 7)) in
  is_eqb Nat.eqb /\ is_eqb rec_eqb /\ total_order Nat.leb /\
  compatible (sg_cvec s1) (sg_cvec s2) /\ in_itv Nat.leb (sg_itv s1) 5 /\ in_itv Nat.leb (sg_itv s2) 5 /\
  merge (fun _ => true) Nat.eqb Nat.leb rec_eqb s2 s1 =
    Val (Sig [Some 1; Some 2; Some 3] [Node 0 []] (Itv (Some 1) (Some 7)), (true, true)) /\
  merge (fun _ => true) Nat.eqb Nat.leb rec_eqb (ex_sig [Some 1] 0 None None) (ex_sig [Some 2] 0 None None) = Panic.
Proof.
  cbv zeta. split; [intros a b; apply Nat.eqb_eq|]. split; [exact rec_eqb_ok|]. split; [exact nat_leb_order|].
  split; [|repeat split].
  exists [Some 1; Some 2; Some 3]. split; repeat apply Forall2_cons; try apply Forall2_nil; unfold below; auto.
Qed.

(* ---------------- C30 ---------------- *)

(* The array stored for a new node is well formed and is the tree of the node
   applied to the trees stored for its children. *)
Theorem C30_simplest_is_the_node : forall O (is_leaf : O -> bool) simplest trees (n : node O),
  (is_leaf (nop n) = true -> nch n = []) ->
  (forall i, In i (nch n) -> tree (simplest i) = Val (trees i)) ->
  exists r, make_simplest is_leaf simplest n = Val r /\ tree r = Val (T (nop n) (map trees (nch n))).
Proof. intros O is_leaf simplest trees n. exact (make_simplest_spec is_leaf simplest trees n). Qed.
Print Assumptions C30_simplest_is_the_node.

Definition ex_simplest (i : nat) : recexpr string :=
  match i with 0 => [Node "x" []; Node "neg" [0]] | _ => [Node "y" []] end.
Example C30_hyp :
  make_simplest (fun _ => false) ex_simplest (Node "f" [0; 1; 0]) =
    Val [Node "x" []; Node "neg" [0]; Node "y" []; Node "f" [1; 2; 1]] /\
  tree [Node "x" []; Node "neg" [0]; Node "y" []; Node "f" [1; 2; 1]] =
    Val (T "f" [T "neg" [T "x" []]; T "y" []; T "neg" [T "x" []]]).
Proof. split; reflexivity. Qed.

(* ---------------- C31 ---------------- *)

Theorem C31_cost : forall O (allowed : O -> bool) r t, tree r = Val t ->
  exists k, cost_rec allowed r = Val k /\
    (all_allowed allowed t = true -> (tsize t < usize_max)%N -> k = tsize t) /\
    (k = usize_max <-> all_allowed allowed t = false \/ (usize_max <= tsize t)%N).
Proof.
  intros O allowed r t H. eexists. split; [exact (cost_spec allowed r t H)|].
  destruct (all_allowed allowed t).
  - split; [intros _ Hs; lia|]. split; [intros E; right; lia|intros [E|E]; [discriminate|lia]].
  - split; [discriminate|]. split; auto.
Qed.
Print Assumptions C31_cost.

(* Exactly the terms of allowed operators, of a size that fits, have a finite
   cost: this is the test for "may appear in a rule". *)
Theorem C31_finite_cost : forall O (allowed : O -> bool) r t k, tree r = Val t -> cost_rec allowed r = Val k ->
  ((k < usize_max)%N <-> all_allowed allowed t = true /\ (tsize t < usize_max)%N).
Proof.
  intros O allowed r t k Ht Hk. rewrite (cost_spec allowed r t Ht) in Hk. inversion Hk; subst k.
  destruct (all_allowed allowed t); split; try lia; try (intros [? ?]; lia || discriminate).
Qed.
Print Assumptions C31_finite_cost.

Example C31_hyp :
  let r := [Node "x" []; Node "neg" [0]; Node "f" [1; 1]] in
  tree r = Val (T "f" [T "neg" [T "x" []]; T "neg" [T "x" []]]) /\
  cost_rec (fun o => negb (String.eqb o "g")) r = Val 5%N /\
  cost_rec (fun o => negb (String.eqb o "x")) r = Val usize_max.
Proof. repeat split. Qed.

(* ---------------- C32 ---------------- *)

(* The sides of a candidate are the two terms under one renaming that is
   injective on their variables; nothing else changes. *)
Theorem C32_generalize : forall O (op_eqb : O -> O -> bool) to_var mk_var ar e1 t1 e2 t2,
  (forall a b, op_eqb a b = true -> a = b) -> (forall s, to_var (mk_var s) = Some s) ->
  (forall o, to_var o <> None -> ar o = 0) ->
  wf_rec ar e1 -> wf_rec ar e2 -> tree e1 = Val t1 -> tree e2 = Val t2 ->
  at_most 26 (tvars to_var t1 ++ tvars to_var t2) ->
  exists l m1 r m2 rho,
    generalize op_eqb to_var mk_var [] e1 = Val (l, m1) /\
    generalize op_eqb to_var mk_var m1 e2 = Val (r, m2) /\
    (forall s s', In s (tvars to_var t1 ++ tvars to_var t2) -> In s' (tvars to_var t1 ++ tvars to_var t2) ->
       rho s = rho s' -> s = s') /\
    tree l = Val (gen_term to_var rho t1) /\ tree r = Val (gen_term to_var rho t2).
Proof.
  intros O op_eqb to_var mk_var ar e1 t1 e2 t2 H1 H2 H3 W1 W2 T1 T2 Hm.
  destruct (generalize_pair op_eqb to_var mk_var H1 H2 ar H3 e1 t1 e2 t2 W1 W2 T1 T2 Hm)
    as (l & m1 & r & m2 & rho & G1 & G2 & Hi & _ & L & R & _).
  exists l, m1, r, m2, rho. auto.
Qed.
Print Assumptions C32_generalize.

(* With more than 26 distinct variables it panics. *)
Theorem C32_generalize_panics : forall O (op_eqb : O -> O -> bool) to_var mk_var ar e1 t1 e2 t2,
  (forall a b, op_eqb a b = true -> a = b) -> (forall s, to_var (mk_var s) = Some s) ->
  (forall o, to_var o <> None -> ar o = 0) ->
  wf_rec ar e1 -> wf_rec ar e2 -> tree e1 = Val t1 -> tree e2 = Val t2 ->
  ~ at_most 26 (tvars to_var t1 ++ tvars to_var t2) ->
  (let* (l, m1) := generalize op_eqb to_var mk_var [] e1 in generalize op_eqb to_var mk_var m1 e2) = Panic.
Proof.
  intros O op_eqb to_var mk_var ar e1 t1 e2 t2 H1 H2 H3.
  exact (generalize_pair_panics op_eqb to_var mk_var H1 H2 ar H3 e1 t1 e2 t2).
Qed.
Print Assumptions C32_generalize_panics.

(* Consequently both terms are instances of the two patterns under one
   substitution, so a rule that is right proves the pair it came from. *)
Theorem C32_terms_are_instances : forall O (to_var : O -> option string) mk_var ar rho t1 t2,
  (forall o, to_var o <> None -> ar o = 0) -> (forall o s, to_var o = Some s -> o = mk_var s) ->
  wf_term ar t1 -> wf_term ar t2 ->
  (forall s s', In s (tvars to_var t1 ++ tvars to_var t2) -> In s' (tvars to_var t1 ++ tvars to_var t2) ->
     rho s = rho s' -> s = s') ->
  exists sigma, psubst sigma (gen_term to_var rho t1) = t1 /\ psubst sigma (gen_term to_var rho t2) = t2.
Proof.
  intros O to_var mk_var ar rho t1 t2 H1 H2 W1 W2 Hi. eexists.
  split; apply (gen_psubst to_var mk_var ar H1 rho _ (tvars to_var t1 ++ tvars to_var t2)); auto;
    intros s Hs; apply in_app_iff; auto.
Qed.
Print Assumptions C32_terms_are_instances.

Definition nat_op_eqb (a b : nat_op) : bool :=
  match a, b with
  | NZ, NZ | NS, NS | NAdd, NAdd | NMul, NMul => true
  | NVar s, NVar s' => String.eqb s s'
  | _, _ => false
  end.
Lemma nat_op_eqb_ok a b : nat_op_eqb a b = true -> a = b.
Proof. destruct a, b; simpl; try discriminate; auto. intros H. apply String.eqb_eq in H. congruence. Qed.
Definition ex_e1 : recexpr nat_op := [Node (NVar "x") []; Node (NVar "y") []; Node NAdd [0; 1]; Node NMul [2; 0]].
Definition ex_e2 : recexpr nat_op := [Node (NVar "y") []; Node (NVar "x") []; Node NMul [0; 1]].
Example C32_hyp :
  wf_rec nat_arity ex_e1 /\ wf_rec nat_arity ex_e2 /\
  (let* (l, m) := generalize nat_op_eqb nat_to_var NVar [] ex_e1 in
   let* (r, _) := generalize nat_op_eqb nat_to_var NVar m ex_e2 in
   let* a := show_pat nat_name l in let* b := show_pat nat_name r in Val (a, b)) =
    Val ("(* (+ ?a ?b) ?a)", "(* ?b ?a)").
Proof. split; [repeat constructor|]. split; [repeat constructor|]. reflexivity. Qed.

(* ---------------- C54 ---------------- *)

(* The interval of a bitvector node: [c, c] for the literal c, no information
   for anything else; it contains the value of the node whatever the operands. *)
Theorem C54_bv_interval : forall w o args xs v env,
  with_vars bv_to_var env (bv_sem w) o xs = Val v ->
  exists i, bv_mk_interval o args = Val i /\ within N.le i v /\
    (forall c, o = VLit c -> i = Itv (Some c) (Some c)).
Proof.
  intros w o args xs v env Hv. destruct o as [| | | | | | | | | |c|s]; cbn [bv_mk_interval];
    try (exists full; split; [reflexivity|]; split; [split; intros ? E; discriminate E|intros ? E; discriminate E]).
  unfold mk_itv. rewrite N.leb_refl. eexists. split; [reflexivity|]. split.
  - destruct xs; [|discriminate Hv]. cbn in Hv. inversion Hv; subst. 
    split; intros ? E; inversion E; subst; apply N.le_refl.
  - intros c' E. inversion E; subst. reflexivity.
Qed.
Print Assumptions C54_bv_interval.

(* A constant found by the analysis of a node is the node's value. *)
Theorem C54_bv_folded_constant : forall w o args xs v env c,
  with_vars bv_to_var env (bv_sem w) o xs = Val v ->
  bv_mk_interval o args = Val (Itv (Some c) (Some c)) -> v = c.
Proof.
  intros w o args xs v env c Hv Hc. destruct (C54_bv_interval w o args xs v env Hv) as (i & E & [L H] & _).
  rewrite Hc in E. inversion E; subst i. specialize (L _ eq_refl). specialize (H _ eq_refl). lia.
Qed.
Print Assumptions C54_bv_folded_constant.

Example C54_hyp : bv_mk_interval (VLit 5) [] = Val (Itv (Some 5%N) (Some 5%N)) /\
  with_vars bv_to_var (fun _ => 0%N) (bv_sem 4) (VLit 5) [] = Val 5%N.
Proof. split; reflexivity. Qed.
