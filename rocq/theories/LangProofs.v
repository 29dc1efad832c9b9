(* Facts about RecExprs, trees and characteristic vectors. *)
From Verif Require Import Base BaseProofs Lang.

Section TermInd.
  Context {O : Type}.
  Variable P : term O -> Prop.
  Hypothesis H : forall o ts, Forall P ts -> P (T o ts).
  Fixpoint term_ind' (t : term O) : P t :=
    match t with
    | T o ts => H o ts ((fix go (l : list (term O)) : Forall P l :=
        match l with
        | [] => Forall_nil P
        | t :: r => Forall_cons t (term_ind' t) (go r)
        end) ts)
    end.
End TermInd.

Lemma index_val {A} (l : list A) i a : index l i = Val a <-> nth_error l i = Some a.
Proof. unfold index. destruct (nth_error l i); split; congruence. Qed.

(* run_buf computed with [f] follows the trees computed alongside *)
Lemma run_buf_tree {O A} (f : O -> list A -> res A) r :
  forall bt ba ts xs,
    Forall2 (fun t a => fold_term f t = Val a) bt ba ->
    run_buf (fun o l => Val (T o l)) r bt = Val ts ->
    run_buf f r ba = Val xs ->
    Forall2 (fun t a => fold_term f t = Val a) ts xs.
Proof.
  induction r as [|n r IH]; simpl; intros bt ba ts xs Hb Ht Hx.
  - congruence.
  - apply rbind_val in Ht as (targs & Ht1 & Ht2). simpl in Ht2.
    apply rbind_val in Hx as (args & Hx1 & Hx2).
    apply rbind_val in Hx2 as (v & Hx2 & Hx3).
    eapply IH; [|exact Ht2|exact Hx3].
    apply Forall2_app; [exact Hb|]. constructor; [|constructor].
    simpl. assert (rmapM (fold_term f) targs = Val args) as ->; [|exact Hx2].
    apply rmapM_val. apply rmapM_val in Ht1. apply rmapM_val in Hx1.
    clear - Hb Ht1 Hx1. revert targs args Ht1 Hx1.
    induction (nch n) as [|i l IH]; intros targs args Ht Hx;
      inversion Ht as [|? t ? ts' E1 R1]; inversion Hx as [|? a ? as' E2 R2]; subst;
      constructor; auto.
    apply index_val in E1. apply index_val in E2.
    clear - Hb E1 E2. revert i E1 E2.
    induction Hb as [|t0 a0 bt ba H0 Hb IH]; intros [|i] E1 E2; simpl in *; try discriminate.
    + congruence.
    + eauto.
Qed.

Lemma pop_rel {A B} (R : A -> B -> Prop) l l' a b :
  Forall2 R l l' -> pop_unwrap l = Val a -> pop_unwrap l' = Val b -> R a b.
Proof.
  unfold pop_unwrap. intros HR Ha Hb.
  assert (Forall2 R (rev l) (rev l')) as HR'.
  { clear Ha Hb. induction HR; simpl; [constructor|]. apply Forall2_app; auto. }
  destruct HR'; congruence.
Qed.

(* evaluating the array and evaluating the tree agree *)
Lemma fold_rec_tree {O A} (f : O -> list A -> res A) r t a :
  tree r = Val t -> fold_rec f r = Val a -> fold_term f t = Val a.
Proof.
  unfold tree, fold_rec. intros Ht Ha.
  apply rbind_val in Ht as (bt & Ht1 & Ht2). apply rbind_val in Ha as (ba & Ha1 & Ha2).
  refine (pop_rel _ _ _ _ _ (run_buf_tree f r [] [] bt ba (Forall2_nil _) Ht1 Ha1) Ht2 Ha2).
Qed.

Lemma run_buf_has_tree {O A} (f : O -> list A -> res A) r : forall bt ba xs,
  length bt = length ba -> run_buf f r ba = Val xs ->
  exists ts, run_buf (fun o l => Val (T o l)) r bt = Val ts /\ length ts = length xs.
Proof.
  induction r as [|n r IH]; simpl; intros bt ba xs Hl Hx.
  - inversion Hx; subst. eauto.
  - apply rbind_val in Hx as (args & Hx1 & Hx2).
    apply rbind_val in Hx2 as (v & Hx2 & Hx3).
    assert (exists targs, rmapM (index bt) (nch n) = Val targs) as (targs & ->).
    { apply rmapM_val in Hx1. clear - Hl Hx1. induction Hx1 as [|i a l l' E _ IH]; simpl; [eauto|].
      destruct IH as (targs & IH). apply index_val in E.
      assert (i < length bt) as Hi by (rewrite Hl; apply nth_error_Some; congruence).
      apply nth_error_Some in Hi. unfold index at 1. destruct (nth_error bt i); [|congruence].
      simpl. rewrite IH. simpl. eauto. }
    simpl. eapply IH; [|exact Hx3]. rewrite !app_length; simpl; lia.
Qed.

(* whenever the loop returns, the array has a tree *)
Lemma fold_rec_has_tree {O A} (f : O -> list A -> res A) r a :
  fold_rec f r = Val a -> exists t, tree r = Val t.
Proof.
  unfold tree, fold_rec. intros H. apply rbind_val in H as (xs & H1 & H2).
  destruct (run_buf_has_tree f r [] [] xs eq_refl H1) as (ts & -> & Hl). simpl.
  unfold pop_unwrap in *. destruct (rev ts) as [|t l] eqn:E; [|eauto].
  apply (f_equal (@length _)) in E. rewrite rev_length in E. simpl in E.
  destruct (rev xs) eqn:E'; [discriminate|].
  apply (f_equal (@length _)) in E'. rewrite rev_length in E'. simpl in E'. lia.
Qed.

(* a term all of whose nodes have an accepted number of children *)
Inductive wf_term {O} (ar : O -> nat) : term O -> Prop :=
| wf_T o ts : length ts = ar o -> Forall (wf_term ar) ts -> wf_term ar (T o ts).

(* [f] is defined on correct arities and preserves [P] *)
Lemma fold_term_total {O A} (ar : O -> nat) (f : O -> list A -> res A) (P : A -> Prop) t :
  (forall o args, length args = ar o -> Forall P args -> exists a, f o args = Val a /\ P a) ->
  wf_term ar t -> exists a, fold_term f t = Val a /\ P a.
Proof.
  intros Hf. induction t as [o ts IH] using term_ind'. intros Hw. inversion Hw as [? ? Hl Hts]; subst.
  assert (exists args, rmapM (fold_term f) ts = Val args /\ Forall P args /\ length args = length ts)
    as (args & E & HP & Hla).
  { clear Hl Hw. induction ts as [|t ts IHts]; simpl; [exists []; auto|].
    inversion IH as [|? ? H1 H2]; inversion Hts as [|? ? H3 H4]; subst.
    destruct (H1 H3) as (a & -> & Ha). destruct (IHts H2 H4) as (args & -> & HP & Hl). simpl.
    exists (a :: args); simpl; auto. }
  simpl. rewrite E. simpl. apply Hf; [congruence|exact HP].
Qed.

(* ---- characteristic vectors, sample by sample ---- *)

(* value of a term for one assignment, given the value of each operator *)
Definition point {O C} (sem : O -> list (option C) -> res (option C))
    (to_var : O -> option string) (env : string -> option C) (t : term O) : res (option C) :=
  fold_term (with_vars to_var env sem) t.

Lemma map1_nth {C} (f : C -> option C) a r :
  nth r (map1 f a) None = match nth r a None with Some x => f x | None => None end.
Proof. revert r; induction a as [|x a IH]; intros [|r]; simpl; auto. Qed.

Lemma map2_nth {C} (f : C -> C -> option C) a b r :
  nth r (map2 f a b) None =
  match nth r a None, nth r b None with Some x, Some y => f x y | _, _ => None end.
Proof.
  unfold map2. revert b r; induction a as [|x a IH]; intros [|y b] [|r]; simpl; auto.
  - destruct x; reflexivity.
  - destruct (nth r a None); reflexivity.
Qed.

Lemma map3_nth {C} (f : C -> C -> C -> option C) a b c r :
  nth r (map3 f a b c) None =
  match nth r a None, nth r b None, nth r c None with
  | Some x, Some y, Some z => f x y z | _, _, _ => None end.
Proof.
  unfold map3. revert b c r; induction a as [|x a IH]; intros [|y b] [|z c] [|r]; simpl; auto;
    try (destruct x; reflexivity); try (destruct x, y; reflexivity);
    repeat match goal with |- context [nth r ?l None] => destruct (nth r l None) end; reflexivity.
Qed.

Lemma map1_length {C} (f : C -> option C) a : length (map1 f a) = length a.
Proof. apply map_length. Qed.
Lemma map2_length {C} (f : C -> C -> option C) a b n :
  length a = n -> length b = n -> length (map2 f a b) = n.
Proof. intros. unfold map2. rewrite map_length, combine_length. lia. Qed.
Lemma map3_length {C} (f : C -> C -> C -> option C) a b c n :
  length a = n -> length b = n -> length c = n -> length (map3 f a b c) = n.
Proof. intros. unfold map3. rewrite map_length, !combine_length. lia. Qed.

Lemma nth_repeat_lt {A} (a d : A) n r : r < n -> nth r (repeat a n) d = a.
Proof. revert r; induction n; intros [|r] H; simpl; try lia; auto. apply IHn; lia. Qed.

(* the interpreter of a node computes [sem] at every sample *)
Definition pointwise {O C} (ar : O -> nat) (to_var : O -> option string)
    (eval : nat -> O -> list (cvec C) -> res (cvec C))
    (sem : O -> list (option C) -> res (option C)) : Prop :=
  forall n o args, to_var o = None -> length args = ar o ->
    Forall (fun a => length a = n) args ->
    exists c, eval n o args = Val c /\ length c = n /\
      forall r, r < n -> sem o (map (fun a => nth r a None) args) = Val (nth r c None).

Lemma cvec_pointwise {O C} (ar : O -> nat) to_var eval
    (sem : O -> list (option C) -> res (option C)) n (vc : string -> cvec C) t :
  pointwise ar to_var eval sem ->
  (forall s, In s (tvars to_var t) -> length (vc s) = n) -> wf_term ar t ->
  exists c, cvec_term eval to_var n vc t = Val c /\ length c = n /\
    forall r, r < n -> point sem to_var (fun s => nth r (vc s) None) t = Val (nth r c None).
Proof.
  intros Hp. unfold cvec_term, point.
  induction t as [o ts IH] using term_ind'. intros Hv Hw. inversion Hw as [? ? Hl Hts]; subst.
  set (F1 := @with_vars O (cvec C) to_var vc (eval n)) in *.
  set (F2 := fun r => with_vars to_var (fun s => nth r (vc s) None) sem).
  assert (exists args, rmapM (fold_term F1) ts = Val args /\
    Forall (fun a => length a = n) args /\ length args = length ts /\
    forall r, r < n -> rmapM (fold_term (F2 r)) ts = Val (map (fun a => nth r a None) args))
    as (args & E1 & E2 & E3 & E4).
  { assert (forall s, In s (flat_map (tvars to_var) ts) -> length (vc s) = n) as Hv'
      by (intros s Hs; apply Hv; simpl; apply in_or_app; auto).
    clear Hl Hw Hv. induction ts as [|t ts IHts].
    - exists []. simpl. auto.
    - inversion IH as [|? ? I1 I2]; inversion Hts as [|? ? W1 W2]; subst. simpl in Hv'.
      destruct I1 as (c & C1 & C2 & C3); [intros; apply Hv', in_or_app; auto|exact W1|]. fold F1 in C1.
      destruct (IHts I2 W2 (fun s Hs => Hv' s (in_or_app _ _ _ (or_intror Hs)))) as (args & A1 & A2 & A3 & A4).
      exists (c :: args). simpl. rewrite C1, A1. simpl. repeat split; auto.
      intros r Hr. specialize (C3 r Hr). fold (F2 r) in C3. rewrite C3, (A4 r Hr). reflexivity. }
  cbn [fold_term]. rewrite E1. cbn [rbind]. unfold F1, with_vars at 1. destruct (to_var o) as [s|] eqn:Eo.
  - exists (vc s). split; [reflexivity|]. split; [apply Hv; simpl; rewrite Eo; left; reflexivity|].
    intros r Hr. fold (F2 r). rewrite (E4 r Hr).
    cbn [rbind]. unfold F2, with_vars. rewrite Eo. reflexivity.
  - destruct (Hp n o args Eo (eq_trans E3 Hl) E2) as (c & C1 & C2 & C3).
    exists c. repeat split; auto. intros r Hr. fold (F2 r). rewrite (E4 r Hr).
    cbn [rbind]. unfold F2, with_vars. rewrite Eo. auto.
Qed.

(* vectors of equal length are equal when they agree at every sample *)
Lemma cvec_ext {C} (a b : cvec C) : length a = length b ->
  (forall r, r < length a -> nth r a None = nth r b None) -> a = b.
Proof. intros H1 H2. apply (nth_ext a b None None); auto. Qed.

(* every operator of a term satisfies P *)
Inductive tall {O} (P : O -> Prop) : term O -> Prop :=
| tall_T o ts : P o -> Forall (tall P) ts -> tall P (T o ts).

Lemma run_buf_tall {O} (P : O -> Prop) r : forall buf ts,
  (forall n, In n r -> P (nop n)) -> Forall (tall P) buf ->
  run_buf (fun o l => Val (T o l)) r buf = Val ts -> Forall (tall P) ts.
Proof.
  induction r as [|n r IH]; simpl; intros buf ts Hr Hb H.
  - congruence.
  - apply rbind_val in H as (args & H1 & H2). simpl in H2.
    eapply IH; [| |exact H2]; [auto|]. apply Forall_app. split; [assumption|].
    constructor; [|constructor]. constructor; [auto|].
    apply rmapM_val in H1. clear - Hb H1.
    induction H1 as [|i a l l' E _ IH]; constructor; auto.
    apply index_val in E. apply nth_error_In in E. rewrite Forall_forall in Hb. auto.
Qed.

Lemma tree_tall {O} (P : O -> Prop) r t :
  (forall n, In n r -> P (nop n)) -> tree r = Val t -> tall P t.
Proof.
  intros Hr H. unfold tree, fold_rec in H. apply rbind_val in H as (ts & H1 & H2).
  pose proof (run_buf_tall P r [] ts Hr (Forall_nil _) H1) as Ht.
  unfold pop_unwrap in H2. apply Forall_rev in Ht. destruct (rev ts); [discriminate|].
  inversion H2; subst. inversion Ht; assumption.
Qed.

(* a fold related to another by a relation on results *)
Lemma fold_term_rel {O A B} (P : O -> Prop) (f : O -> list A -> res A) (g : O -> list B -> res B)
    (R : A -> B -> Prop) t a :
  (forall o xs ys x, P o -> Forall2 R xs ys -> f o xs = Val x -> exists y, g o ys = Val y /\ R x y) ->
  tall P t -> fold_term f t = Val a -> exists b, fold_term g t = Val b /\ R a b.
Proof.
  intros H. revert a. induction t as [o ts IH] using term_ind'. intros a Ht Ha.
  inversion Ht as [? ? Ho Hts]; subst. simpl in *.
  apply rbind_val in Ha as (xs & H1 & H2).
  assert (exists ys, rmapM (fold_term g) ts = Val ys /\ Forall2 R xs ys) as (ys & E & HR).
  { clear H2 Ht. revert xs H1. induction ts as [|t ts IHts]; simpl; intros xs H1.
    - inversion H1; subst. eauto.
    - inversion IH as [|? ? I1 I2]; inversion Hts as [|? ? T1 T2]; subst.
      apply rbind_val in H1 as (x & X1 & X2). apply rbind_val in X2 as (xs' & X2 & X3).
      inversion X3; subst. destruct (I1 x T1 X1) as (y & -> & Hy).
      destruct (IHts I2 T2 xs' X2) as (ys & -> & Hys). simpl. eauto. }
  rewrite E. simpl. eauto.
Qed.

(* instantiating a pattern does not change the shape of its array *)
Lemma instantiate_in {O} (mk_var : string -> O) (P : O -> Prop) p :
  (forall v, P (mk_var v)) -> (forall n o, In n p -> nop n = EN o -> P o) ->
  forall n, In n (instantiate mk_var p) -> P (nop n).
Proof.
  intros Hv Hp n Hn. unfold instantiate in Hn. apply in_map_iff in Hn as (m & <- & Hm).
  simpl. destruct (nop m) eqn:E; simpl; eauto.
Qed.

(* what a Valid answer of validate_neq says *)
Lemma validate_neq_valid {O E} mk_var (enc : O -> list E -> res E) check l r :
  validate_neq mk_var enc check l r = Val Valid ->
  exists el er tl tr, check el er = Unsat /\
    tree (instantiate mk_var l) = Val tl /\ tree (instantiate mk_var r) = Val tr /\
    fold_term enc tl = Val el /\ fold_term enc tr = Val er.
Proof.
  unfold validate_neq. intros H.
  apply rbind_val in H as (el & H1 & H). apply rbind_val in H as (er & H2 & H).
  destruct (fold_rec_has_tree _ _ _ H1) as (tl & Tl). destruct (fold_rec_has_tree _ _ _ H2) as (tr & Tr).
  exists el, er, tl, tr. destruct (check el er) eqn:C; try discriminate.
  repeat split; eauto using fold_rec_tree.
Qed.
Lemma validate_neq_invalid {O E} mk_var (enc : O -> list E -> res E) check l r :
  validate_neq mk_var enc check l r = Val Invalid ->
  exists el er tl tr, check el er = Sat /\
    tree (instantiate mk_var l) = Val tl /\ tree (instantiate mk_var r) = Val tr /\
    fold_term enc tl = Val el /\ fold_term enc tr = Val er.
Proof.
  unfold validate_neq. intros H.
  apply rbind_val in H as (el & H1 & H). apply rbind_val in H as (er & H2 & H).
  destruct (fold_rec_has_tree _ _ _ H1) as (tl & Tl). destruct (fold_rec_has_tree _ _ _ H2) as (tr & Tr).
  exists el, er, tl, tr. destruct (check el er) eqn:C; try discriminate.
  repeat split; eauto using fold_rec_tree.
Qed.

Lemma fold_term_ext {O A} (f g : O -> list A -> res A) t :
  (forall o l, f o l = g o l) -> fold_term f t = fold_term g t.
Proof.
  intros H. induction t as [o ts IH] using term_ind'. cbn [fold_term].
  replace (rmapM (fold_term g) ts) with (rmapM (fold_term f) ts).
  - destruct (rmapM (fold_term f) ts); simpl; auto.
  - induction IH as [|t ts E _ IH]; cbn [rmapM]; [reflexivity|]. rewrite E, IH. reflexivity.
Qed.

Lemma fold_vars_ext {O A} to_var (f : O -> list A -> res A) e1 e2 t :
  (forall s, In s (tvars to_var t) -> e1 s = e2 s) ->
  fold_term (with_vars to_var e1 f) t = fold_term (with_vars to_var e2 f) t.
Proof.
  induction t as [o ts IH] using term_ind'. intros H. cbn [fold_term].
  replace (rmapM (fold_term (with_vars to_var e2 f)) ts)
    with (rmapM (fold_term (with_vars to_var e1 f)) ts).
  - destruct (rmapM _ ts); [|reflexivity]. cbn [rbind]. unfold with_vars.
    destruct (to_var o) eqn:E; [|reflexivity]. f_equal. apply H. simpl. rewrite E. left; reflexivity.
  - assert (forall s, In s (flat_map (tvars to_var) ts) -> e1 s = e2 s) as H'
      by (intros s Hs; apply H; simpl; apply in_or_app; auto).
    clear H. induction IH as [|t ts E _ IH]; cbn [rmapM]; [reflexivity|]. simpl in H'.
    rewrite E, IH; auto; intros; apply H', in_or_app; auto.
Qed.

Lemma point_ext {O C} (sem : O -> list (option C) -> res (option C)) to_var e1 e2 t :
  (forall s, In s (tvars to_var t) -> e1 s = e2 s) ->
  point sem to_var e1 t = point sem to_var e2 t.
Proof. apply fold_vars_ext. Qed.

Lemma tall_impl {O} (P Q : O -> Prop) t : (forall o, P o -> Q o) -> tall P t -> tall Q t.
Proof.
  intros H. induction t as [o ts IH] using term_ind'. intros Ht. inversion Ht; subst.
  constructor; auto. rewrite Forall_forall in *. auto.
Qed.
