From Verif Require Import Base.

Lemma rbind_val {A B} (x : res A) (f : A -> res B) b :
  rbind x f = Val b -> exists a, x = Val a /\ f a = Val b.
Proof. destruct x as [a|]; simpl; intros H; [eauto|discriminate]. Qed.

Ltac inv_bind H :=
  let a := fresh "v" in let E := fresh "E" in
  apply rbind_val in H; destruct H as [a [E H]].

Lemma rmapM_val {A B} (f : A -> res B) l ys :
  rmapM f l = Val ys <-> Forall2 (fun x y => f x = Val y) l ys.
Proof.
  revert ys; induction l as [|x l IH]; intros ys; simpl; split; intros H.
  - inversion H; constructor.
  - inversion H; reflexivity.
  - inv_bind H. inv_bind H. inversion H; subst. constructor; [assumption|]. now apply IH.
  - inversion H as [|? y ? ys' Hy Hys]; subst. rewrite Hy; simpl.
    apply IH in Hys. now rewrite Hys.
Qed.

Lemma rmapM_pure {A B} (f : A -> res B) (g : A -> B) l :
  (forall x, In x l -> f x = Val (g x)) -> rmapM f l = Val (map g l).
Proof.
  induction l as [|x l IH]; simpl; intros H; [reflexivity|].
  rewrite (H x) by auto; simpl. rewrite IH by auto. reflexivity.
Qed.

Lemma rmapM_pure_inv {A B} (f : A -> res B) (g : A -> B) l ys :
  (forall x y, In x l -> f x = Val y -> y = g x) ->
  rmapM f l = Val ys -> ys = map g l.
Proof.
  revert ys; induction l as [|x l IH]; simpl; intros ys Hf H.
  - now inversion H.
  - inv_bind H. inv_bind H. inversion H; subst. f_equal; [|apply IH]; auto.
Qed.

Lemma rfilter_pure {A} (f : A -> res bool) (g : A -> bool) l :
  (forall x, In x l -> f x = Val (g x)) -> rfilter f l = Val (filter g l).
Proof.
  induction l as [|x l IH]; simpl; intros H; [reflexivity|].
  rewrite (H x) by auto; simpl. rewrite IH by auto. reflexivity.
Qed.

Lemma rfilter_pure_inv {A} (f : A -> res bool) (g : A -> bool) l ys :
  (forall x y, In x l -> f x = Val y -> y = g x) ->
  rfilter f l = Val ys -> ys = filter g l.
Proof.
  revert ys; induction l as [|x l IH]; simpl; intros ys Hf H.
  - now inversion H.
  - inv_bind H. inv_bind H. inversion H; subst.
    rewrite (Hf x v) by auto. rewrite <- (IH v0) by auto. now destruct (g x).
Qed.

Lemma rfilter_In {A} (f : A -> res bool) l ys :
  rfilter f l = Val ys -> forall x, In x ys <-> In x l /\ f x = Val true.
Proof.
  revert ys; induction l as [|a l IH]; simpl; intros ys H x.
  - inversion H; subst; simpl; tauto.
  - inv_bind H. inv_bind H. inversion H; subst. specialize (IH _ E0 x).
    destruct v; simpl; rewrite IH; split; intros Hx.
    + destruct Hx as [->|Hx]; tauto.
    + destruct Hx as [[->|Hx] Hf]; tauto.
    + tauto.
    + destruct Hx as [[->|Hx] Hf]; [congruence|tauto].
Qed.

Lemma rall_pure {A} (f : A -> res bool) (g : A -> bool) l :
  (forall x, In x l -> f x = Val (g x)) -> rall f l = Val (forallb g l).
Proof.
  induction l as [|x l IH]; simpl; intros H; [reflexivity|].
  rewrite (H x) by auto; simpl. destruct (g x); simpl; auto.
Qed.

Lemma rall_pure_inv {A} (f : A -> res bool) (g : A -> bool) l b :
  (forall x y, In x l -> f x = Val y -> y = g x) ->
  rall f l = Val b -> b = forallb g l.
Proof.
  induction l as [|x l IH]; simpl; intros Hf H.
  - now inversion H.
  - inv_bind H. rewrite <- (Hf x v) by auto. destruct v; simpl; auto. now inversion H.
Qed.

Lemma rall_true {A} (f : A -> res bool) l :
  rall f l = Val true <-> forall x, In x l -> f x = Val true.
Proof.
  induction l as [|x l IH]; simpl; split; intros H; try easy.
  - inv_bind H. destruct v; [|discriminate]. intros y [->|Hy]; [assumption|]. now apply IH.
  - rewrite (H x) by auto; simpl. apply IH. auto.
Qed.

Lemma rany_pure {A} (f : A -> res bool) (g : A -> bool) l :
  (forall x, In x l -> f x = Val (g x)) -> rany f l = Val (existsb g l).
Proof.
  induction l as [|x l IH]; simpl; intros H; [reflexivity|].
  rewrite (H x) by auto; simpl. destruct (g x); simpl; auto.
Qed.

Lemma rany_pure_inv {A} (f : A -> res bool) (g : A -> bool) l b :
  (forall x y, In x l -> f x = Val y -> y = g x) ->
  rany f l = Val b -> b = existsb g l.
Proof.
  induction l as [|x l IH]; simpl; intros Hf H.
  - now inversion H.
  - inv_bind H. rewrite <- (Hf x v) by auto. destruct v; simpl; auto. now inversion H.
Qed.

Lemma sum_app l1 l2 : sum (l1 ++ l2) = sum l1 + sum l2.
Proof. induction l1; simpl; lia. Qed.

Lemma sum_in n l : In n l -> n <= sum l.
Proof. induction l; simpl; [easy|]. intros [->|H]; [lia|]. specialize (IHl H); lia. Qed.

Lemma maxl_in n l : In n l -> n <= maxl l.
Proof. induction l; simpl; [easy|]. intros [->|H]; [lia|]. specialize (IHl H); lia. Qed.

Lemma maxl_le l k : (forall n, In n l -> n <= k) -> maxl l <= k.
Proof. induction l; simpl; intros H; [lia|]. pose proof (H a). assert (maxl l <= k) by auto. lia. Qed.

Lemma lookup_app {V} (m1 m2 : list (string * V)) k :
  lookup (m1 ++ m2) k = match lookup m1 k with Some v => Some v | None => lookup m2 k end.
Proof. induction m1 as [|[k' v] m1 IH]; simpl; [reflexivity|]. destruct (String.eqb k k'); auto. Qed.

Lemma lookup_some_in {V} (m : list (string * V)) k v : lookup m k = Some v -> In (k, v) m.
Proof.
  induction m as [|[k' v'] m IH]; simpl; [easy|].
  destruct (String.eqb_spec k k'); [|auto]. intros H; inversion H; subst; auto.
Qed.

Lemma lookup_none {V} (m : list (string * V)) k : lookup m k = None <-> ~ In k (map fst m).
Proof.
  induction m as [|[k' v'] m IH]; simpl; [tauto|].
  destruct (String.eqb_spec k k'); subst.
  - split; [discriminate|tauto].
  - rewrite IH. intuition congruence.
Qed.

Lemma lookup_in_nodup {V} (m : list (string * V)) k v :
  NoDup (map fst m) -> In (k, v) m -> lookup m k = Some v.
Proof.
  induction m as [|[k' v'] m IH]; simpl; [easy|]. intros Hnd [H|H].
  - inversion H; subst. now rewrite String.eqb_refl.
  - inversion Hnd; subst. destruct (String.eqb_spec k k'); subst; [|auto].
    exfalso; apply H2. now apply (in_map fst) in H.
Qed.

Lemma Forall2_length {A B} (R : A -> B -> Prop) l l' : Forall2 R l l' -> length l = length l'.
Proof. induction 1; simpl; congruence. Qed.
