(* Invariants of e-graphs. *)
From Verif Require Import Base BaseProofs Lang LangProofs Generalize Egraph EgraphSpec.
Open Scope list_scope.

Lemma index_lt : forall A (l : list A) i, i < length l -> exists a, index l i = Val a /\ nth_error l i = Some a.
Proof.
  intros A l i H. unfold index. destruct (nth_error l i) as [a|] eqn:E; [eauto|].
  apply nth_error_None in E. lia.
Qed.
Lemma index_some : forall A (l : list A) i a, index l i = Val a -> i < length l /\ nth_error l i = Some a.
Proof.
  intros A l i a H. unfold index in H. destruct (nth_error l i) as [b|] eqn:E; inversion H; subst.
  split; [|reflexivity]. apply nth_error_Some. congruence.
Qed.
Lemma index_app_l : forall A (l l' : list A) i a, index l i = Val a -> index (l ++ l') i = Val a.
Proof.
  intros A l l' i a H. apply index_some in H as [L E]. unfold index. rewrite nth_error_app1 by exact L. now rewrite E.
Qed.
Lemma index_last : forall A (l : list A) a, index (l ++ [a]) (length l) = Val a.
Proof. intros A l a. unfold index. rewrite nth_error_app2 by lia. rewrite Nat.sub_diag. reflexivity. Qed.
Lemma index_map : forall A B (f : A -> B) l i, index (map f l) i = rmap f (index l i).
Proof. intros. unfold index. rewrite nth_error_map. destruct (nth_error l i); reflexivity. Qed.

Lemma rmapM_F2 : forall A B (f : A -> res B) l r, rmapM f l = Val r <-> Forall2 (fun x y => f x = Val y) l r.
Proof.
  intros A B f. induction l as [|x l IH]; intros r; cbn.
  - split; intros H; inversion H; subst; constructor.
  - destruct (f x) as [y|] eqn:E; cbn.
    + destruct (rmapM f l) as [ys|] eqn:E2; cbn.
      * split; intros H.
        -- inversion H; subst. constructor; [exact E|]. now apply IH.
        -- inversion H as [|? y' ? ys' H1 H2]; subst. apply IH in H2. congruence.
      * split; intros H; [discriminate H|]. inversion H as [|? y' ? ys' H1 H2]; subst. apply IH in H2. discriminate H2.
    + split; intros H; [discriminate H|]. inversion H; congruence.
Qed.

Lemma set_nth_length : forall X (l : list X) i x, length (set_nth l i x) = length l.
Proof.
  intros X l i x. unfold set_nth. rewrite app_length. rewrite <- (firstn_skipn i l) at 3. rewrite app_length.
  destruct (skipn i l); cbn; lia.
Qed.
Lemma set_nth_nth : forall X (l : list X) i x j, i < length l ->
  nth_error (set_nth l i x) j = if Nat.eqb j i then Some x else nth_error l j.
Proof.
  intros X l. induction l as [|y l IH]; intros [|i] x [|j] H; cbn in *; try lia; try reflexivity.
  rewrite <- IH by lia. reflexivity.
Qed.

Lemma node_eqb_eq : forall O (eqb : O -> O -> bool), (forall a b, eqb a b = true <-> a = b) ->
  forall m n : node O, node_eqb eqb m n = true <-> m = n.
Proof.
  intros O eqb He [o ch] [o' ch']. unfold node_eqb. cbn. rewrite !andb_true_iff, He, Nat.eqb_eq.
  split.
  - intros [[-> L] F]. f_equal. revert ch' L F. induction ch as [|x ch IH]; intros [|y ch'] L F; cbn in *; try lia; try reflexivity.
    apply andb_true_iff in F as [E F]. apply Nat.eqb_eq in E. f_equal; [exact E|]. apply IH; [lia|exact F].
  - intros E. inversion E; subst. repeat split. clear. induction ch'; cbn; [reflexivity|]. now rewrite Nat.eqb_refl.
Qed.

Section Inv.
  Context {O D A : Type}.
  Variable op_eqb : O -> O -> bool.
  Hypothesis op_eqb_eq : forall a b, op_eqb a b = true <-> a = b.
  Local Notation egraph := (egraph O D A).
  Local Notation wf := (@wf O D A).

  Lemma find_some : forall (g : egraph) i r, find g i = Val r -> i < size g.
  Proof. intros g i r H. apply index_some in H. apply H. Qed.
  Lemma find_val : forall (g : egraph) i, i < size g -> exists r, find g i = Val r.
  Proof. intros g i H. destruct (index_lt _ (g_reps g) i H) as (r & E & _). eauto. Qed.

  Lemma eqv_refl : forall (g : egraph) i, i < size g -> eqv g i i.
  Proof. intros g i H. destruct (find_val g i H) as [r E]. exists r. auto. Qed.
  Lemma eqv_sym : forall (g : egraph) i j, eqv g i j -> eqv g j i.
  Proof. intros g i j (r & H & K). exists r. auto. Qed.
  Lemma eqv_trans : forall (g : egraph) i j k, eqv g i j -> eqv g j k -> eqv g i k.
  Proof. intros g i j k (r & H & K) (s & L & M). exists r. split; [exact H|]. congruence. Qed.
  Lemma eqv_lt : forall (g : egraph) i j, eqv g i j -> i < size g /\ j < size g.
  Proof. intros g i j (r & H & K). apply find_some in H, K. auto. Qed.
  Lemma eqv_find : forall g i r, wf g -> find g i = Val r -> eqv g i r.
  Proof. intros g i r W H. exists r. split; [exact H|]. now apply (wf_rep g W) with i. Qed.
  Lemma eqv_dec : forall (g : egraph) i j, eqv g i j \/ ~ eqv g i j.
  Proof.
    intros g i j. unfold eqv. destruct (find g i) as [a|]; [|right; intros (r & H & _); discriminate H].
    destruct (find g j) as [b|]; [|right; intros (r & _ & H); discriminate H].
    destruct (Nat.eq_dec a b) as [->|N]; [left; eauto|right]. intros (r & H & K). congruence.
  Qed.
  Lemma eqvs_refl : forall (g : egraph) l, Forall (fun i => i < size g) l -> Forall2 (eqv g) l l.
  Proof. intros g l H. induction H; constructor; auto using eqv_refl. Qed.
  Lemma eqvs_sym : forall (g : egraph) l m, Forall2 (eqv g) l m -> Forall2 (eqv g) m l.
  Proof. intros g l m H. induction H; constructor; auto using eqv_sym. Qed.
  Lemma eqvs_trans : forall (g : egraph) l m n, Forall2 (eqv g) l m -> Forall2 (eqv g) m n -> Forall2 (eqv g) l n.
  Proof.
    intros g l m n H. revert n. induction H; intros n K; inversion K; subst; constructor; eauto using eqv_trans.
  Qed.

  Lemma has_eqv : forall (g : egraph) o ch ch' c c', has g o ch c -> Forall2 (eqv g) ch ch' -> eqv g c c' -> has g o ch' c'.
  Proof.
    intros g o ch ch' c c' (n & i & I & E & F & H) F' H'. exists n, i. repeat split; auto.
    - now apply eqvs_trans with ch.
    - now apply eqv_trans with c.
  Qed.
  Lemma has_in : forall g n i, wf g -> In (n, i) (g_nodes g) -> has g (nop n) (nch n) i.
  Proof.
    intros g n i W H. exists n, i. destruct (wf_nodes g W n i H) as [L F].
    repeat split; auto using eqv_refl, eqvs_refl.
  Qed.

  Lemma ext_refl : forall g : egraph, ext g g.
  Proof. intros g. repeat split; auto. Qed.
  Lemma ext_trans : forall g h k : egraph, ext g h -> ext h k -> ext g k.
  Proof. intros g h k (A1 & A2 & A3) (B1 & B2 & B3). repeat split; auto; lia. Qed.

  (* ---- terms in classes ---- *)
  Lemma repr_ind' : forall (g : egraph) (P : term O -> nat -> Prop),
    (forall o ts ch c, Forall2 (repr g) ts ch -> Forall2 P ts ch -> has g o ch c -> P (T o ts) c) ->
    forall t c, repr g t c -> P t c.
  Proof.
    intros g P H. fix IH 3. intros t c [o ts ch c' F Hh]. apply (H o ts ch c' F); [|exact Hh].
    clear Hh. induction F; constructor; auto.
  Qed.
  Lemma repr_ext : forall g h : egraph, ext g h -> forall t c, repr g t c -> repr h t c.
  Proof.
    intros g h E. apply (repr_ind' g (fun t c => repr h t c)). intros o ts ch c F IH Hh.
    apply Rp with ch; [exact IH|]. now apply E.
  Qed.
  Lemma repr_eqv : forall (g : egraph) t c d, repr g t c -> eqv g c d -> repr g t d.
  Proof.
    intros g t c d H E. inversion H as [o ts ch c' F Hh]; subst. apply Rp with ch; [exact F|].
    apply has_eqv with ch c; auto. destruct Hh as (n & i & _ & _ & K & _). apply eqvs_sym in K.
    clear - K. apply eqvs_refl. induction K; constructor; auto. now apply eqv_lt in H.
  Qed.
  Lemma repr_lt : forall (g : egraph) t c, repr g t c -> c < size g.
  Proof. intros g t c H. inversion H as [o ts ch c' F Hh]; subst. destruct Hh as (n & i & _ & _ & _ & K). now apply eqv_lt in K. Qed.
  Lemma repr_cong : forall g : egraph, congruent g -> forall t c, repr g t c -> forall d, repr g t d -> eqv g c d.
  Proof.
    intros g C. apply (repr_ind' g (fun t c => forall d, repr g t d -> eqv g c d)). intros o ts ch c F IH Hh d K.
    inversion K as [o' ts' ch' c' F' Hh']; subst. apply C with o ch; [exact Hh|].
    apply has_eqv with ch' d; [exact Hh'| |].
    - apply eqvs_sym. clear - IH F'. revert ch' F'. induction IH; intros ch' F'; inversion F'; subst; constructor; auto.
    - destruct Hh' as (n & i & _ & _ & _ & E). apply eqv_lt in E. apply eqv_refl, E.
  Qed.

  Lemma models_has : forall V (sem : O -> list V -> V) val (g : egraph) o ch c,
    models sem val g -> has g o ch c -> val c = sem o (map val ch).
  Proof.
    intros V sem val g o ch c [E N] (n & i & I & <- & F & K). rewrite <- (E _ _ K), (N _ _ I). f_equal.
    clear - E F. induction F; cbn; f_equal; auto.
  Qed.
  Lemma models_repr : forall V (sem : O -> list V -> V) val (g : egraph), models sem val g ->
    forall t c, repr g t c -> aval sem t = val c.
  Proof.
    intros V sem val g M. apply (repr_ind' g (fun t c => aval sem t = val c)). intros o ts ch c F IH Hh.
    cbn. rewrite (models_has _ _ _ _ _ _ _ M Hh). f_equal. clear - IH. induction IH; cbn; f_equal; auto.
  Qed.

  (* ---- lookup ---- *)
  Lemma canon_spec : forall (g : egraph) n n', canon g n = Val n' <-> nop n' = nop n /\ Forall2 (fun c c' => find g c = Val c') (nch n) (nch n').
  Proof.
    intros g n n'. unfold canon. destruct (rmapM (find g) (nch n)) as [ch|] eqn:E; cbn.
    - apply rmapM_F2 in E. split.
      + intros H. inversion H; subst. auto.
      + destruct n' as [o' ch']; cbn. intros [-> F]. f_equal. f_equal. apply rmapM_F2 in E, F. congruence.
    - split; [discriminate|]. intros [_ F]. apply rmapM_F2 in F. congruence.
  Qed.
  Lemma canon_val : forall (g : egraph) n, Forall (fun c => c < size g) (nch n) -> exists n', canon g n = Val n'.
  Proof.
    intros g n H. unfold canon. assert (exists ch, rmapM (find g) (nch n) = Val ch) as [ch ->]; [|eexists; reflexivity].
    induction H as [|c l L _ [ch IH]]; cbn; [eauto|]. destruct (find_val g c L) as [r ->]. cbn. rewrite IH. cbn. eauto.
  Qed.
  Lemma canon_eqv : forall g n n', wf g -> canon g n = Val n' -> Forall2 (eqv g) (nch n) (nch n').
  Proof.
    intros g n n' W H. apply canon_spec in H as [_ F]. clear - W F. induction F; constructor; auto. now apply eqv_find.
  Qed.
  Lemma canon_lt : forall g n n', wf g -> canon g n = Val n' -> Forall (fun c => c < size g) (nch n').
  Proof.
    intros g n n' W H. apply canon_eqv in H; [|exact W]. induction H; constructor; auto. now apply eqv_lt in H.
  Qed.
  Lemma eqvs_canon : forall g n m n', wf g -> nop n = nop m -> Forall2 (eqv g) (nch n) (nch m) -> canon g n = Val n' -> canon g m = Val n'.
  Proof.
    intros g n m n' W E F H. apply canon_spec in H as [H1 H2]. apply canon_spec. split; [congruence|].
    clear - F H2. revert H2. generalize (nch n'). induction F as [|x y l l' (r & Hr1 & Hr2) F IH]; intros ch H; inversion H; subst; constructor; auto. congruence.
  Qed.

  Lemma get_node_in : forall m n i, get_node op_eqb m n = Some i -> In (n, i) m.
  Proof.
    induction m as [|[n' j] m IH]; cbn; intros n i H; [discriminate H|].
    destruct (node_eqb op_eqb n n') eqn:E.
    - apply (node_eqb_eq _ _ op_eqb_eq) in E. inversion H; subst. auto.
    - right. auto.
  Qed.
  Lemma get_node_none : forall m n, get_node op_eqb m n = None -> forall i, ~ In (n, i) m.
  Proof.
    induction m as [|[n' j] m IH]; cbn; intros n H i K; [exact K|].
    destruct (node_eqb op_eqb n n') eqn:E; [discriminate H|]. destruct K as [K|K].
    - inversion K; subst. rewrite (proj2 (node_eqb_eq _ _ op_eqb_eq n n) eq_refl) in E. discriminate E.
    - exact (IH n H i K).
  Qed.

  Lemma lookup_node_some : forall g n i, wf g -> lookup_node op_eqb g n = Val (Some i) -> has g (nop n) (nch n) i.
  Proof.
    intros g n i W H. unfold lookup_node in H. destruct (canon g n) as [n'|] eqn:C; [|discriminate H]. cbn in H.
    destruct (get_node op_eqb (g_nodes g) n') as [j|] eqn:G; [|discriminate H].
    destruct (find g j) as [k|] eqn:F; [|discriminate H]. cbn in H. inversion H; subst k.
    apply get_node_in in G. pose proof (has_in g n' j W G) as K.
    pose proof C as C'. apply canon_spec in C' as [E _]. rewrite <- E.
    apply has_eqv with (nch n') j; auto.
    - apply eqvs_sym. now apply canon_eqv.
    - now apply eqv_find.
  Qed.
  Lemma lookup_node_val : forall g n, wf g -> Forall (fun c => c < size g) (nch n) -> exists o, lookup_node op_eqb g n = Val o.
  Proof.
    intros g n W F. unfold lookup_node. destruct (canon_val g n F) as [n' ->]. cbn.
    destruct (get_node op_eqb (g_nodes g) n') as [j|] eqn:G; [|eauto]. apply get_node_in in G.
    destruct (find_val g j) as [r ->]; [apply (wf_nodes g W _ _ G)|]. cbn. eauto.
  Qed.

  (* ---- analysis ---- *)
  Variable a_make : A -> node O -> list D -> res D.
  Variable a_merge : D -> D -> res (D * (bool * bool)).
  Variable keep : egraph -> nat -> nat -> bool.

  Lemma class_nodes_has : forall (g : egraph) i ns, wf g -> class_nodes g i = Val ns ->
    forall n, In n ns -> has g (nop n) (nch n) i.
  Proof.
    intros g i ns W H n I. unfold class_nodes in H. destruct (find g i) as [r|] eqn:F; [|discriminate H]. cbn in H.
    destruct (rmapM (fun e => find g (snd e)) (g_nodes g)) as [ids|] eqn:E; [|discriminate H]. cbn in H.
    apply rmapM_F2 in E, H.
    assert (exists m, canon g m = Val n /\ In m (map (fun t => fst (snd t)) (List.filter (fun t => Nat.eqb (fst t) r) (combine ids (g_nodes g))))) as (m & Cm & Im).
    { clear - H I. induction H; [contradiction|]. destruct I as [<-|I]; [eexists; split; [eassumption|now left]|].
      destruct (IHForall2 I) as (m & Hm & Jm). exists m. split; [exact Hm|now right]. }
    apply in_map_iff in Im as ((k & m' & j) & <- & Im). cbn [fst snd] in *. apply filter_In in Im as [Ic Eq]. cbn in Eq.
    apply Nat.eqb_eq in Eq. subst k.
    assert (In (m', j) (g_nodes g) /\ find g j = Val r) as [Ij Fj].
    { clear - E Ic. revert Ic. induction E; cbn; [contradiction|]. intros [X|X]; [inversion X; subst; auto|]. destruct (IHE X). auto. }
    pose proof (proj1 (canon_spec g m' n) Cm) as [Eo _]. rewrite Eo.
    exists m', j. split; [exact Ij|]. split; [reflexivity|]. split; [now apply canon_eqv|]. exists r. auto.
  Qed.
  Lemma new_class_spec : forall g n g' i, new_class a_make g n = Val (g', i) ->
    i = size g /\ g_reps g' = g_reps g ++ [i] /\ g_nodes g' = g_nodes g ++ [(n, i)] /\
    exists d, g_data g' = g_data g ++ [d].
  Proof.
    intros g n g' i H. unfold new_class in H. destruct (rmapM (class_data g) (nch n)) as [ds|]; [|discriminate H]. cbn in H.
    destruct (a_make (g_an g) n ds) as [d|]; [|discriminate H]. cbn in H. inversion H; subst. cbn. eauto 6.
  Qed.
  Lemma find_app : forall (g g' : egraph) i, g_reps g' = g_reps g ++ [size g] -> forall r, find g i = Val r -> find g' i = Val r.
  Proof. intros g g' i E r H. unfold find. rewrite E. now apply index_app_l. Qed.
  Lemma find_new : forall g g' : egraph, g_reps g' = g_reps g ++ [size g] -> find g' (size g) = Val (size g).
  Proof. intros g g' E. unfold find. rewrite E. apply index_last. Qed.
  Lemma find_app_inv : forall (g g' : egraph) i r, g_reps g' = g_reps g ++ [size g] -> find g' i = Val r ->
    (i < size g /\ find g i = Val r) \/ (i = size g /\ r = size g).
  Proof.
    intros g g' i r E H. unfold find in H. rewrite E in H. apply index_some in H as [L H]. rewrite app_length in L. cbn in L.
    destruct (Nat.eq_dec i (size g)) as [->|N].
    - right. split; [reflexivity|]. unfold size in H. rewrite nth_error_app2, Nat.sub_diag in H by lia. cbn in H. inversion H; reflexivity.
    - left. unfold size in *. split; [lia|]. rewrite nth_error_app1 in H by lia. unfold find, index. now rewrite H.
  Qed.

  Lemma new_class_ok : forall g n g' i, wf g -> Forall (fun c => c < size g) (nch n) -> new_class a_make g n = Val (g', i) ->
    wf g' /\ ext g g' /\ size g' = S (size g) /\ i = size g /\ has g' (nop n) (nch n) i.
  Proof.
    intros g n g' i W F H. apply new_class_spec in H as (-> & R & N & d & Dt).
    assert (S : size g' = S (size g)). { unfold size. rewrite R, app_length. cbn. lia. }
    assert (Q : forall a b, eqv g a b -> eqv g' a b).
    { intros a b (r & H & K). exists r. split; now apply (find_app g). }
    assert (Hh : forall o ch c, has g o ch c -> has g' o ch c).
    { intros o ch c (m & j & I & E & K & L). exists m, j. split; [|split; [exact E|split; [|auto]]].
      + rewrite N. apply in_or_app. auto.
      + clear - K Q. induction K; constructor; auto. }
    assert (W' : wf g').
    { constructor.
      - intros i r H. apply (find_app_inv g) in H; [|exact R]. destruct H as [[L H]|[-> ->]].
        + apply (find_app g _ _ R). now apply (wf_rep g W) with i.
        + now apply find_new.
      - rewrite Dt, app_length, (wf_data g W). cbn. lia.
      - rewrite N. intros n' i' H. apply in_app_or in H as [H|[H|[]]].
        + destruct (wf_nodes g W n' i' H) as [L F']. split; [lia|]. eapply Forall_impl; [|exact F']. cbn. lia.
        + inversion H; subst. split; [lia|]. eapply Forall_impl; [|exact F]. cbn. lia.
      - rewrite N. intros i L. destruct (Nat.eq_dec i (size g)) as [->|Ne].
        + exists n. apply in_or_app. cbn. auto.
        + destruct (wf_full g W i) as [n' H]; [lia|]. exists n'. apply in_or_app. auto.
      - intros i L. destruct (Nat.eq_dec i (size g)) as [->|Ne].
        + exists (nop n), (nch n). split; [|exact F]. exists n, (size g). split; [rewrite N; apply in_or_app; cbn; auto|].
          split; [reflexivity|]. split; [|apply eqv_refl; lia].
          clear - F S. induction F; constructor; auto. apply eqv_refl. lia.
        + destruct (wf_founded g W i) as (o & ch & H & Lt); [lia|]. exists o, ch. split; [now apply Hh|exact Lt]. }
    split; [exact W'|]. split; [split; [lia|split; [exact Q|]]|split; [exact S|split; [reflexivity|]]].
    - exact Hh.
    - assert (I : In (n, size g) (g_nodes g')) by (rewrite N; apply in_or_app; cbn; auto).
      now apply has_in in I.
  Qed.

  (* the data of a class changed, nothing else *)
  Lemma set_data_ok : forall (g : egraph) dt, wf g -> length dt = size g ->
    wf (EG (g_reps g) (g_nodes g) dt (g_an g)) /\ ext g (EG (g_reps g) (g_nodes g) dt (g_an g)).
  Proof.
    intros g dt W L. split.
    - destruct W as [W1 W2 W3 W4 W5]. constructor; cbn; auto.
    - repeat split; auto.
  Qed.

  Definition merged (g : egraph) (k d : nat) (dt : list D) : egraph :=
    EG (map (fun r => if Nat.eqb r d then k else r) (g_reps g)) (g_nodes g) dt (g_an g).
  Lemma find_merged : forall g k d dt i, find (merged g k d dt) i = rmap (fun r => if Nat.eqb r d then k else r) (find g i).
  Proof. intros. unfold find, merged. cbn. apply index_map. Qed.
  Lemma size_merged : forall g k d dt, size (merged g k d dt) = size g.
  Proof. intros. unfold size, merged. cbn. apply map_length. Qed.
  Lemma merged_ok : forall g k d dt, wf g -> find g k = Val k -> find g d = Val d -> k <> d -> length dt = size g ->
    wf (merged g k d dt) /\ ext g (merged g k d dt) /\
    (forall i j, eqv (merged g k d dt) i j <-> eqv g i j \/ (eqv g i k /\ eqv g j d) \/ (eqv g i d /\ eqv g j k)).
  Proof.
    intros g k d dt W K Dd N L.
    assert (Q : forall i j, eqv g i j -> eqv (merged g k d dt) i j).
    { intros i j (r & H & H'). unfold eqv. rewrite !find_merged, H, H'. cbn. eauto. }
    assert (Hh : forall o ch c, has g o ch c -> has (merged g k d dt) o ch c).
    { intros o ch c (m & j & I & E & F & J). exists m, j. repeat split; auto. clear - F Q. induction F; constructor; auto. }
    assert (W' : wf (merged g k d dt)).
    { constructor.
      - intros i r. rewrite !find_merged. intros H. destruct (find g i) as [a|] eqn:E; [|discriminate H]. cbn in H. inversion H; subst.
        destruct (Nat.eqb_spec a d) as [->|Ne].
        + rewrite K. cbn. destruct (Nat.eqb_spec k d); congruence.
        + rewrite (wf_rep g W i a E). cbn. destruct (Nat.eqb_spec a d); congruence.
      - rewrite size_merged. exact L.
      - rewrite size_merged. apply (wf_nodes g W).
      - rewrite size_merged. apply (wf_full g W).
      - rewrite size_merged. intros i Li. destruct (wf_founded g W i Li) as (o & ch & H & Lt). exists o, ch. auto. }
    split; [exact W'|]. split.
    - split; [rewrite size_merged; lia|]. split; [exact Q|exact Hh].
    - intros i j. split.
      + intros (r & H & H'). rewrite !find_merged in *. destruct (find g i) as [a|] eqn:E1; [|discriminate H].
        destruct (find g j) as [b|] eqn:E2; [|discriminate H']. cbn in H, H'. inversion H; inversion H'; subst. clear H H'.
        destruct (Nat.eqb_spec a d) as [->|Na]; destruct (Nat.eqb_spec b d) as [->|Nb].
        * left. exists d. auto.
        * right. right. split; [exists d; auto|]. exists k. split; [congruence|exact K].
        * right. left. split; [exists k; split; [congruence|exact K]|exists d; auto].
        * left. exists a. split; [exact E1|congruence].
      + assert (KD : eqv (merged g k d dt) k d).
        { exists k. rewrite !find_merged, K, Dd. cbn. rewrite Nat.eqb_refl. destruct (Nat.eqb_spec k d); [congruence|auto]. }
        intros [H|[[H1 H2]|[H1 H2]]]; [auto| |].
        * apply eqv_trans with k; [auto|]. apply eqv_trans with d; [exact KD|]. apply eqv_sym. auto.
        * apply eqv_trans with d; [auto|]. apply eqv_trans with k; [apply eqv_sym, KD|]. apply eqv_sym. auto.
  Qed.

  (* ---- operations, for any well-behaved modify ---- *)
  Definition md_ok (md : egraph -> nat -> res egraph) : Prop :=
    forall g i g', wf g -> i < size g -> md g i = Val g' -> wf g' /\ ext g g'.

  Section Ops.
    Variable md : egraph -> nat -> res egraph.
    Hypothesis Md : md_ok md.

    Lemma add_ok : forall g n g' i, wf g -> add op_eqb a_make md g n = Val (g', i) ->
      wf g' /\ ext g g' /\ has g' (nop n) (nch n) i.
    Proof.
      intros g n g' i W H. unfold add in H. destruct (lookup_node op_eqb g n) as [o|] eqn:L; [|discriminate H]. cbn in H.
      destruct o as [j|].
      - inversion H; subst. split; [exact W|]. split; [apply ext_refl|]. now apply lookup_node_some.
      - destruct (canon g n) as [n'|] eqn:C; [|discriminate H]. cbn in H.
        destruct (new_class a_make g n') as [[g1 k]|] eqn:Nc; [|discriminate H]. cbn in H.
        destruct (md g1 k) as [g2|] eqn:M; [|discriminate H]. cbn in H. inversion H; subst g2 k. clear H.
        destruct (new_class_ok g n' g1 i W (canon_lt g n n' W C) Nc) as (W1 & E1 & S1 & -> & H1).
        destruct (Md g1 (size g) g' W1) as [W2 E2]; [lia|exact M|]. 
        split; [exact W2|]. assert (E : ext g g') by (now apply ext_trans with g1). split; [exact E|].
        assert (Eo : nop n' = nop n) by (apply canon_spec in C; apply C). rewrite <- Eo.
        apply has_eqv with (nch n') (size g).
        + now apply E2.
        + apply eqvs_sym. destruct E as (_ & E & _). apply canon_eqv in C; [|exact W]. clear - C E. induction C; constructor; auto.
        + apply eqv_refl. destruct E2 as (L2 & _). lia.
    Qed.

    Lemma union_ok : forall g a b g' m, wf g -> union a_merge keep md g a b = Val (g', m) ->
      wf g' /\ ext g g' /\ eqv g' a b.
    Proof.
      intros g a b g' m W H. unfold union in H. destruct (find g a) as [ra|] eqn:Ra; [|discriminate H]. cbn in H.
      destruct (find g b) as [rb|] eqn:Rb; [|discriminate H]. cbn in H.
      destruct (Nat.eqb_spec ra rb) as [->|N].
      - inversion H; subst. split; [exact W|]. split; [apply ext_refl|]. exists rb. auto.
      - pose proof (eqv_find g a ra W Ra) as Ea. pose proof (eqv_find g b rb W Rb) as Eb.
        assert (forall k d, find g k = Val k -> find g d = Val d -> k <> d -> 
          ((eqv g a k /\ eqv g b d) \/ (eqv g a d /\ eqv g b k)) ->
          (let* dk := index (g_data g) k in let* dd := index (g_data g) d in let* (dm, _) := a_merge dk dd in
           let g1 := EG (map (fun r => if Nat.eqb r d then k else r) (g_reps g)) (g_nodes g) (set_nth (g_data g) k dm) (g_an g) in
           let* g2 := md g1 k in Val (g2, true)) = Val (g', m) -> wf g' /\ ext g g' /\ eqv g' a b) as Gen.
        { intros k d Hk Hd Ne Hab X. destruct (index (g_data g) k) as [dk|]; [|discriminate X]. cbn in X.
          destruct (index (g_data g) d) as [dd|]; [|discriminate X]. cbn in X.
          destruct (a_merge dk dd) as [[dm ch]|]; [|discriminate X]. cbn in X.
          fold (merged g k d (set_nth (g_data g) k dm)) in X.
          destruct (md (merged g k d (set_nth (g_data g) k dm)) k) as [g2|] eqn:M; [|discriminate X]. cbn in X. inversion X; subst g2.
          destruct (merged_ok g k d (set_nth (g_data g) k dm) W Hk Hd Ne) as (W1 & E1 & Q); [rewrite set_nth_length; apply (wf_data g W)|].
          destruct (Md _ _ _ W1 ltac:(rewrite size_merged; exact (find_some _ _ _ Hk)) M) as [W2 E2].
          split; [exact W2|]. split; [now apply ext_trans with (merged g k d (set_nth (g_data g) k dm))|].
          apply E2, Q. right. exact Hab. }
        assert (Fa : find g ra = Val ra) by (now apply (wf_rep g W) with a).
        assert (Fb : find g rb = Val rb) by (now apply (wf_rep g W) with b).
        destruct (keep g ra rb).
        + apply (Gen ra rb); auto.
        + apply (Gen rb ra); auto.
    Qed.

    Lemma ids_ext : forall (g h : egraph) ts ids, ext g h -> Forall2 (repr g) ts ids -> Forall2 (repr h) ts ids.
    Proof. intros g h ts ids E F. induction F; constructor; auto. eapply repr_ext; eauto. Qed.

    Lemma add_nodes_ok : forall r g ids ts g' ids', wf g -> Forall2 (repr g) ts ids ->
      add_nodes op_eqb a_make md g ids r = Val (g', ids') ->
      wf g' /\ ext g g' /\ exists ts', run_buf (fun o ts => Val (T o ts)) r ts = Val ts' /\ Forall2 (repr g') ts' ids'.
    Proof.
      induction r as [|n r IH]; intros g ids ts g' ids' W F H; cbn in H.
      - inversion H; subst. split; [exact W|]. split; [apply ext_refl|]. exists ts. auto.
      - destruct (rmapM (index ids) (nch n)) as [ch|] eqn:C; [|discriminate H]. cbn in H.
        destruct (add op_eqb a_make md g (Node (nop n) ch)) as [[g1 i]|] eqn:Ad; [|discriminate H]. cbn in H.
        destruct (add_ok _ _ _ _ W Ad) as (W1 & E1 & H1). cbn in H1.
        assert (exists us, rmapM (index ts) (nch n) = Val us /\ Forall2 (repr g) us ch) as (us & Us & Fu).
        { clear - F C. revert ch C. generalize (nch n). induction l as [|c l IHl]; intros ch C; cbn in *.
          - inversion C. exists []. auto.
          - destruct (index ids c) as [x|] eqn:X; [|discriminate C]. cbn in C. destruct (rmapM (index ids) l) as [xs|] eqn:Xs; [|discriminate C].
            inversion C; subst. destruct (IHl xs eq_refl) as (us & E & F'). rewrite E.
            apply index_some in X as [L X]. assert (exists t, nth_error ts c = Some t /\ repr g t x) as (t & Ht & R).
            { clear - F X. revert c X. induction F; intros [|c] X; cbn in *; try discriminate X; [inversion X; subst; eauto|auto]. }
            unfold index at 1. rewrite Ht. cbn. exists (t :: us). auto. }
        apply (IH g1 (ids ++ [i]) (ts ++ [T (nop n) us])) in H; [|exact W1|].
        + destruct H as (W2 & E2 & ts' & R & F'). split; [exact W2|]. split; [now apply ext_trans with g1|].
          exists ts'. split; [|exact F']. cbn [run_buf]. rewrite Us. exact R.
        + apply Forall2_app; [exact (ids_ext g g1 _ _ E1 F)|]. constructor; [|constructor].
          apply Rp with ch; [exact (ids_ext g g1 _ _ E1 Fu)|exact H1].
    Qed.
    Lemma F2_pop : forall X Y (P : X -> Y -> Prop) xs ys y, Forall2 P xs ys -> pop_unwrap ys = Val y ->
      exists x, pop_unwrap xs = Val x /\ P x y.
    Proof.
      intros X Y P xs ys y F H. unfold pop_unwrap in *.
      assert (G : Forall2 P (rev xs) (rev ys)). { clear H. induction F; cbn; [constructor|]. apply Forall2_app; auto. }
      destruct (rev ys); [discriminate H|]. inversion H; subst. inversion G; subst. eauto.
    Qed.
    Lemma add_expr_ok : forall r g g' i, wf g -> add_expr op_eqb a_make md g r = Val (g', i) ->
      wf g' /\ ext g g' /\ exists t, tree r = Val t /\ repr g' t i.
    Proof.
      intros r g g' i W H. unfold add_expr in H. destruct (add_nodes op_eqb a_make md g [] r) as [[g1 ids]|] eqn:E; [|discriminate H]. cbn in H.
      destruct (pop_unwrap ids) as [j|] eqn:P; [|discriminate H]. cbn in H. inversion H; subst g1 j.
      destruct (add_nodes_ok r g [] [] g' ids W (Forall2_nil _) E) as (W1 & E1 & ts & R & F).
      split; [exact W1|]. split; [exact E1|]. destruct (F2_pop _ _ _ _ _ _ F P) as (t & T1 & T2).
      exists t. unfold tree, fold_rec. rewrite R. cbn. auto.
    Qed.
  End Ops.

  Variable todo : list (egraph -> nat -> res (list (recexpr O))).
  Lemma join_all_ok : forall md, md_ok md -> forall ts g i g', wf g ->
    join_all (add_expr op_eqb a_make md) (union a_merge keep md) g i ts = Val g' -> wf g' /\ ext g g'.
  Proof.
    intros md Md. induction ts as [|t ts IH]; intros g i g' W H; cbn in H.
    - inversion H; subst. auto using ext_refl.
    - destruct (add_expr op_eqb a_make md g t) as [[g1 j]|] eqn:E; [|discriminate H]. cbn in H.
      destruct (union a_merge keep md g1 i j) as [[g2 m]|] eqn:U; [|discriminate H]. cbn in H.
      destruct (add_expr_ok md Md _ _ _ _ W E) as (W1 & E1 & _).
      destruct (union_ok md Md _ _ _ _ _ W1 U) as (W2 & E2 & _).
      destruct (IH _ _ _ W2 H) as [W3 E3]. split; [exact W3|]. eauto using ext_trans.
  Qed.
  Lemma stages_ok : forall md, md_ok md -> forall ss g i g', wf g ->
    stages (add_expr op_eqb a_make md) (union a_merge keep md) g i ss = Val g' -> wf g' /\ ext g g'.
  Proof.
    intros md Md. induction ss as [|s ss IH]; intros g i g' W H; cbn in H.
    - inversion H; subst. auto using ext_refl.
    - destruct (s g i) as [ts|]; [|discriminate H]. cbn in H.
      destruct (join_all (add_expr op_eqb a_make md) (union a_merge keep md) g i ts) as [g1|] eqn:J; [|discriminate H]. cbn in H.
      destruct (join_all_ok md Md _ _ _ _ W J) as [W1 E1]. destruct (IH _ _ _ W1 H) as [W2 E2].
      split; [exact W2|]. eauto using ext_trans.
  Qed.
  Lemma modify_ok : forall fuel, md_ok (modify op_eqb a_make a_merge keep todo fuel).
  Proof.
    induction fuel as [|k IH]; intros g i g' W L H; cbn in H; [discriminate H|].
    exact (stages_ok _ IH _ _ _ _ W H).
  Qed.

  (* ---- rebuild ---- *)
  Definition canonical (g : egraph) : Prop :=
    forall n i, In (n, i) (g_nodes g) -> Forall (fun c => find g c = Val c) (nch n).
  Lemma canon_nodes_ok : forall g g1, wf g -> canon_nodes g = Val g1 ->
    wf g1 /\ ext g g1 /\ canonical g1 /\ g_reps g1 = g_reps g /\ g_data g1 = g_data g /\
    (forall o ch c, has g1 o ch c -> has g o ch c).
  Proof.
    intros g g1 W H. unfold canon_nodes in H.
    destruct (rmapM (fun e => let* n := canon g (fst e) in Val (n, snd e)) (g_nodes g)) as [ns|] eqn:E; [|discriminate H].
    cbn in H. inversion H; subst g1; clear H. apply rmapM_F2 in E.
    assert (Fw : forall n i, In (n, i) (g_nodes g) -> exists n', In (n', i) ns /\ canon g n = Val n').
    { clear - E. induction E as [|[n j] [n' j'] l l' H E IH]; intros m i I; [contradiction|]. destruct I as [I|I].
      - inversion I; subst. cbn in H. destruct (canon g m) as [m'|]; [|discriminate H]. cbn in H. inversion H; subst. exists n'. cbn. auto.
      - destruct (IH m i I) as (m' & I' & C). exists m'. cbn. auto. }
    assert (Bw : forall n' i, In (n', i) ns -> exists n, In (n, i) (g_nodes g) /\ canon g n = Val n').
    { clear - E. induction E as [|[n j] [n' j'] l l' H E IH]; intros m i I; [contradiction|]. destruct I as [I|I].
      - inversion I; subst. cbn in H. destruct (canon g n) as [m'|] eqn:C; [|discriminate H]. cbn in H. inversion H; subst. exists n. cbn. auto.
      - destruct (IH m i I) as (m' & I' & C). exists m'. cbn. auto. }
    set (g1 := EG (g_reps g) ns (g_data g) (g_an g)).
    assert (Hb : forall o ch c, has g1 o ch c -> has g o ch c).
    { intros o ch c (n' & i & I & O1 & F & Q). destruct (Bw n' i I) as (n & I' & C). exists n, i.
      split; [exact I'|]. split; [apply canon_spec in C as [C _]; congruence|]. split; [|exact Q].
      apply eqvs_trans with (nch n'); [exact (canon_eqv g n n' W C)|exact F]. }
    assert (Hf : forall o ch c, has g o ch c -> has g1 o ch c).
    { intros o ch c (n & i & I & O1 & F & Q). destruct (Fw n i I) as (n' & I' & C).
      exists n', i. split; [exact I'|]. split; [apply canon_spec in C as [C _]; congruence|]. split; [|exact Q].
      apply eqvs_trans with (nch n); [apply eqvs_sym; exact (canon_eqv g n n' W C)|exact F]. }
    split; [|split; [|split; [|split; [reflexivity|split; [reflexivity|exact Hb]]]]].
    - constructor; cbn.
      + apply (wf_rep g W).
      + apply (wf_data g W).
      + intros n' i I. destruct (Bw n' i I) as (n & I' & C). split; [apply (wf_nodes g W n i I')|]. exact (canon_lt g n n' W C).
      + intros i L. destruct (wf_full g W i L) as [n I]. destruct (Fw n i I) as (n' & I' & _). eauto.
      + intros i L. destruct (wf_founded g W i L) as (o & ch & H & Lt). exists o, ch. split; [now apply Hf|exact Lt].
    - split; [reflexivity|]. split; [auto|exact Hf].
    - intros n' i I. destruct (Bw n' i I) as (n & _ & C). apply canon_spec in C as [_ C].
      clear - C W. induction C; constructor; auto. exact (wf_rep g W _ _ H).
  Qed.

  Lemma clash_some : forall (g : egraph) ns i j, clash op_eqb g ns = Val (Some (i, j)) -> exists n, In (n, i) ns /\ In (n, j) ns.
  Proof.
    intros g. induction ns as [|[n k] ns IH]; intros i j H; cbn in H; [discriminate H|].
    assert (Go : clash op_eqb g ns = Val (Some (i, j)) -> exists m, In (m, i) ((n, k) :: ns) /\ In (m, j) ((n, k) :: ns)).
    { intros X. destruct (IH i j X) as (m & M1 & M2). exists m. cbn. auto. }
    destruct (get_node op_eqb ns n) as [l|] eqn:G; [|auto].
    destruct (find g k) as [a|]; [|discriminate H]. destruct (find g l) as [b|]; [|discriminate H]. cbn in H.
    destruct (Nat.eqb a b); [auto|]. inversion H; subst. apply get_node_in in G. exists n. cbn. auto.
  Qed.
  Lemma clash_none : forall (g : egraph) ns, clash op_eqb g ns = Val None -> 
    forall n i j, i < size g -> In (n, i) ns -> In (n, j) ns -> eqv g i j.
  Proof.
    intros g. induction ns as [|[n k] ns IH]; intros H m i j L I J; cbn in H; [contradiction|].
    assert (Hd : clash op_eqb g ns = Val None /\ forall j, In (n, j) ns -> eqv g k j).
    { destruct (get_node op_eqb ns n) as [l|] eqn:G.
      - destruct (find g k) as [a|] eqn:Fk; [|discriminate H]. destruct (find g l) as [b|] eqn:Fl; [|discriminate H]. cbn in H.
        destruct (Nat.eqb_spec a b) as [->|]; [|discriminate H]. split; [exact H|]. intros j' J'.
        apply get_node_in in G. assert (Q : eqv g l j') by (apply IH with n; auto; now apply find_some in Fl).
        apply eqv_trans with l; [exists b; auto|exact Q].
      - split; [exact H|]. intros j' J'. destruct (get_node_none _ _ G _ J'). }
    destruct Hd as [Hc Hd]. destruct I as [I|I]; destruct J as [J|J].
    - inversion I; inversion J; subst. now apply eqv_refl.
    - inversion I; subst. auto.
    - inversion J; subst. apply eqv_sym. auto.
    - now apply (IH Hc m).
  Qed.
  Lemma canonical_congruent : forall g : egraph, wf g -> canonical g -> clash op_eqb g (g_nodes g) = Val None -> congruent g.
  Proof.
    intros g W C H o ch c d (n & i & I & O1 & F & Q) (m & j & J & O2 & F' & Q').
    assert (n = m) as <-.
    { destruct n as [o1 cn], m as [o2 cm]. cbn in *. subst. f_equal.
      pose proof (C _ _ I) as Ci. pose proof (C _ _ J) as Cj. cbn in Ci, Cj.
      apply eqvs_sym in F'. pose proof (eqvs_trans _ _ _ _ F F') as G. clear - G Ci Cj.
      induction G as [|x y l l' (r & E1 & E2) G IH]; [reflexivity|]. inversion Ci; inversion Cj; subst. f_equal; [congruence|auto]. }
    apply eqv_trans with i; [now apply eqv_sym|]. apply eqv_trans with j; [|exact Q'].
    apply (clash_none g (g_nodes g) H n); auto. apply (wf_nodes g W n i I).
  Qed.

  Lemma stale_some : forall g ns c d, wf g -> incl ns (g_nodes g) -> stale a_make a_merge g ns = Val (Some (c, d)) ->
    find g c = Val c /\ exists n i ds dn dc ch, In (n, i) ns /\ find g i = Val c /\ rmapM (class_data g) (nch n) = Val ds /\
      a_make (g_an g) n ds = Val dn /\ index (g_data g) c = Val dc /\ a_merge dc dn = Val (d, ch).
  Proof.
    intros g ns c d W. induction ns as [|[n k] ns IH]; intros Hi H; cbn in H; [discriminate H|].
    destruct (find g k) as [c'|] eqn:Fk; [|discriminate H]. cbn in H.
    destruct (rmapM (class_data g) (nch n)) as [ds|] eqn:Ed; [|discriminate H]. cbn in H.
    destruct (a_make (g_an g) n ds) as [dn|] eqn:Em; [|discriminate H]. cbn in H.
    destruct (index (g_data g) c') as [dc|] eqn:Ei; [|discriminate H]. cbn in H.
    destruct (a_merge dc dn) as [[dm [ch1 ch2]]|] eqn:Eg; [|discriminate H]. cbn in H.
    destruct ch1.
    - inversion H; subst. split; [exact (wf_rep g W _ _ Fk)|]. exists n, k, ds, dn, dc, (true, ch2). cbn. auto 10.
    - destruct (IH (fun x X => Hi x (or_intror X)) H) as (F & n' & i & ds' & dn' & dc' & ch & I & R). split; [exact F|].
      exists n', i, ds', dn', dc', ch. cbn. auto.
  Qed.

  Lemma rebuild_ok : forall md, md_ok md -> forall fuel g g', wf g ->
    rebuild op_eqb a_make a_merge keep md fuel g = Val g' -> wf g' /\ ext g g' /\ congruent g' /\ canonical g'.
  Proof.
    intros md Md. induction fuel as [|k IH]; intros g g' W H; cbn in H; [discriminate H|].
    destruct (canon_nodes g) as [g1|] eqn:C; [|discriminate H]. cbn in H.
    destruct (canon_nodes_ok g g1 W C) as (W1 & E1 & C1 & R1 & D1 & _).
    destruct (clash op_eqb g1 (g_nodes g1)) as [c|] eqn:Cl; [|discriminate H]. cbn in H. destruct c as [[i j]|].
    - destruct (union a_merge keep md g1 i j) as [[g2 m]|] eqn:U; [|discriminate H]. cbn in H.
      destruct (union_ok md Md _ _ _ _ _ W1 U) as (W2 & E2 & _). destruct (IH _ _ W2 H) as (W3 & E3 & C3).
      split; [exact W3|]. split; [|exact C3]. eauto using ext_trans.
    - destruct (stale a_make a_merge g1 (g_nodes g1)) as [s|] eqn:S; [|discriminate H]. cbn in H. destruct s as [[c d]|].
      + destruct (md (EG (g_reps g1) (g_nodes g1) (set_nth (g_data g1) c d) (g_an g1)) c) as [g2|] eqn:M; [|discriminate H]. cbn in H.
        apply stale_some in S; [|exact W1|apply incl_refl]. destruct S as [Fc _].
        destruct (set_data_ok g1 (set_nth (g_data g1) c d) W1) as [W2 E2]; [rewrite set_nth_length; apply (wf_data g1 W1)|].
        destruct (Md _ _ _ W2 (find_some _ _ _ Fc) M) as [W3 E3]. destruct (IH _ _ W3 H) as (W4 & E4 & C4).
        split; [exact W4|]. split; [|exact C4]. eauto using ext_trans.
      + inversion H; subst g1. split; [exact W1|]. split; [exact E1|]. split; [now apply canonical_congruent|exact C1].
  Qed.
End Inv.
