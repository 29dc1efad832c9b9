(* E-graph operations keep the values of an algebra. *)
From Verif Require Import Base BaseProofs Lang LangProofs Generalize Egraph EgraphSpec EgraphProofs.
Open Scope list_scope.

Section Sound.
  Context {O D A V : Type}.
  Variable op_eqb : O -> O -> bool.
  Hypothesis op_eqb_eq : forall a b, op_eqb a b = true <-> a = b.
  Local Notation egraph := (egraph O D A).
  Local Notation wf := (@wf O D A).
  Variable a_make : A -> node O -> list D -> res D.
  Variable a_merge : D -> D -> res (D * (bool * bool)).
  Variable keep : egraph -> nat -> nat -> bool.
  Variable sem : O -> list V -> V.
  (* what the data of a class say about its value is true *)
  Variable dok : V -> D -> Prop.
  (* the values that count; the values of classes are such *)
  Variable vok : V -> Prop.
  Hypothesis dok_vok : forall v d, dok v d -> vok v.
  Hypothesis make_dok : forall a n ds d val, Forall2 (fun c x => dok (val c) x) (nch n) ds -> vok (sem (nop n) (map val (nch n))) ->
    a_make a n ds = Val d -> dok (sem (nop n) (map val (nch n))) d.
  Hypothesis merge_dok : forall v d1 d2 d c, dok v d1 -> dok v d2 -> a_merge d1 d2 = Val (d, c) -> dok v d.

  Definition sound (val : nat -> V) (g : egraph) : Prop :=
    models sem val g /\ forall i d, class_data g i = Val d -> dok (val i) d.
  (* the values carry over *)
  Definition carries (val : nat -> V) (g g' : egraph) : Prop :=
    exists val', (forall i, i < size g -> val' i = val i) /\ sound val' g'.

  Lemma carries_refl : forall val g, sound val g -> carries val g g.
  Proof. intros val g S. exists val. auto. Qed.
  Lemma carries_trans : forall val g h k, size g <= size h -> carries val g h ->
    (forall val', (forall i, i < size g -> val' i = val i) -> sound val' h -> carries val' h k) -> carries val g k.
  Proof.
    intros val g h k L (v1 & A1 & S1) H. destruct (H v1 A1 S1) as (v2 & A2 & S2). exists v2. split; [|exact S2].
    intros i Hi. rewrite A2 by lia. auto.
  Qed.

  Definition md_sound (md : egraph -> nat -> res egraph) : Prop :=
    md_ok md /\ forall val g i g', wf g -> i < size g -> sound val g -> md g i = Val g' -> carries val g g'.

  Lemma sound_class : forall val g ch ds, sound val g -> rmapM (class_data g) ch = Val ds ->
    Forall2 (fun c x => dok (val c) x) ch ds.
  Proof.
    intros val g ch ds [_ S] H. apply rmapM_F2 in H. induction H; cbn; constructor; auto.
  Qed.

  Lemma sound_vok : forall val g i, wf g -> sound val g -> i < size g -> vok (val i).
  Proof.
    intros val g i W [_ S] Li. destruct (find_val g i Li) as (r & F).
    destruct (index_lt _ (g_data g) r) as (d & E & _); [rewrite (wf_data g W); apply (find_some g r r); exact (wf_rep g W _ _ F)|].
    apply (dok_vok _ d). apply S. unfold class_data. rewrite F. exact E.
  Qed.

  Lemma new_class_carries : forall val g n g' i, wf g -> Forall (fun c => c < size g) (nch n) -> sound val g ->
    vok (sem (nop n) (map val (nch n))) -> new_class a_make g n = Val (g', i) -> carries val g g'.
  Proof.
    intros val g n g' i W F S Vk H. pose proof (new_class_ok _ g n g' i W F H) as (W' & E & Sz & -> & _).
    unfold new_class in H. destruct (rmapM (class_data g) (nch n)) as [ds|] eqn:Ed; [|discriminate H]. cbn in H.
    destruct (a_make (g_an g) n ds) as [d|] eqn:Em; [|discriminate H]. cbn in H. inversion H as [Hg]. clear H.
    set (val' := fun j => if Nat.eqb j (size g) then sem (nop n) (map val (nch n)) else val j).
    assert (Ag : forall j, j < size g -> val' j = val j).
    { intros j L. unfold val'. destruct (Nat.eqb_spec j (size g)); [lia|reflexivity]. }
    assert (Am : forall ch, Forall (fun c => c < size g) ch -> map val' ch = map val ch).
    { intros ch Fc. induction Fc; cbn; f_equal; auto. }
    assert (R : g_reps g' = g_reps g ++ [size g]) by (rewrite <- Hg; reflexivity).
    exists val'. split; [exact Ag|]. destruct S as [[S1 S2] S3]. rewrite Hg. split; [split|].
    - intros a b (r & Ha & Hb). apply (find_app_inv g) in Ha, Hb; try exact R.
      destruct Ha as [[La Ha]|[-> ->]]; destruct Hb as [[Lb Hb]|[-> Eb]].
      + rewrite !Ag by assumption. apply S1. exists r. auto.
      + subst r. apply (wf_rep g W) in Ha. apply find_some in Ha. lia.
      + apply (wf_rep g W) in Hb. apply find_some in Hb. lia.
      + reflexivity.
    - intros m j I. rewrite <- Hg in I. cbn in I. apply in_app_or in I as [I|[I|[]]].
      + destruct (wf_nodes g W m j I) as [L Fm]. rewrite Ag, Am by assumption. auto.
      + inversion I; subst m j. rewrite Am by assumption. unfold val'. now rewrite Nat.eqb_refl.
    - intros j dj Hd. unfold class_data in Hd. destruct (find g' j) as [r|] eqn:Fj; [|discriminate Hd]. cbn in Hd.
      rewrite <- Hg in Hd. cbn in Hd. apply (find_app_inv g) in Fj; [|exact R].
      pose proof (wf_data g W) as Ld. destruct Fj as [[L Fj]|[-> ->]].
      + rewrite Ag by exact L. apply S3. unfold class_data. rewrite Fj. cbn.
        pose proof (find_some _ _ _ (wf_rep g W _ _ Fj)) as Lr.
        unfold index in *. rewrite nth_error_app1 in Hd by (unfold size in *; lia). exact Hd.
      + rewrite <- Ld in Hd. rewrite index_last in Hd. inversion Hd; subst dj. unfold val'. rewrite Nat.eqb_refl.
        exact (make_dok _ _ _ _ val (sound_class val g (nch n) ds (conj (conj S1 S2) S3) Ed) Vk Em).
  Qed.

  Lemma set_data_carries : forall val (g : egraph) c d, wf g -> sound val g -> find g c = Val c -> dok (val c) d ->
    sound val (EG (g_reps g) (g_nodes g) (set_nth (g_data g) c d) (g_an g)).
  Proof.
    intros val g c d W [S1 S2] Fc Hd. split; [exact S1|]. intros i x H. unfold class_data in H.
    change (find (EG (g_reps g) (g_nodes g) (set_nth (g_data g) c d) (g_an g)) i) with (find g i) in H.
    destruct (find g i) as [r|] eqn:Fi; [|discriminate H]. cbn in H. unfold index in H.
    rewrite set_nth_nth in H by (rewrite (wf_data g W); now apply find_some in Fc).
    destruct (Nat.eqb_spec r c) as [->|N].
    - inversion H; subst x. replace (val i) with (val c); [exact Hd|]. apply (proj1 S1). exists c. auto.
    - apply S2. unfold class_data. rewrite Fi. exact H.
  Qed.

  Lemma merged_carries : forall val g k d dk dd dm ch, wf g -> sound val g -> find g k = Val k -> find g d = Val d -> k <> d ->
    val k = val d -> index (g_data g) k = Val dk -> index (g_data g) d = Val dd -> a_merge dk dd = Val (dm, ch) ->
    sound val (merged g k d (set_nth (g_data g) k dm)).
  Proof.
    intros val g k d dk dd dm ch W S Fk Fd N Ev Ik Id Em. pose proof S as S'. destruct S as [[S1 S2] S3].
    destruct (merged_ok g k d (set_nth (g_data g) k dm) W Fk Fd N) as (_ & _ & Q); [rewrite set_nth_length; apply (wf_data g W)|].
    split; [split|].
    - intros i j H. apply Q in H as [H|[[H1 H2]|[H1 H2]]]; [auto| |].
      + rewrite (S1 _ _ H1), (S1 _ _ H2). exact Ev.
      + rewrite (S1 _ _ H1), (S1 _ _ H2). auto.
    - exact S2.
    - intros i x H. unfold class_data in H. rewrite find_merged in H.
      destruct (find g i) as [r|] eqn:Fi; [|discriminate H]. cbn in H. unfold index in H.
      rewrite set_nth_nth in H by (rewrite (wf_data g W); now apply find_some in Fk).
      assert (Dm : dok (val k) dm).
      { apply (merge_dok _ dk dd dm ch); [| |exact Em].
        - apply S3. unfold class_data. rewrite Fk. exact Ik.
        - rewrite Ev. apply S3. unfold class_data. rewrite Fd. exact Id. }
      destruct (Nat.eqb_spec r d) as [->|Nr].
      + rewrite Nat.eqb_refl in H. inversion H; subst x. replace (val i) with (val k); [exact Dm|].
        rewrite Ev. apply S1. exists d. auto.
      + destruct (Nat.eqb_spec r k) as [->|Nk].
        * inversion H; subst x. replace (val i) with (val k); [exact Dm|]. apply S1. exists k. auto.
        * apply S3. unfold class_data. rewrite Fi. exact H.
  Qed.

  Section Ops.
    Variable md : egraph -> nat -> res egraph.
    Hypothesis Md : md_sound md.

    Lemma canon_vals : forall val g n n', wf g -> sound val g -> canon g n = Val n' -> nop n' = nop n /\ map val (nch n') = map val (nch n).
    Proof.
      intros val g n n' W [[S _] _] C. unfold canon in C. destruct (rmapM (find g) (nch n)) as [ch|] eqn:E; [|discriminate C]. cbn in C. injection C as <-.
      split; [reflexivity|]. cbn. apply rmapM_F2 in E. induction E as [|c r l l' H E IH]; cbn; [reflexivity|]. f_equal; [|exact IH].
      symmetry. apply S. exact (eqv_find g c r W H).
    Qed.
    Lemma add_carries : forall val g n g' i, wf g -> sound val g -> vok (sem (nop n) (map val (nch n))) ->
      add op_eqb a_make md g n = Val (g', i) -> carries val g g'.
    Proof.
      intros val g n g' i W S Vk H. unfold add in H. destruct (lookup_node op_eqb g n) as [[j|]|]; [| |discriminate H]; cbn in H.
      - inversion H; subst. now apply carries_refl.
      - destruct (canon g n) as [n'|] eqn:C; [|discriminate H]. cbn in H.
        destruct (new_class a_make g n') as [[g1 k]|] eqn:Nc; [|discriminate H]. cbn in H.
        destruct (md g1 k) as [g2|] eqn:M; [|discriminate H]. cbn in H. inversion H; subst g2 k.
        pose proof (canon_lt g n n' W C) as Lt.
        destruct (new_class_ok _ g n' g1 i W Lt Nc) as (W1 & E1 & S1 & -> & _).
        apply carries_trans with g1; [lia|apply new_class_carries with n' (size g); auto|].
        { destruct (canon_vals val g n n' W S C) as [-> ->]. exact Vk. }
        intros val' _ S'. apply (proj2 Md val' g1 (size g)); auto. lia.
    Qed.

    Lemma union_carries : forall val g a b g' m, wf g -> sound val g -> val a = val b ->
      union a_merge keep md g a b = Val (g', m) -> carries val g g'.
    Proof.
      intros val g a b g' m W S Ev H. unfold union in H. destruct (find g a) as [ra|] eqn:Ra; [|discriminate H]. cbn in H.
      destruct (find g b) as [rb|] eqn:Rb; [|discriminate H]. cbn in H.
      destruct (Nat.eqb_spec ra rb) as [->|N]; [inversion H; subst; now apply carries_refl|].
      pose proof S as [[S1 _] _].
      assert (Va : val ra = val a) by (symmetry; apply S1; exact (eqv_find g a ra W Ra)).
      assert (Vb : val rb = val b) by (symmetry; apply S1; exact (eqv_find g b rb W Rb)).
      pose proof (wf_rep g W _ _ Ra) as Fa. pose proof (wf_rep g W _ _ Rb) as Fb.
      assert (forall k d, find g k = Val k -> find g d = Val d -> k <> d -> val k = val d ->
        (let* dk := index (g_data g) k in let* dd := index (g_data g) d in let* (dm, _) := a_merge dk dd in
         let g1 := EG (map (fun r => if Nat.eqb r d then k else r) (g_reps g)) (g_nodes g) (set_nth (g_data g) k dm) (g_an g) in
         let* g2 := md g1 k in Val (g2, true)) = Val (g', m) -> carries val g g') as Gen.
      { intros k d Hk Hd Ne Hv X. destruct (index (g_data g) k) as [dk|] eqn:Ik; [|discriminate X]. cbn in X.
        destruct (index (g_data g) d) as [dd|] eqn:Id; [|discriminate X]. cbn in X.
        destruct (a_merge dk dd) as [[dm ch]|] eqn:Em; [|discriminate X]. cbn in X.
        fold (merged g k d (set_nth (g_data g) k dm)) in X.
        destruct (md (merged g k d (set_nth (g_data g) k dm)) k) as [g2|] eqn:M; [|discriminate X]. cbn in X. inversion X; subst g2.
        destruct (merged_ok g k d (set_nth (g_data g) k dm) W Hk Hd Ne) as (W1 & E1 & _); [rewrite set_nth_length; apply (wf_data g W)|].
        pose proof (merged_carries val g k d dk dd dm ch W S Hk Hd Ne Hv Ik Id Em) as S'.
        destruct (proj2 Md val _ k g' W1 ltac:(rewrite size_merged; exact (find_some _ _ _ Hk)) S' M) as (v2 & A2 & S2).
        exists v2. split; [|exact S2]. intros i Hi. apply A2. rewrite size_merged. exact Hi. }
      destruct (keep g ra rb).
      - apply (Gen ra rb); auto. congruence.
      - apply (Gen rb ra); auto. congruence.
    Qed.

    Lemma run_buf_in : forall (r : recexpr O) buf out (t : term O), run_buf (fun o ts => Val (T o ts)) r buf = Val out -> In t buf -> In t out.
    Proof.
      induction r as [|n r IH]; intros buf out t H J; cbn in H; [injection H as <-; exact J|].
      destruct (rmapM (index buf) (nch n)) as [us|]; [|discriminate H]. cbn in H. apply (IH _ _ _ H). apply in_or_app. now left.
    Qed.
    (* the terms at the nodes of an expression have values that count *)
    Definition rec_vok (r : recexpr O) : Prop := forall ts, run_buf (fun o ts => Val (T o ts)) r [] = Val ts -> Forall (fun t => vok (aval sem t)) ts.
    Lemma add_nodes_carries : forall r ts val g ids g' ids', wf g -> sound val g -> Forall2 (repr g) ts ids ->
      (forall us, run_buf (fun o ts => Val (T o ts)) r ts = Val us -> Forall (fun t => vok (aval sem t)) us) ->
      add_nodes op_eqb a_make md g ids r = Val (g', ids') -> carries val g g'.
    Proof.
      induction r as [|n r IH]; intros ts val g ids g' ids' W S F Vk H.
      - cbn in H. inversion H; subst. now apply carries_refl.
      - destruct (add_nodes_ok op_eqb op_eqb_eq a_make md (proj1 Md) _ _ _ _ _ _ W F H) as (_ & _ & ts' & R & _).
        cbn in H. destruct (rmapM (index ids) (nch n)) as [ch|] eqn:C; [|discriminate H]. cbn in H.
        destruct (add op_eqb a_make md g (Node (nop n) ch)) as [[g1 i]|] eqn:Ad; [|discriminate H]. cbn in H.
        destruct (add_ok op_eqb op_eqb_eq a_make md (proj1 Md) _ _ _ _ W Ad) as (W1 & E1 & H1). cbn in H1.
        pose proof (Vk ts' R) as Vt. cbn in R. destruct (rmapM (index ts) (nch n)) as [us|] eqn:Us; [|discriminate R]. cbn in R.
        assert (Fu : Forall2 (repr g) us ch).
        { clear - F C Us. apply rmapM_F2 in C, Us. revert us Us. induction C as [|c x l ch Hx C IH]; intros us Us; inversion Us as [|c' u l' us' Hu Us']; subst; constructor; [|auto].
          apply index_some in Hx as [_ Hx]. apply index_some in Hu as [_ Hu]. clear - F Hx Hu. revert c Hx Hu.
          induction F; intros [|c] X Y; cbn in *; try discriminate; [congruence|eauto]. }
        assert (Vn : vok (sem (nop n) (map val ch))).
        { rewrite Forall_forall in Vt. assert (Vu : vok (aval sem (T (nop n) us))). { apply Vt. apply (run_buf_in r _ _ _ R). apply in_or_app. right. now left. } cbn in Vu.
          replace (map val ch) with (map (aval sem) us); [exact Vu|]. clear - Fu S. induction Fu as [|u c us ch Hu Fu IH]; [reflexivity|]. cbn. f_equal; [|exact IH].
          exact (models_repr _ sem val g (proj1 S) u c Hu). }
        apply carries_trans with g1; [apply E1|now apply add_carries with (Node (nop n) ch) i|].
        intros val' _ S'. apply (IH (ts ++ [T (nop n) us]) val' g1 (ids ++ [i]) g' ids'); auto.
        + apply Forall2_app; [clear - F E1; induction F; constructor; auto; eapply repr_ext; eauto|]. constructor; [|constructor].
          apply Rp with ch; [clear - Fu E1; induction Fu; constructor; auto; eapply repr_ext; eauto|exact H1].
        + intros us' R'. rewrite R in R'. injection R' as <-. exact Vt.
    Qed.
    Lemma add_expr_carries : forall r val g g' i, wf g -> sound val g -> rec_vok r ->
      add_expr op_eqb a_make md g r = Val (g', i) -> carries val g g'.
    Proof.
      intros r val g g' i W S Vk H. unfold add_expr in H.
      destruct (add_nodes op_eqb a_make md g [] r) as [[g1 ids]|] eqn:E; [|discriminate H]. cbn in H.
      destruct (pop_unwrap ids) as [j|]; [|discriminate H]. cbn in H. inversion H; subst.
      now apply add_nodes_carries with r [] [] ids.
    Qed.

    Lemma rebuild_carries : forall fuel val g g', wf g -> sound val g ->
      rebuild op_eqb a_make a_merge keep md fuel g = Val g' -> carries val g g'.
    Proof.
      induction fuel as [|k IH]; intros val g g' W S H; cbn in H; [discriminate H|].
      destruct (canon_nodes g) as [g1|] eqn:C; [|discriminate H]. cbn in H.
      destruct (canon_nodes_ok g g1 W C) as (W1 & E1 & _ & R1 & D1 & Hb).
      assert (Sz : size g1 = size g) by (unfold size; now rewrite R1).
      assert (Q : forall i j, eqv g1 i j -> eqv g i j) by (intros i j (r & X & Y); exists r; unfold find in *; now rewrite <- R1).
      assert (S1 : sound val g1).
      { destruct S as [[A1 A2] A3]. split; [split|].
        - intros i j X. auto.
        - intros n i I. exact (models_has _ _ _ _ _ _ _ (conj A1 A2) (Hb _ _ _ (has_in g1 n i W1 I))).
        - intros i d X. apply A3. unfold class_data, find in *. now rewrite <- R1, <- D1. }
      assert (Cs : forall h, size g1 <= size h -> carries val g1 h -> wf h -> rebuild op_eqb a_make a_merge keep md k h = Val g' -> carries val g g').
      { intros h L Ch Wh Rh. apply carries_trans with h; [lia| |].
        - destruct Ch as (v & Av & Sv). exists v. split; [|exact Sv]. intros i Hi. apply Av. lia.
        - intros val' _ S'. now apply (IH val' h). }
      destruct (clash op_eqb g1 (g_nodes g1)) as [c|] eqn:Cl; [|discriminate H]. cbn in H. destruct c as [[i j]|].
      - destruct (union a_merge keep md g1 i j) as [[g2 m]|] eqn:U; [|discriminate H]. cbn in H.
        destruct (union_ok a_merge keep md (proj1 Md) _ _ _ _ _ W1 U) as (W2 & E2 & _).
        apply (Cs g2); auto; [apply E2|]. apply union_carries with i j m; auto.
        destruct (clash_some op_eqb op_eqb_eq g1 _ i j Cl) as (n & I & J). destruct S1 as [[_ N1] _].
        now rewrite (N1 _ _ I), (N1 _ _ J).
      - destruct (stale a_make a_merge g1 (g_nodes g1)) as [s|] eqn:St; [|discriminate H]. cbn in H. destruct s as [[c d]|].
        + destruct (md (EG (g_reps g1) (g_nodes g1) (set_nth (g_data g1) c d) (g_an g1)) c) as [g2|] eqn:M; [|discriminate H]. cbn in H.
          apply stale_some in St; [|exact W1|apply incl_refl].
          destruct St as (Fc & n & i & ds & dn & dc & ch & I & Fi & Ed & Em & Ic & Eg).
          destruct (set_data_ok g1 (set_nth (g_data g1) c d) W1) as [W2 E2]; [rewrite set_nth_length; apply (wf_data g1 W1)|].
          destruct (proj1 Md _ _ _ W2 (find_some _ _ _ Fc) M) as [W3 E3].
          assert (S2 : sound val (EG (g_reps g1) (g_nodes g1) (set_nth (g_data g1) c d) (g_an g1))).
          { apply set_data_carries; auto. apply (merge_dok _ dc dn d ch); [| |exact Eg].
            - apply S1. unfold class_data. rewrite Fc. exact Ic.
            - assert (Ev : val c = val i) by (symmetry; apply (proj1 (proj1 S1)); exact (eqv_find g1 i c W1 Fi)).
              rewrite Ev, (proj2 (proj1 S1) _ _ I). refine (make_dok _ _ _ _ val (sound_class val g1 _ _ S1 Ed) _ Em).
              rewrite <- (proj2 (proj1 S1) _ _ I). exact (sound_vok val g1 i W1 S1 (proj1 (wf_nodes g1 W1 _ _ I))). }
          apply (Cs g2); auto; [apply E3|]. exact (proj2 Md _ _ _ _ W2 (find_some _ _ _ Fc) S2 M).
        + inversion H; subst g1. exists val. auto.
    Qed.
  End Ops.

  (* modify only adds terms that have the value of the class *)
  Variable todo : list (egraph -> nat -> res (list (recexpr O))).
  Hypothesis todo_true : forall s, In s todo -> forall val g i ts, wf g -> i < size g -> sound val g -> s g i = Val ts ->
    forall r, In r ts -> rec_vok r /\ forall t, tree r = Val t -> aval sem t = val i.

  Lemma join_all_carries : forall md, md_sound md -> forall ts val g i g', wf g -> i < size g -> sound val g ->
    (forall r, In r ts -> rec_vok r /\ forall t, tree r = Val t -> aval sem t = val i) ->
    join_all (add_expr op_eqb a_make md) (union a_merge keep md) g i ts = Val g' -> carries val g g'.
  Proof.
    intros md Md. induction ts as [|r ts IH]; intros val g i g' W L S Ht H; cbn in H.
    - inversion H; subst. now apply carries_refl.
    - destruct (add_expr op_eqb a_make md g r) as [[g1 j]|] eqn:E; [|discriminate H]. cbn in H.
      destruct (union a_merge keep md g1 i j) as [[g2 m]|] eqn:U; [|discriminate H]. cbn in H.
      destruct (add_expr_ok op_eqb op_eqb_eq a_make md (proj1 Md) _ _ _ _ W E) as (W1 & E1 & t & Tr & Rp).
      destruct (union_ok a_merge keep md (proj1 Md) _ _ _ _ _ W1 U) as (W2 & E2 & _).
      apply carries_trans with g1; [apply E1|apply add_expr_carries with md r j; auto; apply (Ht r); now left|]. intros v1 A1 S1.
      apply carries_trans with g2; [apply E2| |].
      + apply union_carries with md i j m; auto. rewrite A1 by exact L. 
        rewrite <- (models_repr _ sem v1 g1 (proj1 S1) t j Rp). symmetry. apply (Ht r); [now left|exact Tr].
      + intros v2 A2 S2. destruct E1 as (L1 & _). destruct E2 as (L2 & _). apply (IH v2 g2 i g'); auto; [lia|].
        intros r' I. destruct (Ht r' (or_intror I)) as [V' T']. split; [exact V'|]. intros t' Tt. rewrite (T' t' Tt). rewrite A2 by lia. rewrite A1 by exact L. reflexivity.
  Qed.
  Lemma stages_carries : forall md, md_sound md -> forall ss, incl ss todo -> forall val g i g', wf g -> i < size g -> sound val g ->
    stages (add_expr op_eqb a_make md) (union a_merge keep md) g i ss = Val g' -> carries val g g'.
  Proof.
    intros md Md. induction ss as [|s ss IH]; intros Hi val g i g' W L S H; cbn in H.
    - inversion H; subst. now apply carries_refl.
    - destruct (s g i) as [ts|] eqn:Es; [|discriminate H]. cbn in H.
      destruct (join_all (add_expr op_eqb a_make md) (union a_merge keep md) g i ts) as [g1|] eqn:J; [|discriminate H]. cbn in H.
      destruct (join_all_ok op_eqb op_eqb_eq a_make a_merge keep md (proj1 Md) _ _ _ _ W J) as [W1 E1].
      apply carries_trans with g1; [apply E1| |].
      + apply (join_all_carries md Md ts val g i g1 W L S); [|exact J]. intros r I.
        exact (todo_true s (Hi s (or_introl eq_refl)) val g i ts W L S Es r I).
      + intros v1 A1 S1. destruct E1 as (L1 & _). apply (IH (fun x X => Hi x (or_intror X)) v1 g1 i g' W1); [lia|exact S1|exact H].
  Qed.
  Lemma modify_sound : forall fuel, md_sound (modify op_eqb a_make a_merge keep todo fuel).
  Proof.
    induction fuel as [|k IH]; split.
    - now apply modify_ok.
    - intros val g i g' W L S H. discriminate H.
    - now apply modify_ok.
    - intros val g i g' W L S H. cbn in H. exact (stages_carries _ IH todo (incl_refl _) val g i g' W L S H).
  Qed.
End Sound.
