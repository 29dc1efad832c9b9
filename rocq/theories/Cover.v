(* Operations that add no classes. *)
From Coq Require Import Permutation.
From Verif Require Import Base BaseProofs Lang LangProofs Rule Ruleset Analysis Generalize Egraph EgraphSpec EgraphProofs EgraphSound
  Synth Apply Sched SynthSpec SynthProofs.
Open Scope list_scope.

Section Cover.
  Context {O D A : Type}.
  Variable op_eqb : O -> O -> bool.
  Hypothesis op_eqb_eq : forall a b, op_eqb a b = true <-> a = b.
  Local Notation egraph := (egraph O D A).
  Local Notation wf := (@wf O D A).
  Variable a_make : A -> node O -> list D -> res D.
  Variable a_merge : D -> D -> res (D * (bool * bool)).
  Variable keep : egraph -> nat -> nat -> bool.

  (* every class of [g'] has an id of [g] in it *)
  Definition covers (g g' : egraph) : Prop := forall x, x < size g' -> exists y, y < size g /\ eqv g' x y.
  Lemma covers_refl : forall g, covers g g.
  Proof. intros g x Lx. exists x. split; [exact Lx|now apply eqv_refl]. Qed.
  Lemma covers_trans : forall g h k : egraph, ext h k -> covers g h -> covers h k -> covers g k.
  Proof.
    intros g h k E C1 C2 x Lx. destruct (C2 x Lx) as (y & Ly & Q). destruct (C1 y Ly) as (z & Lz & Q').
    exists z. split; [exact Lz|]. apply eqv_trans with y; [exact Q|]. now apply E.
  Qed.
  Lemma covers_size : forall g g' : egraph, size g' = size g -> covers g g'.
  Proof. intros g g' E x Lx. exists x. split; [lia|]. now apply eqv_refl. Qed.

  Lemma in_class_ids : forall (g : egraph) i, In i (class_ids g) <-> find g i = Val i.
  Proof.
    intros g i. unfold class_ids. rewrite filter_In, in_seq. split.
    - intros [_ H]. destruct (find g i) as [r|]; [|discriminate H]. apply Nat.eqb_eq in H. now subst.
    - intros H. rewrite H, Nat.eqb_refl. pose proof (find_some _ _ _ H). split; [lia|reflexivity].
  Qed.
  Lemma class_ids_nodup : forall g : egraph, NoDup (class_ids g).
  Proof. intros g. unfold class_ids. apply NoDup_filter, seq_NoDup. Qed.
  Lemma covers_count : forall g g' : egraph, wf g -> wf g' -> ext g g' -> covers g g' -> number_of_classes g' <= number_of_classes g.
  Proof.
    intros g g' W W' E Cv. unfold number_of_classes.
    (* the canonical ids of [g'] are among the images of those of [g] *)
    pose (f := fun i => match find g' i with Val r => r | Panic => 0 end).
    rewrite <- (map_length f (class_ids g)). apply NoDup_incl_length; [apply class_ids_nodup|].
    intros r I. apply in_class_ids in I. destruct (Cv r (find_some _ _ _ I)) as (y & Ly & Q).
    destruct (find_val g y Ly) as (ry & Fy). apply in_map_iff. exists ry. split.
    - assert (eqv g' r ry) as (q & Q1 & Q2). { apply eqv_trans with y; [exact Q|]. apply E. exact (eqv_find g y ry W Fy). }
      unfold f. rewrite Q2. congruence.
    - apply in_class_ids. exact (wf_rep g W _ _ Fy).
  Qed.

  Definition md_covers (md : egraph -> nat -> res egraph) : Prop :=
    forall g i g', wf g -> i < size g -> md g i = Val g' -> covers g g'.
  Section Ops.
    Variable md : egraph -> nat -> res egraph.
    Hypothesis Mo : md_ok md.
    Hypothesis Mc : md_covers md.

    Lemma add_covers : forall g n g' i, wf g -> add op_eqb a_make md g n = Val (g', i) ->
      forall x, x < size g' -> exists y, (y < size g \/ y = i) /\ eqv g' x y.
    Proof.
      intros g n g' i W H. unfold add in H. destruct (lookup_node op_eqb g n) as [[j|]|]; [| |discriminate H]; cbn in H.
      - inversion H; subst. intros x Lx. exists x. split; [now left|now apply eqv_refl].
      - destruct (canon g n) as [n'|] eqn:C; [|discriminate H]. cbn in H.
        destruct (new_class a_make g n') as [[g1 k]|] eqn:Nc; [|discriminate H]. cbn in H.
        destruct (md g1 k) as [g2|] eqn:M; [|discriminate H]. cbn in H. inversion H; subst g2 k.
        destruct (new_class_ok _ g n' g1 i W (canon_lt g n n' W C) Nc) as (W1 & E1 & S1 & -> & _).
        intros x Lx. destruct (Mc g1 (size g) g' W1 ltac:(lia) M x Lx) as (y & Ly & Q). exists y. split; [lia|exact Q].
    Qed.
    Lemma union_covers : forall g a b g' m, wf g -> union a_merge keep md g a b = Val (g', m) -> covers g g'.
    Proof.
      intros g a b g' m W H. unfold union in H. destruct (find g a) as [ra|] eqn:Ra; [|discriminate H]. cbn in H.
      destruct (find g b) as [rb|] eqn:Rb; [|discriminate H]. cbn in H.
      destruct (Nat.eqb_spec ra rb) as [->|N]; [inversion H; subst; apply covers_refl|].
      assert (Fa : find g ra = Val ra) by (now apply (wf_rep g W) with a).
      assert (Fb : find g rb = Val rb) by (now apply (wf_rep g W) with b).
      assert (forall k d, find g k = Val k -> find g d = Val d -> k <> d ->
          (let* dk := index (g_data g) k in let* dd := index (g_data g) d in let* (dm, _) := a_merge dk dd in
           let g1 := EG (map (fun r => if Nat.eqb r d then k else r) (g_reps g)) (g_nodes g) (set_nth (g_data g) k dm) (g_an g) in
           let* g2 := md g1 k in Val (g2, true)) = Val (g', m) -> covers g g') as Gen.
      { intros k d Hk Hd Ne X. destruct (index (g_data g) k) as [dk|]; [|discriminate X]. cbn in X.
        destruct (index (g_data g) d) as [dd|]; [|discriminate X]. cbn in X.
        destruct (a_merge dk dd) as [[dm ch]|]; [|discriminate X]. cbn in X.
        fold (merged g k d (set_nth (g_data g) k dm)) in X.
        destruct (md (merged g k d (set_nth (g_data g) k dm)) k) as [g2|] eqn:M; [|discriminate X]. cbn in X. inversion X; subst g2.
        destruct (merged_ok g k d (set_nth (g_data g) k dm) W Hk Hd Ne) as (W1 & E1 & Q); [rewrite set_nth_length; apply (wf_data g W)|].
        assert (Lk : k < size (merged g k d (set_nth (g_data g) k dm))) by (rewrite size_merged; exact (find_some _ _ _ Hk)).
        apply covers_trans with (merged g k d (set_nth (g_data g) k dm)).
        - now apply (Mo _ k).
        - apply covers_size, size_merged.
        - now apply (Mc _ k). }
      destruct (keep g ra rb).
      + apply (Gen ra rb); auto.
      + apply (Gen rb ra); auto.
    Qed.
    Lemma rebuild_covers : forall f g g', wf g -> rebuild op_eqb a_make a_merge keep md f g = Val g' -> covers g g'.
    Proof.
      induction f as [|k IH]; intros g g' W H; cbn in H; [discriminate H|].
      destruct (canon_nodes g) as [g1|] eqn:C; [|discriminate H]. cbn in H.
      destruct (canon_nodes_ok g g1 W C) as (W1 & E1 & C1 & R1 & D1 & _).
      assert (C01 : covers g g1) by (apply covers_size; unfold size; now rewrite R1).
      destruct (clash op_eqb g1 (g_nodes g1)) as [c|] eqn:Cl; [|discriminate H]. cbn in H. destruct c as [[i j]|].
      - destruct (union a_merge keep md g1 i j) as [[g2 m]|] eqn:U; [|discriminate H]. cbn in H.
        destruct (union_ok _ _ md Mo _ _ _ _ _ W1 U) as (W2 & E2 & _). destruct (rebuild_ok _ op_eqb_eq _ _ _ md Mo _ _ _ W2 H) as (_ & E3 & _).
        apply covers_trans with g2; [exact E3| |now apply IH].
        apply covers_trans with g1; [exact E2|exact C01|]. exact (union_covers _ _ _ _ _ W1 U).
      - destruct (stale a_make a_merge g1 (g_nodes g1)) as [s|] eqn:S; [|discriminate H]. cbn in H. destruct s as [[c d]|].
        + set (g1' := EG (g_reps g1) (g_nodes g1) (set_nth (g_data g1) c d) (g_an g1)) in H.
          destruct (md g1' c) as [g2|] eqn:M; [|discriminate H]. cbn in H.
          apply stale_some in S; [|exact W1|apply incl_refl]. destruct S as [Fc _].
          destruct (set_data_ok g1 (set_nth (g_data g1) c d) W1) as [W2 E2]; [rewrite set_nth_length; apply (wf_data g1 W1)|]. fold g1' in W2, E2.
          assert (Lc : c < size g1') by exact (find_some _ _ _ Fc).
          destruct (Mo _ _ _ W2 Lc M) as [W3 E3]. destruct (rebuild_ok _ op_eqb_eq _ _ _ md Mo _ _ _ W3 H) as (_ & E4 & _).
          apply covers_trans with g2; [exact E4| |now apply IH].
          apply covers_trans with g1'; [exact E3| |exact (Mc _ _ _ W2 Lc M)].
          apply covers_trans with g1; [exact E2|exact C01|]. now apply covers_size.
        + inversion H; subst g1. exact C01.
    Qed.
  End Ops.
End Cover.

(* ---- languages without custom_modify whose constants are single nodes ---- *)
Section Leafy.
  Context {O C : Type}.
  Variable L : lang O C.
  Hypothesis eqb_eq : forall a b, l_eqb L a b = true <-> a = b.
  Variable keep : eg O C -> nat -> nat -> bool.
  Hypothesis no_custom : forall g i, l_custom L g i = Val [].
  Hypothesis leafy : forall c, exists o, l_const L c = [Node o []].
  Local Notation wf := (@wf O (sig O C) nat).

  Lemma leafy_covers : forall fuel, md_covers (s_modify L keep fuel).
  Proof.
    unfold s_modify. induction fuel as [|k IH]; intros g i g' W Li H; cbn [modify] in H; [discriminate H|].
    cbn [stages] in H. rewrite no_custom in H. cbn [rbind join_all] in H.
    pose proof (modify_ok (l_eqb L) eqb_eq (s_make L) (s_merge L) keep [l_custom L; const_stage L] k) as Mo.
    remember (modify (l_eqb L) (s_make L) (s_merge L) keep [l_custom L; const_stage L] k) as md eqn:Emd. clear Emd.
    destruct (const_stage L g i) as [ts|] eqn:Ec; [|discriminate H]. cbn [rbind] in H.
    unfold const_stage in Ec. destruct (class_data g i) as [d|]; [|discriminate Ec]. cbn [rbind] in Ec.
    assert (Hts : ts = [] \/ exists o, ts = [[Node o []]]).
    { destruct (low (sg_itv d)) as [a|]; [|inversion Ec; now left]. destruct (high (sg_itv d)) as [b|]; [|inversion Ec; now left].
      destruct (l_ceqb L a b); inversion Ec; [|now left]. destruct (leafy a) as (o & ->). right. eauto. }
    destruct Hts as [->|(o & ->)]; cbn [join_all rbind] in H.
    - inversion H; subst. apply covers_refl.
    - destruct (add_expr (l_eqb L) (s_make L) md g [Node o []]) as [[g1 j]|] eqn:Ea; [|discriminate H]. cbn [rbind] in H.
      destruct (union (s_merge L) keep md g1 i j) as [[g2 b]|] eqn:U; [|discriminate H]. cbn [rbind] in H. inversion H; subst g2.
      unfold add_expr, add_nodes in Ea. cbn [nch nop rmapM rbind] in Ea.
      destruct (add (l_eqb L) (s_make L) md g (Node o [])) as [[g3 k']|] eqn:Ad; [|discriminate Ea]. cbn in Ea. inversion Ea; subst g3 k'.
      destruct (add_ok _ eqb_eq _ _ Mo _ _ _ _ W Ad) as (W1 & E1 & _).
      destruct (union_ok _ _ _ Mo _ _ _ _ _ W1 U) as (W2 & E2 & Q).
      intros x Lx. destruct (union_covers _ _ _ Mo IH _ _ _ _ _ W1 U x Lx) as (y & Ly & Qy).
      destruct (add_covers _ _ _ IH _ _ _ _ W Ad y Ly) as (z & [Lz| ->] & Qz).
      + exists z. split; [exact Lz|]. apply eqv_trans with y; [exact Qy|]. now apply E2.
      + exists i. split; [exact Li|]. apply eqv_trans with y; [exact Qy|]. apply eqv_trans with j; [now apply E2|]. now apply eqv_sym.
  Qed.

  Variable fuel : nat.
  Lemma union_first_ok : forall ids (g : eg O C) f g', wf g -> union_first L keep fuel g f ids = Val g' ->
    wf g' /\ ext g g' /\ forall i, In i ids -> eqv g' f i.
  Proof.
    clear no_custom leafy. induction ids as [|i ids IH]; intros g f g' W H; cbn in H.
    - inversion H; subst. split; [exact W|]. split; [apply ext_refl|]. intros i [].
    - destruct (s_union L keep fuel g f i) as [[g1 b]|] eqn:U; [|discriminate H]. cbn in H.
      destruct (union_ok _ _ _ (s_md_ok L eqb_eq keep fuel) _ _ _ _ _ W U) as (W1 & E1 & Q).
      destruct (IH g1 f g' W1 H) as (W2 & E2 & Qs). split; [exact W2|]. split; [exact (ext_trans _ _ _ E1 E2)|].
      intros j [<-|J]; [now apply E2|auto].
  Qed.
  Lemma union_first_covers : forall ids (g : eg O C) f g', wf g -> union_first L keep fuel g f ids = Val g' -> covers g g'.
  Proof.
    induction ids as [|i ids IH]; intros g f g' W H; cbn in H.
    - inversion H; subst. apply covers_refl.
    - destruct (s_union L keep fuel g f i) as [[g1 b]|] eqn:U; [|discriminate H]. cbn in H.
      destruct (union_ok _ _ _ (s_md_ok L eqb_eq keep fuel) _ _ _ _ _ W U) as (W1 & E1 & Q).
      destruct (union_first_ok ids g1 f g' W1 H) as (_ & E2 & _).
      apply covers_trans with g1; [exact E2| |now apply IH with f].
      exact (union_covers _ _ _ (s_md_ok L eqb_eq keep fuel) (leafy_covers fuel) _ _ _ _ _ W U).
  Qed.
  Lemma union_groups_ok : forall gs (g : eg O C) g', wf g -> union_groups L keep fuel g gs = Val g' ->
    wf g' /\ ext g g' /\ forall is i j, In is gs -> In i is -> In j is -> i < size g -> eqv g' i j.
  Proof.
    clear no_custom leafy. induction gs as [|[|f ids] gs IH]; intros g g' W H; cbn in H.
    - inversion H; subst. split; [exact W|]. split; [apply ext_refl|]. intros is i j [].
    - destruct (IH g g' W H) as (W2 & E2 & Q). split; [exact W2|]. split; [exact E2|]. intros is i j [<-|I]; [intros []|]. now apply Q.
    - destruct (union_first L keep fuel g f ids) as [g1|] eqn:U; [|discriminate H]. cbn in H.
      destruct (union_first_ok _ _ _ _ W U) as (W1 & E1 & C1).
      destruct (IH g1 g' W1 H) as (W2 & E2 & Q). split; [exact W2|]. split; [exact (ext_trans _ _ _ E1 E2)|].
      intros is i j [<-|I] Ii Ij Li.
      + apply E2. assert (forall x, In x (f :: ids) -> f = x \/ eqv g1 f x) as G. { intros x [<-|X]; [now left|right; now apply C1]. }
        assert (i < size g1) by (destruct E1; lia).
        destruct (G i Ii) as [<-|Qi]; destruct (G j Ij) as [<-|Qj]; auto.
        * now apply eqv_refl.
        * now apply eqv_sym.
        * apply eqv_trans with f; [now apply eqv_sym|exact Qj].
      + apply (Q is); auto. destruct E1; lia.
  Qed.
  Lemma union_groups_covers : forall gs (g : eg O C) g', wf g -> union_groups L keep fuel g gs = Val g' -> covers g g'.
  Proof.
    induction gs as [|[|f ids] gs IH]; intros g g' W H; cbn in H.
    - inversion H; subst. apply covers_refl.
    - now apply IH.
    - destruct (union_first L keep fuel g f ids) as [g1|] eqn:U; [|discriminate H]. cbn in H.
      destruct (union_first_ok _ _ _ _ W U) as (W1 & E1 & C1).
      destruct (union_groups_ok gs g1 g' W1 H) as (_ & E2 & _).
      apply covers_trans with g1; [exact E2| |now apply IH]. exact (union_first_covers _ _ _ _ W U).
  Qed.

  Lemma compress_with_count : forall order (g out : eg O C) g', wf g ->
    compress_with L keep fuel order g out = Val g' -> number_of_classes g' <= number_of_classes g.
  Proof.
    intros order g out g' W H. unfold compress_with in H. destruct (group_by out (class_ids g) []) as [m|]; [|discriminate H]. cbn in H.
    destruct (union_groups L keep fuel g (order (map snd m))) as [g1|] eqn:U; [|discriminate H]. cbn in H.
    destruct (union_groups_ok _ _ _ W U) as (W1 & E1 & _).
    destruct (rebuild_ok _ eqb_eq _ _ _ _ (s_md_ok L eqb_eq keep fuel) _ _ _ W1 H) as (W2 & E2 & _).
    apply covers_count; auto; [exact (ext_trans _ _ _ E1 E2)|].
    apply covers_trans with g1; [exact E2|exact (union_groups_covers _ _ _ W U)|].
    exact (rebuild_covers _ eqb_eq _ _ _ _ (s_md_ok L eqb_eq keep fuel) (leafy_covers fuel) _ _ _ W1 H).
  Qed.
End Leafy.

(* ---- what Compress merges ---- *)
Section Merges.
  Context {O C : Type}.
  Variable L : lang O C.
  Hypothesis eqb_eq : forall a b, l_eqb L a b = true <-> a = b.
  Variable keep : eg O C -> nat -> nat -> bool.
  Variable fuel : nat.
  Local Notation wf := (@wf O (sig O C) nat).

  Lemma group_in_keys : forall k i m k', In k' (map fst (group_in k i m)) <-> k' = k \/ In k' (map fst m).
  Proof.
    intros k i m k'. induction m as [|[k1 is] m IH]; cbn; [intuition auto|].
    destruct (Nat.eqb_spec k k1) as [->|N]; cbn; [intuition auto|]. rewrite IH. intuition auto.
  Qed.
  Lemma group_in_nodup : forall k i m, NoDup (map fst m) -> NoDup (map fst (group_in k i m)).
  Proof.
    intros k i m. induction m as [|[k1 is] m IH]; cbn; intros H; [repeat constructor; auto|].
    inversion H as [|? ? N D]; subst. destruct (Nat.eqb_spec k k1) as [->|Ne]; cbn; constructor; auto.
    rewrite group_in_keys. intros [E|I]; [congruence|auto].
  Qed.
  Lemma group_in_get : forall k i m, NoDup (map fst m) -> exists is, In (k, is) (group_in k i m) /\ In i is.
  Proof.
    intros k i m. induction m as [|[k1 is] m IH]; cbn; intros H; [exists [i]; cbn; auto|].
    inversion H as [|? ? N D]; subst. destruct (Nat.eqb_spec k k1) as [->|Ne].
    - exists (is ++ [i]). split; [now left|]. apply in_or_app. right. now left.
    - destruct (IH D) as (is' & I & J). exists is'. split; [now right|exact J].
  Qed.
  Lemma group_in_keep : forall k i m k' is' j, In (k', is') m -> In j is' -> exists is, In (k', is) (group_in k i m) /\ In j is.
  Proof.
    intros k i m k' is' j. induction m as [|[k1 is] m IH]; cbn; intros I J; [contradiction|].
    destruct (Nat.eqb_spec k k1) as [->|Ne]; destruct I as [E|I].
    - inversion E; subst. exists (is' ++ [i]). split; [now left|]. apply in_or_app. now left.
    - exists is'. cbn. auto.
    - inversion E; subst. exists is'. cbn. auto.
    - destruct (IH I J) as (is2 & I2 & J2). exists is2. cbn. auto.
  Qed.
  Lemma group_by_all : forall (out : eg O C) ids m m', group_by out ids m = Val m' -> NoDup (map fst m) ->
    NoDup (map fst m') /\
    (forall k is j, In (k, is) m -> In j is -> exists is', In (k, is') m' /\ In j is') /\
    (forall i k, In i ids -> find out i = Val k -> exists is, In (k, is) m' /\ In i is).
  Proof.
    induction ids as [|i ids IH]; intros m m' H D; cbn in H.
    - inversion H; subst. split; [exact D|]. split; [eauto|]. intros i k [].
    - destruct (find out i) as [k|] eqn:F; [|discriminate H]. cbn in H.
      destruct (IH _ _ H (group_in_nodup k i m D)) as (D' & K' & G'). split; [exact D'|]. split.
      + intros k' is j I J. destruct (group_in_keep k i m k' is j I J) as (is2 & I2 & J2). exact (K' _ _ _ I2 J2).
      + intros j k' [<-|J] Fj; [|now apply G']. assert (k' = k) by congruence. subst k'.
        destruct (group_in_get k i m D) as (is & I & J). exact (K' _ _ _ I J).
  Qed.
  Lemma nodup_fst_eq : forall (m : list (nat * list nat)) k a b, NoDup (map fst m) -> In (k, a) m -> In (k, b) m -> a = b.
  Proof.
    induction m as [|[k' x] m IH]; cbn; intros k a b D I J; [contradiction|]. inversion D as [|? ? N D']; subst.
    destruct I as [I|I]; destruct J as [J|J]; try congruence; [| |eauto].
    - inversion I; subst. destruct N. apply in_map_iff. exists (k, b). auto.
    - inversion J; subst. destruct N. apply in_map_iff. exists (k, a). auto.
  Qed.

  Lemma compress_with_merges : forall order (g out : eg O C) g', (forall l, Permutation l (order l)) -> wf g -> wf out -> ext g out ->
    compress_with L keep fuel order g out = Val g' ->
    wf g' /\ ext g g' /\ congruent g' /\ canonical g' /\ forall i j, i < size g -> j < size g -> eqv out i j -> eqv g' i j.
  Proof.
    intros order g out g' Po W Wo Eo H. unfold compress_with in H. destruct (group_by out (class_ids g) []) as [m|] eqn:Gb; [|discriminate H]. cbn in H.
    destruct (union_groups L keep fuel g (order (map snd m))) as [g1|] eqn:U; [|discriminate H]. cbn in H.
    destruct (union_groups_ok L eqb_eq keep fuel _ _ _ W U) as (W1 & E1 & Q).
    destruct (rebuild_ok _ eqb_eq _ _ _ _ (s_md_ok L eqb_eq keep fuel) _ _ _ W1 H) as (W2 & E2 & Cg & Cn).
    split; [exact W2|]. split; [exact (ext_trans _ _ _ E1 E2)|]. split; [exact Cg|]. split; [exact Cn|].
    intros i j Li Lj Qo. destruct (group_by_all out _ _ _ Gb (NoDup_nil _)) as (D & _ & G).
    destruct (find_val g i Li) as (ri & Fi). destruct (find_val g j Lj) as (rj & Fj).
    pose proof (wf_rep g W _ _ Fi) as Ri. pose proof (wf_rep g W _ _ Fj) as Rj.
    pose proof (eqv_find g i ri W Fi) as Qi. pose proof (eqv_find g j rj W Fj) as Qj.
    assert (eqv out ri rj) as (k & Ki & Kj).
    { apply eqv_trans with i; [apply eqv_sym; now apply Eo|]. apply eqv_trans with j; [exact Qo|now apply Eo]. }
    destruct (G ri k (proj2 (in_class_ids g ri) Ri) Ki) as (a & Ia & Ja).
    destruct (G rj k (proj2 (in_class_ids g rj) Rj) Kj) as (b & Ib & Jb).
    pose proof (nodup_fst_eq m k a b D Ia Ib) as <-.
    assert (eqv g1 ri rj) as Q1.
    { apply (Q a); auto; [|exact (find_some _ _ _ Ri)]. apply (Permutation_in _ (Po _)). apply in_map_iff. exists (k, a). auto. }
    apply E2. apply eqv_trans with ri; [now apply E1|]. apply eqv_trans with rj; [exact Q1|]. apply eqv_sym. now apply E1.
  Qed.
End Merges.
