(* A property of the data of classes that make and merge keep holds in every e-graph. *)
From Coq Require Import Permutation.
From Verif Require Import Base BaseProofs Lang Rule Ruleset Analysis Egraph EgraphSpec EgraphProofs Synth Apply Sched SynthSpec SynthProofs Workload.
Open Scope list_scope.

Lemma set_nth_in : forall X (l : list X) i x y, In y (set_nth l i x) -> In y l \/ y = x.
Proof.
  intros X l i x y H. unfold set_nth in H. apply in_app_or in H as [H|H].
  - left. rewrite <- (firstn_skipn i l). apply in_or_app. now left.
  - destruct (skipn i l) as [|z r] eqn:E; [destruct H|]. destruct H as [->|H]; [now right|]. left. rewrite <- (firstn_skipn i l), E. apply in_or_app. right. now right.
Qed.

Section Data.
  Context {O D A : Type}.
  Local Notation egraph := (egraph O D A).
  Variable op_eqb : O -> O -> bool.
  Variable a_make : A -> node O -> list D -> res D.
  Variable a_merge : D -> D -> res (D * (bool * bool)).
  Variable keep : egraph -> nat -> nat -> bool.
  Variable P : A -> D -> Prop.
  Hypothesis P_make : forall a n ds d, length ds = length (nch n) -> Forall (P a) ds -> a_make a n ds = Val d -> P a d.
  Hypothesis P_merge : forall a x y d ch, P a x -> P a y -> a_merge x y = Val (d, ch) -> P a d.

  Definition dat (g : egraph) : Prop := Forall (P (g_an g)) (g_data g).
  Definition keeps_dat (g g' : egraph) : Prop := g_an g' = g_an g /\ (dat g -> dat g').
  Lemma kd_refl : forall g, keeps_dat g g.
  Proof. intros g. split; auto. Qed.
  Lemma kd_trans : forall g h k, keeps_dat g h -> keeps_dat h k -> keeps_dat g k.
  Proof. intros g h k [A1 B1] [A2 B2]. split; [congruence|auto]. Qed.
  Lemma dat_class : forall g i d, dat g -> class_data g i = Val d -> P (g_an g) d.
  Proof.
    intros g i d H E. unfold class_data in E. destruct (find g i) as [r|]; [|discriminate E]. cbn in E. apply index_some in E as [_ E].
    unfold dat in H. rewrite Forall_forall in H. exact (H d (nth_error_In _ _ E)).
  Qed.
  Lemma dat_set : forall g reps nodes k d, dat g -> P (g_an g) d -> dat (EG reps nodes (set_nth (g_data g) k d) (g_an g)).
  Proof.
    intros g reps nodes k d H Hd. unfold dat in *. cbn. apply Forall_forall. intros x I. apply set_nth_in in I as [I| ->]; [|exact Hd].
    rewrite Forall_forall in H. auto.
  Qed.
  Definition md_dat (md : egraph -> nat -> res egraph) : Prop := forall g i g', md g i = Val g' -> keeps_dat g g'.

  Section Ops.
    Variable md : egraph -> nat -> res egraph.
    Hypothesis Md : md_dat md.
    Lemma new_class_dat : forall g n g' i, new_class a_make g n = Val (g', i) -> keeps_dat g g'.
    Proof.
      intros g n g' i H. unfold new_class in H. destruct (rmapM (class_data g) (nch n)) as [ds|] eqn:E; [|discriminate H]. cbn in H.
      destruct (a_make (g_an g) n ds) as [d|] eqn:Em; [|discriminate H]. cbn in H. inversion H; subst. split; [reflexivity|]. intros Hd.
      unfold dat in *. cbn. apply Forall_app. split; [exact Hd|]. constructor; [|constructor]. apply rmapM_F2 in E.
      apply (P_make _ n ds d); [symmetry; exact (Forall2_length _ _ _ E)| |exact Em].
      clear - E Hd. induction E; constructor; auto. exact (dat_class g x y Hd H).
    Qed.
    Lemma add_dat : forall g n g' i, add op_eqb a_make md g n = Val (g', i) -> keeps_dat g g'.
    Proof.
      intros g n g' i H. unfold add in H. destruct (lookup_node op_eqb g n) as [[j|]|]; [| |discriminate H]; cbn in H; [inversion H; subst; apply kd_refl|].
      destruct (canon g n) as [n'|]; [|discriminate H]. cbn in H. destruct (new_class a_make g n') as [[g1 k]|] eqn:Nc; [|discriminate H]. cbn in H.
      destruct (md g1 k) as [g2|] eqn:M; [|discriminate H]. cbn in H. inversion H; subst. exact (kd_trans _ _ _ (new_class_dat _ _ _ _ Nc) (Md _ _ _ M)).
    Qed.
    Lemma union_dat : forall g a b g' m, union a_merge keep md g a b = Val (g', m) -> keeps_dat g g'.
    Proof.
      intros g a b g' m H. unfold union in H. destruct (find g a) as [ra|]; [|discriminate H]. cbn in H. destruct (find g b) as [rb|]; [|discriminate H]. cbn in H.
      destruct (Nat.eqb ra rb); [inversion H; subst; apply kd_refl|]. destruct (if keep g ra rb then (ra, rb) else (rb, ra)) as [k d].
      destruct (index (g_data g) k) as [dk|] eqn:Ek; [|discriminate H]. cbn in H. destruct (index (g_data g) d) as [dd|] eqn:Ed; [|discriminate H]. cbn in H.
      destruct (a_merge dk dd) as [[dm ch]|] eqn:Em; [|discriminate H]. cbn in H.
      match type of H with (let* g2 := md ?x ?y in _) = _ => destruct (md x y) as [g2|] eqn:M; [|discriminate H] end. cbn in H. inversion H; subst.
      refine (kd_trans _ _ _ _ (Md _ _ _ M)). split; [reflexivity|]. intros Hd. apply dat_set; [exact Hd|].
      apply index_some in Ek as [_ Ek]. apply index_some in Ed as [_ Ed]. pose proof Hd as Hd'. unfold dat in Hd'. rewrite Forall_forall in Hd'.
      exact (P_merge _ dk dd dm ch (Hd' _ (nth_error_In _ _ Ek)) (Hd' _ (nth_error_In _ _ Ed)) Em).
    Qed.
    Lemma add_nodes_dat : forall r g ids g' ids', add_nodes op_eqb a_make md g ids r = Val (g', ids') -> keeps_dat g g'.
    Proof.
      induction r as [|n r IH]; intros g ids g' ids' H; cbn in H; [inversion H; subst; apply kd_refl|].
      destruct (rmapM (index ids) (nch n)) as [ch|]; [|discriminate H]. cbn in H.
      destruct (add op_eqb a_make md g (Node (nop n) ch)) as [[g1 i]|] eqn:E; [|discriminate H]. cbn in H. exact (kd_trans _ _ _ (add_dat _ _ _ _ E) (IH _ _ _ _ H)).
    Qed.
    Lemma add_expr_dat : forall r g g' i, add_expr op_eqb a_make md g r = Val (g', i) -> keeps_dat g g'.
    Proof.
      intros r g g' i H. unfold add_expr in H. destruct (add_nodes op_eqb a_make md g [] r) as [[g1 ids]|] eqn:E; [|discriminate H]. cbn in H.
      destruct (pop_unwrap ids); [|discriminate H]. cbn in H. inversion H; subst. exact (add_nodes_dat _ _ _ _ _ E).
    Qed.
    Lemma canon_nodes_dat : forall g g', canon_nodes g = Val g' -> keeps_dat g g'.
    Proof. intros g g' H. unfold canon_nodes in H. destruct (rmapM _ (g_nodes g)); [|discriminate H]. cbn in H. inversion H; subst. split; auto. Qed.
    Lemma stale_dat : forall g ns c d, dat g -> stale a_make a_merge g ns = Val (Some (c, d)) -> P (g_an g) d.
    Proof.
      intros g. induction ns as [|[n i] ns IH]; intros c d Hd H; cbn in H; [discriminate H|].
      destruct (find g i) as [ci|]; [|discriminate H]. cbn in H. destruct (rmapM (class_data g) (nch n)) as [ds|] eqn:E; [|discriminate H]. cbn in H.
      destruct (a_make (g_an g) n ds) as [dn|] eqn:Em; [|discriminate H]. cbn in H. destruct (index (g_data g) ci) as [dc|] eqn:Ec; [|discriminate H]. cbn in H.
      destruct (a_merge dc dn) as [[dm ch]|] eqn:Eg; [|discriminate H]. cbn in H. destruct (fst ch); [|exact (IH c d Hd H)]. inversion H; subst.
      apply rmapM_F2 in E. apply index_some in Ec as [_ Ec]. pose proof Hd as Hd'. unfold dat in Hd'. rewrite Forall_forall in Hd'.
      apply (P_merge _ dc dn d ch); [exact (Hd' _ (nth_error_In _ _ Ec))| |exact Eg].
      apply (P_make _ n ds dn); [symmetry; exact (Forall2_length _ _ _ E)| |exact Em]. clear - E Hd. induction E; constructor; auto. exact (dat_class g x y Hd H).
    Qed.
    Lemma rebuild_dat : forall f g g', rebuild op_eqb a_make a_merge keep md f g = Val g' -> keeps_dat g g'.
    Proof.
      induction f as [|k IH]; intros g g' H; cbn in H; [discriminate H|].
      destruct (canon_nodes g) as [g1|] eqn:C; [|discriminate H]. cbn in H. pose proof (canon_nodes_dat g g1 C) as K1.
      destruct (clash op_eqb g1 (g_nodes g1)) as [c|]; [|discriminate H]. cbn in H. destruct c as [[i j]|].
      - destruct (union a_merge keep md g1 i j) as [[g2 m]|] eqn:U; [|discriminate H]. cbn in H.
        exact (kd_trans _ _ _ K1 (kd_trans _ _ _ (union_dat _ _ _ _ _ U) (IH _ _ H))).
      - destruct (stale a_make a_merge g1 (g_nodes g1)) as [s|] eqn:S; [|discriminate H]. cbn in H. destruct s as [[c d]|]; [|inversion H; now subst g1].
        destruct (md _ c) as [g2|] eqn:M in H; [|discriminate H]. cbn in H. refine (kd_trans _ _ _ K1 (kd_trans _ _ _ _ (kd_trans _ _ _ (Md _ _ _ M) (IH _ _ H)))).
        split; [reflexivity|]. intros Hd. apply dat_set; [exact Hd|]. exact (stale_dat g1 _ c d Hd S).
    Qed.
  End Ops.

  Lemma modify_dat : forall todo f, md_dat (modify op_eqb a_make a_merge keep todo f).
  Proof.
    intros todo. induction f as [|k IH]; intros g i g' H; cbn in H; [discriminate H|].
    remember (modify op_eqb a_make a_merge keep todo k) as md eqn:Em. clear Em.
    assert (J : forall ts g g', join_all (add_expr op_eqb a_make md) (union a_merge keep md) g i ts = Val g' -> keeps_dat g g').
    { induction ts as [|t ts IHt]; intros h h' Hj; cbn in Hj; [inversion Hj; subst; apply kd_refl|].
      destruct (add_expr op_eqb a_make md h t) as [[h1 j]|] eqn:E1; [|discriminate Hj]. cbn in Hj. destruct (union a_merge keep md h1 i j) as [[h2 m]|] eqn:E2; [|discriminate Hj]. cbn in Hj.
      exact (kd_trans _ _ _ (add_expr_dat md IH _ _ _ _ E1) (kd_trans _ _ _ (union_dat md IH _ _ _ _ _ E2) (IHt _ _ Hj))). }
    revert g H. induction todo as [|s ss IHs]; intros g H; cbn in H; [inversion H; subst; apply kd_refl|].
    destruct (s g i) as [ts|]; [|discriminate H]. cbn in H. destruct (join_all _ _ g i ts) as [g1|] eqn:E; [|discriminate H]. cbn in H.
    exact (kd_trans _ _ _ (J _ _ _ E) (IHs _ H)).
  Qed.
End Data.

Section Lang.
  Context {O C : Type}.
  Variable L : lang O C.
  Variable keep : eg O C -> nat -> nat -> bool.
  Variable P : nat -> sig O C -> Prop.
  Hypothesis P_make : forall a n ds d, length ds = length (nch n) -> Forall (P a) ds -> s_make L a n ds = Val d -> P a d.
  Hypothesis P_merge : forall a x y d ch, P a x -> P a y -> s_merge L x y = Val (d, ch) -> P a d.
  (* what initialize_vars puts in *)
  Hypothesis P_init : forall vars n vs v c ts, l_init L vars = Val (n, vs) -> In (v, c, ts) vs -> forall d, P n d -> P n (Sig c (sg_simplest d) (sg_itv d)).
  Local Notation dat := (@dat O (sig O C) nat P).
  Local Notation keeps_dat := (@keeps_dat O (sig O C) nat P).

  Section Fuel.
    Variable fuel : nat.
    Lemma s_modify_dat : md_dat P (s_modify L keep fuel).
    Proof. exact (modify_dat (l_eqb L) _ _ keep P P_make P_merge _ fuel). Qed.
    Lemma s_add_dat : forall g n g' i, s_add L keep fuel g n = Val (g', i) -> keeps_dat g g'.
    Proof. exact (add_dat _ _ P P_make _ s_modify_dat). Qed.
    Lemma s_add_expr_dat : forall r g g' i, s_add_expr L keep fuel g r = Val (g', i) -> keeps_dat g g'.
    Proof. exact (add_expr_dat _ _ P P_make _ s_modify_dat). Qed.
    Lemma s_union_dat : forall g a b g' m, s_union L keep fuel g a b = Val (g', m) -> keeps_dat g g'.
    Proof. exact (union_dat _ keep P P_merge _ s_modify_dat). Qed.
    Lemma s_rebuild_dat : forall g g', s_rebuild L keep fuel g = Val g' -> keeps_dat g g'.
    Proof. exact (rebuild_dat _ _ _ keep P P_make P_merge _ s_modify_dat fuel). Qed.
    Lemma apply_nodes_dat : forall p g s ids g' ids', apply_nodes L keep fuel g s ids p = Val (g', ids') -> keeps_dat g g'.
    Proof.
      induction p as [|n p IH]; intros g s ids g' ids' H; cbn in H; [inversion H; subst; apply kd_refl|]. destruct (nop n) as [o|v].
      - destruct (rmapM (index ids) (nch n)) as [ch|]; [|discriminate H]. cbn in H. destruct (s_add L keep fuel g (Node o ch)) as [[g1 i]|] eqn:E; [|discriminate H]. cbn in H.
        exact (kd_trans _ _ _ _ (s_add_dat _ _ _ _ E) (IH _ _ _ _ _ H)).
      - destruct (lookup s v) as [i|]; [|discriminate H]. cbn in H. exact (IH _ _ _ _ _ H).
    Qed.
    Lemma apply_pat_dat : forall p g s g' i, apply_pat L keep fuel g s p = Val (g', i) -> keeps_dat g g'.
    Proof.
      intros p g s g' i H. unfold apply_pat in H. destruct (apply_nodes L keep fuel g s [] p) as [[g1 ids]|] eqn:E; [|discriminate H]. cbn in H.
      destruct (pop_unwrap ids); [|discriminate H]. cbn in H. inversion H; subst. exact (apply_nodes_dat _ _ _ _ _ _ E).
    Qed.
    Lemma apply_one_dat : forall r g c s g' ids, apply_one L keep fuel r g c s = Val (g', ids) -> keeps_dat g g'.
    Proof.
      intros r g c s g' ids H.
      assert (Pl : apply_plain L keep fuel (rrhs r) g c s = Val (g', ids) -> keeps_dat g g').
      { intros Hp. unfold apply_plain in Hp. destruct (apply_pat L keep fuel g s (rrhs r)) as [[g1 i]|] eqn:E; [|discriminate Hp]. cbn in Hp.
        destruct (s_union L keep fuel g1 i c) as [[g2 b]|] eqn:U; [|discriminate Hp]. cbn in Hp. inversion Hp; subst. exact (kd_trans _ _ _ _ (apply_pat_dat _ _ _ _ _ E) (s_union_dat _ _ _ _ _ U)). }
      unfold apply_one in H. destruct (rkind r); [|exact (Pl H)|].
      - unfold apply_rhs in H. destruct (class_data g c) as [d|]; [|discriminate H]. cbn in H. destruct (is_defined d); cbn in H; [|inversion H; subst; apply kd_refl].
        destruct (apply_pat L keep fuel g s (rrhs r)) as [[g1 i]|] eqn:E; [|discriminate H]. cbn in H. pose proof (apply_pat_dat _ _ _ _ _ E) as K1.
        destruct (Nat.eqb i c); [inversion H; now subst|]. destruct (class_data g1 i) as [di|]; [|discriminate H]. cbn in H. destruct (is_defined di); cbn in H; [|inversion H; now subst].
        destruct (s_union L keep fuel g1 i c) as [[g2 b]|] eqn:U; [|discriminate H]. cbn in H. inversion H; subst. exact (kd_trans _ _ _ _ K1 (s_union_dat _ _ _ _ _ U)).
      - destruct (guard L v g s) as [[|]|]; [exact (Pl H)| |discriminate H]. cbn in H. inversion H; subst. apply kd_refl.
    Qed.
    Lemma rsteps_dat : forall rules x y, rsteps L keep fuel rules x y -> keeps_dat (fst x) (fst y).
    Proof.
      intros rules x y H. induction H as [x|x y z S1 _ IH]; [apply kd_refl|]. refine (kd_trans _ _ _ _ _ IH). destruct S1; cbn [fst]; [apply kd_refl|exact (apply_one_dat _ _ _ _ _ _ H0)|exact (s_rebuild_dat _ _ H)].
    Qed.
    Lemma runs_dat : forall rules g g', runs L keep fuel rules g g' -> keeps_dat g g'.
    Proof. intros rules g g' (ms & St). exact (rsteps_dat _ _ _ St). Qed.
    Lemma simple_dat : forall rs g g', simple L keep fuel rs g g' -> keeps_dat g g'.
    Proof. intros rs g g' (g1 & R & B). exact (kd_trans _ _ _ _ (runs_dat _ _ _ R) (s_rebuild_dat _ _ B)). Qed.
    Lemma union_groups_dat : forall gs g g', union_groups L keep fuel g gs = Val g' -> keeps_dat g g'.
    Proof.
      assert (F : forall ids g f g', union_first L keep fuel g f ids = Val g' -> keeps_dat g g').
      { induction ids as [|i ids IH]; intros g f g' H; cbn in H; [inversion H; subst; apply kd_refl|].
        destruct (s_union L keep fuel g f i) as [[g1 b]|] eqn:U; [|discriminate H]. cbn in H. exact (kd_trans _ _ _ _ (s_union_dat _ _ _ _ _ U) (IH _ _ _ H)). }
      induction gs as [|[|i is] gs IH]; intros g g' H; cbn in H; [inversion H; subst; apply kd_refl|exact (IH _ _ H)|].
      destruct (union_first L keep fuel g i is) as [g1|] eqn:U; [|discriminate H]. cbn in H. exact (kd_trans _ _ _ _ (F _ _ _ _ U) (IH _ _ H)).
    Qed.
    Lemma scheduled_dat : forall st rs g g', scheduled L keep fuel st rs g g' -> keeps_dat g g'.
    Proof.
      intros [|iter|order] rs g g' H; cbn in H; [exact (simple_dat _ _ _ H)| |].
      - destruct H as (sat & other & g1 & g2 & _ & R & R2 & B). refine (kd_trans _ _ _ _ _ (kd_trans _ _ _ _ (runs_dat _ _ _ R2) (s_rebuild_dat _ _ B))).
        clear R2 B. induction R as [g|n g h1 h2 k R1 R2 R3 IH]; [apply kd_refl|]. exact (kd_trans _ _ _ _ (runs_dat _ _ _ R1) (kd_trans _ _ _ _ (runs_dat _ _ _ R2) IH)).
      - destruct H as (out & _ & H). unfold compress_with in H. destruct (group_by out (class_ids g) []) as [m|]; [|discriminate H]. cbn in H.
        destruct (union_groups L keep fuel g (order (map snd m))) as [g1|] eqn:U; [|discriminate H]. cbn in H. exact (kd_trans _ _ _ _ (union_groups_dat _ _ _ U) (s_rebuild_dat _ _ H)).
    Qed.
    Lemma init_vars_dat : forall n vs0 vars, l_init L vars = Val (n, vs0) -> forall vs g g', incl vs vs0 -> g_an g = n -> init_vars L keep fuel g vs = Val g' -> keeps_dat g g'.
    Proof.
      intros n vs0 vars Ei. induction vs as [|[[v c] ts] vs IH]; intros g g' Sub An H; cbn in H; [inversion H; subst; apply kd_refl|].
      destruct (s_add L keep fuel g (Node (l_mk_var L v) [])) as [[g1 i]|] eqn:E; [|discriminate H]. cbn in H. pose proof (s_add_dat _ _ _ _ E) as K1.
      destruct (set_cvec g1 i c) as [g2|] eqn:S; [|discriminate H]. cbn in H.
      assert (K2 : keeps_dat g1 g2).
      { unfold set_cvec in S. destruct (find g1 i) as [r|]; [|discriminate S]. cbn in S. destruct (index (g_data g1) r) as [d|] eqn:Ed; [|discriminate S]. cbn in S. inversion S; subst.
        split; [reflexivity|]. intros Hd. apply dat_set; [exact Hd|]. rewrite (proj1 K1). apply (P_init _ _ _ _ _ _ Ei (Sub _ (or_introl eq_refl))).
        rewrite <- (proj1 K1). apply index_some in Ed as [_ Ed]. unfold DataProofs.dat in Hd. rewrite Forall_forall in Hd. exact (Hd d (nth_error_In _ _ Ed)). }
      destruct (link_all L keep fuel g2 i ts) as [g3|] eqn:Lk; [|discriminate H]. cbn in H.
      assert (K3 : keeps_dat g2 g3).
      { clear - Lk P_make P_merge. revert g2 Lk. induction ts as [|t ts IH]; intros g2 Lk; cbn in Lk; [inversion Lk; subst; apply kd_refl|].
        destruct (s_add_expr L keep fuel g2 t) as [[h j]|] eqn:E; [|discriminate Lk]. cbn in Lk. destruct (s_union L keep fuel h i j) as [[h2 b]|] eqn:U; [|discriminate Lk]. cbn in Lk.
        exact (kd_trans _ _ _ _ (s_add_expr_dat _ _ _ _ E) (kd_trans _ _ _ _ (s_union_dat _ _ _ _ _ U) (IH _ Lk))). }
      pose proof (kd_trans _ _ _ _ K1 (kd_trans _ _ _ _ K2 K3)) as K. refine (kd_trans _ _ _ _ K (IH _ _ _ _ H)); [intros x I; apply Sub; now right|]. rewrite (proj1 K). exact An.
    Qed.
    Lemma to_egraph_dat : forall w g, to_egraph L keep fuel w = Val g -> dat g.
    Proof.
      intros w g H. unfold to_egraph in H. destruct (force w) as [ss|]; [|discriminate H]. cbn [rbind] in H.
      destruct (rmapM _ ss) as [rs|]; [|discriminate H]. cbn [rbind] in H. unfold initialize_vars in H.
      destruct (l_init L (all_vars L rs)) as [[n vs]|] eqn:Ei; [|discriminate H]. cbn [rbind] in H.
      match type of H with (let* g := ?x in _) = _ => destruct x as [g1|] eqn:I; [|discriminate H] end. cbn [rbind] in H.
      assert (D1 : dat g1).
      { refine (proj2 (init_vars_dat n vs _ Ei vs _ g1 (incl_refl _) _ I) _); [reflexivity|constructor]. }
      clear I Ei. revert g1 H D1. induction rs as [|r rs IH]; intros g1 H D1; cbn in H; [inversion H; now subst|].
      destruct (s_add_expr L keep fuel g1 r) as [[g2 i]|] eqn:E; [|discriminate H]. cbn in H. exact (IH _ H (proj2 (s_add_expr_dat _ _ _ _ E) D1)).
    Qed.
  End Fuel.
  Lemma made_dat : forall rs g, made L keep rs g -> dat g.
  Proof.
    intros rs g M. induction M as [|fuel w g H|fuel g r g' i M IH H|fuel st g g' M IH Fa H].
    - constructor.
    - exact (to_egraph_dat fuel w g H).
    - exact (proj2 (s_add_expr_dat fuel _ _ _ _ H) IH).
    - exact (proj2 (scheduled_dat fuel _ _ _ _ H) IH).
  Qed.
End Lang.
