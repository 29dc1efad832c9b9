(* Vectors of classes have the length cvec_len or are empty; in total languages
   every entry is there. *)
From Coq Require Import NArith ZArith QArith Qcanon.
From Verif Require Import Base BaseProofs Lang Rule Ruleset Analysis Egraph EgraphSpec EgraphProofs Synth Apply Sched SynthSpec SynthProofs Workload DataProofs.
From Verif Require Import Util UtilProofs BV BoolDom NatDom PosDom BvBoolDom Rational Halide Domains MatchSpec VectorSpec CalmSpec PlainProofs.
Open Scope list_scope.

Lemma map1_shaped : forall C e n (f : C -> option C) v, (forall x, e = true -> f x <> None) -> shaped e n v -> shaped e n (map1 f v).
Proof.
  intros C e n f v Hf [S E]. split.
  - unfold map1. destruct S as [->|S]; [now left|right]. now rewrite map_length.
  - intros He. specialize (E He). unfold everywhere, map1 in *. apply Forall_map. eapply Forall_impl; [|exact E]. intros [x|] H; [now apply Hf|]. now destruct H.
Qed.
Lemma combine_sized : forall A B (a : list A) (b : list B) n, (a = [] \/ length a = n) -> (b = [] \/ length b = n) -> combine a b = [] \/ length (combine a b) = n.
Proof.
  intros A B a b n [->|Ha] Hb; [now left|]. destruct Hb as [->|Hb]; [left; now destruct a|]. right. rewrite combine_length, Ha, Hb. apply Nat.min_id.
Qed.
Lemma map2_shaped : forall C e n (f : C -> C -> option C) v w, (forall x y, e = true -> f x y <> None) -> shaped e n v -> shaped e n w -> shaped e n (map2 f v w).
Proof.
  intros C e n f v w Hf [S E] [S' E']. split.
  - unfold map2, sized. destruct (combine_sized _ _ v w n S S') as [H|H]; [left; now rewrite H|right; now rewrite map_length].
  - intros He. specialize (E He). specialize (E' He). unfold everywhere, map2 in *. apply Forall_map. apply Forall_forall. intros [x y] I.
    rewrite Forall_forall in E, E'. pose proof (E _ (in_combine_l _ _ _ _ I)). pose proof (E' _ (in_combine_r _ _ _ _ I)). destruct x, y; try congruence. now apply Hf.
Qed.
Lemma map3_sized : forall C D (f : option C * option C * option C -> option D) n u v w, sized n u -> sized n v -> sized n w ->
  sized n (map f (combine (combine u v) w)).
Proof.
  intros C D f n u v w U V W. unfold sized in *. destruct (combine_sized _ _ (combine u v) w n (combine_sized _ _ u v n U V) W) as [H|H]; [left; now rewrite H|right; now rewrite map_length].
Qed.
Lemma map3_shaped : forall C n (f : C -> C -> C -> option C) u v w, shaped false n u -> shaped false n v -> shaped false n w -> shaped false n (map3 f u v w).
Proof. intros C n f u v w [U _] [V _] [W _]. split; [now apply map3_sized|discriminate]. Qed.
Lemma repeat_shaped : forall C e n (c : C), shaped e n (repeat (Some c) n).
Proof. intros C e n c. split; [right; apply repeat_length|]. intros _. apply Forall_forall. intros x I. apply repeat_spec in I. now subst. Qed.
Lemma nil_shaped : forall C e n, @shaped C e n [].
Proof. intros C e n. split; [now left|]. intros _. constructor. Qed.
Lemma rmapM_shaped : forall C n (f : option C -> res (option C)) v w, shaped false n v -> rmapM f v = Val w -> shaped false n w.
Proof.
  intros C n f v w [S _] H. split; [|discriminate]. apply rmapM_F2 in H. pose proof (Forall2_length _ _ _ H) as Ln.
  destruct S as [->|S]; [left; now inversion H|right; congruence].
Qed.

Section Vec.
  Context {O C : Type}.
  Variable L : lang O C.
  Variable e : bool.
  Hypothesis V : vectors L e.
  Variable keep : eg O C -> nat -> nat -> bool.
  Definition svec (n : nat) (d : sig O C) : Prop := shaped e n (sg_cvec d).

  Lemma svec_make : forall a n ds d, length ds = length (nch n) -> Forall (svec a) ds -> s_make L a n ds = Val d -> svec a d.
  Proof.
    intros a n ds d Ln Hd H. unfold s_make, make in H. destruct (make_simplest _ _ n) as [s|]; [|discriminate H]. cbn [rbind] in H.
    match type of H with (let* c := ?x in _) = _ => destruct x as [c|] eqn:Ec; [|discriminate H] end. cbn [rbind] in H.
    destruct (l_itv L _ _) as [i|] in H; [|discriminate H]. cbn [rbind] in H. inversion H; subst. unfold svec. cbn.
    refine (ve_eval L e V _ _ _ _ _ Ec). apply Forall_map. apply Forall_forall. intros i0 _.
    destruct (slookup (combine (nch n) ds) i0) as [d0|] eqn:E; [|apply nil_shaped].
    rewrite Forall_forall in Hd. refine (Hd d0 _). clear - E. revert ds E. induction (nch n) as [|k l IH]; intros [|d1 ds] E; cbn in E; try discriminate E.
    destruct (Nat.eqb i0 k); [inversion E; now left|right; exact (IH _ E)].
  Qed.
  Lemma merge_cvec_shaped : forall (x y z : cvec C) a b, merge_cvec (l_ceqb L) x y = Val (z, a, b) -> length z = length x /\ (everywhere x -> everywhere z).
  Proof.
    induction x as [|h x IH]; intros y z a b H; cbn in H; [inversion H; subst; split; auto|]. destruct y as [|k y]; [discriminate H|].
    assert (K : forall w, (exists r a' b', merge_cvec (l_ceqb L) x y = Val (r, a', b') /\ z = w :: r) -> (h <> None -> w <> None) -> length z = length (h :: x) /\ (everywhere (h :: x) -> everywhere z)).
    { intros w (r & a' & b' & Er & ->) Hw. destruct (IH _ _ _ _ Er) as [H1 H2]. split; [cbn; congruence|]. intros Ev. inversion Ev; subst. constructor; [auto|now apply H2]. }
    destruct h as [p|], k as [q|].
    - destruct (l_ceqb L p q); [|discriminate H]. destruct (merge_cvec _ x y) as [[[r a'] b']|] eqn:E; [|discriminate H]. cbn in H. inversion H; subst. apply (K (Some p)); eauto 6.
    - destruct (merge_cvec _ x y) as [[[r a'] b']|] eqn:E; [|discriminate H]. cbn in H. inversion H; subst. apply (K (Some p)); eauto 6.
    - destruct (merge_cvec _ x y) as [[[r a'] b']|] eqn:E; [|discriminate H]. cbn in H. inversion H; subst. apply (K (Some q)); eauto 6.
    - destruct (merge_cvec _ x y) as [[[r a'] b']|] eqn:E; [|discriminate H]. cbn in H. inversion H; subst. apply (K None); eauto 6.
  Qed.
  Lemma svec_merge : forall a x y d ch, svec a x -> svec a y -> s_merge L x y = Val (d, ch) -> svec a d.
  Proof.
    intros a x y d ch Hx Hy H. unfold s_merge, merge in H. destruct (merge_cvecs _ (sg_cvec x) (sg_cvec y)) as [[[cv a1] b1]|] eqn:E; [|discriminate H]. cbn [rbind] in H.
    destruct (mk_itv _ _ _); [|discriminate H]. cbn [rbind] in H. destruct (cost_rec _ (sg_simplest y)); [|discriminate H]. cbn [rbind] in H. destruct (cost_rec _ (sg_simplest x)); [|discriminate H]. cbn [rbind] in H.
    assert (K : svec a (Sig cv (sg_simplest x) (sg_itv x))).
    { unfold svec in *. cbn. unfold merge_cvecs in E. destruct (sg_cvec x) as [|p u] eqn:Ex; [inversion E; subst; exact Hx|]. destruct (sg_cvec y) as [|q w]; [inversion E; now subst|].
      apply merge_cvec_shaped in E as [E1 E2]. destruct Hx as [[Hx|Hx] Hv]; [discriminate Hx|]. split; [right; congruence|auto]. }
    destruct (N.ltb _ _); inversion H; subst; exact K.
  Qed.
  Lemma svec_init : forall vars n vs v c ts, l_init L vars = Val (n, vs) -> In (v, c, ts) vs -> forall d, svec n d -> svec n (Sig c (sg_simplest d) (sg_itv d)).
  Proof. intros vars n vs v c ts H I d _. unfold svec. cbn. exact (ve_init L e V _ _ _ _ _ _ H I). Qed.

  Lemma made_shaped : forall rs g, made L keep rs g -> forall i d, class_data g i = Val d -> shaped e (g_an g) (sg_cvec d).
  Proof. intros rs g M i d H. exact (dat_class svec g i d (made_dat L keep svec svec_make svec_merge svec_init rs g M) H). Qed.
  Lemma runs_shaped : forall fuel rules rs g h, made L keep rs g -> runs L keep fuel rules g h -> forall i d, class_data h i = Val d -> shaped e (g_an h) (sg_cvec d).
  Proof.
    intros fuel rules rs g h M R i d H. refine (dat_class svec h i d _ H). apply (proj2 (runs_dat L keep svec svec_make svec_merge fuel rules g h R)).
    exact (made_dat L keep svec svec_make svec_merge svec_init rs g M).
  Qed.
End Vec.

Lemma shaped_defined : forall O C n (d : sig O C), shaped true n (sg_cvec d) -> is_defined d = true.
Proof.
  intros O C n d [_ E]. specialize (E eq_refl). unfold is_defined. destruct (sg_cvec d) as [|x v]; [reflexivity|]. inversion E; subst. destruct x; [reflexivity|congruence].
Qed.
Lemma built_made : forall O C (L : lang O C) ar keep rs g, built L ar keep rs g -> made L keep rs g.
Proof. intros O C L ar keep rs g B. induction B; [constructor|eapply M_workload; eauto|eapply M_add; eauto|eapply M_run; eauto]. Qed.

Lemma product_shaped : forall O C e (samples : list C) vars n vs x v ts,
  @no_links O C (init_product (map Some samples) vars) = Val (n, vs) -> In (x, v, ts) vs -> shaped e n v.
Proof.
  intros O C e samples vars n vs x v ts H I. unfold no_links, init_product in H.
  destruct (self_product_shape (map Some samples) (length vars)) as (cols & E & Lc & Hc). rewrite E in H. cbn [rbind] in H.
  destruct (index cols 0) as [c0|] eqn:E0; [|discriminate H]. cbn [rbind] in H. destruct (rmapM (index cols) (seq 0 (length vars))) as [cs|] eqn:Ec; [|discriminate H]. cbn [rbind] in H.
  inversion H; subst. apply in_map_iff in I as ([x' v'] & Ev & I). inversion Ev; subst. apply in_combine_r in I.
  rewrite <- Lc, rmapM_index in Ec. inversion Ec; subst cs. apply index_some in E0 as [_ E0]. apply nth_error_In in E0.
  destruct (Hc _ I) as [L1 L2]. destruct (Hc _ E0) as [L3 _]. split; [right; congruence|]. intros _. apply Forall_forall. intros y Iy ->. apply L2 in Iy. apply in_map_iff in Iy as (z & Ez & _). discriminate Ez.
Qed.

Ltac vec := repeat match goal with
  | H : Forall _ (_ :: _) |- _ => inversion H; subst; clear H
  | H : Forall _ [] |- _ => clear H end.
Ltac ops := cbn; intros n o cs v F H; destruct o; destruct cs as [|? [|? [|? [|? ?]]]]; try discriminate H; vec;
  try (injection H as <-); try apply repeat_shaped; try apply nil_shaped.

Lemma bv_vectors : forall w check, vectors (bv_lang w check) true.
Proof.
  intros w check. constructor; [ops; first [apply map1_shaped|apply map2_shaped]; try assumption; discriminate|].
  intros vars n vs x v ts. exact (product_shaped _ _ true _ vars n vs x v ts).
Qed.
Lemma bool_vectors : vectors bool_lang true.
Proof.
  constructor; [ops; first [apply map1_shaped|apply map2_shaped]; try assumption; discriminate|].
  intros vars n vs x v ts H. exact (product_shaped _ _ true [true; false] vars n vs x v ts H).
Qed.
Lemma nat_vectors : forall depth rng check, vectors (nat_lang depth rng check) true.
Proof.
  intros depth rng check. constructor; [ops; first [apply map1_shaped|apply map2_shaped]; try assumption; discriminate|].
  cbn. intros vars n vs x v ts H I. inversion H; subst; clear H. unfold no_links, nat_init in *. apply in_map_iff in I as ([x' v'] & E & I). inversion E; subst.
  apply in_combine_r in I. apply in_map_iff in I as (i & <- & _). split; [right; reflexivity|]. intros _. apply Forall_forall. intros y Iy ->. cbn in Iy. intuition discriminate.
Qed.
Lemma pos_vectors : forall depth, vectors (pos_lang depth) true.
Proof. intros depth. constructor; cbn; [intros n o cs v _ H; inversion H; apply nil_shaped|]. intros vars n vs x v ts H I. inversion H; subst. destruct I. Qed.
Lemma bb_vectors : vectors bb_lang true.
Proof.
  constructor; cbn; [intros n o cs v _ H; inversion H; apply nil_shaped|]. intros vars n vs x v ts H I. inversion H; subst. apply in_map_iff in I as (y & E & _). inversion E; subst. apply nil_shaped.
Qed.
Lemma hal_vectors : forall check, vectors (hal_lang check) false.
Proof.
  intros check. constructor.
  - ops; try (first [apply map1_shaped|apply map2_shaped|apply map3_shaped]; try assumption; discriminate); try (eapply rmapM_shaped; eassumption).
  - intros vars n vs x v ts. exact (product_shaped _ _ false _ vars n vs x v ts).
Qed.
Lemma math_vectors : forall ov check, vectors (math_lang ov check) false.
Proof.
  intros ov check. constructor.
  - ops; try (first [apply map1_shaped|apply map2_shaped|apply map3_shaped]; try assumption; discriminate); try (eapply rmapM_shaped; eassumption).
    split; [apply (map3_sized Qc Qc (fun t => if_row (fst (fst t)) (snd (fst t)) (snd t))); match goal with H : shaped _ _ ?x |- sized _ ?x => exact (proj1 H) end|discriminate].
  - intros vars n vs x v ts. exact (product_shaped _ _ false _ vars n vs x v ts).
Qed.
