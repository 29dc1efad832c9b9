(* The domains with samples: their interpreters answer sample by sample. *)
From Coq Require Import NArith ZArith QArith Qcanon.
From Verif Require Import Base BaseProofs Lang Util UtilProofs LangProofs DomainSpec Syntax Rule BV BoolDom NatDom Number Rational RationalProofs Halide Analysis Generalize Egraph EgraphProofs SynthProofs Synth Domains DomainAlg
  CalmSpec CalmRun CalmDomains PlainProofs PlainDomains TotalDomains VectorSpec VectorProofs SettleProofs LearnSpec.
Open Scope list_scope.

Lemma map1_len : forall C (f : C -> option C) v n, length v = n -> length (map1 f v) = n.
Proof. intros. unfold map1. now rewrite map_length. Qed.
Lemma map2_len : forall C (f : C -> C -> option C) v w n, length v = n -> length w = n -> length (map2 f v w) = n.
Proof. intros. unfold map2. rewrite map_length, combine_length. lia. Qed.
Lemma map3_len : forall C (f : C -> C -> C -> option C) u v w n, length u = n -> length v = n -> length w = n -> length (map3 f u v w) = n.
Proof. intros. unfold map3. rewrite map_length, !combine_length. lia. Qed.
Lemma rmapM_len : forall A B (f : A -> res B) v w n, length v = n -> rmapM f v = Val w -> length w = n.
Proof. intros A B f v w n H E. apply rmapM_F2 in E. now rewrite <- (Forall2_length _ _ _ E). Qed.
Lemma map1_below : forall C (f : C -> option C) v v', below v v' -> below (map1 f v) (map1 f v').
Proof. intros C f v v' H. induction H as [|a b v v' [->| ->] H IH]; constructor; auto. Qed.
Lemma map2_below : forall C (f : C -> C -> option C) v v' w w', below v v' -> below w w' -> below (map2 f v w) (map2 f v' w').
Proof.
  intros C f v v' w w' H. revert w w'. induction H as [|a b v v' A H IH]; intros w w' K; [constructor|]. destruct K as [|c d w w' B K]; [constructor|].
  constructor; [|exact (IH _ _ K)]. destruct A as [->| ->]; [now left|]. destruct B as [->| ->]; [destruct b; now left|now right].
Qed.
Lemma map3_below : forall C (f : option C -> option C -> option C -> option C) u u' v v' w w',
  (forall a a' b b' c c', (a = None \/ a = a') -> (b = None \/ b = b') -> (c = None \/ c = c') -> f a b c = None \/ f a b c = f a' b' c') ->
  below u u' -> below v v' -> below w w' ->
  below (map (fun t => f (fst (fst t)) (snd (fst t)) (snd t)) (combine (combine u v) w)) (map (fun t => f (fst (fst t)) (snd (fst t)) (snd t)) (combine (combine u' v') w')).
Proof.
  intros C f u u' v v' w w' Hf H. revert v v' w w'. induction H as [|a b u u' A H IH]; intros v v' w w' K M; [constructor|].
  destruct K as [|c d v v' B K]; [constructor|]. destruct M as [|x y w w' D M]; [constructor|]. cbn. constructor; [|exact (IH _ _ _ _ K M)]. now apply Hf.
Qed.
Lemma map3o_below : forall C (f : C -> C -> C -> option C) u u' v v' w w', below u u' -> below v v' -> below w w' -> below (map3 f u v w) (map3 f u' v' w').
Proof.
  intros C f u u' v v' w w' H. revert v v' w w'. induction H as [|a b u u' A H IH]; intros v v' w w' K M; [constructor|].
  destruct K as [|c d v v' B K]; [constructor|]. destruct M as [|x y w w' D M]; [constructor|]. constructor; [|exact (IH _ _ _ _ K M)].
  destruct A as [->| ->]; [now left|]. destruct B as [->| ->]; [destruct b; now left|]. destruct D as [->| ->]; [destruct b, d; now left|now right].
Qed.
Lemma rmapM_below : forall C (f : C -> res C) v v' u, below v v' ->
  rmapM (fun x => match x with Some x => let* y := f x in Val (Some y) | None => Val None end) v' = Val u ->
  exists w, rmapM (fun x => match x with Some x => let* y := f x in Val (Some y) | None => Val None end) v = Val w /\ below w u.
Proof.
  intros C f v v' u H. revert u. induction H as [|a b v v' A H IH]; intros u E; [injection E as <-; exists []; split; [reflexivity|constructor]|].
  cbn [rmapM] in E. destruct (match b with Some x => _ | None => _ end) as [y|] eqn:Eb; [|discriminate E]. cbn [rbind] in E.
  destruct (rmapM _ v') as [ys|] eqn:Ev; [|discriminate E]. cbn [rbind] in E. injection E as <-. destruct (IH ys eq_refl) as (w & Ew & Bw).
  cbn [rmapM]. destruct A as [->| ->].
  - cbn [rbind]. rewrite Ew. cbn [rbind]. exists (None :: w). split; [reflexivity|]. constructor; auto.
  - rewrite Eb. cbn [rbind]. rewrite Ew. cbn [rbind]. exists (y :: w). split; [reflexivity|]. constructor; auto.
Qed.
Lemma product_len : forall O C (samples : list C) vars n vs, @no_links O C (init_product (map Some samples) vars) = Val (n, vs) ->
  map (fun e => fst (fst e)) vs = vars /\ forall x c ts, In (x, c, ts) vs -> length c = n /\ ts = [].
Proof.
  intros O C samples vars n vs H. split; [exact (product_names _ _ _ _ _ _ H)|]. intros x v ts I. split; [|exact (no_links_nil _ _ _ _ _ _ _ _ H I)].
  unfold no_links, init_product in H.
  destruct (self_product_shape (map Some samples) (length vars)) as (cols & E & Lc & Hc). rewrite E in H. cbn [rbind] in H.
  destruct (index cols 0) as [c0|] eqn:E0; [|discriminate H]. cbn [rbind] in H. destruct (rmapM (index cols) (seq 0 (length vars))) as [cs|] eqn:Ec; [|discriminate H]. cbn [rbind] in H.
  inversion H; subst. apply in_map_iff in I as ([x' v'] & Ev & I). inversion Ev; subst. apply in_combine_r in I.
  rewrite <- Lc, rmapM_index in Ec. inversion Ec; subst cs. apply index_some in E0 as [_ E0]. apply nth_error_In in E0.
  destruct (Hc _ I) as [L1 L2]. destruct (Hc _ E0) as [L3 _]. congruence.
Qed.

Ltac lens := cbn; intros n o cs v Hv F H; destruct o; try discriminate Hv; destruct cs as [|? [|? [|? [|? ?]]]]; try discriminate H; vec;
  try (injection H as <-; first [apply repeat_length|apply map1_len|apply map2_len|apply map3_len]; congruence); try (eapply rmapM_len; [|eassumption]; congruence).
Ltac belows := cbn; intros n o cs cs' v' Hv F H; destruct o; try discriminate Hv; destruct cs' as [|? [|? [|? [|? ?]]]]; try discriminate H;
  repeat match goal with
  | K : Forall2 below _ (_ :: _) |- _ => inversion K; subst; clear K
  | K : Forall2 below _ [] |- _ => inversion K; subst; clear K end;
  try (injection H as <-; eexists; split; [reflexivity|]; first [apply below_refl|apply map1_below|apply map2_below]; assumption); try (eapply rmapM_below; eassumption).

Lemma bv_sampled : forall w check, sampled (bv_lang w check) bv_arity.
Proof.
  intros w check. constructor; cbn.
  - exact (lo_eqb _ _ (bv_literal_only w check)).
  - apply N.eqb_eq.
  - apply bv_from_op_arity.
  - reflexivity.
  - intros o s H. destruct o; inversion H; reflexivity.
  - reflexivity.
  - intros n s cs v H. destruct cs; [now inversion H|discriminate H].
  - intros s i a b H E. inversion H; subst. discriminate E.
  - reflexivity.
  - intros c. constructor; [split; reflexivity|constructor].
  - intros vars n vs H. exact (product_len _ _ _ _ _ _ H).
  - lens.
  - belows.
Qed.
Lemma bool_sampled : sampled bool_lang bool_arity.
Proof.
  constructor; cbn.
  - exact bool_op_eqb_eq.
  - apply eqb_prop.
  - apply bool_from_op_arity.
  - reflexivity.
  - intros o s H. destruct o; inversion H; reflexivity.
  - reflexivity.
  - intros n s cs v H. destruct cs; [now inversion H|discriminate H].
  - intros s i a b H E1 E2. inversion H; subst. cbn in *. inversion E1; inversion E2; reflexivity.
  - reflexivity.
  - intros c. constructor; [split; reflexivity|constructor].
  - intros vars n vs H. exact (product_len _ _ [true; false] _ _ _ H).
  - lens.
  - belows.
Qed.
Lemma hal_sampled : forall check, sampled (hal_lang check) hal_arity.
Proof.
  intros check. constructor; cbn.
  - exact (lo_eqb _ _ (hal_literal_only check)).
  - apply Z.eqb_eq.
  - apply hal_from_op_arity.
  - reflexivity.
  - intros o s H. destruct o; inversion H; reflexivity.
  - reflexivity.
  - intros n s cs v H. destruct cs; [now inversion H|discriminate H].
  - intros s i a b H E. inversion H; subst. discriminate E.
  - reflexivity.
  - intros c. constructor; [split; reflexivity|constructor].
  - intros vars n vs H. exact (product_len _ _ _ _ _ _ H).
  - lens.
  - belows. injection H as <-. eexists. split; [reflexivity|]. now apply map3o_below.
Qed.
Lemma math_sampled : forall ov check, sampled (math_lang ov check) math_arity.
Proof.
  intros ov check. constructor; cbn.
  - exact math_eqb_eq.
  - intros a b H. now apply qeqb_spec.
  - apply math_from_op_arity.
  - reflexivity.
  - intros o s H. destruct o; inversion H; reflexivity.
  - reflexivity.
  - intros n s cs v H. destruct cs; [now inversion H|discriminate H].
  - intros s i a b H E. inversion H; subst. discriminate E.
  - reflexivity.
  - intros c. constructor; [split; reflexivity|constructor].
  - intros vars n vs H. exact (product_len _ _ _ _ _ _ H).
  - lens. injection H as <-. rewrite map_length, !combine_length. lia.
  - belows. injection H as <-. eexists. split; [reflexivity|]. apply (map3_below Qc if_row); try assumption.
    clear; intros a a' b b' c c' [->| ->] [->| ->] [->| ->]; cbn; auto; destruct a' as [x|]; cbn; auto; destruct (is_zero x); cbn; auto.
Qed.
Lemma nat_from_op_arity : forall s n o, nat_from_op s n = Some o -> nat_arity o = n.
Proof.
  intros s n o H. unfold nat_from_op in H.
  repeat match type of H with (if ?b then _ else _) = _ => destruct b eqn:?; [injection H as <-; cbn; repeat match goal with K : andb _ _ = true |- _ => apply andb_true_iff in K as [_ K] end;
    symmetry; now apply Nat.eqb_eq|] end. discriminate H.
Qed.
Lemma nat_constant_closed : forall depth c t, nat_constant depth c = Val t -> wf_term nat_arity t /\ tvars nat_to_var t = [].
Proof.
  assert (forall depth c t, nat_constant_id depth c = Val t -> wf_term nat_arity t /\ tvars nat_to_var t = []) as G.
  { induction depth as [|k IH]; intros c t H; cbn in H; [discriminate H|]. destruct (Z.eqb c 0); [injection H as <-; split; [constructor; [reflexivity|constructor]|reflexivity]|].
    destruct (nat_constant_id k (c - 1)) as [u|] eqn:E; [|discriminate H]. cbn in H. injection H as <-. destruct (IH _ _ E) as [W V].
    split; [constructor; [reflexivity|now repeat constructor]|cbn; now rewrite V]. }
  intros depth c t H. unfold nat_constant in H. destruct (Z.eqb c 0); [injection H as <-; split; [constructor; [reflexivity|constructor]|reflexivity]|].
  destruct (nat_constant_id depth (c - 1)) as [u|] eqn:E; [|discriminate H]. cbn in H. injection H as <-. destruct (G _ _ _ E) as [W V].
  split; [constructor; [reflexivity|now repeat constructor]|cbn; now rewrite V].
Qed.
Lemma nat_sampled : forall depth rng check, sampled (nat_lang depth rng check) nat_arity.
Proof.
  intros depth rng check. constructor; cbn.
  - exact nat_op_eqb_eq.
  - apply Z.eqb_eq.
  - exact nat_from_op_arity.
  - reflexivity.
  - intros o s H. destruct o; inversion H; reflexivity.
  - reflexivity.
  - intros n s cs v H. destruct cs; [now inversion H|discriminate H].
  - intros s i a b H E1 E2. inversion H; subst. discriminate E2.
  - reflexivity.
  - intros c. unfold const_nodes. destruct (nat_constant depth c) as [t|] eqn:E; [|constructor]. destruct (nat_constant_closed depth c t E) as [W V].
    pose proof (to_rec_typed nat_arity t W) as Ty. pose proof (add_term_vars (nat_lang depth rng check) nat_arity (fun o x => match o return nat_to_var o = Some x -> nat_arity o = 0 with NVar _ => fun _ => eq_refl | NZ => fun _ => eq_refl | _ => fun H => ltac:(discriminate H) end) t W []) as Ev.
    cbn [flat_map app] in Ev. fold (to_rec t) in Ev. change (l_to_var (nat_lang depth rng check)) with nat_to_var in Ev. rewrite V in Ev.
    apply Forall_forall. intros n In'. rewrite Forall_forall in Ty. split; [|exact (Ty n In')]. destruct (nat_to_var (nop n)) as [x|] eqn:Ex; [|reflexivity]. exfalso.
    assert (In x []) as []. rewrite <- Ev. apply in_flat_map. exists n. split; [exact In'|]. unfold nvar. cbn. rewrite Ex. now left.
  - intros vars n vs H. unfold no_links, nat_init in H. cbn [rbind] in H. injection H as <- <-. split.
    + rewrite map_map. cbn. rewrite (map_ext _ fst) by (intros []; reflexivity). apply map_fst_combine. now rewrite map_length, seq_length.
    + intros x c ts I. apply in_map_iff in I as ([x' v'] & E & I). inversion E; subst. apply in_combine_r in I. apply in_map_iff in I as (i & <- & _). split; reflexivity.
  - lens.
  - belows.
Qed.
