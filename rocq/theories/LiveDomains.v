(* Inference over booleans, bitvectors, binary positives, solids, Halide and
   exponentials goes through. *)
From Coq Require Import NArith ZArith QArith Qcanon.
From Verif Require Import Base BaseProofs Sexp Lang LangProofs Util BV BVSpec BVProofs BoolDom BoolProofs PosDom Halide Exp ExpProofs Solid SolidProofs DomainSpec
  Syntax SyntaxProofs Rule Ruleset Analysis AnalysisProofs Egraph EgraphSpec EgraphProofs Synth Apply Sched SynthSpec SynthProofs DeriveProofs Domains DomainAlg DomainSound
  CalmDomains TotalDomains TextSpec SaveDomains OpsSpec InvProofs LearntSpec LiveSpec LivePower LiveQuiet.
Open Scope list_scope.
Open Scope nat_scope.

(* a true rule, in terms of total operations *)
Lemma true_pairs {O C A} (L : lang O C) (d : A) f (dom : A -> Prop) r : (forall v, l_to_var L (l_mk_var L v) = Some v) ->
  true_rule L (l_mk_var L) dom (fun env => fold_term (with_vars (l_to_var L) env f)) r ->
  forall tl tr, tree (rlhs r) = Val tl -> tree (rrhs r) = Val tr -> closed L tl /\ closed L tr /\
    forall s, (forall v, dom (s v)) -> paval (tot d f) s tl = paval (tot d f) s tr.
Proof.
  intros Mv (G1 & G2 & tl' & tr' & T1 & T2 & D) tl tr Tl Tr. pose proof (general_closed L _ _ G1 Tl) as Cl. pose proof (general_closed L _ _ G2 Tr) as Cr.
  split; [exact Cl|]. split; [exact Cr|]. rewrite tree_inst, Tl in T1. rewrite tree_inst, Tr in T2. cbn in T1, T2. injection T1 as <-. injection T2 as <-.
  intros s Ds. destruct (D s Ds) as (v & E1 & E2). set (A0 := Alg (tot d f) dom (fun (_ : interval C) (_ : A) => True)).
  pose proof (inst_val L A A0 s Mv tl Cl) as I1. pose proof (inst_val L A A0 s Mv tr Cr) as I2. cbn [a_sem A0] in I1, I2.
  rewrite <- I1, <- I2. unfold A0. rewrite (aval_den L d f dom (fun _ _ => True) s _ v E1), (aval_den L d f dom (fun _ _ => True) s _ v E2). reflexivity.
Qed.
Ltac args cs H := repeat (destruct cs as [|? cs]; try discriminate H).

(* ---- booleans ---- *)
Definition bqb (o : bool_op) (k : nat) : bool := Nat.eqb k (bool_arity o).
Definition bsays (i : interval bool) (v : bool) : Prop := exists l h, i = Itv (Some l) (Some h) /\ bool_leb l v = true /\ bool_leb v h = true.
Definition bpI (i : interval bool) : Prop := exists l h, i = Itv (Some l) (Some h) /\ bool_leb l h = true.
Definition bhgt (i : interval bool) : nat := match i with Itv (Some l) (Some h) => if Bool.eqb l h then 0 else 1 | _ => 2 end.
Definition bsem : bool_op -> list bool -> bool := tot false bool_sem.

Lemma b_eval : forall a o cs, bqb o (length cs) = true -> exists c, bool_eval a o cs = Val c /\
  (Forall (fun c : cvec bool => length c = 0 \/ length c = a) cs -> length c = 0 \/ length c = a) /\
  (forall j x, nth_error c j = Some x -> bool_to_var o = None /\ exists xs, Forall2 (fun (c : cvec bool) x => nth_error c j = Some x) cs xs /\
     forall ys, xs = map Some ys -> Forall (fun _ => True) ys -> x = Some (bsem o ys)).
Proof.
  intros a o cs H. unfold bqb in H. apply Nat.eqb_eq in H.
  assert (U : forall (f : bool -> option bool) c, (Forall (fun c : cvec bool => length c = 0 \/ length c = a) [c] -> length (map1 f c) = 0 \/ length (map1 f c) = a)).
  { intros f c F. inversion F as [|? ? F1 _]; subst. now rewrite len_map1. }
  assert (B : forall (f : bool -> bool -> option bool) c d, (Forall (fun c : cvec bool => length c = 0 \/ length c = a) [c; d] -> length (map2 f c d) = 0 \/ length (map2 f c d) = a)).
  { intros f c d F. inversion F as [|? ? F1 F']; subst. inversion F' as [|? ? F2 _]; subst. rewrite len_map2. lia. }
  destruct o; cbn in H; args cs H; (eexists; split; [reflexivity|]); (split; [solve [apply U|apply B|intros _; rewrite ?repeat_length; auto]|]); intros j x E.
  all: try (apply nth_map1 in E as (y & Ey & ->); split; [reflexivity|]; exists [y]; split; [repeat constructor; exact Ey|]; intros ys Eys _; destruct ys as [|u [|? ?]]; try discriminate Eys; injection Eys as ->; reflexivity).
  all: try (apply nth_map2 in E as (y & z & Ey & Ez & ->); split; [reflexivity|]; exists [y; z]; split; [repeat constructor; assumption|]; intros ys Eys _; destruct ys as [|u [|u' [|? ?]]]; try discriminate Eys; injection Eys as -> ->; try reflexivity; destruct u, u'; reflexivity).
  - apply nth_repeat' in E. subst x. split; [reflexivity|]. exists []. split; [constructor|]. intros ys Eys _. destruct ys; [|discriminate Eys]. reflexivity.
  - destruct j; discriminate E.
Qed.
Lemma b_pI_itv : forall o is i, bqb o (length is) = true -> Forall bpI is -> bool_mk_interval o is = Val i -> bpI i.
Proof.
  intros o is i H F E. unfold bqb in H. apply Nat.eqb_eq in H.
  destruct (bool_interval_total o is) as (i' & E' & l & h & H1 & H2 & H3); [|exact H|].
  - intros k I. rewrite Forall_forall in F. destruct (F k I) as (l & h & -> & B). exists l, h. split; [reflexivity|]. split; [reflexivity|]. unfold ble; destruct l, h; cbn in *; auto.
  - assert (i' = i) as -> by congruence. destruct i as [lo hi]. cbn in H1, H2. subst. exists l, h. split; [reflexivity|]. unfold ble in H3. destruct l, h; cbn in *; auto.
Qed.
Lemma b_itv_live : forall o is, bqb o (length is) = true -> Forall bpI is -> exists i, bool_mk_interval o is = Val i.
Proof.
  intros o is H F. unfold bqb in H. apply Nat.eqb_eq in H.
  destruct (bool_interval_total o is) as (i' & E' & _); [|exact H|eauto].
  intros k I. rewrite Forall_forall in F. destruct (F k I) as (l & h & -> & B). exists l, h. split; [reflexivity|]. split; [reflexivity|]. unfold ble; destruct l, h; cbn in *; auto.
Qed.
Lemma b_itv_says : forall o is i vs, bqb o (length is) = true -> Forall2 bsays is vs -> bool_mk_interval o is = Val i ->
  match bool_to_var o with Some _ => forall x, True -> bsays i x | None => bsays i (bsem o vs) end.
Proof.
  intros o is i vs H F E. unfold bqb in H. apply Nat.eqb_eq in H.
  destruct o; cbn in H; args is H; repeat match goal with X : Forall2 _ (_ :: _) _ |- _ => inversion X; clear X; subst end; repeat match goal with X : Forall2 _ [] _ |- _ => inversion X; clear X; subst end;
    repeat match goal with X : bsays _ _ |- _ => destruct X as ([] & [] & -> & ? & ?) end; cbn in *; try discriminate;
    repeat match goal with x : bool |- _ => destruct x end; cbn in *; try discriminate; try (injection E as <-); try (intros x _); unfold bsays; (eexists _, _; split; [reflexivity|]); repeat match goal with x : bool |- _ => destruct x end; auto.
Qed.
Lemma b_mk : forall i j v, bsays i v -> bsays j v -> exists k, mk_itv bool_leb (omax bool_leb (low i) (low j)) (omin bool_leb (high i) (high j)) = Val k /\ bsays k v /\ bhgt k <= bhgt i /\ (ieqb Bool.eqb i k = false -> bhgt k < bhgt i).
Proof.
  intros i j v (l & h & -> & H1 & H2) (l' & h' & -> & H3 & H4). destruct l, h, l', h', v; cbn in *; try discriminate; (eexists; split; [reflexivity|]); (split; [unfold bsays; eexists _, _; split; [reflexivity|auto]|]); cbn; (split; [lia|]); intros X; try discriminate X; lia.
Qed.
Lemma b_mk_pI : forall i j k, bpI i -> bpI j -> mk_itv bool_leb (omax bool_leb (low i) (low j)) (omin bool_leb (high i) (high j)) = Val k -> bpI k.
Proof.
  intros i j k (l & h & -> & H1) (l' & h' & -> & H2) E. destruct l, h, l', h'; cbn in *; try discriminate; injection E as <-; unfold bpI; eexists _, _; (split; [reflexivity|reflexivity]).
Qed.
Theorem bool_live : forall keep rs, Forall (fun e => rewrite_rule bool_lang (snd e) /\ true_rule bool_lang BVar (fun _ => True) bool_den (snd e)) rs ->
  (forall part g, incl part rs -> reached bool_lang keep rs g -> goes_on bool_lang keep part g) /\ answers bool_lang keep rs /\ steady bool_lang keep.
Proof.
  intros keep rs F.
  apply (fun a b c d e f g h i j k l m n o p q => vectors_go_on bool_lang bool_op_eqb_eq keep bqb bsem (fun _ => True) bsays bpI bhgt [BLit false; BLit true] false a b c d e f g h i j k l m n o p q bool_samples).
  - intros []; reflexivity.
  - intros o k Hl Hq. unfold bqb in Hq. apply Nat.eqb_eq in Hq. destruct o; try discriminate Hl; exact Hq.
  - auto.
  - exact b_eval.
  - intros o is H Fp _. exact (b_itv_live o is H Fp).
  - exact b_pI_itv.
  - intros o is i vs H Fs _ E. exact (b_itv_says o is i vs H Fs E).
  - intros i j v _ Hi Hj _ _. destruct (b_mk i j v Hi Hj) as (k & H1 & _ & H2). eauto.
  - exact b_mk_pI.
  - intros i j k v _ Hi Hj E. destruct (b_mk i j v Hi Hj) as (k' & H1 & H2 & _). assert (k' = k) as -> by (cbn in E; congruence). exact H2.
  - reflexivity.
  - intros i v a b _ (l & h & -> & H1 & H2) La Hb E. cbn in La, Hb. injection La as ->. injection Hb as ->. exists (BLit a). cbn in E. apply Bool.eqb_prop in E. subst b. split; [reflexivity|]. split; [reflexivity|]. split; [reflexivity|].
    split; [destruct a, v; auto; discriminate|destruct a; cbn; auto].
  - intros i a b _ _ _ _. repeat constructor.
  - intros i i' v a b a' b' _ (l & h & -> & H1 & H2) (l' & h' & -> & H3 & H4) La Hb E La' Hb' E'. cbn in *. injection La as ->. injection Hb as ->. injection La' as ->. injection Hb' as ->.
    apply Bool.eqb_prop in E, E'. subst. destruct b, b', v; auto; discriminate.
  - intros v k. unfold bqb. cbn. apply Nat.eqb_eq.
  - reflexivity.
  - intros o k (s & H). unfold bqb. apply Nat.eqb_eq. symmetry. exact (bool_from_op_arity s k o H).
  - apply Forall_forall. auto.
  - cbn. auto.
  - reflexivity.
  - eapply Forall_impl; [|exact F]. intros [k r] [H1 H2]. split; [exact H1|]. exact (true_pairs bool_lang false bool_sem (fun _ => True) r (fun _ => eq_refl) H2).
Qed.

(* ---- bitvectors ---- *)
Definition vqb (w : N) (o : bv_op) (k : nat) : bool := Nat.eqb k (bv_arity o) && match o with VLit c => (c <? 2 ^ w)%N | _ => true end.
Definition vsays (i : interval N) (v : N) : Prop := i = full \/ i = Itv (Some v) (Some v).
Definition vpI (w : N) (i : interval N) : Prop := i = full \/ exists v, i = Itv (Some v) (Some v) /\ inr w v.
Definition vhgt (i : interval N) : nat := match i with Itv (Some _) (Some _) => 0 | _ => 1 end.
Definition vsem (w : N) : bv_op -> list N -> N := tot 0%N (bv_sem w).
Definition vlits (w : N) : list bv_op := map (fun k => VLit (N.of_nat k)) (seq 0 (N.to_nat (2 ^ w))).

Lemma vqb_spec w o k : vqb w o k = true <-> k = bv_arity o /\ lit_ok w o.
Proof.
  unfold vqb. rewrite andb_true_iff, Nat.eqb_eq. unfold lit_ok, inr. destruct o; try tauto. rewrite N.ltb_lt. tauto.
Qed.
Section BV.
Variable w : N.
Hypothesis W : (w <= 128)%N.
Lemma v_eval : forall a o cs, vqb w o (length cs) = true -> exists c, bv_eval w a o cs = Val c /\
  (Forall (fun c : cvec N => length c = 0 \/ length c = a) cs -> length c = 0 \/ length c = a) /\
  (forall j x, nth_error c j = Some x -> bv_to_var o = None /\ exists xs, Forall2 (fun (c : cvec N) x => nth_error c j = Some x) cs xs /\
     forall ys, xs = map Some ys -> Forall (inr w) ys -> x = Some (vsem w o ys)).
Proof.
  intros a o cs H. apply vqb_spec in H as [H _].
  assert (U : forall (f : N -> option N) c, (Forall (fun c : cvec N => length c = 0 \/ length c = a) [c] -> length (map1 f c) = 0 \/ length (map1 f c) = a)).
  { intros f c F. inversion F as [|? ? F1 _]; subst. now rewrite len_map1. }
  assert (B : forall (f : N -> N -> option N) c d, (Forall (fun c : cvec N => length c = 0 \/ length c = a) [c; d] -> length (map2 f c d) = 0 \/ length (map2 f c d) = a)).
  { intros f c d F. inversion F as [|? ? F1 F']; subst. inversion F' as [|? ? F2 _]; subst. rewrite len_map2. clear W. lia. }
  destruct o; cbn in H; args cs H; (eexists; split; [reflexivity|]); (split; [solve [apply U|apply B|intros _; rewrite ?repeat_length; auto]|]); intros j x E.
  all: try (apply nth_map1 in E as (y & Ey & ->); split; [reflexivity|]; exists [y]; split; [repeat constructor; exact Ey|]; intros ys Eys F; destruct ys as [|u [|? ?]]; try discriminate Eys; injection Eys as ->; inversion F as [|? ? F1 _]; subst;
    cbn; f_equal; auto using neg_spec, not_spec).
  all: try (apply nth_map2 in E as (y & z & Ey & Ez & ->); split; [reflexivity|]; exists [y; z]; split; [repeat constructor; assumption|]; intros ys Eys F; destruct ys as [|u [|u' [|? ?]]]; try discriminate Eys; injection Eys as -> ->;
    inversion F as [|? ? F1 F']; subst; inversion F' as [|? ? F2 _]; subst; cbn; f_equal; auto using add_spec, sub_spec, mul_spec, shl_spec, shr_spec, and_spec, or_spec, xor_spec).
  - apply nth_repeat' in E. subst x. split; [reflexivity|]. exists []. split; [constructor|]. intros ys Eys _. destruct ys; [|discriminate Eys]. reflexivity.
  - destruct j; discriminate E.
Qed.
Lemma v_dom : forall o vs, vqb w o (length vs) = true -> Forall (inr w) vs -> bv_to_var o = None -> inr w (vsem w o vs).
Proof.
  intros o vs H F V. apply vqb_spec in H as [H Lo].
  destruct o; try discriminate V; cbn in H; args vs H;
    repeat match goal with X : Forall _ (_ :: _) |- _ => inversion X; clear X; subst end;
    try match goal with A : inr _ ?a, B : inr _ ?b |- _ => pose proof (smt_range w a b W A B) as (?&?&?&?&?&?&?) end;
    try match goal with A : inr _ ?a |- _ => pose proof (smt_range w a a W A A) as (?&?&?&?&?&?&?) end; cbn; auto using and_inr, or_inr, xor_inr.
Qed.
Lemma v_itv : forall o is, exists i, bv_mk_interval o is = Val i /\ (i = full \/ exists c, o = VLit c /\ i = Itv (Some c) (Some c)).
Proof.
  intros o is. destruct o; try (eexists; split; [reflexivity|]; now left). cbn. unfold mk_itv. rewrite N.leb_refl. eexists. split; [reflexivity|]. right. eauto.
Qed.
Lemma v_mk : forall i j v, vsays i v -> vsays j v -> exists k, mk_itv N.leb (omax N.leb (low i) (low j)) (omin N.leb (high i) (high j)) = Val k /\ vsays k v /\ (vpI w i -> vpI w j -> vpI w k) /\
  vhgt k <= vhgt i /\ (ieqb N.eqb i k = false -> vhgt k < vhgt i).
Proof.
  intros i j v Hi Hj.
  assert (P : mk_itv N.leb (Some v) (Some v) = Val (Itv (Some v) (Some v))) by (unfold mk_itv; now rewrite N.leb_refl).
  assert (R : ieqb N.eqb (Itv (Some v) (Some v)) (Itv (Some v) (Some v)) = true) by (unfold ieqb, Analysis.oeqb; cbn [low high]; rewrite N.eqb_refl; reflexivity).
  destruct Hi as [->| ->], Hj as [->| ->]; cbn [low high full omax omin].
  - exists full. split; [reflexivity|]. split; [now left|]. split; [auto|]. split; [cbn; auto|]. cbn. discriminate.
  - exists (Itv (Some v) (Some v)). split; [exact P|]. split; [now right|]. split; [auto|]. split; cbn; auto.
  - exists (Itv (Some v) (Some v)). split; [exact P|]. split; [now right|]. split; [auto|]. split; [auto|]. rewrite R. discriminate.
  - exists (Itv (Some v) (Some v)). rewrite N.leb_refl. split; [exact P|]. split; [now right|]. split; [auto|]. split; [auto|]. rewrite R. discriminate.
Qed.
Lemma vpI_mk : forall i j k, vpI w i -> vpI w j -> mk_itv N.leb (omax N.leb (low i) (low j)) (omin N.leb (high i) (high j)) = Val k -> vpI w k.
Proof.
  intros i j k [->|(v & -> & Hv)] [->|(v' & -> & Hv')] E; cbn [low high full omax omin] in E.
  - injection E as <-. now left.
  - unfold mk_itv in E. rewrite N.leb_refl in E. injection E as <-. right. eauto.
  - unfold mk_itv in E. rewrite N.leb_refl in E. injection E as <-. right. eauto.
  - assert (v = v') as ->.
    { unfold mk_itv in E. destruct (N.leb_spec v v') as [L1|L1], (N.leb_spec v' v) as [L2|L2]; try (apply N.le_antisymm; assumption).
      - destruct (N.leb_spec v' v) as [X|X]; [exfalso; exact (N.lt_irrefl _ (N.lt_le_trans _ _ _ L2 X))|discriminate E].
      - destruct (N.leb_spec v v') as [X|X]; [exfalso; exact (N.lt_irrefl _ (N.lt_le_trans _ _ _ L1 X))|discriminate E].
      - exfalso. exact (N.lt_asymm _ _ L1 L2). }
    rewrite N.leb_refl in E. unfold mk_itv in E. rewrite N.leb_refl in E. injection E as <-. right. eauto.
Qed.
Lemma vlits_in v : inr w v -> In (VLit v) (vlits w).
Proof.
  intros H. unfold vlits. apply in_map_iff. exists (N.to_nat v). split; [now rewrite N2Nat.id|]. apply in_seq. split; [apply Nat.le_0_l|]. cbn [plus].
  unfold inr in H. apply Nat.compare_lt_iff. rewrite <- N2Nat.inj_compare. exact H.
Qed.
End BV.
Theorem bv_live : forall w check keep rs, (1 <= w <= 128)%N ->
  Forall (fun e => rewrite_rule (bv_lang w check) (snd e) /\ true_rule (bv_lang w check) VVar (inr w) (bv_den w) (snd e)) rs ->
  (forall part g, incl part rs -> reached (bv_lang w check) keep rs g -> goes_on (bv_lang w check) keep part g) /\ answers (bv_lang w check) keep rs /\ steady (bv_lang w check) keep.
Proof.
  intros w check keep rs W F. destruct W as [W1 W].
  apply (fun a b c d e f g h i j k l m n o p q => vectors_go_on (bv_lang w check) bv_eqb_eq keep (vqb w) (vsem w) (inr w) vsays (vpI w) vhgt (vlits w) 0%N a b c d e f g h i j k l m n o p q (bv_samples w)).
  - intros c. apply N.eqb_refl.
  - intros o k Hl Hq. apply vqb_spec in Hq as [Hq _]. destruct o; try discriminate Hl; exact Hq.
  - exact (v_dom w W).
  - exact (v_eval w W).
  - intros o is _ _ _. destruct (v_itv o is) as (i & H & _). eauto.
  - intros o is i Hq _ E. destruct (v_itv o is) as (i' & E' & Hi). cbn in E. assert (i' = i) as -> by congruence. destruct Hi as [->|(c & -> & ->)]; [now left|].
    apply vqb_spec in Hq as [_ Hq]. right. eauto.
  - intros o is i vs Hq Fs _ E. destruct (v_itv o is) as (i' & E' & Hi). cbn in E. assert (i' = i) as -> by congruence. destruct Hi as [->|(c & -> & ->)].
    + destruct (l_to_var (bv_lang w check) o); intros; now left.
    + apply vqb_spec in Hq as [Hq _]. cbn in Hq. destruct is; [|discriminate Hq]. inversion Fs; subst. right. reflexivity.
  - intros i j v _ Hi Hj _ _. destruct (v_mk w i j v Hi Hj) as (k & H1 & _ & _ & H2). eauto.
  - exact (vpI_mk w).
  - intros i j k v _ Hi Hj E. destruct (v_mk w i j v Hi Hj) as (k' & H1 & H2 & _). assert (k' = k) as -> by (cbn in E; congruence). exact H2.
  - reflexivity.
  - intros i v a b Hv [->| ->] La Hb _; [discriminate La|]. cbn in La, Hb. injection La as <-. injection Hb as <-. exists (VLit v). split; [reflexivity|]. split; [reflexivity|].
    split; [apply vqb_spec; split; [reflexivity|exact Hv]|]. split; [reflexivity|]. exact (vlits_in w v Hv).
  - intros i a b [->|(v & -> & Hv)] La _ _; [discriminate La|]. injection La as <-. constructor; [|constructor]. exact (proj2 (vqb_spec w (VLit v) 0) (conj eq_refl Hv)).
  - intros i i' v a b a' b' _ [->| ->] [->| ->] La _ _ La' _ _; try discriminate La; try discriminate La'. cbn in La, La'. congruence.
  - intros v k. cbn [l_mk_var bv_lang]. rewrite vqb_spec. cbn. tauto.
  - reflexivity.
  - intros o k (s & H). apply vqb_spec. destruct (bv_readable w check W) as (K & R). split; [symmetry; exact (bv_from_op_arity w s k o H)|].
    destruct (re_read _ _ _ _ R s k o H) as [X|X]; destruct o; cbn in *; auto; now destruct X.
  - apply Forall_forall. intros x Hx. destruct (bv_samples_spec w (conj W1 W)) as (_ & H & _). exact (H x Hx).
  - destruct (bv_samples_spec w (conj W1 W)) as (_ & _ & H & _). exact H.
  - reflexivity.
  - eapply Forall_impl; [|exact F]. intros [k r] [H1 H2]. split; [exact H1|]. exact (true_pairs (bv_lang w check) 0%N (bv_sem w) (inr w) r (fun _ => eq_refl) H2).
Qed.

(* ---- languages without vectors, and derivability, where vectors are empty ---- *)
Definition aqb {O} (ar : O -> nat) (o : O) (k : nat) : bool := Nat.eqb k (ar o).
Ltac quiet arity :=
  match goal with
  | |- forall o k, is_leaf _ o = true -> _ => intros o k Hl Hq; unfold Qq, aqb in Hq; apply Nat.eqb_eq in Hq; destruct o; try discriminate Hl; exact Hq
  | |- forall v k, Qq _ (l_mk_var _ v) k <-> _ => intros v k; unfold Qq, aqb; cbn; apply Nat.eqb_eq
  | |- forall o k, read_op _ o k -> _ => intros o k (s & Hr); unfold Qq, aqb; apply Nat.eqb_eq; symmetry; exact (arity s k o Hr)
  | _ => reflexivity
  end.
Theorem pos_live : forall depth keep rs, rewrites (pos_lang depth) rs ->
  (forall part g, incl part rs -> reached (pos_lang depth) keep rs g -> goes_on (pos_lang depth) keep part g) /\ answers (pos_lang depth) keep rs /\ steady (pos_lang depth) keep.
Proof.
  intros depth keep rs F. split; [|split].
  - intros part g Ip H. refine (quiet_goes_on (pos_lang depth) pos_op_eqb_eq keep (aqb pos_arity) _ _ _ _ _ _ _ rs F part g Ip H); quiet pos_from_op_arity.
  - refine (quiet_answers (pos_lang depth) pos_op_eqb_eq keep (aqb pos_arity) _ _ _ _ _ _ rs F); quiet pos_from_op_arity.
  - refine (quiet_steady (pos_lang depth) pos_op_eqb_eq keep (aqb pos_arity) _ _ _ _ _ _ _); quiet pos_from_op_arity.
Qed.
Theorem cf_live : forall keep rs, rewrites cf_lang rs ->
  (forall part g, incl part rs -> reached cf_lang keep rs g -> goes_on cf_lang keep part g) /\ answers cf_lang keep rs /\ steady cf_lang keep.
Proof.
  intros keep rs F. split; [|split].
  - intros part g Ip H. refine (quiet_goes_on cf_lang cf_eqb_eq keep (aqb cf_arity) _ _ _ _ _ _ _ rs F part g Ip H); quiet cf_from_op_arity.
  - refine (quiet_answers cf_lang cf_eqb_eq keep (aqb cf_arity) _ _ _ _ _ _ rs F); quiet cf_from_op_arity.
  - refine (quiet_steady cf_lang cf_eqb_eq keep (aqb cf_arity) _ _ _ _ _ _ _); quiet cf_from_op_arity.
Qed.
Theorem exp_live : forall keep rs, rewrites exp_lang rs -> answers exp_lang keep rs.
Proof.
  intros keep rs F. refine (quiet_answers exp_lang exp_eqb_eq keep (aqb exp_arity) _ _ _ _ _ _ rs F); quiet exp_from_op_arity.
Qed.
Theorem hal_live : forall check keep rs, rewrites (hal_lang check) rs -> answers (hal_lang check) keep rs.
Proof.
  intros check keep rs F. refine (quiet_answers (hal_lang check) hal_eqb_eq keep (aqb hal_arity) _ _ _ _ _ _ rs F); try quiet hal_from_op_arity.
  intros o cs H Fn. unfold Qq, aqb in H. apply Nat.eqb_eq in H. destruct o; cbn in H; args cs H; repeat match goal with X : Forall _ (_ :: _) |- _ => inversion X; clear X; subst end; reflexivity.
Qed.
