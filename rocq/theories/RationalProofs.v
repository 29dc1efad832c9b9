(* Proofs about the rational domain. *)
From Coq Require Import QArith Qcanon Lqa.
From Verif Require Import Base BaseProofs Lang LangProofs Util UtilProofs DomainSpec Number Rational RationalSpec.
Open Scope list_scope.

(* ---- from canonical rationals to Q ---- *)
Lemma qeqb_spec x y : qeqb x y = true <-> x = y.
Proof.
  unfold qeqb. rewrite Qeq_bool_iff. split; [apply Qc_is_canon|intros ->; reflexivity].
Qed.
Lemma qleb_spec x y : qleb x y = true <-> (x <= y)%Qc.
Proof. unfold qleb. apply Qle_bool_iff. Qed.
Lemma qleb_false x y : qleb x y = false <-> (y < x)%Qc.
Proof.
  rewrite <- not_true_iff_false, qleb_spec. split; [apply Qcnot_le_lt|apply Qclt_not_le].
Qed.
Lemma this_mult x y : (this (x * y)%Qc == this x * this y)%Q.
Proof. apply Qred_correct. Qed.
Lemma this_plus x y : (this (x + y)%Qc == this x + this y)%Q.
Proof. apply Qred_correct. Qed.
Lemma this_opp x : (this (- x)%Qc == - this x)%Q.
Proof. apply Qred_correct. Qed.
Lemma this_zero : (this qzero == 0)%Q.
Proof. reflexivity. Qed.
Lemma qc_le x y : (x <= y)%Qc <-> (this x <= this y)%Q. Proof. reflexivity. Qed.
Lemma qc_lt x y : (x < y)%Qc <-> (this x < this y)%Q. Proof. reflexivity. Qed.
Lemma is_pos_true x : is_positive x = true <-> (0 < this x)%Q.
Proof. unfold is_positive. rewrite negb_true_iff, qleb_false. apply qc_lt. Qed.
Lemma is_pos_false x : is_positive x = false <-> (this x <= 0)%Q.
Proof. unfold is_positive. rewrite negb_false_iff, qleb_spec. apply qc_le. Qed.
Lemma is_neg_true x : is_negative x = true <-> (this x < 0)%Q.
Proof. unfold is_negative. rewrite negb_true_iff, qleb_false. apply qc_lt. Qed.
Lemma is_neg_false x : is_negative x = false <-> (0 <= this x)%Q.
Proof. unfold is_negative. rewrite negb_false_iff, qleb_spec. apply qc_le. Qed.
Lemma is_zero_spec x : is_zero x = true <-> x = Q2Qc 0.
Proof. unfold is_zero. apply qeqb_spec. Qed.

(* ---- interval helpers ---- *)
Lemma mk_itv_within lo hi z : within Qcle (Itv lo hi) z -> mk_itv qleb lo hi = Val (Itv lo hi).
Proof.
  intros [A B]. unfold mk_itv. destruct lo as [a|], hi as [b|]; try reflexivity.
  cbn in A, B. assert (qleb a b = true) as ->; [|reflexivity]. apply qleb_spec.
  apply Qcle_trans with z; auto.
Qed.
Lemma within_mk lo hi z : within Qcle (Itv lo hi) z ->
  exists k, mk_itv qleb lo hi = Val k /\ within Qcle k z.
Proof. intros H. exists (Itv lo hi). split; [exact (mk_itv_within lo hi z H)|exact H]. Qed.

Lemma within_bounds i x : within Qcle i x <->
  (match low i with Some l => this l <= this x | None => True end)%Q /\
  (match high i with Some h => this x <= this h | None => True end)%Q.
Proof.
  unfold within. destruct i as [[l|] [h|]]; cbn; split; intros [A B]; split; try exact I; intros;
    try discriminate; try (apply A; reflexivity); try (apply B; reflexivity); try (inversion H; subst; assumption).
Qed.

Lemma itv_neg_sound i x : within Qcle i x -> exists k, itv_neg i = Val k /\ within Qcle k (- x)%Qc.
Proof.
  intros H. apply within_mk. apply within_bounds in H. apply within_bounds. destruct i as [[a|] [b|]]; cbn [low high option_map] in *;
    destruct H as [A B]; split; try exact I; rewrite !this_opp; lra.
Qed.
Lemma itv_add_sound i j x y : within Qcle i x -> within Qcle j y ->
  exists k, itv_add i j = Val k /\ within Qcle k (x + y)%Qc.
Proof.
  intros H G. apply within_mk. apply within_bounds in H, G. apply within_bounds.
  destruct i as [[a|] [b|]], j as [[c|] [d|]]; cbn [low high opt2] in *;
    destruct H as [A B], G as [C D]; split; try exact I; rewrite !this_plus; lra.
Qed.

(* products of bounded rationals *)
Section Products.
  Local Open Scope Q_scope.
  Variables a1 a2 b1 b2 x y : Q.
  Lemma mul_le_pp : 0 <= a1 -> 0 <= b1 -> a1 <= x -> b1 <= y -> a1 * b1 <= x * y.
  Proof. intros. nra. Qed.
  Lemma mul_ge_pp : 0 <= x -> 0 <= y -> x <= a2 -> y <= b2 -> x * y <= a2 * b2.
  Proof. intros. nra. Qed.
End Products.

Lemma sign_pos i x : within Qcle i x -> sign_of i = Positive -> exists l, low i = Some l /\ (0 < this l)%Q.
Proof.
  intros H. destruct i as [[a|] [b|]]; unfold sign_of; cbn.
  - destruct (is_positive a) eqn:E; [apply is_pos_true in E; eauto|]. cbn.
    destruct (is_negative a && is_negative b); discriminate.
  - destruct (is_positive a) eqn:E; [apply is_pos_true in E; eauto|discriminate].
  - destruct (is_negative b); discriminate.
  - discriminate.
Qed.
Lemma sign_neg i x : within Qcle i x -> sign_of i = Negative -> exists h, high i = Some h /\ (this h < 0)%Q.
Proof.
  intros H. destruct i as [[a|] [b|]]; unfold sign_of; cbn.
  - destruct (is_positive a && is_positive b); [discriminate|].
    destruct (is_negative a), (is_negative b) eqn:E; try discriminate. apply is_neg_true in E. eauto.
  - destruct (is_positive a); discriminate.
  - destruct (is_negative b) eqn:E; [apply is_neg_true in E; eauto|discriminate].
  - discriminate.
Qed.
Lemma sign_zero i x : within Qcle i x -> sign_of i = ContainsZero ->
  (forall l, low i = Some l -> (this l <= 0)%Q) /\ (forall h, high i = Some h -> (0 <= this h)%Q).
Proof.
  intros H. apply within_bounds in H. destruct i as [[a|] [b|]]; unfold sign_of; cbn in *; destruct H as [A B].
  - destruct (is_positive a) eqn:E1, (is_positive b) eqn:E2; try discriminate; cbn;
      destruct (is_negative a) eqn:E3, (is_negative b) eqn:E4; try discriminate; intros _;
      rewrite ?is_pos_true, ?is_pos_false, ?is_neg_true, ?is_neg_false in *;
      split; intros ? E; inversion E; subst; lra.
  - destruct (is_positive a) eqn:E1; [discriminate|]. intros _. apply is_pos_false in E1.
    split; intros ? E; inversion E; subst; lra.
  - destruct (is_negative b) eqn:E1; [discriminate|]. intros _. apply is_neg_false in E1.
    split; intros ? E; inversion E; subst; lra.
  - intros _. split; intros ? E; inversion E.
Qed.

Lemma qmin_le x y : (this (qmin x y) <= this x /\ this (qmin x y) <= this y)%Q.
Proof.
  unfold qmin. destruct (qleb x y) eqn:E; [apply qleb_spec in E; unfold Qcle in E|apply qleb_false in E; unfold Qclt in E]; split; lra.
Qed.
Lemma qmax_ge x y : (this x <= this (qmax x y) /\ this y <= this (qmax x y))%Q.
Proof.
  unfold qmax. destruct (qleb x y) eqn:E; [apply qleb_spec in E; unfold Qcle in E|apply qleb_false in E; unfold Qclt in E]; split; lra.
Qed.

Ltac qprod := rewrite !this_mult in *;
  repeat match goal with |- context [this ?a] => let x := fresh "q" in set (x := this a) in *; clearbody x end; nra.
Lemma itv_mul_sound i j x y : within Qcle i x -> within Qcle j y ->
  exists k, itv_mul i j = Val k /\ within Qcle k (x * y)%Qc.
Proof.
  intros H G. pose proof H as Hb. pose proof G as Gb. apply within_bounds in Hb, Gb.
  unfold itv_mul.
  destruct (sign_of i) eqn:Si, (sign_of j) eqn:Sj; apply within_mk; apply within_bounds; cbn [low high];
  try (destruct (sign_pos i x H Si) as (li & Li & Pi)); try (destruct (sign_pos j y G Sj) as (lj & Lj & Pj));
  try (destruct (sign_neg i x H Si) as (hi & Hi & Ni)); try (destruct (sign_neg j y G Sj) as (hj & Hj & Nj));
  try (destruct (sign_zero i x H Si) as [Zi1 Zi2]); try (destruct (sign_zero j y G Sj) as [Zj1 Zj2]);
  destruct i as [[a1|] [a2|]], j as [[b1|] [b2|]]; cbn [low high opt2] in *; destruct Hb as [A1 A2], Gb as [B1 B2];
  repeat match goal with H : Some _ = Some _ |- _ => inversion H; subst; clear H | H : None = Some _ |- _ => discriminate H end;
  repeat match goal with H : forall l, Some ?a = Some l -> _ |- _ => specialize (H a eq_refl) end;
  split; try exact I; try (clear H G; qprod).
  all: try (pose proof (qmin_le (a1 * b2)%Qc (a2 * b1)%Qc) as [M1 M2]; destruct (Qlt_le_dec (this x) 0), (Qlt_le_dec (this y) 0); clear H G;
       match goal with |- (this ?m <= _)%Q => set (mm := this m) in *; clearbody mm end; qprod).
  all: try (pose proof (qmax_ge (a2 * b2)%Qc (a1 * b1)%Qc) as [M1 M2]; destruct (Qlt_le_dec (this x) 0), (Qlt_le_dec (this y) 0); clear H G;
       match goal with |- (_ <= this ?m)%Q => set (mm := this m) in *; clearbody mm end; qprod).
Qed.

Lemma this_inv x : (this (/ x)%Qc == / this x)%Q.
Proof. apply Qred_correct. Qed.
Lemma inv_le_pos a b : (0 < a -> a <= b -> / b <= / a)%Q.
Proof.
  intros H1 H2. assert (~ a == 0)%Q as N1 by (intros E; rewrite E in H1; exact (Qlt_irrefl _ H1)).
  assert (~ b == 0)%Q as N2 by (intros E; rewrite E in H2; lra).
  pose proof (Qmult_inv_r a N1) as I1. pose proof (Qmult_inv_r b N2) as I2.
  revert I1 I2. generalize (/ a)%Q as u, (/ b)%Q as v. intros u v I1 I2.
  destruct (Qlt_le_dec u v) as [L|L]; [|exact L]. exfalso.
  assert (0 < u)%Q by nra. nra.
Qed.
Lemma inv_le_neg a b : (b < 0 -> a <= b -> / b <= / a)%Q.
Proof.
  intros H1 H2. assert (~ b == 0)%Q as N1 by (intros E; rewrite E in H1; exact (Qlt_irrefl _ H1)).
  assert (~ a == 0)%Q as N2 by (intros E; rewrite E in H2; lra).
  pose proof (Qmult_inv_r a N2) as I1. pose proof (Qmult_inv_r b N1) as I2.
  revert I1 I2. generalize (/ a)%Q as u, (/ b)%Q as v. intros u v I1 I2.
  destruct (Qlt_le_dec u v) as [L|L]; [|exact L]. exfalso.
  assert (v < 0)%Q by nra. nra.
Qed.
Lemma within_full {C} (le : C -> C -> Prop) x : within le full x.
Proof. split; intros ? E; discriminate E. Qed.
Lemma itv_recip_sound i x : within Qcle i x -> exists k, itv_recip i = Val k /\ within Qcle k (/ x)%Qc.
Proof.
  intros H. pose proof H as Hb. apply within_bounds in Hb. unfold itv_recip.
  destruct (low i) as [a|] eqn:El, (high i) as [b|] eqn:Eh; try (exists full; split; [reflexivity|apply within_full]).
  destruct Hb as [A B].
  destruct (sign_of i) eqn:S.
  - destruct (sign_pos i x H S) as (l & L & P). rewrite El in L. inversion L; subst l.
    apply within_mk, within_bounds. cbn [low high]. rewrite !this_inv. split; apply inv_le_pos; lra.
  - exists full. split; [reflexivity|apply within_full].
  - destruct (sign_neg i x H S) as (l & L & P). rewrite Eh in L. inversion L; subst l.
    apply within_mk, within_bounds. cbn [low high]. rewrite !this_inv. split; apply inv_le_neg; lra.
Qed.

(* ---- constant folding ---- *)
Lemma is_zero_dec {A} q (a b : A) : (if negb (is_zero q) then a else b) = if Qc_eq_dec q 0 then b else a.
Proof.
  destruct (Qc_eq_dec q 0) as [E|E].
  - apply is_zero_spec in E. rewrite E. reflexivity.
  - destruct (is_zero q) eqn:E2; [apply is_zero_spec in E2; contradiction|reflexivity].
Qed.
Lemma neg_rat_val x y : neg_rat x = Val y -> y = (- x)%Qc.
Proof. unfold neg_rat. destruct (_ =? _)%Z; [discriminate|congruence]. Qed.
Lemma abs_rat_val x y : abs_rat x = Val y -> y = if Qclt_le_dec x 0 then (- x)%Qc else x.
Proof.
  unfold abs_rat, is_negative. destruct (Qclt_le_dec x 0) as [L|L].
  - apply qleb_false in L. change (Q2Qc 0) with qzero in L. rewrite L. apply neg_rat_val.
  - apply qleb_spec in L. change (Q2Qc 0) with qzero in L. rewrite L. cbn. congruence.
Qed.

Section Fold.
  Variable ov : math_op -> Qc -> Qc -> bool.
  Definition fold_rel (i : interval Qc) (v : option Qc) : Prop :=
    (forall q, v = Some q -> within Qcle i q) /\ (forall c, get_const i = Some c -> v = Some c).

  Lemma get_const_point c : get_const (Itv (Some c) (Some c)) = Some c.
  Proof. unfold get_const. cbn. assert (qeqb c c = true) as -> by now apply qeqb_spec. reflexivity. Qed.
  Lemma fold_rel_const c : fold_rel (Itv (Some c) (Some c)) (Some c).
  Proof.
    split.
    - intros q E. inversion E; subst. split; intros ? E'; inversion E'; subst; apply Qcle_refl.
    - intros d. rewrite get_const_point. congruence.
  Qed.
  Lemma fold_rel_full v : fold_rel full v.
  Proof. split; [intros; apply within_full|intros c E; discriminate E]. Qed.

  Lemma math_interval_rel env o is vs i : Forall2 fold_rel is vs -> math_mk_interval ov o is = Val i ->
    exists v, with_vars math_to_var (fun s => Some (env s)) math_sem o vs = Val v /\ fold_rel i v.
  Proof.
    intros HF H. unfold math_mk_interval in H. apply rbind_val in H as (c & H1 & H2).
    assert (exists v, with_vars math_to_var (fun s => Some (env s)) math_sem o vs = Val v /\
      forall x, c = Some x -> v = Some x) as (v & E & Hv).
    { destruct o; inversion HF as [|i1 v1 is1 vs1 [_ R1] F1]; subst; cbn in H1; try discriminate;
        try (inversion F1 as [|i2 v2 is2 vs2 [_ R2] F2]; subst; try discriminate);
        try (inversion F2 as [|i3 v3 is3 vs3 [_ R3] F3]; subst; try discriminate);
        try (inversion F3; subst; try discriminate);
        eexists; (split; [reflexivity|]); cbn; intros x ->;
        unfold fold1, fold2 in H1;
        try (destruct (get_const i1) as [c1|] eqn:G1; [rewrite (R1 c1 eq_refl)|discriminate]);
        try (destruct (get_const i2) as [c2|] eqn:G2; [rewrite (R2 c2 eq_refl)|discriminate]); cbn.
      - inversion H1 as [E]. unfold checked_add in E. destruct (ov _ _ _); congruence.
      - inversion H1 as [E]. unfold checked_sub in E. destruct (ov _ _ _); congruence.
      - inversion H1 as [E]. unfold checked_mul in E. destruct (ov _ _ _); congruence.
      - inversion H1 as [E]. unfold checked_div in E.
        destruct (Qc_eq_dec c2 0) as [Z|Z].
        + apply is_zero_spec in Z. rewrite Z in E. discriminate.
        + destruct (is_zero c2) eqn:Z2; [discriminate|]. destruct (ov _ _ _); congruence.
      - apply rbind_val in H1 as (y & Y1 & Y2). apply neg_rat_val in Y1. congruence.
      - apply rbind_val in H1 as (y & Y1 & Y2). apply abs_rat_val in Y1. congruence.
      - rewrite is_zero_dec in H1. injection H1 as E. destruct (Qc_eq_dec c1 0); auto.
      - congruence.
      - discriminate. }
    exists v. split; [exact E|]. destruct c as [c|].
    - specialize (Hv c eq_refl). subst v. unfold mk_itv in H2.
      destruct (qleb c c); inversion H2; subst. apply fold_rel_const.
    - inversion H2; subst. apply fold_rel_full.
  Qed.

  Lemma tall_true {O} (t : term O) : tall (fun _ => True) t.
  Proof. induction t as [o ts IH] using term_ind'. constructor; auto. Qed.

  Lemma math_interval_term env t i : fold_term (math_mk_interval ov) t = Val i ->
    exists v, math_den env t = Val v /\ fold_rel i v.
  Proof.
    intros H. apply (fold_term_rel (fun _ => True) (math_mk_interval ov) _ fold_rel t i); auto using tall_true.
    intros o xs ys x _ HF. apply math_interval_rel. exact HF.
  Qed.

  (* ---- samples ---- *)
  Section Row.
    Variable n r : nat.
    Variable vc : string -> cvec Qc.
    Variable env : string -> Qc.
    Hypothesis Hr : r < n.
    Definition row_rel (c : cvec Qc) (v : option Qc) : Prop :=
      length c = n /\ (forall q, nth r c None = Some q -> v = Some q) /\
      ((forall o x y, ov o x y = false) -> nth r c None = v).

    Lemma map1_res_rel f g c v c' : (forall x y, f x = Val y -> y = g x) -> row_rel c v -> map1_res f c = Val c' ->
      row_rel c' (option_map g v).
    Proof.
      intros Hf (L & R1 & R2) H. unfold map1_res in H.
      assert (length c' = n /\ nth r c' None = option_map g (nth r c None)) as [L' N].
      { apply rmapM_val in H. split; [rewrite <- L; symmetry; eapply Forall2_length; exact H|].
        clear R1 R2 L Hr. revert r. induction H as [|x y c c' E _ IH]; intros [|r0]; try reflexivity; [|apply IH].
        simpl. destruct x as [x|]; [|cbn in *; congruence]. apply rbind_val in E as (z & Z1 & Z2). apply Hf in Z1. cbn. congruence. }
      split; [exact L'|]. split.
      - intros q Hq. rewrite N in Hq. destruct (nth r c None) as [x|] eqn:E; [|discriminate]. rewrite (R1 x eq_refl). exact Hq.
      - intros Ho. rewrite N, (R2 Ho). reflexivity.
    Qed.
    Lemma map2_rel f g c1 v1 c2 v2 : (forall x y q, f x y = Some q -> g x y = Some q) ->
      ((forall o x y, ov o x y = false) -> forall x y, f x y = g x y) ->
      row_rel c1 v1 -> row_rel c2 v2 -> row_rel (map2 f c1 c2) (both g v1 v2).
    Proof.
      intros Hf Ho (L1 & R1 & S1) (L2 & R2 & S2). split; [now apply map2_length|]. rewrite map2_nth. split.
      - intros q Hq. destruct (nth r c1 None) as [x|]; [|discriminate]. destruct (nth r c2 None) as [y|]; [|discriminate].
        rewrite (R1 x eq_refl), (R2 y eq_refl). cbn. auto.
      - intros H. rewrite (S1 H), (S2 H). unfold both. destruct v1, v2; auto.
    Qed.
    Lemma if_nth a b c : nth r (map (fun t => if_row (fst (fst t)) (snd (fst t)) (snd t)) (combine (combine a b) c)) None =
      if Nat.ltb r (Nat.min (Nat.min (length a) (length b)) (length c))
      then if_row (nth r a None) (nth r b None) (nth r c None) else None.
    Proof.
      clear Hr. revert b c r. induction a as [|x a IH]; intros [|y b] [|z c] [|r0]; try reflexivity.
      cbn [combine map nth length Nat.min]. rewrite IH. reflexivity.
    Qed.

    Lemma math_eval_rel o cs vs c :
      (forall s, math_to_var o = Some s -> length (vc s) = n /\ nth r (vc s) None = Some (env s)) ->
      Forall2 row_rel cs vs -> with_vars math_to_var vc (math_eval ov n) o cs = Val c ->
      exists v, with_vars math_to_var (fun s => Some (env s)) math_sem o vs = Val v /\ row_rel c v.
    Proof.
      intros Hv HF H. unfold with_vars in *. destruct (math_to_var o) as [s|] eqn:Eo.
      - destruct (Hv s eq_refl) as [L N]. inversion H; subst. eexists. split; [reflexivity|].
        split; [exact L|]. split; intros; congruence.
      - destruct o; inversion HF as [|c1 v1 cs1 vs1 R1 F1]; subst; cbn in H; try discriminate;
          try (inversion F1 as [|c2 v2 cs2 vs2 R2 F2]; subst; try discriminate);
          try (inversion F2 as [|c3 v3 cs3 vs3 R3 F3]; subst; try discriminate);
          try (inversion F3; subst; try discriminate);
          eexists; (split; [reflexivity|]).
        + inversion H; subst. apply map2_rel; auto; unfold checked_add.
          * intros x y q. destruct (ov _ x y); congruence.
          * intros Ho x y. rewrite Ho. reflexivity.
        + inversion H; subst. apply map2_rel; auto; unfold checked_sub.
          * intros x y q. destruct (ov _ x y); congruence.
          * intros Ho x y. rewrite Ho. reflexivity.
        + inversion H; subst. apply map2_rel; auto; unfold checked_mul.
          * intros x y q. destruct (ov _ x y); congruence.
          * intros Ho x y. rewrite Ho. reflexivity.
        + inversion H; subst. apply map2_rel; auto; unfold checked_div.
          * intros x y q. destruct (Qc_eq_dec y 0) as [Z|Z].
            -- apply is_zero_spec in Z. rewrite Z. discriminate.
            -- destruct (is_zero y); [discriminate|]. destruct (ov _ x y); congruence.
          * intros Ho x y. rewrite Ho. destruct (Qc_eq_dec y 0) as [Z|Z].
            -- apply is_zero_spec in Z. rewrite Z. reflexivity.
            -- destruct (is_zero y) eqn:Z2; [apply is_zero_spec in Z2; contradiction|reflexivity].
        + eapply map1_res_rel; [|exact R1|exact H]. apply neg_rat_val.
        + eapply map1_res_rel; [|exact R1|exact H]. exact abs_rat_val.
        + inversion H; subst. destruct R1 as (L1 & A1 & B1), R2 as (L2 & A2 & B2), R3 as (L3 & A3 & B3).
          split; [rewrite map_length, !combine_length; lia|]. rewrite if_nth, L1, L2, L3, !Nat.min_id.
          apply Nat.ltb_lt in Hr. rewrite Hr. unfold if_row. split.
          * intros q. destruct (nth r c1 None) as [x|]; [|discriminate]. rewrite (A1 x eq_refl), is_zero_dec.
            destruct (Qc_eq_dec x 0); auto.
          * intros Ho. rewrite (B1 Ho), (B2 Ho), (B3 Ho). destruct v1 as [x|]; [|reflexivity]. apply is_zero_dec.
        + inversion H; subst. split; [apply repeat_length|]. rewrite nth_repeat_lt by exact Hr. split; congruence.
    Qed.

    Lemma tall_tvars {O} (to_var : O -> option string) (P : string -> Prop) t :
      (forall s, In s (tvars to_var t) -> P s) -> tall (fun o => forall s, to_var o = Some s -> P s) t.
    Proof.
      induction t as [o ts IH] using term_ind'. intros H. constructor.
      - intros s E. apply H. cbn [tvars]. rewrite E. left. reflexivity.
      - rewrite Forall_forall in *. intros t Ht. apply IH; [exact Ht|]. intros s Hs. apply H. cbn [tvars].
        apply in_app_iff. right. apply in_flat_map. eauto.
    Qed.
    Lemma math_cvec_row t c :
      (forall s, In s (tvars math_to_var t) -> length (vc s) = n /\ nth r (vc s) None = Some (env s)) ->
      cvec_term (math_eval ov) math_to_var n vc t = Val c ->
      exists v, math_den env t = Val v /\ row_rel c v.
    Proof.
      intros Hv H. apply tall_tvars in Hv.
      eapply (fold_term_rel _ _ _ row_rel); [|exact Hv|exact H].
      intros o xs ys x Ho HF. now apply math_eval_rel.
    Qed.
  End Row.
End Fold.

Lemma itv_recip_tight a b : (a <= b)%Qc -> (0 < a)%Qc \/ (b < 0)%Qc ->
  itv_recip (Itv (Some a) (Some b)) = Val (Itv (Some (/ b)%Qc) (Some (/ a)%Qc)).
Proof.
  intros H Hs. unfold itv_recip. cbn [low high].
  assert (sign_of (Itv (Some a) (Some b)) <> ContainsZero) as S.
  { unfold sign_of. cbn [low high]. unfold Qcle, Qclt in *. change (this 0) with 0%Q in Hs.
    destruct (is_positive a) eqn:Pa, (is_positive b) eqn:Pb, (is_negative a) eqn:Na, (is_negative b) eqn:Nb; cbn; try discriminate; exfalso;
      try apply is_pos_true in Pa; try apply is_pos_false in Pa; try apply is_pos_true in Pb; try apply is_pos_false in Pb;
      try apply is_neg_true in Na; try apply is_neg_false in Na; try apply is_neg_true in Nb; try apply is_neg_false in Nb;
      destruct Hs; lra. }
  assert (mk_itv qleb (Some (/ b)%Qc) (Some (/ a)%Qc) = Val (Itv (Some (/ b)%Qc) (Some (/ a)%Qc))) as E.
  { apply (mk_itv_within _ _ (/ b)%Qc). apply within_bounds. cbn [low high]. rewrite !this_inv. split; [lra|].
    unfold Qcle, Qclt in *. change (this 0) with 0%Q in Hs. destruct Hs; [apply inv_le_pos|apply inv_le_neg]; lra. }
  destruct (sign_of _); [exact E|contradiction|exact E].
Qed.

(* closed terms are folded *)
Lemma math_fold_complete env t i q : fold_term (math_mk_interval (fun _ _ _ => false)) t = Val i ->
  tvars math_to_var t = [] -> math_den env t = Val (Some q) -> i = Itv (Some q) (Some q).
Proof.
  intros H Hv Hd.
  assert (tall (fun o => math_to_var o = None) t) as Ht.
  { clear - Hv. induction t as [o ts IH] using term_ind'. cbn [tvars] in Hv. apply app_eq_nil in Hv as [H1 H2].
    constructor; [destruct (math_to_var o); [discriminate|reflexivity]|].
    rewrite Forall_forall in *. intros t Ht. apply IH; [exact Ht|].
    destruct (tvars math_to_var t) as [|x l] eqn:E; [reflexivity|exfalso].
    assert (In x (flat_map (tvars math_to_var) ts)) as Hx by (apply in_flat_map; exists t; rewrite E; cbn; auto).
    rewrite H2 in Hx. destruct Hx. }
  destruct (fold_term_rel (fun o => math_to_var o = None) (math_mk_interval (fun _ _ _ => false))
    (with_vars math_to_var (fun s => Some (env s)) math_sem)
    (fun i v => forall q, v = Some q -> i = Itv (Some q) (Some q)) t i) with (2 := Ht) (3 := H) as (v & E & R).
  - clear. intros o xs ys x Ho HF E. unfold math_mk_interval in E. apply rbind_val in E as (c & E1 & E2).
    unfold with_vars. rewrite Ho.
    assert (forall q, c = Some q -> x = Itv (Some q) (Some q)) as K.
    { intros q ->. unfold mk_itv in E2. destruct (qleb q q); [|discriminate]. congruence. }
    assert (forall i v, (forall q, v = Some q -> i = Itv (Some q) (Some q)) -> forall q, v = Some q -> get_const i = Some q) as G.
    { intros i v R q Hq. rewrite (R q Hq). apply get_const_point. }
    clear E2.
    destruct o; try discriminate Ho; inversion HF as [|x1 y1 xs1 ys1 R1 F1]; subst; cbn [fold_node] in E1; try discriminate E1;
      try (inversion F1 as [|x2 y2 xs2 ys2 R2 F2]; subst; try discriminate E1);
      try (inversion F2 as [|x3 y3 xs3 ys3 R3 F3]; subst; try discriminate E1);
      try (inversion F3; subst; try discriminate E1); eexists; (split; [reflexivity|]); intros qq Hq; apply K;
      try (destruct y1 as [q1|]; [|discriminate]; pose proof (G x1 _ R1 q1 eq_refl) as G1);
      unfold fold2, fold1 in E1; try rewrite G1 in E1.
    1-4: destruct y2 as [q2|]; [|discriminate]; pose proof (G x2 _ R2 q2 eq_refl) as G2; rewrite G2 in E1;
      cbn [both] in Hq.
    + unfold checked_add in E1. congruence.
    + unfold checked_sub in E1. congruence.
    + unfold checked_mul in E1. congruence.
    + unfold checked_div in E1. destruct (Qc_eq_dec q2 0) as [|N]; [discriminate|].
      destruct (is_zero q2) eqn:Z; [apply is_zero_spec in Z; contradiction|]. congruence.
    + apply rbind_val in E1 as (b & N & E1). apply neg_rat_val in N. cbn [option_map] in Hq. congruence.
    + apply rbind_val in E1 as (b & N & E1). apply abs_rat_val in N. cbn [option_map] in Hq. congruence.
    + rewrite is_zero_dec in E1. cbn [math_sem] in Hq. destruct (Qc_eq_dec q1 0).
      * rewrite (G x3 y3 R3 qq Hq) in E1. congruence.
      * rewrite (G x2 y2 R2 qq Hq) in E1. congruence.
    + congruence.
  - apply R. unfold math_den in Hd. congruence.
Qed.
