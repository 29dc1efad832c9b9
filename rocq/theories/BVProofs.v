(* The operations of BV.v are arithmetic modulo 2^w. *)
From Coq Require Import NArith ZArith.
From Verif Require Import Base BaseProofs Lang LangProofs BV BVSpec.
Local Open Scope N_scope.

Lemma pow2_pos w : 0 < 2 ^ w.
Proof. apply N.neq_0_lt_0, N.pow_nonzero. discriminate. Qed.
Local Hint Resolve pow2_pos : core.
Lemma pow2_nz w : 2 ^ w <> 0.
Proof. apply N.pow_nonzero. discriminate. Qed.
Local Hint Resolve pow2_nz : core.

Lemma u128_max_ones : u128_max = N.ones 128.
Proof. reflexivity. Qed.

Lemma all_ones_ones w : w <= 128 -> all_ones w = N.ones w.
Proof.
  intros H. unfold all_ones. rewrite u128_max_ones, N.shiftr_div_pow2, N.ones_div_pow2.
  - f_equal. unfold inner_n. lia.
  - unfold inner_n. lia.
Qed.

Lemma ones_pow w : N.ones w = 2 ^ w - 1.
Proof. rewrite N.ones_equiv. lia. Qed.

Lemma new_mod w n : w <= 128 -> bv_new w n = n mod 2 ^ w.
Proof. intros H. unfold bv_new. rewrite all_ones_ones by auto. apply N.land_ones. Qed.

Lemma new_inr w n : w <= 128 -> inr w (bv_new w n).
Proof. intros H. rewrite new_mod by auto. apply N.mod_lt; auto. Qed.

Lemma mod_mod_pow w v x : w <= v -> (x mod 2 ^ v) mod 2 ^ w = x mod 2 ^ w.
Proof.
  intros H. rewrite <- !N.land_ones, <- N.land_assoc. f_equal.
  apply N.bits_inj. intros i. rewrite N.land_spec.
  destruct (N.lt_ge_cases i w).
  - rewrite !N.ones_spec_low by lia. reflexivity.
  - rewrite (N.ones_spec_high w) by lia. apply andb_false_r.
Qed.

Lemma new_u128 w n : w <= 128 -> bv_new w (u128 n) = n mod 2 ^ w.
Proof. intros H. rewrite new_mod by auto. apply mod_mod_pow. exact H. Qed.

Lemma pow_le_128 w : w <= 128 -> 2 ^ w <= 2 ^ inner_n.
Proof. intros. apply N.pow_le_mono_r; [discriminate|exact H]. Qed.

Lemma pow_128_split w : w <= 128 -> 2 ^ inner_n = 2 ^ (128 - w) * 2 ^ w.
Proof. intros. rewrite <- N.pow_add_r. f_equal. unfold inner_n. lia. Qed.

Section Ops.
  Variables w a b : N.
  Hypothesis Hw : w <= 128.
  Hypothesis Ha : inr w a.
  Hypothesis Hb : inr w b.

  Lemma add_spec : bv_add w a b = smt_add w a b.
  Proof. unfold bv_add. apply new_u128. exact Hw. Qed.

  Lemma mul_spec : bv_mul w a b = smt_mul w a b.
  Proof. unfold bv_mul. apply new_u128. exact Hw. Qed.

  Lemma neg_spec : bv_neg w a = smt_neg w a.
  Proof.
    unfold bv_neg, smt_neg. rewrite new_u128 by exact Hw.
    unfold inr in Ha. pose proof (pow2_pos w). pose proof (pow2_pos (128 - w)).
    rewrite (pow_128_split w Hw).
    replace (2 ^ (128 - w) * 2 ^ w - a) with (2 ^ w - a + (2 ^ (128 - w) - 1) * 2 ^ w).
    - apply N.mod_add; auto.
    - rewrite N.mul_sub_distr_r. nia.
  Qed.

  Lemma sub_spec : bv_sub w a b = smt_sub w a b.
  Proof.
    unfold bv_sub, smt_sub, smt_add, smt_neg. rewrite new_u128 by exact Hw.
    rewrite N.add_mod_idemp_r by auto.
    unfold inr in *. pose proof (pow2_pos w). pose proof (pow2_pos (128 - w)).
    rewrite (pow_128_split w Hw).
    replace (a + 2 ^ (128 - w) * 2 ^ w - b) with (a + (2 ^ w - b) + (2 ^ (128 - w) - 1) * 2 ^ w).
    - apply N.mod_add; auto.
    - rewrite N.mul_sub_distr_r. nia.
  Qed.

  Lemma shl_spec : bv_shl w a b = smt_shl w a b.
  Proof.
    unfold bv_shl, smt_shl. destruct (N.leb_spec w b) as [H|H].
    - replace b with (b - w + w) by lia. rewrite N.pow_add_r, N.mul_assoc.
      symmetry. apply N.mod_mul; auto.
    - rewrite new_u128 by exact Hw. rewrite N.shiftl_mul_pow2. reflexivity.
  Qed.

  Lemma shr_spec : bv_shr w a b = smt_lshr w a b.
  Proof.
    unfold bv_shr, smt_lshr. unfold inr in Ha. destruct (N.leb_spec w b) as [H|H].
    - symmetry. apply N.div_small. eapply N.lt_le_trans; [exact Ha|].
      apply N.pow_le_mono_r; [discriminate|exact H].
    - rewrite new_mod by exact Hw. rewrite N.shiftr_div_pow2. apply N.mod_small.
      eapply N.le_lt_trans; [|exact Ha]. apply N.div_le_upper_bound; auto.
      pose proof (pow2_pos b). nia.
  Qed.

  Lemma bit_high i x : inr w x -> w <= i -> N.testbit x i = false.
  Proof.
    intros Hx Hi. destruct (N.eq_dec x 0) as [->|Hz]; [apply N.bits_0|].
    apply N.bits_above_log2. apply N.log2_lt_pow2 in Hx; lia.
  Qed.

  Lemma inr_bits x : (forall i, w <= i -> N.testbit x i = false) -> inr w x.
  Proof.
    intros H. unfold inr. replace x with (x mod 2 ^ w); [apply N.mod_lt; auto|].
    apply N.bits_inj. intros i. destruct (N.lt_ge_cases i w).
    - apply N.mod_pow2_bits_low. assumption.
    - rewrite H by auto. apply N.mod_pow2_bits_high. assumption.
  Qed.

  Lemma new_small x : inr w x -> bv_new w x = x.
  Proof. intros. rewrite new_mod by exact Hw. apply N.mod_small. assumption. Qed.

  Lemma and_inr : inr w (N.land a b).
  Proof. apply inr_bits. intros i Hi. rewrite N.land_spec, (bit_high i a) by auto. reflexivity. Qed.
  Lemma or_inr : inr w (N.lor a b).
  Proof. apply inr_bits. intros i Hi. rewrite N.lor_spec, (bit_high i a), (bit_high i b) by auto. reflexivity. Qed.
  Lemma xor_inr : inr w (N.lxor a b).
  Proof. apply inr_bits. intros i Hi. rewrite N.lxor_spec, (bit_high i a), (bit_high i b) by auto. reflexivity. Qed.

  Lemma and_spec : bv_and w a b = N.land a b.
  Proof. apply new_small, and_inr. Qed.
  Lemma or_spec : bv_or w a b = N.lor a b.
  Proof. apply new_small, or_inr. Qed.
  Lemma xor_spec : bv_xor w a b = N.lxor a b.
  Proof. apply new_small, xor_inr. Qed.

  Lemma not_bits i : N.testbit (bv_not w a) i = (i <? w) && negb (N.testbit a i).
  Proof.
    unfold bv_not, bv_new. rewrite all_ones_ones by exact Hw.
    rewrite N.land_spec, N.lxor_spec, u128_max_ones.
    destruct (N.ltb_spec i w) as [H|H].
    - rewrite !N.ones_spec_low by lia. rewrite xorb_true_r, andb_true_r. reflexivity.
    - rewrite (N.ones_spec_high w) by lia. apply andb_false_r.
  Qed.

  Lemma not_spec : bv_not w a = smt_not w a.
  Proof.
    unfold smt_not. rewrite <- ones_pow.
    assert (bv_not w a = N.lnot a w) as ->.
    { apply N.bits_inj. intros i. rewrite not_bits.
      destruct (N.ltb_spec i w) as [H|H].
      - rewrite N.lnot_spec_low by auto. reflexivity.
      - rewrite N.lnot_spec_high by auto. symmetry. apply bit_high; auto. }
    destruct (N.eq_dec a 0) as [->|Hz].
    - unfold N.lnot. rewrite N.lxor_0_l. lia.
    - apply N.lnot_sub_low. apply N.log2_lt_pow2; [lia|exact Ha].
  Qed.
End Ops.

Lemma add_inr w a b : w <= 128 -> inr w (bv_add w a b).
Proof. intros; now apply new_inr. Qed.

(* in integers *)
Lemma Z_of_pow w : Z.of_N (2 ^ w) = (2 ^ Z.of_N w)%Z.
Proof. apply N2Z.inj_pow. Qed.

Lemma neg_Z w a : w <= 128 -> inr w a ->
  Z.of_N (bv_neg w a) = (- Z.of_N a mod 2 ^ Z.of_N w)%Z.
Proof.
  intros Hw Ha. rewrite neg_spec by auto. unfold smt_neg, inr in *.
  rewrite N2Z.inj_mod, N2Z.inj_sub, Z_of_pow by lia.
  replace (2 ^ Z.of_N w - Z.of_N a)%Z with (- Z.of_N a + 1 * 2 ^ Z.of_N w)%Z by lia.
  apply Z_mod_plus_full.
Qed.

Lemma sub_Z w a b : w <= 128 -> inr w a -> inr w b ->
  Z.of_N (bv_sub w a b) = ((Z.of_N a - Z.of_N b) mod 2 ^ Z.of_N w)%Z.
Proof.
  intros Hw Ha Hb. rewrite sub_spec by auto. unfold smt_sub, smt_add, smt_neg, inr in *.
  rewrite N.add_mod_idemp_r by auto.
  rewrite N2Z.inj_mod, N2Z.inj_add, N2Z.inj_sub, Z_of_pow by lia.
  replace (Z.of_N a + (2 ^ Z.of_N w - Z.of_N b))%Z
    with (Z.of_N a - Z.of_N b + 1 * 2 ^ Z.of_N w)%Z by lia.
  apply Z_mod_plus_full.
Qed.

Lemma consts_spec w : 1 <= w <= 128 ->
  all_ones w = 2 ^ w - 1 /\ bv_neg_one w = 2 ^ w - 1 /\
  bv_min w = 2 ^ (w - 1) /\ bv_max w = 2 ^ (w - 1) - 1.
Proof.
  intros [H1 H2]. unfold bv_neg_one, bv_min, bv_max. rewrite all_ones_ones by auto.
  rewrite <- !ones_pow. repeat split.
  - unfold u128. rewrite N.shiftl_mul_pow2, N.mul_1_l. apply N.mod_small.
    apply N.pow_lt_mono_r; unfold inner_n; lia.
  - rewrite N.shiftr_div_pow2. apply N.ones_div_pow2. lia.
Qed.

(* ---- terms ---- *)

(* the interpreter, one sample at a time *)
Definition bv_sem_opt (w : N) (o : bv_op) (args : list (option N)) : res (option N) :=
  match o, args with
  | VNeg, [a] => Val (option_map (bv_neg w) a)
  | VNot, [a] => Val (option_map (bv_not w) a)
  | VAdd, [Some a; Some b] => Val (Some (bv_add w a b))
  | VSub, [Some a; Some b] => Val (Some (bv_sub w a b))
  | VMul, [Some a; Some b] => Val (Some (bv_mul w a b))
  | VShl, [Some a; Some b] => Val (Some (bv_shl w a b))
  | VShr, [Some a; Some b] => Val (Some (bv_shr w a b))
  | VAnd, [Some a; Some b] => Val (Some (bv_and w a b))
  | VOr, [Some a; Some b] => Val (Some (bv_or w a b))
  | VXor, [Some a; Some b] => Val (Some (bv_xor w a b))
  | (VAdd|VSub|VMul|VShl|VShr|VAnd|VOr|VXor), [_; _] => Val None
  | VLit c, [] => Val (Some c)
  | _, _ => Panic
  end.

Lemma bv_pointwise w : pointwise bv_arity bv_to_var (bv_eval w) (bv_sem_opt w).
Proof.
  intros n o args Ho Hl Hn.
  destruct o; try discriminate Ho; simpl in Hl;
    repeat (destruct args as [|? args]; try discriminate Hl);
    repeat match goal with H : Forall _ (_ :: _) |- _ => inversion H; clear H; subst end;
    (eexists; split; [reflexivity|]); split;
    try (rewrite ?map1_length; solve [auto]); try (apply map2_length; auto); try apply repeat_length;
    intros r Hr; cbn [map bv_sem_opt];
    try (rewrite map1_nth; destruct (nth r _ None); reflexivity);
    try (rewrite map2_nth; destruct (nth r _ None); [destruct (nth r _ None)|]; reflexivity);
    try (rewrite nth_repeat_lt by auto; reflexivity).
Qed.

Lemma smt_range w a b : w <= 128 -> inr w a -> inr w b ->
  inr w (smt_add w a b) /\ inr w (smt_sub w a b) /\ inr w (smt_mul w a b) /\
  inr w (smt_neg w a) /\ inr w (smt_not w a) /\ inr w (smt_shl w a b) /\ inr w (smt_lshr w a b).
Proof.
  intros Hw Ha Hb. unfold smt_sub, smt_add, smt_mul, smt_neg, smt_shl, smt_lshr, smt_not.
  repeat split; try (apply N.mod_lt; auto).
  - unfold inr in *. lia.
  - unfold inr in *. eapply N.le_lt_trans; [|exact Ha].
    apply N.div_le_upper_bound; auto. pose proof (pow2_pos b). nia.
Qed.

Definition lit_ok (w : N) (o : bv_op) : Prop := match o with VLit c => inr w c | _ => True end.

(* the interpreter computes the reference semantics at every sample *)
Lemma point_den w env t v : w <= 128 -> (forall s, inr w (env s)) -> tall (lit_ok w) t ->
  bv_den w env t = Val v ->
  inr w v /\ point (bv_sem_opt w) bv_to_var (fun s => Some (env s)) t = Val (Some v).
Proof.
  intros Hw He Ht Hv. unfold point.
  destruct (fold_term_rel (lit_ok w) (with_vars bv_to_var env (bv_sem w))
    (with_vars bv_to_var (fun s => Some (env s)) (bv_sem_opt w))
    (fun v x => inr w v /\ x = Some v) t v) with (3 := Hv) as (x & Hx & Hv' & ->); auto.
  clear - Hw He. intros o xs ys x Ho HR Hx. unfold with_vars in *.
  destruct (bv_to_var o) eqn:Ev;
    [inversion Hx; subst; eexists; split; [reflexivity|auto]; destruct o; try discriminate Ev;
     inversion Ev; reflexivity|].
  destruct o; try discriminate Ev; simpl in *;
    repeat (destruct xs as [|? xs]; simpl in Hx; try discriminate Hx);
    repeat match goal with
      | H : Forall2 _ (_ :: _) _ |- _ => inversion H; clear H; subst
      | H : Forall2 _ [] _ |- _ => inversion H; clear H; subst
      | H : _ /\ _ |- _ => destruct H; subst end;
    inversion Hx; clear Hx; subst;
    try match goal with A : inr _ ?a, B : inr _ ?b |- _ =>
      pose proof (smt_range w a b Hw A B) as (?&?&?&?&?&?&?) end;
    try match goal with A : inr _ ?a |- _ =>
      pose proof (smt_range w a a Hw A A) as (?&?&?&?&?&?&?) end;
    (eexists; split; [reflexivity|]); split; auto; cbn [option_map];
    auto using and_inr, or_inr, xor_inr;
    try (f_equal; auto using add_spec, sub_spec, mul_spec, neg_spec, shl_spec, shr_spec, not_spec, and_spec, or_spec, xor_spec).
Qed.

Lemma den_total w env t : wf_term bv_arity t -> exists v, bv_den w env t = Val v.
Proof.
  intros H. destruct (fold_term_total bv_arity
    (with_vars bv_to_var env (bv_sem w))
    (fun _ => True) t) as (v & Hv & _); eauto.
  intros o args Hl _. unfold with_vars. destruct o; simpl in Hl |- *; eauto;
  repeat (destruct args as [|? args]; try discriminate Hl); eauto.
Qed.

Lemma enc_wf t e : fold_term bv_to_z3 t = Val e -> wf_term bv_arity t.
Proof.
  revert e. induction t as [o ts IH] using term_ind'. intros e H. simpl in H.
  apply rbind_val in H as (args & H1 & H2). apply rmapM_val in H1.
  constructor.
  - rewrite (Forall2_length _ _ _ H1). destruct o; simpl in *;
      repeat (destruct args as [|? args]; try discriminate H2); reflexivity.
  - clear H2. induction H1; inversion IH; subst; constructor; eauto.
Qed.

(* the solver expression denotes the value of the term *)
Lemma enc_den w env t e : w <= 128 -> (forall s, inr w (env s)) -> 
  tall (fun o => match o with VLit c => inr w c /\ inr 64 c | _ => True end) t ->
  fold_term bv_to_z3 t = Val e -> bv_den w env t = Val (zden w env e).
Proof.
  intros Hw He Ht H. unfold bv_den.
  destruct (fold_term_rel (fun o => match o with VLit c => inr w c /\ inr 64 c | _ => True end) bv_to_z3
    (with_vars bv_to_var env (bv_sem w))
    (fun e v => v = zden w env e) t e) with (2 := Ht) (3 := H) as (v & Hv & ->); auto.
  clear - Hw He. intros o xs ys x Ho HR Hx. unfold with_vars in *.
  destruct o; simpl in *;
    repeat (destruct xs as [|? xs]; simpl in Hx; try discriminate Hx);
    repeat match goal with
      | H : Forall2 _ (_ :: _) _ |- _ => inversion H; clear H; subst
      | H : Forall2 _ [] _ |- _ => inversion H; clear H; subst end;
    inversion Hx; clear Hx; subst; eexists; (split; [reflexivity|]); simpl; auto.
  destruct Ho as [H1 H2]. unfold inr in *. symmetry. etransitivity; [|apply N.mod_small; exact H1].
  f_equal. apply N.mod_small. exact H2.
Qed.

(* in-range literals that fit in 64 bits *)
Definition lits64 (w : N) (p : pat bv_op) : Prop :=
  forall n c, In n p -> nop n = EN (VLit c) -> inr w c /\ inr 64 c.

Lemma lits64_tall w p t : lits64 w p -> tree (instantiate VVar p) = Val t ->
  tall (fun o => match o with VLit c => inr w c /\ inr 64 c | _ => True end) t.
Proof.
  intros H. apply tree_tall. intros n Hn.
  apply (instantiate_in VVar (fun o => match o with VLit c => inr w c /\ inr 64 c | _ => True end) p); auto.
  clear n Hn. intros n o Hn Ho. destruct o; auto. eapply H; eauto.
Qed.

(* validated rules hold for all values *)
Lemma bv_validate_sound w check l r : w <= 128 -> unsat_right w check ->
  lits64 w l -> lits64 w r -> bv_validate check l r = Val Valid ->
  exists tl tr, tree (instantiate VVar l) = Val tl /\ tree (instantiate VVar r) = Val tr /\
    wf_term bv_arity tl /\ wf_term bv_arity tr /\
    forall env, (forall s, inr w (env s)) ->
      exists v, bv_den w env tl = Val v /\ bv_den w env tr = Val v.
Proof.
  intros Hw Hc Hl Hr H. apply validate_neq_valid in H as (el & er & tl & tr & C & Tl & Tr & El & Er).
  exists tl, tr. repeat split; eauto using enc_wf.
  intros env He. exists (zden w env el). split.
  - apply enc_den; eauto using lits64_tall.
  - rewrite (Hc _ _ C env He). apply enc_den; eauto using lits64_tall.
Qed.

Lemma bv_validate_complete w check l r : w <= 128 -> sat_right w check ->
  lits64 w l -> lits64 w r -> bv_validate check l r = Val Invalid ->
  exists tl tr env u v, tree (instantiate VVar l) = Val tl /\ tree (instantiate VVar r) = Val tr /\
    (forall s, inr w (env s)) /\ bv_den w env tl = Val u /\ bv_den w env tr = Val v /\ u <> v.
Proof.
  intros Hw Hc Hl Hr H. apply validate_neq_invalid in H as (el & er & tl & tr & C & Tl & Tr & El & Er).
  destruct (Hc _ _ C) as (env & He & Hne).
  exists tl, tr, env, (zden w env el), (zden w env er).
  repeat split; auto; apply enc_den; eauto using lits64_tall.
Qed.

(* the vector of a term is its value on every row of the samples *)
Lemma bv_cvec_den w n vc t : w <= 128 ->
  (forall s, In s (tvars bv_to_var t) -> length (vc s) = n) ->
  tall (lit_ok w) t -> wf_term bv_arity t ->
  exists c, cvec_term (bv_eval w) bv_to_var n vc t = Val c /\ length c = n /\
    forall r env, (r < n)%nat ->
      (forall s, In s (tvars bv_to_var t) -> nth r (vc s) None = Some (env s)) ->
      (forall s, inr w (env s)) ->
      exists v, bv_den w env t = Val v /\ nth r c None = Some v /\ inr w v.
Proof.
  intros Hw Hn Hl Ht.
  destruct (cvec_pointwise bv_arity bv_to_var (bv_eval w) (bv_sem_opt w) n vc t (bv_pointwise w) Hn Ht)
    as (c & C1 & C2 & C3).
  exists c. repeat split; auto. intros r env Hr He Henv.
  destruct (den_total w env t Ht) as (v & Hv). exists v. split; [exact Hv|].
  destruct (point_den w env t v Hw Henv Hl Hv) as [Hv1 Hv2]. split; [|exact Hv1].
  specialize (C3 r Hr).
  rewrite (point_ext _ _ _ (fun s => Some (env s)) t He), Hv2 in C3. congruence.
Qed.

Lemma insert_sorted_in x l y : In y (insert_sorted x l) <-> y = x \/ In y l.
Proof.
  induction l as [|z l IH]; simpl; [intuition|].
  destruct (N.ltb_spec x z); [simpl; intuition|].
  destruct (N.eqb_spec x z); [subst; simpl; intuition|]. simpl. rewrite IH. intuition.
Qed.

Lemma sort_dedup_in l y : In y (sort_dedup l) <-> In y l.
Proof. induction l; simpl; [tauto|]. rewrite insert_sorted_in, IHl. intuition. Qed.

Inductive incr : list N -> Prop :=
| incr_nil : incr []
| incr_cons x l : incr l -> (forall y, In y l -> x < y) -> incr (x :: l).

Lemma insert_sorted_incr x l : incr l -> incr (insert_sorted x l).
Proof.
  induction 1 as [|z l Hl IH Hz]; simpl; [constructor; [constructor|easy]|].
  destruct (N.ltb_spec x z).
  - constructor; [constructor; auto|]. intros y [<-|Hy]; [auto|]. specialize (Hz y Hy). lia.
  - destruct (N.eqb_spec x z); [constructor; auto|].
    constructor; auto. intros y Hy. apply insert_sorted_in in Hy as [->|Hy]; [lia|auto].
Qed.

Lemma sort_dedup_incr l : incr (sort_dedup l).
Proof. induction l; simpl; [constructor|]. apply insert_sorted_incr. assumption. Qed.

Lemma incr_nodup l : incr l -> NoDup l.
Proof.
  induction 1 as [|x l Hl IH Hx]; constructor; auto. intros H. specialize (Hx x H). lia.
Qed.

(* the samples are distinct w-bit values and contain the corner cases *)
Lemma bv_samples_spec w : 1 <= w <= 128 ->
  NoDup (bv_samples w) /\ (forall a, In a (bv_samples w) -> inr w a) /\
  In 0 (bv_samples w) /\ In 1 (bv_samples w) /\
  In (bv_min w) (bv_samples w) /\ In (bv_max w) (bv_samples w) /\ In (all_ones w) (bv_samples w).
Proof.
  intros Hw. split; [apply incr_nodup, sort_dedup_incr|].
  split.
  { intros a Ha. unfold bv_samples in Ha. rewrite sort_dedup_in in Ha. cbn [flat_map app] in Ha.
    repeat (destruct Ha as [<-|Ha]; [apply new_inr; lia|]). destruct Ha. }
  destruct (consts_spec w Hw) as (E1 & _ & E2 & E3).
  assert (2 ^ w = 2 * 2 ^ (w - 1)) as Ew.
  { rewrite <- (N.pow_succ_r' 2 (w - 1)). f_equal. lia. }
  pose proof (pow2_pos (w - 1)).
  assert (forall n, inr w n -> bv_new w n = n) as Hn by (intros; apply new_small; lia || auto).
  assert (inr w 0 /\ inr w 1) as [H0 H1].
  { unfold inr. lia. }
  unfold bv_samples. rewrite !sort_dedup_in. cbn [flat_map app].
  rewrite !(Hn 0), !(Hn 1) by auto.
  assert (inr w (bv_min w) /\ inr w (bv_max w)) as [Hmin Hmax] by (unfold inr; lia).
  repeat split.
  - right; right; left. reflexivity.
  - do 6 right. left. reflexivity.
  - left. rewrite add_spec by lia. unfold smt_add. rewrite N.add_0_r. apply N.mod_small. exact Hmin.
  - right; left. rewrite sub_spec by (auto; lia). unfold smt_sub, smt_add, smt_neg.
    rewrite N.sub_0_r, N.mod_same, N.add_0_r by auto. apply N.mod_small. exact Hmax.
  - do 7 right. left. rewrite neg_spec by (auto; lia). unfold smt_neg. rewrite E1.
    apply N.mod_small. lia.
Qed.

Lemma bv_large_shift w a b : w <= b -> bv_shl w a b = 0 /\ bv_shr w a b = 0.
Proof. intros H. unfold bv_shl, bv_shr. destruct (N.leb_spec w b); [auto|lia]. Qed.

Lemma bv_ops_Z w a b : (1 <= w <= 128) -> a < 2 ^ w -> b < 2 ^ w ->
  let m := (2 ^ Z.of_N w)%Z in let z := Z.of_N in
  z (bv_add w a b) = ((z a + z b) mod m)%Z /\
  z (bv_sub w a b) = ((z a - z b) mod m)%Z /\
  z (bv_mul w a b) = ((z a * z b) mod m)%Z /\
  z (bv_neg w a) = (- z a mod m)%Z /\
  z (bv_shl w a b) = ((z a * 2 ^ z b) mod m)%Z /\
  z (bv_shr w a b) = (z a / 2 ^ z b)%Z /\
  z (bv_not w a) = (m - 1 - z a)%Z /\
  (forall i, N.testbit (bv_not w a) i = (i <? w)%N && negb (N.testbit a i)) /\
  (forall i, N.testbit (bv_and w a b) i = N.testbit a i && N.testbit b i) /\
  (forall i, N.testbit (bv_or w a b) i = N.testbit a i || N.testbit b i) /\
  (forall i, N.testbit (bv_xor w a b) i = xorb (N.testbit a i) (N.testbit b i)).
Proof.
  intros [H1 Hw] Ha Hb m z. unfold m, z.
  repeat split.
  - rewrite add_spec by auto. unfold smt_add. rewrite N2Z.inj_mod, N2Z.inj_add, Z_of_pow by auto. reflexivity.
  - apply sub_Z; auto.
  - rewrite mul_spec by auto. unfold smt_mul. rewrite N2Z.inj_mod, N2Z.inj_mul, Z_of_pow by auto. reflexivity.
  - apply neg_Z; auto.
  - rewrite shl_spec by auto. unfold smt_shl. rewrite N2Z.inj_mod, N2Z.inj_mul, !Z_of_pow by auto. reflexivity.
  - rewrite shr_spec by auto. unfold smt_lshr. rewrite N2Z.inj_div, Z_of_pow by auto. reflexivity.
  - rewrite not_spec by auto. unfold smt_not. rewrite <- Z_of_pow. lia.
  - apply not_bits; auto.
  - intros i. rewrite and_spec by auto. apply N.land_spec.
  - intros i. rewrite or_spec by auto. apply N.lor_spec.
  - intros i. rewrite xor_spec by auto. apply N.lxor_spec.
Qed.

Lemma bv_ops_range w a b : 1 <= w <= 128 ->
  Forall (fun f : N -> N -> N -> N => f w a b < 2 ^ w)
    [bv_add; bv_sub; bv_mul; bv_shl; bv_shr; bv_and; bv_or; bv_xor;
     (fun w a _ => bv_neg w a); (fun w a _ => bv_not w a); (fun w a _ => bv_new w a)].
Proof.
  intros [_ Hw]. repeat constructor; try (apply new_inr; exact Hw);
  unfold bv_shl, bv_shr; destruct (N.leb_spec w b); auto; apply new_inr; exact Hw.
Qed.
