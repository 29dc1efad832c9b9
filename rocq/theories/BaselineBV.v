(* baseline/bool.rules, baseline/bv4.rules and baseline/bv32.rules *)
From Coq Require Import ZArith NArith Zdiv.
From Verif Require Import Base Lang Syntax Rule Ruleset BV BVSpec BVProofs BoolDom DomainSpec Domains LearntSpec Baselines BaselineSpec BaselineProofs.
Open Scope string_scope.
Open Scope list_scope.

Definition bool_id : rule bool_op -> Prop := identity BVar (fun _ => True) bool_den.
Lemma bool_lines : Forall (line bool_from_op bool_name bool_id) bool_baseline.
Proof.
  unfold bool_baseline. repeat apply Forall_cons; [..|apply Forall_nil].
  all: eexists; split; [vm_compute; reflexivity|]; split; [vm_compute; reflexivity|];
    cbv [bool_id identity rlhs rrhs]; eexists; eexists; split; [vm_compute; reflexivity|]; split; [vm_compute; reflexivity|];
    intros env _; eexists; split; cbv [bool_den fold_term map with_vars bool_to_var bool_sem rmapM rbind]; [reflexivity|f_equal];
    repeat match goal with |- context [env ?s] => destruct (env s) end; reflexivity.
Qed.

Local Open Scope N_scope.
Section Width.
  Variable w : N.
  (* n and z are equal modulo 2^w *)
  Definition cong (n : N) (z : Z) : Prop := (Z.of_N n mod 2 ^ Z.of_N w = z mod 2 ^ Z.of_N w)%Z.
  Local Notation M := (2 ^ Z.of_N w)%Z.
  Lemma M_pos : (0 < M)%Z. Proof. apply Z.pow_pos_nonneg; lia. Qed.
  Lemma cong_refl n : cong n (Z.of_N n). Proof. reflexivity. Qed.
  Lemma cong_mod n z : cong n z -> cong (n mod 2 ^ w) z.
  Proof. unfold cong. intros H. rewrite N2Z.inj_mod by apply pow2_nz. rewrite Z_of_pow. rewrite Zmod_mod. exact H. Qed.
  Lemma cong_add a b x y : cong a x -> cong b y -> cong (smt_add w a b) (x + y).
  Proof.
    unfold smt_add. intros H G. apply cong_mod. unfold cong in *. rewrite N2Z.inj_add. rewrite Zplus_mod, H, G, <- Zplus_mod. reflexivity.
  Qed.
  Lemma cong_mul a b x y : cong a x -> cong b y -> cong (smt_mul w a b) (x * y).
  Proof. unfold smt_mul. intros H G. apply cong_mod. unfold cong in *. rewrite N2Z.inj_mul. rewrite Zmult_mod, H, G, <- Zmult_mod. reflexivity. Qed.
  Lemma cong_neg a x : inr w a -> cong a x -> cong (smt_neg w a) (- x).
  Proof.
    unfold smt_neg, inr. intros L H. apply cong_mod. unfold cong in *. rewrite N2Z.inj_sub by lia. rewrite Z_of_pow.
    replace (M - Z.of_N a)%Z with (- Z.of_N a + 1 * M)%Z by ring. rewrite Z_mod_plus_full.
    replace (- Z.of_N a)%Z with (0 - Z.of_N a)%Z by ring. replace (- x)%Z with (0 - x)%Z by ring. rewrite Zminus_mod, H, <- Zminus_mod. reflexivity.
  Qed.
  Lemma cong_sub a b x y : inr w b -> cong a x -> cong b y -> cong (smt_sub w a b) (x - y).
  Proof. intros L H G. unfold smt_sub. replace (x - y)%Z with (x + - y)%Z by ring. apply cong_add; [exact H|now apply cong_neg]. Qed.
  Lemma cong_not a x : inr w a -> cong a x -> cong (smt_not w a) (-1 - x).
  Proof.
    unfold smt_not, inr. intros L H. unfold cong in *. rewrite !N2Z.inj_sub by (pose proof (pow2_pos w); lia). rewrite Z_of_pow. change (Z.of_N 1) with 1%Z.
    replace (M - 1 - Z.of_N a)%Z with ((-1 - Z.of_N a) + 1 * M)%Z by ring. rewrite Z_mod_plus_full. rewrite Zminus_mod, H, <- Zminus_mod. reflexivity.
  Qed.
  Lemma cong_shl a b x : cong a x -> cong (smt_shl w a b) (x * 2 ^ Z.of_N b).
  Proof.
    unfold smt_shl. intros H. apply cong_mod. unfold cong in *. rewrite N2Z.inj_mul, (Z_of_pow b). rewrite Zmult_mod, H, <- Zmult_mod. reflexivity.
  Qed.
  Lemma cong_eq n m x y : inr w n -> inr w m -> cong n x -> cong m y -> x = y -> n = m.
  Proof.
    unfold cong, inr. intros L1 L2 H G ->. rewrite <- G in H. apply N2Z.inj. pose proof (Z_of_pow w) as E.
    rewrite !Z.mod_small in H by lia. exact H.
  Qed.
  (* ranges *)
  Lemma in_add a b : inr w (smt_add w a b). Proof. apply N.mod_lt, pow2_nz. Qed.
  Lemma in_sub a b : inr w (smt_sub w a b). Proof. apply N.mod_lt, pow2_nz. Qed.
  Lemma in_mul a b : inr w (smt_mul w a b). Proof. apply N.mod_lt, pow2_nz. Qed.
  Lemma in_neg a : inr w (smt_neg w a). Proof. apply N.mod_lt, pow2_nz. Qed.
  Lemma in_shl a b : inr w (smt_shl w a b). Proof. apply N.mod_lt, pow2_nz. Qed.
  Lemma in_not a : inr w (smt_not w a). Proof. unfold smt_not, inr. pose proof (pow2_pos w). lia. Qed.
  (* bits *)
  Lemma not_bit a i : w <= 128 -> inr w a -> N.testbit (smt_not w a) i = (i <? w) && negb (N.testbit a i).
  Proof. intros Hw H. rewrite <- (not_spec w a Hw H). apply not_bits; assumption. Qed.
  Lemma shl_bit a b i : N.testbit (smt_shl w a b) i = (i <? w) && ((b <=? i) && N.testbit a (i - b)).
  Proof.
    unfold smt_shl. destruct (N.ltb_spec i w) as [L|L].
    - rewrite N.mod_pow2_bits_low by exact L. rewrite <- N.shiftl_mul_pow2. destruct (N.leb_spec b i); [rewrite N.shiftl_spec_high' by assumption|rewrite N.shiftl_spec_low by assumption]; reflexivity.
    - rewrite N.mod_pow2_bits_high by exact L. reflexivity.
  Qed.
  Lemma high_bit a i : a <= i -> N.testbit a i = false.
  Proof.
    intros H. destruct (N.eq_dec a 0) as [->|]; [apply N.bits_0|]. apply N.bits_above_log2. pose proof (N.log2_lt_lin a ltac:(lia)). lia.
  Qed.
  Lemma range_bit a i : w <= 128 -> inr w a -> w <= i -> N.testbit a i = false.
  Proof. intros Hw ? ?. now apply (bit_high w Hw). Qed.
  Lemma sub_same b : inr w b -> smt_sub w b b = 0.
  Proof. intros H. eapply cong_eq; [apply in_sub|exact (pow2_pos w)|apply cong_sub; [exact H|apply cong_refl|apply cong_refl]|apply cong_refl|cbn; ring]. Qed.
  Lemma shr_same a b : a <= b -> smt_lshr w a b = 0.
  Proof. intros H. unfold smt_lshr. apply N.div_small. pose proof (N.pow_gt_lin_r 2 b ltac:(lia)). lia. Qed.
  Lemma shr_shiftr a b : smt_lshr w a b = N.shiftr a b. Proof. symmetry. apply N.shiftr_div_pow2. Qed.
  Lemma add_lor a b : N.land a b = 0 -> a + b = N.lor a b.
  Proof. intros H. rewrite N.add_nocarry_lxor by exact H. now apply N.lxor_lor. Qed.
  Lemma lor_ge a b : a <= N.lor a b.
  Proof.
    replace (N.lor a b) with (N.lor a (N.ldiff b a)).
    - rewrite <- add_lor; [lia|]. apply N.bits_inj. intros i. rewrite N.land_spec, N.ldiff_spec, N.bits_0. destruct (N.testbit a i), (N.testbit b i); reflexivity.
    - apply N.bits_inj. intros i. rewrite !N.lor_spec, N.ldiff_spec. destruct (N.testbit a i), (N.testbit b i); reflexivity.
  Qed.
  Lemma add_or a b : w <= 128 -> inr w a -> inr w b -> N.land a b = 0 -> smt_add w a b = N.lor a b.
  Proof. intros Hw A B H. unfold smt_add. rewrite (add_lor _ _ H). apply N.mod_small. now apply (or_inr w a b Hw A B). Qed.
  Lemma and_shl a b : N.land a (smt_shl w b a) = 0.
  Proof.
    apply N.bits_inj. intros i. rewrite N.land_spec, shl_bit, N.bits_0. destruct (N.leb_spec a i); [rewrite high_bit by assumption; reflexivity|cbn [andb]; now rewrite !andb_false_r].
  Qed.
  Lemma diff_and a b : w <= 128 -> inr w a -> inr w b -> N.land a (smt_not w b) = N.ldiff a b.
  Proof.
    intros Hw A B. apply N.bits_inj. intros i. rewrite N.land_spec, N.ldiff_spec, not_bit by assumption.
    destruct (N.ltb_spec i w); [reflexivity|]. rewrite (range_bit a i) by assumption. reflexivity.
  Qed.
  Lemma split_and a b : a = N.land a b + N.ldiff a b.
  Proof.
    rewrite add_lor.
    - apply N.bits_inj. intros i. rewrite N.lor_spec, N.land_spec, N.ldiff_spec. destruct (N.testbit a i), (N.testbit b i); reflexivity.
    - apply N.bits_inj. intros i. rewrite !N.land_spec, N.ldiff_spec, N.bits_0. destruct (N.testbit a i), (N.testbit b i); reflexivity.
  Qed.
  Lemma split_or a b : N.lor a b = a + N.ldiff b a.
  Proof.
    rewrite add_lor.
    - apply N.bits_inj. intros i. rewrite !N.lor_spec, N.ldiff_spec. destruct (N.testbit a i), (N.testbit b i); reflexivity.
    - apply N.bits_inj. intros i. rewrite !N.land_spec, N.ldiff_spec, N.bits_0. destruct (N.testbit a i), (N.testbit b i); reflexivity.
  Qed.
  Lemma in_ldiff a b : inr w a -> inr w (N.ldiff a b).
  Proof. intros A. unfold inr in *. pose proof (split_and a b). lia. Qed.
  Lemma sub_and a b : w <= 128 -> inr w a -> inr w b -> smt_sub w a (N.land a b) = N.land a (smt_not w b).
  Proof.
    intros Hw A B. rewrite diff_and by assumption. assert (inr w (N.land a b)) by (apply (and_inr w a b Hw A)).
    eapply cong_eq; [apply in_sub|now apply in_ldiff|apply cong_sub; [assumption|apply cong_refl|apply cong_refl]|apply cong_refl|].
    pose proof (split_and a b). lia.
  Qed.
  Lemma sub_or a b : w <= 128 -> inr w a -> inr w b -> smt_sub w (N.lor a b) a = N.land b (smt_not w a).
  Proof.
    intros Hw A B. rewrite diff_and by assumption.
    eapply cong_eq; [apply in_sub|now apply in_ldiff|apply cong_sub; [assumption|apply cong_refl|apply cong_refl]|apply cong_refl|].
    pose proof (split_or a b). lia.
  Qed.
  Lemma shr_or a b : smt_lshr w a b = smt_lshr w (N.lor a b) b.
  Proof. rewrite !shr_shiftr, N.shiftr_lor, <- (shr_shiftr b b), shr_same by lia. now rewrite N.lor_0_r. Qed.
  Lemma shr_and_r a b : smt_lshr w (N.land a b) b = 0.
  Proof. rewrite !shr_shiftr, N.shiftr_land, <- (shr_shiftr b b), shr_same by lia. apply N.land_0_r. Qed.
  Lemma shr_and_l a b : smt_lshr w (N.land a b) a = 0.
  Proof. rewrite N.land_comm. apply shr_and_r. Qed.
  Lemma shr_by_or a b : smt_lshr w a (N.lor a b) = 0.
  Proof. apply shr_same, lor_ge. Qed.
  Lemma shr_shr a b c : smt_lshr w (smt_lshr w a b) c = smt_lshr w (smt_lshr w a c) b.
  Proof. unfold smt_lshr. rewrite !N.div_div by apply pow2_nz. now rewrite N.mul_comm. Qed.
  Lemma shr_0 a : smt_lshr w a 0 = a. Proof. apply N.div_1_r. Qed.
  Lemma shr_zero a : smt_lshr w 0 a = 0. Proof. apply N.div_0_l, pow2_nz. Qed.
  Lemma shl_0 a : inr w a -> smt_shl w a 0 = a.
  Proof. intros H. unfold smt_shl. rewrite N.mul_1_r. now apply N.mod_small. Qed.
  Lemma shl_zero a : smt_shl w 0 a = 0. Proof. unfold smt_shl. apply N.mod_0_l, pow2_nz. Qed.
  Lemma or_not a : w <= 128 -> inr w a -> N.lor a (smt_not w a) = smt_add w a (smt_not w a).
  Proof.
    intros Hw A. symmetry. apply add_or; [exact Hw|exact A|apply in_not|]. apply N.bits_inj. intros i. rewrite N.land_spec, not_bit, N.bits_0 by assumption.
    destruct (N.testbit a i), (i <? w); reflexivity.
  Qed.
  Lemma or_shl a b : w <= 128 -> inr w a -> N.lor a (smt_shl w b a) = smt_add w a (smt_shl w b a).
  Proof. intros Hw A. symmetry. apply add_or; [exact Hw|exact A|apply in_shl|apply and_shl]. Qed.
  Lemma mul_0 a : smt_mul w a 0 = 0. Proof. unfold smt_mul. rewrite N.mul_0_r. apply N.mod_0_l, pow2_nz. Qed.
End Width.

Definition bv_id (w : N) : rule bv_op -> Prop := identity VVar (inr w) (bv_den w).
Definition vline (w : N) : (rule bv_op -> Prop) -> string -> Prop := line (bv_from_op w) bv_name.
Ltac vrange := solve [eassumption | apply in_add | apply in_sub | apply in_mul | apply in_neg | apply in_shl | apply in_not].
Ltac vcong := repeat first [apply cong_add | apply cong_mul | apply cong_neg; [vrange|] | apply cong_sub; [vrange| |] | apply cong_not; [vrange|] | apply cong_shl | apply cong_refl].
Ltac vbits := apply N.bits_inj; intros i; rewrite ?N.lor_spec, ?N.land_spec, ?N.lor_spec, ?N.land_spec; repeat match goal with |- context [N.testbit ?a i] => destruct (N.testbit a i) end; reflexivity.
Ltac vsolve Hw :=
  repeat match goal with H : inr _ ?b |- context [smt_sub ?w ?b ?b] => rewrite (sub_same w b H) end;
  first [ reflexivity
        | rewrite ?shr_0, ?shr_zero, ?shl_zero, ?N.land_0_r, ?N.lor_0_r, ?mul_0; reflexivity
        | apply shl_0; assumption
        | eapply cong_eq; [vrange|vrange|vcong|vcong|ring]
        | vbits
        | apply shr_shr | apply shr_or | symmetry; apply shr_or | apply shr_and_r | apply shr_and_l | apply shr_by_or | apply and_shl
        | apply shr_same; lia | symmetry; apply shr_same; lia
        | apply (sub_and _ _ _ Hw); assumption | symmetry; apply (sub_and _ _ _ Hw); assumption
        | apply (sub_or _ _ _ Hw); assumption | symmetry; apply (sub_or _ _ _ Hw); assumption
        | apply (or_not _ _ Hw); assumption | symmetry; apply (or_not _ _ Hw); assumption
        | apply (or_shl _ _ _ Hw); assumption | symmetry; apply (or_shl _ _ _ Hw); assumption ].
Ltac vgen env R := repeat match goal with |- context [env ?s] => generalize (R s); generalize (env s); let x := fresh "x" in let H := fresh "H" in intros x H end.
Ltac bv_line Hw :=
  eexists; split; [vm_compute; reflexivity|]; split; [vm_compute; reflexivity|];
  cbv [bv_id identity rlhs rrhs]; eexists; eexists; split; [vm_compute; reflexivity|]; split; [vm_compute; reflexivity|];
  let env := fresh "env" in let R := fresh "R" in intros env R; eexists; split; cbv [bv_den fold_term map with_vars bv_to_var bv_sem rmapM rbind]; [reflexivity|f_equal; symmetry]; vgen env R; vsolve Hw.
Lemma bv32_lines w : w <= 128 -> Forall (vline w (bv_id w)) bv32_baseline.
Proof.
  intros Hw. unfold bv32_baseline. repeat apply Forall_cons; [..|apply Forall_nil].
  all: bv_line Hw.
Qed.
Lemma bv4_lines w : w <= 128 -> Forall (fun s => vline w (bv_id w) s \/ In s bv4_narrow) bv4_baseline.
Proof.
  intros Hw. unfold bv4_baseline. repeat apply Forall_cons; [..|apply Forall_nil].
  all: first [right; vm_compute; tauto | left; bv_line Hw].
Qed.
(* the last two rules of bv4.rules, at most four bits *)
Lemma twice_narrow w a : w <= 4 -> inr w a -> smt_shl w (smt_shl w a a) a = smt_shl w (smt_add w a a) a.
Proof.
  intros L H. unfold inr in H. assert (W : w = 0 \/ w = 1 \/ w = 2 \/ w = 3 \/ w = 4) by lia.
  assert (A : a < 16) by (pose proof (N.pow_le_mono_r 2 w 4 ltac:(lia) L); change (2 ^ 4) with 16 in *; lia).
  assert (C : a = 0 \/ a = 1 \/ a = 2 \/ a = 3 \/ a = 4 \/ a = 5 \/ a = 6 \/ a = 7 \/ a = 8 \/ a = 9 \/ a = 10 \/ a = 11 \/ a = 12 \/ a = 13 \/ a = 14 \/ a = 15) by lia. clear A.
  destruct W as [->|[->|[->|[->| ->]]]]; repeat (destruct C as [->|C]; [reflexivity|]); subst a; reflexivity.
Qed.
Lemma narrow_lines w : w <= 4 -> Forall (vline w (bv_id w)) bv4_narrow.
Proof.
  intros Hw. unfold bv4_narrow. repeat apply Forall_cons; [..|apply Forall_nil].
  all: eexists; split; [vm_compute; reflexivity|]; split; [vm_compute; reflexivity|];
    cbv [bv_id identity rlhs rrhs]; eexists; eexists; split; [vm_compute; reflexivity|]; split; [vm_compute; reflexivity|];
    intros env R; eexists; split; cbv [bv_den fold_term map with_vars bv_to_var bv_sem rmapM rbind]; [reflexivity|f_equal].
  - symmetry. apply twice_narrow; [exact Hw|apply R].
  - apply twice_narrow; [exact Hw|apply R].
Qed.
(* not at five bits and more *)
Lemma twice_wide w : 4 < w -> smt_shl w (smt_shl w 2 2) 2 <> smt_shl w (smt_add w 2 2) 2.
Proof.
  intros L. unfold smt_shl, smt_add. change (2 * 2 ^ 2) with 8. change (2 + 2) with 4.
  pose proof (N.pow_le_mono_r 2 5 w ltac:(lia) ltac:(lia)) as H. change (2 ^ 5) with 32 in H.
  rewrite (N.mod_small 8), (N.mod_small 4) by lia. change (8 * 2 ^ 2) with 32. change (4 * 2 ^ 2) with 16. rewrite (N.mod_small 16) by lia.
  destruct (N.eq_dec w 5) as [->|]; [discriminate|]. pose proof (N.pow_le_mono_r 2 6 w ltac:(lia) ltac:(lia)) as G. change (2 ^ 6) with 64 in G. rewrite N.mod_small by lia. discriminate.
Qed.
Lemma wide_lines w : 4 < w -> Forall (vline w (differs VVar (inr w) (bv_den w))) bv4_narrow.
Proof.
  intros Hw. assert (R : forall s : string, inr w ((fun _ => 2) s)) by (intros s; unfold inr; pose proof (N.pow_le_mono_r 2 5 w ltac:(lia) ltac:(lia)) as H; change (2 ^ 5) with 32 in H; lia).
  unfold bv4_narrow. repeat apply Forall_cons; [..|apply Forall_nil].
  all: eexists; split; [vm_compute; reflexivity|]; split; [vm_compute; reflexivity|];
    cbv [differs rlhs rrhs]; eexists; eexists; exists (fun _ => 2); eexists; eexists; split; [vm_compute; reflexivity|]; split; [vm_compute; reflexivity|];
    split; [exact R|]; cbv [bv_den fold_term map with_vars bv_to_var bv_sem rmapM rbind]; split; [reflexivity|]; split; [reflexivity|].
  - exact (twice_wide w Hw).
  - exact (not_eq_sym (twice_wide w Hw)).
Qed.
