(* Powers and roots of real numbers (HerbieSpec.v). *)
From Coq Require Import Reals QArith Qreals Lra Lia ZArith.
From Verif Require Import Base HerbieSpec.
Local Open Scope R_scope.

Lemma Int_part_IZR n : Int_part (IZR n) = n.
Proof.
  destruct (base_Int_part (IZR n)) as [A B]. apply Z.le_antisymm.
  - now apply le_IZR.
  - assert (IZR n < IZR (Int_part (IZR n) + 1)) as H by (rewrite plus_IZR; lra). apply lt_IZR in H. lia.
Qed.
(* the four cases *)
Inductive Pow (x y : R) : R -> Prop :=
  | P_pos : 0 < x -> Pow x y (Rpower x y)
  | P_zero : x = 0 -> 0 < y -> Pow x y 0
  | P_one : x = 0 -> y = 0 -> Pow x y 1
  | P_neg n : x < 0 -> y = IZR n -> Pow x y (powerRZ x n).
Lemma pow_Pow x y z : real_pow x y = Val z <-> Pow x y z.
Proof.
  unfold real_pow. split.
  - destruct (Rlt_dec 0 x) as [X|X]; [intros [= <-]; now constructor|]. destruct (Req_EM_T x 0) as [E|E].
    + destruct (Rlt_dec 0 y); [intros [= <-]; now constructor|]. destruct (Req_EM_T y 0); [intros [= <-]; now constructor|discriminate].
    + destruct (Req_EM_T y (IZR (Int_part y))) as [I|I]; [|discriminate]. intros [= <-]. constructor; [lra|exact I].
  - intros [X|X Y|X Y|n X Y].
    + destruct (Rlt_dec 0 x); [reflexivity|lra].
    + subst x. destruct (Rlt_dec 0 0); [lra|]. destruct (Req_EM_T 0 0); [|lra]. destruct (Rlt_dec 0 y); [reflexivity|lra].
    + subst x y. destruct (Rlt_dec 0 0); [lra|]. destruct (Req_EM_T 0 0); [reflexivity|lra].
    + destruct (Rlt_dec 0 x); [lra|]. destruct (Req_EM_T x 0); [lra|]. subst y. rewrite Int_part_IZR. destruct (Req_EM_T (IZR n) (IZR n)); [reflexivity|lra].
Qed.
Lemma pow_is x y z z' : Pow x y z -> z = z' -> real_pow x y = Val z'.
Proof. intros P <-. now apply pow_Pow. Qed.
Lemma pow_pos x y : 0 < x -> real_pow x y = Val (Rpower x y).
Proof. intros X. apply pow_Pow. now constructor. Qed.
(* whole exponents: all numbers but 0 *)
Lemma pow_whole x n : x <> 0 -> real_pow x (IZR n) = Val (powerRZ x n).
Proof.
  intros X. destruct (Rlt_dec 0 x) as [P|P].
  - rewrite (pow_pos x _ P). now rewrite powerRZ_Rpower.
  - apply pow_Pow. constructor; [lra|reflexivity].
Qed.
Lemma pow_0 x : real_pow x 0 = Val 1.
Proof.
  destruct (Req_dec x 0) as [->|X]; [apply pow_Pow; now constructor|]. exact (pow_whole x 0 X).
Qed.
Lemma pow_n x k : (0 < k)%Z -> real_pow x (IZR k) = Val (powerRZ x k).
Proof.
  intros K. destruct (Req_dec x 0) as [->|X]; [|now apply pow_whole]. apply pow_is with 0; [constructor; [reflexivity|now apply IZR_lt]|].
  destruct k as [|p|p]; try lia. cbn. rewrite pow_i; [reflexivity|lia].
Qed.
Lemma pow_1 x : real_pow x 1 = Val x. Proof. rewrite (pow_n x 1) by lia. apply (f_equal Val). change (x ^ 1 = x). ring. Qed.
Lemma pow_2 x : real_pow x 2 = Val (x * x). Proof. rewrite (pow_n x 2) by lia. apply (f_equal Val). change (x ^ 2 = x * x). ring. Qed.
Lemma pow_3 x : real_pow x 3 = Val (x * x * x). Proof. rewrite (pow_n x 3) by lia. apply (f_equal Val). change (x ^ 3 = x * x * x). ring. Qed.
Lemma pow_m1 x : x <> 0 -> real_pow x (-1) = Val (1 / x).
Proof. intros X. rewrite (pow_whole x (-1) X). apply (f_equal Val). change (/ x ^ 1 = 1 / x). field. exact X. Qed.
Lemma pow_m1_0 : real_pow 0 (-1) = Panic.
Proof. unfold real_pow. destruct (Rlt_dec 0 0); [lra|]. destruct (Req_EM_T 0 0); [|lra]. destruct (Rlt_dec 0 (-1)); [lra|]. destruct (Req_EM_T (-1) 0); [lra|reflexivity]. Qed.
Lemma pow_one y : real_pow 1 y = Val 1.
Proof. rewrite pow_pos by lra. unfold Rpower. now rewrite ln_1, Rmult_0_r, exp_0. Qed.
Lemma pow_exp a b : real_pow (exp a) b = Val (exp (a * b)).
Proof. rewrite pow_pos by apply exp_pos. unfold Rpower. rewrite ln_exp. now rewrite Rmult_comm. Qed.

(* ---- exponents ---- *)
Lemma pow_add x y y' z z' : real_pow x y = Val z -> real_pow x y' = Val z' -> real_pow x (y + y') = Val (z * z').
Proof.
  intros A B. apply pow_Pow in A, B. destruct A as [X|X Y|X Y|n X Y]; destruct B as [X'|X' Y'|X' Y'|n' X' Y']; try lra; subst.
  - rewrite <- Rpower_plus. apply pow_pos. exact X.
  - apply pow_is with 0; [constructor; lra|ring].
  - apply pow_is with 0; [constructor; lra|ring].
  - apply pow_is with 0; [constructor; lra|ring].
  - apply pow_is with 1; [constructor; lra|ring].
  - rewrite <- plus_IZR, pow_whole by lra. rewrite powerRZ_add by lra. reflexivity.
Qed.
Lemma pow_inv x y z : real_pow x y = Val z -> z <> 0 -> real_pow x (- y) = Val (1 / z).
Proof.
  intros A Z. apply pow_Pow in A. destruct A as [X|X Y|X Y|n X Y].
  - rewrite pow_pos by exact X. rewrite Rpower_Ropp. apply (f_equal Val). field. exact Z.
  - lra.
  - subst. apply pow_is with 1; [constructor; lra|field].
  - subst. rewrite <- opp_IZR, pow_whole by lra. rewrite powerRZ_neg'. apply (f_equal Val). field. exact Z.
Qed.
Lemma pow_sub x y y' z z' : real_pow x y = Val z -> real_pow x y' = Val z' -> z' <> 0 -> real_pow x (y - y') = Val (z / z').
Proof.
  intros A B Z. unfold Rminus. rewrite (pow_add x y (- y') z (1 / z') A (pow_inv x y' z' B Z)). apply (f_equal Val). field. exact Z.
Qed.
(* ---- bases ---- *)
Lemma pow_mul x x' y z z' : real_pow x y = Val z -> real_pow x' y = Val z' -> real_pow (x * x') y = Val (z * z').
Proof.
  intros A B. apply pow_Pow in A, B. destruct A as [X|X Y|X Y|n X Y]; destruct B as [X'|X' Y'|X' Y'|n' X' Y']; try lra; subst.
  - rewrite Rpower_mult_distr by assumption. apply pow_pos. now apply Rmult_lt_0_compat.
  - apply pow_is with 0; [constructor; lra|ring].
  - rewrite Rpower_O by exact X. rewrite pow_0. apply (f_equal Val). ring.
  - rewrite pow_whole by nra. rewrite powerRZ_mult, <- powerRZ_Rpower by exact X. reflexivity.
  - apply pow_is with 0; [constructor; lra|ring].
  - apply pow_is with 0; [constructor; lra|ring].
  - apply pow_is with 0; [constructor; lra|ring].
  - rewrite Rpower_O by exact X'. rewrite pow_0. apply (f_equal Val). ring.
  - rewrite pow_0. apply (f_equal Val). ring.
  - assert (n' = 0%Z) as -> by (apply eq_IZR; lra). rewrite pow_0. apply (f_equal Val). cbn. ring.
  - rewrite pow_whole by nra. rewrite powerRZ_mult, <- powerRZ_Rpower by exact X'. reflexivity.
  - apply pow_is with 0; [constructor; lra|ring].
  - assert (n = 0%Z) as -> by (apply eq_IZR; lra). rewrite pow_0. apply (f_equal Val). cbn. ring.
  - assert (n' = n) as -> by (apply eq_IZR; lra). rewrite pow_whole by nra. now rewrite powerRZ_mult.
Qed.

(* ---- roots ---- *)
Lemma not_whole q n : (0 < q < 1)%R -> q <> IZR n.
Proof. intros [A B] ->. apply (lt_IZR 0) in A. apply (lt_IZR n 1) in B. lia. Qed.
Lemma pow_part x q : (0 < q < 1)%R -> real_pow x q = if Rlt_dec 0 x then Val (Rpower x q) else if Req_EM_T x 0 then Val 0 else Panic.
Proof.
  intros Q. unfold real_pow. destruct (Rlt_dec 0 x); [reflexivity|]. destruct (Req_EM_T x 0); [destruct (Rlt_dec 0 q); [reflexivity|lra]|].
  destruct (Req_EM_T q (IZR (Int_part q))) as [E|E]; [elim (not_whole q _ Q E)|reflexivity].
Qed.
Lemma pow_half x : real_pow x (1 / 2) = if Rle_dec 0 x then Val (sqrt x) else Panic.
Proof.
  rewrite pow_part by lra. destruct (Rle_dec 0 x) as [H|H]; destruct (Rlt_dec 0 x) as [P|P]; try lra.
  - replace (1 / 2) with (/ 2) by field. now rewrite Rpower_sqrt.
  - destruct (Req_EM_T x 0) as [->|E]; [now rewrite sqrt_0|lra].
  - destruct (Req_EM_T x 0); [lra|reflexivity].
Qed.
Lemma pow_third x z : real_pow x (1 / 3) = Val z -> real_cbrt x = z.
Proof.
  rewrite pow_part by lra. unfold real_cbrt. destruct (Rlt_dec 0 x); [now intros [= <-]|]. destruct (Req_EM_T x 0); [now intros [= <-]|discriminate].
Qed.
Lemma pow_third_pos x : 0 < x -> real_pow x (1 / 3) = Val (real_cbrt x).
Proof. intros X. rewrite pow_pos by exact X. unfold real_cbrt. destruct (Rlt_dec 0 x); [reflexivity|lra]. Qed.
Lemma third x : 0 < x -> Rpower x (1 / 3) * Rpower x (1 / 3) * Rpower x (1 / 3) = x.
Proof. intros X. rewrite <- !Rpower_plus. replace (1 / 3 + 1 / 3 + 1 / 3) with 1 by field. now apply Rpower_1. Qed.
Lemma cbrt_cube x : real_cbrt x * real_cbrt x * real_cbrt x = x.
Proof.
  unfold real_cbrt. destruct (Rlt_dec 0 x) as [P|P]; [now apply third|]. destruct (Req_EM_T x 0) as [->|E]; [ring|].
  assert (P' : 0 < - x) by lra. pose proof (third _ P') as H. nra.
Qed.
Lemma cube_inj x y : x * x * x = y * y * y -> x = y.
Proof.
  intros H. assert (K : (x - y) * (x * x + x * y + y * y) = 0) by nra. apply Rmult_integral in K as [K|K]; [lra|].
  pose proof (Rle_0_sqr (x + y / 2)) as A. pose proof (Rle_0_sqr (y + x / 2)) as B. pose proof (Rle_0_sqr x) as C. pose proof (Rle_0_sqr y) as D. unfold Rsqr in *.
  assert (X : x * x = 0) by lra. assert (Y : y * y = 0) by lra. apply Rmult_integral in X. apply Rmult_integral in Y. lra.
Qed.
Lemma cbrt_is x y : y * y * y = x -> real_cbrt x = y.
Proof. intros H. apply cube_inj. now rewrite cbrt_cube. Qed.
Lemma cbrt_mul x y : real_cbrt (x * y) = real_cbrt x * real_cbrt y.
Proof. apply cbrt_is. rewrite <- (cbrt_cube x) at 4. rewrite <- (cbrt_cube y) at 4. ring. Qed.
Lemma cbrt_nz x : x <> 0 -> real_cbrt x <> 0.
Proof. intros X E. apply X. rewrite <- (cbrt_cube x), E. ring. Qed.
Lemma cbrt_nz' x : real_cbrt x <> 0 -> x <> 0.
Proof. intros X ->. apply X. apply cbrt_is. ring. Qed.
Lemma cbrt_div x y : y <> 0 -> real_cbrt (x / y) = real_cbrt x / real_cbrt y.
Proof.
  intros Y. pose proof (cbrt_nz y Y) as N. apply cbrt_is. transitivity ((real_cbrt x * real_cbrt x * real_cbrt x) / (real_cbrt y * real_cbrt y * real_cbrt y)); [field; exact N|]. now rewrite !cbrt_cube.
Qed.
Lemma cbrt_exp a : real_cbrt (exp a) = exp (a / 3).
Proof. apply cbrt_is. rewrite <- !exp_plus. f_equal. field. Qed.
Lemma sqrt_exp a : sqrt (exp a) = exp (a / 2).
Proof.
  apply Rsqr_inj; [apply sqrt_pos|left; apply exp_pos|]. unfold Rsqr. rewrite sqrt_sqrt by (left; apply exp_pos). rewrite <- exp_plus. f_equal. field.
Qed.
Lemma pow_sqrt a b z : 0 <= a -> real_pow (sqrt a) b = Val z -> real_pow a (b / 2) = Val z.
Proof.
  intros A. destruct (Req_dec a 0) as [->|N].
  - rewrite sqrt_0. rewrite !pow_Pow. intros [X|X Y|X Y|n X Y]; try lra; constructor; lra.
  - assert (P : 0 < a) by lra. assert (P' : 0 < sqrt a) by now apply sqrt_lt_R0. rewrite !pow_pos by assumption. intros [= <-]. apply (f_equal Val).
    rewrite <- (Rpower_sqrt a P), Rpower_mult. f_equal. field.
Qed.
Lemma pow_m1' x : real_pow x (-1) = if Req_EM_T x 0 then Panic else Val (1 / x).
Proof. destruct (Req_EM_T x 0) as [->|N]; [exact pow_m1_0|now apply pow_m1]. Qed.
