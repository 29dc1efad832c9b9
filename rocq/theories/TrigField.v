(* The complex numbers of TrigSpec.v are a field; the exponential on them. *)
From Coq Require Import Reals QArith Qcanon Qreals Lra Field.
From Verif Require Import Base Trig TrigSpec.
Local Open Scope R_scope.

Lemma cx_eq : forall z w : cx, fst z = fst w -> snd z = snd w -> z = w.
Proof. intros [x y] [u v]. cbn. now intros -> ->. Qed.
Lemma sum_sq_nz : forall x y, (x, y) <> c0 -> x * x + y * y <> 0.
Proof.
  intros x y H E. apply H. assert (x = 0 /\ y = 0) as [-> ->]; [|reflexivity].
  split; nra.
Qed.
Lemma c_ring : ring_theory c0 c1 cadd cmul csub copp (@eq cx).
Proof. constructor; intros; apply cx_eq; cbn; ring. Qed.
Lemma c_field : field_theory c0 c1 cadd cmul csub copp cdiv cinv (@eq cx).
Proof.
  constructor.
  - exact c_ring.
  - intros E. injection E as E. lra.
  - reflexivity.
  - intros [x y] H. pose proof (sum_sq_nz x y H) as N. apply cx_eq; cbn; field; exact N.
Qed.
Add Field cx_field : c_field.

Lemma c1_nz : c1 <> c0. Proof. intros E. injection E as E. lra. Qed.
Lemma c2_nz : cadd c1 c1 <> c0. Proof. intros E. injection E as E. lra. Qed.
Lemma cre2 : cre 2 = cadd c1 c1. Proof. apply cx_eq; cbn; ring. Qed.
Lemma cre4 : cre 4 = cmul (cadd c1 c1) (cadd c1 c1). Proof. apply cx_eq; cbn; ring. Qed.
Lemma crem1 : cre (-1) = copp c1. Proof. apply cx_eq; cbn; ring. Qed.
Lemma ci_sq : cmul ci ci = copp c1. Proof. apply cx_eq; cbn; ring. Qed.
Lemma ci_nz : ci <> c0. Proof. intros E. injection E as E. lra. Qed.
Lemma cmul_nz : forall z w, z <> c0 -> w <> c0 -> cmul z w <> c0.
Proof.
  intros z w Hz Hw E. apply Hw. transitivity (cmul (cinv z) (cmul z w)); [field; exact Hz|]. rewrite E. ring.
Qed.
Lemma cmul_nz_l : forall z w, cmul z w <> c0 -> z <> c0.
Proof. intros z w H ->. apply H. ring. Qed.
Lemma cmul_nz_r : forall z w, cmul z w <> c0 -> w <> c0.
Proof. intros z w H ->. apply H. ring. Qed.
Lemma cdbl_nz : forall z, z <> c0 -> cadd z z <> c0.
Proof. intros z H E. apply (cmul_nz _ _ c2_nz H). rewrite <- E. ring. Qed.
Lemma cdbl_nz' : forall z, cadd z z <> c0 -> z <> c0.
Proof. intros z H ->. apply H. ring. Qed.

(* ---- cis ---- *)
Lemma cis_add : forall z w, ccis (cadd z w) = cmul (ccis z) (ccis w).
Proof.
  intros [x y] [u v]. unfold ccis. cbn. replace (- (y + v)) with (- y + - v) by ring.
  rewrite exp_plus, cos_plus, sin_plus. apply cx_eq; cbn; ring.
Qed.
Lemma cis_0 : ccis c0 = c1.
Proof. unfold ccis. cbn. rewrite Ropp_0. rewrite exp_0, cos_0, sin_0. apply cx_eq; cbn; ring. Qed.
Lemma cis_opp_l : forall z, cmul (ccis z) (ccis (copp z)) = c1.
Proof. intros z. rewrite <- cis_add. replace (cadd z (copp z)) with c0 by ring. exact cis_0. Qed.
Lemma cis_nz : forall z, ccis z <> c0.
Proof. intros z. apply (cmul_nz_l _ (ccis (copp z))). rewrite cis_opp_l. exact c1_nz. Qed.
Lemma cis_opp : forall z, ccis (copp z) = cdiv c1 (ccis z).
Proof. intros z. rewrite <- (cis_opp_l z). field. apply cis_nz. Qed.
Lemma cis_sub : forall z w, ccis (csub z w) = cmul (ccis z) (ccis (copp w)).
Proof. intros z w. rewrite <- cis_add. reflexivity. Qed.
Lemma cis_pi : ccis cpi = cre (-1).
Proof. unfold ccis, cpi. cbn. rewrite Ropp_0. rewrite exp_0, cos_PI, sin_PI. apply cx_eq; cbn; ring. Qed.
Lemma half_pi : cdiv cpi (cre 2) = cre (PI / 2).
Proof. apply cx_eq; cbn; field. Qed.
Lemma cis_half_pi : ccis (cdiv cpi (cre 2)) = ci.
Proof. rewrite half_pi. unfold ccis. cbn. rewrite Ropp_0, exp_0, cos_PI2, sin_PI2. apply cx_eq; cbn; ring. Qed.
(* on real numbers these are the usual functions *)
Lemma sin_real : forall x, csin (cre x) = cre (sin x).
Proof.
  intros x. unfold csin, ccis. cbn. rewrite !Ropp_0, exp_0, cos_neg, sin_neg. apply cx_eq; cbn; field.
Qed.
Lemma cos_real : forall x, ccos (cre x) = cre (cos x).
Proof.
  intros x. unfold ccos, ccis. cbn. rewrite !Ropp_0, exp_0, cos_neg, sin_neg. apply cx_eq; cbn; field.
Qed.
Lemma tan_real : forall x, cos x <> 0 -> ctan (cre x) = cre (tan x).
Proof.
  intros x H. unfold ctan. rewrite sin_real, cos_real. unfold tan. apply cx_eq; cbn; field; assumption.
Qed.
