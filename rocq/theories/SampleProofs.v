From Coq Require Import NArith ZArith QArith Qcanon FinFun.
From Verif Require Import Base Lang Util UtilProofs BV BVSpec BVProofs BoolDom Rational Halide SampleSpec.
Open Scope list_scope.

Lemma map_fst_combine {A B} : forall (l : list A) (m : list B), length l = length m -> map fst (combine l m) = l.
Proof. induction l as [|a l IH]; intros [|b m] H; try discriminate H; [reflexivity|]. cbn. f_equal. apply IH. now injection H. Qed.
Lemma map_cell {A B} : forall (l : list A) (m : list (list B)) (r : nat), length l = length m ->
  map (fun e => nth_error (snd e) r) (combine l m) = map (fun c => nth_error c r) m.
Proof. induction l as [|a l IH]; intros [|b m] r H; try discriminate H; [reflexivity|]. cbn. f_equal. apply IH. now injection H. Qed.
Lemma list_ext {A} : forall (l m : list A), length l = length m -> (forall i, i < length l -> nth_error l i = nth_error m i) -> l = m.
Proof.
  induction l as [|a l IH]; intros [|b m] H E; try discriminate H; [reflexivity|].
  pose proof (E 0 ltac:(cbn; lia)) as E0. cbn in E0. injection E0 as ->. f_equal. apply IH; [now injection H|].
  intros i Hi. apply (E (S i)). cbn. lia.
Qed.
Lemma cells {A} (cols : list (list A)) r i : i < length cols ->
  nth_error (map (fun c => nth_error c r) cols) i = Some (cell cols i r).
Proof.
  intros H. rewrite nth_error_map. unfold cell. destruct (nth_error cols i) eqn:E; [reflexivity|].
  apply nth_error_None in E. lia.
Qed.
Lemma pull {A} (vals : list A) : forall l : list (option (option A)),
  (forall x, In x l -> exists v, x = Some (Some v) /\ In v vals) ->
  exists a, length a = length l /\ incl a vals /\ l = map (fun v => Some (Some v)) a.
Proof.
  induction l as [|x l IH]; intros H.
  - exists []. split; [reflexivity|]. split; [intros y []|reflexivity].
  - destruct (H x (or_introl eq_refl)) as (v & -> & Hv). destruct IH as (a & L & I & E); [intros y Hy; apply H; now right|].
    exists (v :: a). cbn. split; [now f_equal|]. split; [intros y [<-|Hy]; auto|now f_equal].
Qed.

Lemma init_covers {C} (vals : list C) vars n vcs : NoDup vals -> vars <> [] ->
  init_product (map Some vals) vars = Val (n, vcs) -> covers vals vars n vcs.
Proof.
  intros Hv Hvars Hi.
  destruct (self_product_shape (map Some vals) (length vars)) as (cols & E & Hl & Hcol).
  rewrite (init_product_val _ _ _ Hvars E) in Hi. injection Hi as <- <-. rewrite map_length in *.
  assert (length vars = length cols) as HL by congruence.
  split; [now apply map_fst_combine|]. split; [reflexivity|]. split; [|split].
  - intros s c H. apply in_combine_r in H. now apply Hcol.
  - intros a La Ia.
    destruct (self_product_complete (map Some vals) (length vars) cols (map Some a) E) as (r & Hr & H).
    { now rewrite map_length. }
    { intros x Hx. apply in_map_iff in Hx as (y & <- & Hy). apply in_map. now apply Ia. }
    rewrite map_length in Hr.
    assert (map (fun c => nth_error c r) cols = map (fun v => Some (Some v)) a) as Er.
    { apply list_ext; [rewrite !map_length; congruence|]. intros i Hi. rewrite map_length in Hi. rewrite cells by assumption.
      rewrite H by (rewrite HL; assumption). rewrite !nth_error_map. destruct (nth_error a i) eqn:Ea; [reflexivity|]. apply nth_error_None in Ea. lia. }
    exists r. split; [exact Hr|]. rewrite map_cell by assumption. split; [exact Er|].
    intros r' Hr' Er'. rewrite map_cell in Er' by assumption.
    apply (self_product_distinct (map Some vals) (length vars) cols); try (rewrite map_length; assumption); try assumption.
    + apply FinFun.Injective_map_NoDup; [intros x y Exy; now injection Exy|assumption].
    + intros i Hi. rewrite HL in Hi.
      assert (Some (cell cols i r') = Some (cell cols i r)) as EE by (rewrite <- !cells by assumption; congruence).
      now injection EE.
  - intros r Hr. rewrite map_cell by assumption.
    destruct (pull vals (map (fun c => nth_error c r) cols)) as (a & L & I & Ea).
    + intros x Hx. apply in_map_iff in Hx as (c & <- & Hc). destruct (Hcol c Hc) as [Lc Ic].
      destruct (nth_error c r) as [y|] eqn:Ey.
      * apply nth_error_In in Ey. apply Ic in Ey. apply in_map_iff in Ey as (v & <- & Hv'). eauto.
      * apply nth_error_None in Ey. rewrite Lc in Ey. lia.
    + exists a. rewrite map_length in L. split; [congruence|]. split; assumption.
Qed.
Lemma init_some {C} (vals : list C) vars : vars <> [] -> exists n vcs, init_product (map Some vals) vars = Val (n, vcs).
Proof.
  intros Hvars. destruct (self_product_shape (map Some vals) (length vars)) as (cols & E & _).
  rewrite (init_product_val _ _ _ Hvars E). eauto.
Qed.
Lemma init_good {C} (vals : list C) vars : NoDup vals -> vars <> [] ->
  exists n vcs, init_product (map Some vals) vars = Val (n, vcs) /\ covers vals vars n vcs.
Proof.
  intros Hv H. destruct (init_some vals vars H) as (n & vcs & E). exists n, vcs. split; [exact E|]. now apply init_covers.
Qed.

(* ---- the samples of each domain ---- *)
Lemma bool_good vars : vars <> [] -> exists n vcs, bool_init vars = Val (n, vcs) /\ covers [true; false] vars n vcs.
Proof. apply init_good. repeat constructor; cbn; intuition discriminate. Qed.
Lemma hal_good vars : vars <> [] -> exists n vcs, hal_init vars = Val (n, vcs) /\ covers [-10; -1; 0; 1; 2; 5; 100]%Z vars n vcs.
Proof. apply init_good. repeat constructor; cbn; intuition discriminate. Qed.
Lemma q_distinct x y : x <> y -> Q2Qc (inject_Z x) <> Q2Qc (inject_Z y).
Proof.
  intros H E. apply H. assert (inject_Z x == inject_Z y)%Q as Q.
  { rewrite <- (Qred_correct (inject_Z x)), <- (Qred_correct (inject_Z y)). change (Qred (inject_Z x)) with (this (Q2Qc (inject_Z x))). now rewrite E. }
  unfold Qeq in Q. cbn in Q. lia.
Qed.
Lemma math_good vars : vars <> [] -> exists n vcs, math_init vars = Val (n, vcs) /\
  covers (map (fun z => Q2Qc (inject_Z z)) [-1; 0; 1; 2; -3]%Z) vars n vcs.
Proof.
  apply init_good. apply FinFun.Injective_map_NoDup.
  - intros x y E. destruct (Z.eq_dec x y) as [H|H]; [exact H|]. exfalso. exact (q_distinct x y H E).
  - repeat constructor; cbn; intuition discriminate.
Qed.

Lemma sample_in w a : (1 <= w <= 128)%N ->
  In a (bv_samples w) <-> exists z, In z (bv_sample_values w) /\ Z.of_N a = (z mod 2 ^ Z.of_N w)%Z.
Proof.
  intros Hw. destruct (consts_spec w Hw) as (E1 & _ & E2 & E3).
  assert (2 ^ w = 2 * 2 ^ (w - 1))%N as Ew.
  { rewrite <- (N.pow_succ_r' 2 (w - 1)). f_equal. lia. }
  pose proof (pow2_pos (w - 1)) as Hp.
  assert (Z.of_N (2 ^ (w - 1)) = 2 ^ (Z.of_N w - 1))%Z as Eh by (rewrite Z_of_pow; f_equal; lia).
  assert (Z.of_N (2 ^ w) = 2 ^ Z.of_N w)%Z as Em by apply Z_of_pow.
  assert (bv_new w 0 = 0 /\ bv_new w 1 = 1)%N as [H0 H1].
  { rewrite !new_mod by lia. split; apply N.mod_small; lia. }
  assert (inr w 0 /\ inr w 1 /\ inr w (bv_min w) /\ inr w (bv_max w)) as (I0 & I1 & Imin & Imax) by (unfold inr; lia).
  assert (Z.of_N (bv_min w) = 2 ^ (Z.of_N w - 1) /\ Z.of_N (bv_max w) = 2 ^ (Z.of_N w - 1) - 1)%Z as [Zmin Zmax] by (rewrite <- Eh; lia).
  assert (forall x, inr w x -> forall y, inr w y -> Z.of_N (bv_add w x y) = (Z.of_N x + Z.of_N y) mod 2 ^ Z.of_N w)%Z as A.
  { intros x Hx y Hy. exact (proj1 (bv_ops_Z w x y Hw Hx Hy)). }
  assert (forall x, inr w x -> forall y, inr w y -> Z.of_N (bv_sub w x y) = (Z.of_N x - Z.of_N y) mod 2 ^ Z.of_N w)%Z as B.
  { intros x Hx y Hy. exact (proj1 (proj2 (bv_ops_Z w x y Hw Hx Hy))). }
  assert (forall x, inr w x -> Z.of_N (bv_neg w x) = (- Z.of_N x) mod 2 ^ Z.of_N w)%Z as D.
  { intros x Hx. exact (proj1 (proj2 (proj2 (proj2 (bv_ops_Z w x x Hw Hx Hx))))). }
  unfold bv_samples. rewrite sort_dedup_in. cbn [flat_map app]. rewrite H0, H1. cbv zeta.
  pose proof (A _ Imin _ I0) as A0. pose proof (A _ Imin _ I1) as A1. pose proof (B _ Imax _ I0) as B0. pose proof (B _ Imax _ I1) as B1.
  pose proof (D _ I0) as D0. pose proof (D _ I1) as D1. rewrite Zmin in A0, A1. rewrite Zmax in B0, B1.
  change (Z.of_N 0) with 0%Z in *. change (Z.of_N 1) with 1%Z in *.
  assert (0 mod 2 ^ Z.of_N w = 0)%Z as M0 by apply Zmod_0_l.
  assert (1 mod 2 ^ Z.of_N w = 1)%Z as M1 by (apply Z.mod_small; lia).
  unfold bv_sample_values. cbv zeta. set (h := (2 ^ (Z.of_N w - 1))%Z) in *. set (m := (2 ^ Z.of_N w)%Z) in *.
  replace (h + 0)%Z with h in A0 by lia. replace (h - 1 - 0)%Z with (h - 1)%Z in B0 by lia. replace (h - 1 - 1)%Z with (h - 2)%Z in B1 by lia.
  replace (- 0)%Z with 0%Z in D0 by lia. change (- (1))%Z with (-1)%Z in D1.
  split.
  - intros H. cbn [In] in H. repeat destruct H as [<-|H]; [| | | | | | | |destruct H];
      (eexists; split; [|first [eassumption|symmetry; exact M0|symmetry; exact M1]]); cbn [In]; tauto.
  - intros (z & Hz & E). cbn [In] in Hz. repeat destruct Hz as [<-|Hz]; [| | | | | | |destruct Hz]; cbn [In].
    + left. apply N2Z.inj. congruence.
    + do 4 right. left. apply N2Z.inj. congruence.
    + right. left. apply N2Z.inj. congruence.
    + do 5 right. left. apply N2Z.inj. congruence.
    + do 2 right. left. apply N2Z.inj. change (Z.of_N 0) with 0%Z. change (Z.of_N 1) with 1%Z. congruence.
    + do 6 right. left. apply N2Z.inj. change (Z.of_N 0) with 0%Z. change (Z.of_N 1) with 1%Z. congruence.
    + do 7 right. left. apply N2Z.inj. congruence.
Qed.
Lemma bv_good w vars : (1 <= w <= 128)%N -> vars <> [] ->
  exists vals n vcs, init_product (map Some (bv_samples w)) vars = Val (n, vcs) /\ covers vals vars n vcs /\ NoDup vals /\
    forall a, In a vals <-> exists z, In z (bv_sample_values w) /\ Z.of_N a = (z mod 2 ^ Z.of_N w)%Z.
Proof.
  intros Hw Hv. destruct (bv_samples_spec w Hw) as (Hn & _).
  destruct (init_good (bv_samples w) vars Hn Hv) as (n & vcs & E & H). exists (bv_samples w), n, vcs.
  split; [exact E|]. split; [exact H|]. split; [exact Hn|]. intros a. now apply sample_in.
Qed.
