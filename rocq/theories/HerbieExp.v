(* The rules of baseline/herbie-exp.rules. *)
From Coq Require Import Reals QArith Qcanon Qreals Lra Field.
From Verif Require Import Base Lang Rule RuleSpec Ruleset Synth PartialSpec Exp ExpSpec ExpRules Herbie HerbieSpec HerbiePow BaselineSpec BaselineProofs HerbieDerive.
Open Scope string_scope.
Open Scope list_scope.

Arguments real_pow : simpl never. Arguments real_cbrt : simpl never.
Opaque real_pow real_cbrt.
Lemma lit_0 : Q2R 0 = 0%R. Proof. unfold Q2R. cbn. lra. Qed.
Lemma lit_1 : Q2R 1 = 1%R. Proof. unfold Q2R. cbn. lra. Qed.
Lemma lit_2 : Q2R 2 = 2%R. Proof. unfold Q2R. cbn. lra. Qed.
Lemma lit_3 : Q2R 3 = 3%R. Proof. unfold Q2R. cbn. lra. Qed.
Lemma lit_m1 : Q2R (-1) = (-1)%R. Proof. unfold Q2R. cbn. lra. Qed.
Lemma lit_half : Q2R (1 # 2) = (1 / 2)%R. Proof. unfold Q2R. cbn. lra. Qed.
Lemma lit_third : Q2R (1 # 3) = (1 / 3)%R. Proof. unfold Q2R. cbn. lra. Qed.
Definition eline (P : rule exp_op -> Prop) : string -> Prop := line exp_from_op exp_name P.
Ltac lits := rewrite ?lit_0, ?lit_1, ?lit_2, ?lit_3, ?lit_m1, ?lit_half, ?lit_third; rewrite ?pow_0, ?pow_1, ?pow_2, ?pow_3, ?pow_one, ?pow_exp, ?pow_half, ?pow_m1', ?ln_exp, ?exp_0; cbn.
Ltac the_rule := eexists; split; [vm_compute; reflexivity|]; split; [vm_compute; reflexivity|].
Ltac begin := the_rule; eexists; eexists; (split; [vm_compute; reflexivity|]); (split; [vm_compute; reflexivity|]); intros genv env v; unfold pden, fold_rec; cbn; lits;
  generalize (env "a") as a, (env "b") as b, (env "c") as c; intros a b c.
Ltac no := let E := fresh in intros E; discriminate E.
Ltac given := repeat match goal with |- ?P -> _ => match P with
  | context [Rlt_dec ?x ?y] => destruct (Rlt_dec x y); [cbn|now (cbn; no)]
  | context [Rle_dec ?x ?y] => destruct (Rle_dec x y); [cbn|now (cbn; no)]
  | context [Req_EM_T ?x ?y] => destruct (Req_EM_T x y); [now (cbn; no)|cbn]
  | context [real_pow ?x ?y] => let E := fresh "E" in destruct (real_pow x y) as [?z|] eqn:E; [cbn|now (cbn; no)] end; lits end.
Ltac took := let H := fresh in intros H; injection H as <-; lits.
Lemma div_pos x y : (0 < x -> 0 < y -> 0 < x / y)%R. Proof. intros X Y. now apply Rdiv_lt_0_compat. Qed.
Ltac pos := first [lra|apply exp_pos|left; apply exp_pos|apply Rmult_lt_0_compat; lra|apply div_pos; lra|apply Rmult_le_pos; lra|apply sqrt_pos].
Ltac need := repeat match goal with |- ?P => match P with
  | context [Rlt_dec 0 ?y] => destruct (Rlt_dec 0 y) as [?|X]; [cbn|exfalso; apply X; pos]
  | context [Rle_dec 0 ?y] => destruct (Rle_dec 0 y) as [?|X]; [cbn|exfalso; apply X; pos]
  | context [Req_EM_T ?y 0] => destruct (Req_EM_T y 0) as [X|?]; [exfalso; revert X; change (y <> 0)%R; try lra; try (apply Rgt_not_eq, exp_pos); try (now apply cbrt_nz)|cbn] end; lits end.
Ltac simple := begin; given; took; need; apply (f_equal Val); try lra.
Lemma inv_pos x : (0 < 1 / x -> 0 < x)%R.
Proof. unfold Rdiv. rewrite Rmult_1_l. intros H. rewrite <- (Rinv_inv x). now apply Rinv_0_lt_compat. Qed.
Lemma sqrt_nz x : (0 <= x -> sqrt x <> 0 -> 0 < x)%R.
Proof. intros [P| <-] N; [exact P|]. elim N. apply sqrt_0. Qed.
Lemma exp_safe : Forall (fun s => eline (safe_rule exp_lang real_sem) s \/ In s (exp_wrong ++ exp_lossy)) herbie_exp.
Proof.
  unfold herbie_exp. repeat apply Forall_cons; [..|apply Forall_nil].
  all: try (right; apply listed; vm_compute; reflexivity). all: left.
  all: try solve [simple]. all: try (simple; []).
  - now apply ln_mult.
  - unfold Rdiv. rewrite ln_mult by (try apply Rinv_0_lt_compat; lra). rewrite ln_Rinv by lra. lra.
  - unfold Rdiv. rewrite Rmult_1_l. now apply ln_Rinv.
  - begin. given. took. assert (0 < a)%R by (apply inv_pos; assumption). need. apply (f_equal Val). unfold Rdiv. rewrite Rmult_1_l, ln_Rinv by lra. lra.
  - begin. given. took. match goal with A : real_pow a b = _, B : real_pow a c = _ |- _ => rewrite (pow_add _ _ _ _ _ A B) end. reflexivity.
  - begin. given. took. match goal with A : real_pow a b = _, B : real_pow c b = _ |- _ => rewrite (pow_mul _ _ _ _ _ A B) end. reflexivity.
  - begin. given. took. match goal with A : real_pow a b = _, N : _ <> _ |- _ => rewrite (pow_inv _ _ _ A N) end. reflexivity.
  - begin. given. took. match goal with A : real_pow a b = Val ?x, B : real_pow a c = Val ?y, N : ?y <> 0%R |- _ => rewrite (pow_sub _ _ _ _ _ A B N) end. reflexivity.
  - begin. given. took. rewrite pow_pos by assumption. cbn. apply (f_equal Val). unfold Rpower. f_equal. ring.
  - begin. given. took. match goal with A : real_pow a b = Val _ |- _ => rewrite (pow_add _ _ _ _ _ A (pow_1 a)) end. reflexivity.
  - now apply pow_third.
  - apply exp_plus.
  - rewrite exp_Ropp. lra.
  - unfold Rminus. rewrite exp_plus, exp_Ropp. reflexivity.
  - apply sqrt_exp.
  - apply cbrt_exp.
  - rewrite <- exp_plus. f_equal. ring.
  - rewrite <- !exp_plus. f_equal. ring.
  - symmetry. apply exp_plus.
  - rewrite exp_Ropp. lra.
  - unfold Rminus. rewrite exp_plus, exp_Ropp. reflexivity.
  - symmetry. now apply exp_ln.
  - symmetry. apply cbrt_mul.
  - symmetry. now apply cbrt_div.
  - apply cbrt_mul.
  - begin. given. took. match goal with N : _ <> _ |- _ => apply cbrt_nz' in N end. need. apply (f_equal Val). now apply cbrt_div.
  - apply cbrt_cube.
  - now apply cbrt_is.
  - begin. given. took. assert (b * b * b <> 0)%R by (repeat apply Rmult_integral_contrapositive_currified; assumption). need. apply (f_equal Val). field. assumption.
  - symmetry. apply cbrt_cube.
  - symmetry. now apply cbrt_is.
  - symmetry. apply cbrt_cube.
  - rewrite <- Rmult_assoc. symmetry. apply cbrt_cube.
  - begin. given. took. need. match goal with A : (0 <= a)%R, B : real_pow (sqrt a) b = _ |- _ => rewrite (pow_sqrt _ _ _ A B) end. reflexivity.
  - now apply sqrt_mult.
  - begin. given. took. assert (0 < b)%R by (apply sqrt_nz; assumption). assert (0 <= a / b)%R by (apply Rmult_le_pos; [assumption|left; now apply Rinv_0_lt_compat]). need. apply (f_equal Val). now apply sqrt_div.
  - symmetry. now apply sqrt_sqrt.
  - begin. given. took. replace (2 * b)%R with (b + b)%R by ring. match goal with A : real_pow a b = Val _ |- _ => rewrite (pow_add _ _ _ _ _ A A) end. reflexivity.
Qed.

(* ---- the other rules, where both sides have values ---- *)
Ltac open := the_rule; eexists; eexists; (split; [vm_compute; reflexivity|]); (split; [vm_compute; reflexivity|]); intros genv env v w; cbn; lits;
  generalize (env "a") as a, (env "b") as b, (env "c") as c; intros a b c.
Lemma exp_agree : Forall (eline (agrees exp_lang real_sem)) exp_lossy.
Proof.
  unfold exp_lossy. repeat apply Forall_cons; [..|apply Forall_nil].
  all: open; given; took; given; took.
  - now apply ln_mult.
  - unfold Rdiv. rewrite ln_mult by (try apply Rinv_0_lt_compat; lra). rewrite ln_Rinv by lra. lra.
  - match goal with A : real_pow a b = _ |- _ => rewrite pow_pos in A by assumption; injection A as <- end. apply ln_Rpower.
  - match goal with A : real_pow a b = _ |- _ => rewrite pow_pos in A by assumption; injection A as <- end. unfold Rpower. f_equal. ring.
  - match goal with A : real_pow a b = Val ?x, N : ?x <> _, B : real_pow a (- b) = _ |- _ => rewrite (pow_inv _ _ _ A N) in B; now injection B end.
  - match goal with A : real_pow a b = Val ?x, A' : real_pow a c = Val ?y, N : ?y <> 0%R, B : real_pow a (b - c) = _ |- _ => rewrite (pow_sub _ _ _ _ _ A A' N) in B; now injection B end.
  - match goal with A : real_pow a b = Val ?x, A' : real_pow a c = Val ?y, B : real_pow a (b + c) = _ |- _ => rewrite (pow_add _ _ _ _ _ A A') in B; now injection B end.
  - match goal with A : real_pow a c = Val ?x, A' : real_pow b c = Val ?y, B : real_pow (a * b) c = _ |- _ => rewrite (pow_mul _ _ _ _ _ A A') in B; now injection B end.
  - now apply pow_third.
  - symmetry. now apply exp_ln.
  - now apply sqrt_mult.
  - apply sqrt_div; [assumption|]. now apply sqrt_nz.
  - symmetry. now apply sqrt_sqrt.
  - field. assumption.
  - field. assumption.
  - match goal with A : real_pow a (b / 2) = Val ?x, B : real_pow a b = _ |- _ => pose proof (pow_add _ _ _ _ _ A A) as H; replace (b / 2 + b / 2)%R with b in H by field; rewrite H in B; now injection B end.
Qed.

(* ---- and where only the left-hand side has a value, or another ---- *)
Definition vals (a b c : R) (x : string) : R := if String.eqb x "a" then a else if String.eqb x "b" then b else c.
Ltac decide1 := match goal with
  | |- context [Rlt_dec ?x ?y] => destruct (Rlt_dec x y); try (exfalso; lra)
  | |- context [Rle_dec ?x ?y] => destruct (Rle_dec x y); try (exfalso; lra)
  | |- context [Req_EM_T ?x ?y] => destruct (Req_EM_T x y); try (exfalso; lra) end; cbn; lits.
Ltac norm := replace (-1 * -1)%R with 1%R by ring; replace (-1 / -1)%R with 1%R by field; replace (- -1)%R with 1%R by ring; replace (2 - 1)%R with 1%R by ring;
  replace (1 / 2 + 1 / 2)%R with 1%R by field; replace (2 * (1 / 2))%R with 1%R by field; replace (2 / 2)%R with 1%R by field; rewrite ?(pow_part _ (1 / 3)) by lra; lits; repeat decide1.
Ltac lossy a b c := the_rule; split; [vm_compute; reflexivity|]; split; [vm_compute; reflexivity|]; eexists; eexists; exists (fun _ => 0%R), (vals a b c); eexists;
  split; [vm_compute; reflexivity|]; split; [vm_compute; reflexivity|]; unfold pden, fold_rec; cbn -[vals]; unfold vals; cbn; lits; norm; split; reflexivity.
Lemma exp_gap : Forall (eline (gap exp_lang real_sem)) exp_lossy.
Proof.
  unfold exp_lossy. repeat apply Forall_cons; [..|apply Forall_nil].
  - lossy (-1)%R (-1)%R 0%R.
  - lossy (-1)%R (-1)%R 0%R.
  - lossy (-1)%R 2%R 0%R.
  - lossy (-1)%R 1%R 0%R.
  - lossy 0%R (-1)%R 0%R.
  - lossy 0%R 2%R 1%R.
  - lossy (-1)%R (1 / 2)%R (1 / 2)%R.
  - lossy (-1)%R (-1)%R (1 / 2)%R.
  - lossy (-1)%R 0%R 0%R.
  - lossy (-1)%R 0%R 0%R.
  - lossy (-1)%R (-1)%R 0%R.
  - lossy (-1)%R (-1)%R 0%R.
  - lossy (-1)%R 0%R 0%R.
  - lossy 0%R 0%R 0%R.
  - lossy 0%R 0%R 0%R.
  - lossy (-1)%R 1%R 0%R.
Qed.
Ltac wrong a b c := the_rule; split; [vm_compute; reflexivity|]; split; [vm_compute; reflexivity|]; eexists; eexists; exists (fun _ => 0%R), (vals a b c); eexists; eexists;
  split; [vm_compute; reflexivity|]; split; [vm_compute; reflexivity|]; unfold pden, fold_rec; cbn -[vals]; unfold vals; cbn; lits; norm; split; [reflexivity|]; split; [reflexivity|]; rewrite ?sqrt_1; lra.
Lemma exp_clash : Forall (eline (clash exp_lang real_sem)) exp_wrong.
Proof.
  unfold exp_wrong. repeat apply Forall_cons; [..|apply Forall_nil].
  - wrong 0%R 0%R 0%R.
  - wrong (-1)%R 2%R (1 / 2)%R.
  - wrong (-1)%R 2%R (1 / 2)%R.
  - wrong (-1)%R 2%R 0%R.
Qed.
