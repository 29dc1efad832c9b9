(* The rules that the exponential domain starts from. *)
From Coq Require Import Reals QArith Qcanon Qreals Lra Field.
From Verif Require Import Base Lang Rule RuleSpec Ruleset Synth PartialSpec Exp ExpSpec.
Open Scope string_scope.
Open Scope list_scope.

Arguments Rminus : simpl never. Arguments Rdiv : simpl never. Arguments Rabs : simpl never. Arguments exp : simpl never. Arguments ln : simpl never.
Arguments Rpower : simpl never. Arguments sqrt : simpl never. Arguments rcbrt : simpl never. Arguments Q2R : simpl never. Arguments rdiv : simpl never. Arguments positive : simpl never.
Arguments IZR : simpl never.
Lemma abs_cases : forall x, (x < 0 /\ Rabs x = - x \/ 0 <= x /\ Rabs x = x)%R.
Proof. intros x. unfold Rabs. destruct (Rcase_abs x); [left|right]; split; lra. Qed.
Lemma q2r_num : forall n d, Q2R (n # d) = (IZR n / IZR (Zpos d))%R. Proof. reflexivity. Qed.
Lemma zero_1 : (0 / 1 = 0)%R. Proof. lra. Qed.
Ltac start := eexists; eexists; (split; [reflexivity|]); (split; [reflexivity|]); intros genv env v H; cbn in H; unfold pden, fold_rec; cbn; try (injection H as <-; apply (f_equal Val));
  generalize (env "a") as a; generalize (env "b") as b; generalize (env "c") as c; intros c b a; rewrite ?q2r_num, ?zero_1; unfold rdiv.
Ltac vars := repeat match goal with
  | x : R |- _ => match goal with H : (_ = 0)%R |- _ => assert (x = 0%R) by lra; subst x end
  | x : R, y : R |- _ => match goal with H : (_ = 0)%R |- _ => assert (x = y) by lra; subst x end
  end.
Ltac prods := repeat match goal with
  | H : (?x * ?y = 0)%R |- _ => destruct (Rmult_integral _ _ H); clear H; try subst
  | H : (?x * ?y <> 0)%R |- _ => assert (x <> 0%R) by (intros ->; apply H; ring); assert (y <> 0%R) by (intros ->; apply H; ring); clear H
  end.
Ltac split1 := match goal with
  | |- context [Rabs ?x] => lazymatch x with context [Req_EM_T] => fail | context [Rabs] => fail | _ => destruct (abs_cases x) as [[? ->]|[? ->]] end
  | |- context [Req_EM_T ?y 0] => lazymatch y with context [Req_EM_T] => fail | context [Rabs] => fail | _ => destruct (Req_EM_T y 0) end
  end.
Ltac nonz := repeat split; try assumption; try lra; try (intros ?; nra).
Ltac closing := try lra; try (field; nonz; fail); try (exfalso; nra; fail); try nra.
Ltac arith := repeat (split1; try lra); prods; vars; closing.
Open Scope R_scope.
Lemma div_self : forall x, x <> 0 -> x / x = 1. Proof. intros x H. field. exact H. Qed.
Lemma div_0 : forall x, x <> 0 -> 0 / x = 0. Proof. intros x H. field. exact H. Qed.
Ltac selfs := repeat match goal with |- context [(?x / ?x)%R] => rewrite (div_self x) by lra | |- context [(0 / ?x)%R] => rewrite (div_0 x) by lra end.
Ltac quotient := repeat (split1; selfs; try lra); closing.
Lemma abs_div : forall x y, y <> 0 -> Rabs (x / y) = Rabs x / Rabs y.
Proof. intros x y H. unfold Rdiv. now rewrite Rabs_mult, Rabs_inv. Qed.
Lemma abs_div_abs : forall x y, (Rabs (if Req_EM_T (Rabs y) 0 then 0%R else x / Rabs y) = Rabs (if Req_EM_T y 0 then 0%R else x / y))%R.
Proof. 
  intros x y. destruct (Req_EM_T y 0) as [->|N]; [rewrite Rabs_R0; destruct (Req_EM_T 0 0) as [_|X]; [apply Rabs_R0|elim (X eq_refl)]|]. pose proof (Rabs_no_R0 y N) as N'.
  destruct (Req_EM_T (Rabs y) 0) as [|_]; [contradiction|]. rewrite !abs_div by assumption. now rewrite Rabs_Rabsolu.
Qed.
Lemma abs_div_sym : forall x a b, (Rabs (if Req_EM_T (a - b) 0 then 0%R else x / (a - b)) = Rabs (if Req_EM_T (b - a) 0 then 0%R else x / (b - a)))%R.
Proof. intros x a b. rewrite <- (abs_div_abs x (a - b)), <- (abs_div_abs x (b - a)). now rewrite Rabs_minus_sym. Qed.
Lemma abs_sq : forall a, (Rabs (if Req_EM_T (Rabs a) 0 then 0%R else a * a / Rabs a) = Rabs (Rabs a - (if Req_EM_T a 0 then 0 else 0 / a)))%R.
Proof.
  intros a. rewrite abs_div_abs. destruct (Req_EM_T a 0) as [->|N]; [now rewrite Rabs_R0, Rminus_0_r, Rabs_R0|].
  rewrite div_0, Rminus_0_r, Rabs_Rabsolu by exact N. f_equal. field. exact N.
Qed.
Close Scope R_scope.
Ltac special := first [apply abs_div_abs|symmetry; apply abs_div_abs|apply abs_div_sym|apply abs_sq|symmetry; apply abs_sq].
Ltac rational := start; first [special|solve [arith]|quotient].

Theorem rational_safe : exists m, exp_rational = Val m /\ Forall (fun e => safe_rule exp_lang exp_sem (snd e)) m.
Proof.
  eexists. split; [vm_compute; reflexivity|].
  do 141 (apply Forall_cons; [rational|]). apply Forall_nil.
Qed.

Lemma positive_val : forall x y v, positive x y = Val v -> (0 < x)%R /\ v = y.
Proof. intros x y v. unfold positive. destruct (Rlt_dec 0 x) as [L|]; [intros [= <-]; auto|discriminate]. Qed.
Lemma positive_is : forall x y, (0 < x)%R -> positive x y = Val y.
Proof. intros x y L. unfold positive. destruct (Rlt_dec 0 x); [reflexivity|contradiction]. Qed.
Ltac start' := eexists; eexists; (split; [reflexivity|]); (split; [reflexivity|]); intros genv env v H; cbn in H; unfold pden, fold_rec; cbn;
  revert H; generalize (env "a") as a; generalize (env "b") as b; intros b a H; rewrite ?q2r_num.
Theorem starting_safe : exists m, exp_starting = Val m /\ Forall (fun e => safe_rule exp_lang exp_sem (snd e)) m.
Proof.
  assert (Nz : forall x, exp x <> 0%R) by (intros x; pose proof (exp_pos x); lra).
  eexists. split; [vm_compute; reflexivity|]. repeat apply Forall_cons; [..|apply Forall_nil]; start'.
  - injection H as <-. apply (f_equal Val). symmetry. apply exp_plus.
  - injection H as <-. apply (f_equal Val). unfold rdiv. destruct (Req_EM_T (exp a) 0) as [E|_]; [elim (Nz a E)|]. rewrite exp_Ropp. field. apply Nz.
  - injection H as <-. apply (f_equal Val). apply exp_plus.
  - injection H as <-. apply (f_equal Val). unfold rdiv. destruct (Req_EM_T (exp a) 0) as [E|_]; [elim (Nz a E)|]. rewrite exp_Ropp, q2r_num. field. apply Nz.
  - injection H as <-. apply (f_equal Val). rewrite q2r_num. replace (0 / 1)%R with 0%R by lra. rewrite exp_0. lra.
  - apply positive_val in H as [_ ->]. now rewrite ln_exp.
  - destruct (positive a (ln a)) as [l|] eqn:E; [|discriminate H]. apply positive_val in E as [P ->]. cbn in H. rewrite exp_ln in H by exact P. exact H.
Qed.
Theorem exploratory_safe : exists m, exp_exploratory = Val m /\ Forall (fun e => safe_rule exp_lang exp_sem (snd e)) m.
Proof.
  eexists. split; [vm_compute; reflexivity|]. repeat apply Forall_cons; [..|apply Forall_nil]; start'.
  - apply positive_val in H as [P ->]. rewrite positive_is by exact P. reflexivity.
  - apply positive_val in H as [P ->]. rewrite positive_is by exact P. apply (f_equal Val). rewrite <- Rpower_sqrt by exact P. f_equal. lra.
  - apply positive_val in H as [P ->]. rewrite positive_is by exact P. reflexivity.
  - destruct (positive a (ln a)) as [l|] eqn:E; [|discriminate H]. apply positive_val in E as [P ->]. cbn in H. injection H as <-. rewrite positive_is by exact P. reflexivity.
  - apply positive_val in H as [P ->]. rewrite positive_is by exact P. apply (f_equal Val). rewrite <- Rpower_sqrt by exact P. f_equal. rewrite q2r_num. lra.
  - apply positive_val in H as [P ->]. rewrite positive_is by exact P. apply (f_equal Val). unfold rcbrt. f_equal; rewrite ?q2r_num; lra.
Qed.
(* the third root *)
Lemma rcbrt_spec : forall x, (0 < x -> 0 < rcbrt x /\ rcbrt x * rcbrt x * rcbrt x = x)%R.
Proof.
  intros x P. split; [apply exp_pos|]. unfold rcbrt. rewrite <- !Rpower_plus. replace (1 / 3 + 1 / 3 + 1 / 3)%R with 1%R by lra. now apply Rpower_1.
Qed.

(* a rule of these lists *)
Definition given_rule (e : string * rule exp_op) : Prop :=
  exists m, (exp_exploratory = Val m \/ exp_starting = Val m \/ exp_rational = Val m) /\ In e m.
Lemma given_safe : forall e, given_rule e -> safe_rule exp_lang exp_sem (snd e).
Proof.
  intros e (m & E & J). assert (exists m', m = m' /\ Forall (fun e => safe_rule exp_lang exp_sem (snd e)) m') as (m' & -> & F).
  { destruct E as [E|[E|E]]; [destruct exploratory_safe as (m' & E' & F)|destruct starting_safe as (m' & E' & F)|destruct rational_safe as (m' & E' & F)];
      (exists m'; split; [congruence|exact F]). }
  rewrite Forall_forall in F. exact (F e J).
Qed.
