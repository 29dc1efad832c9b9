(* baseline/rational.rules and baseline/herbie-rational.rules *)
From Coq Require Import QArith Qcanon.
From Verif Require Import Base Lang Syntax Rule Ruleset Rational RationalSpec LearntSpec Baselines BaselineSpec BaselineProofs BaselineHalide.
Open Scope string_scope.
Open Scope list_scope.
Local Open Scope Qc_scope.

Definition mline : (rule math_op -> Prop) -> string -> Prop := line math_from_op math_name.
(* the two sides have the same value, or none *)
Definition same_value (r : rule math_op) : Prop :=
  exists tl tr, tree (instantiate MVar (rlhs r)) = Val tl /\ tree (instantiate MVar (rrhs r)) = Val tr /\ forall env, math_den env tl = math_den env tr.
Lemma same_identity r : same_value r -> rational_identity r.
Proof.
  intros (tl & tr & T1 & T2 & H). exists tl, tr. split; [exact T1|]. split; [exact T2|]. split.
  - intros env p q E1 E2. rewrite H, E2 in E1. congruence.
  - intros _ _ env. now rewrite H.
Qed.
Lemma identity_values r : rational_identity r -> rational_values r.
Proof. intros (tl & tr & T1 & T2 & H & _). exists tl, tr. auto. Qed.

Definition qabs (a : Qc) : Qc := if Qclt_le_dec a 0 then - a else a.
Lemma mlit_0 : {| this := 0; canon := Qred_involutive 0 |} = 0. Proof. reflexivity. Qed.
Lemma mlit_1 : {| this := 1; canon := Qred_involutive 1 |} = 1. Proof. reflexivity. Qed.
Lemma mlit_2 : {| this := 2; canon := Qred_involutive 2 |} = 1 + 1. Proof. apply Qc_is_canon. reflexivity. Qed.
Lemma mlit_m1 : {| this := -1; canon := Qred_involutive (-1) |} = - (1). Proof. apply Qc_is_canon. reflexivity. Qed.

(* ---- zero ---- *)
Lemma q10 : (1 : Qc) <> 0. Proof. discriminate. Qed.
Lemma opp_0 a : - a = 0 -> a = 0. Proof. intros H. replace a with (- - a) by ring. rewrite H. reflexivity. Qed.
Lemma sub_0 a b : a - b = 0 -> a = b. Proof. intros H. replace a with ((a - b) + b) by ring. rewrite H. ring. Qed.
Lemma add_0 a b : a + b = 0 -> a = - b. Proof. intros H. replace a with ((a + b) - b) by ring. rewrite H. ring. Qed.
Lemma two_nz : (1 + 1 : Qc) <> 0. Proof. discriminate. Qed.
Lemma dbl_0 a : a + a = 0 -> a = 0.
Proof. intros H. replace (a + a) with ((1 + 1) * a) in H by ring. apply Qcmult_integral in H as [H|H]; [elim (two_nz H)|exact H]. Qed.
Lemma div_0 a b : b <> 0 -> a / b = 0 -> a = 0.
Proof. intros B H. replace a with (a / b * b) by (field; exact B). rewrite H. ring. Qed.
(* ---- absolute values ---- *)
Lemma neg_pos a : a < 0 -> 0 <= - a.
Proof. intros H. apply Qclt_le_weak in H. apply Qcopp_le_compat in H. exact H. Qed.
Lemma abs_pos a : 0 <= qabs a.
Proof. unfold qabs. destruct (Qclt_le_dec a 0); [now apply neg_pos|assumption]. Qed.
Lemma abs_of a : 0 <= a -> qabs a = a.
Proof. intros H. unfold qabs. destruct (Qclt_le_dec a 0) as [L|]; [|reflexivity]. elim (Qclt_not_le _ _ L H). Qed.
Lemma abs_neg a : qabs (- a) = qabs a.
Proof.
  unfold qabs. destruct (Qclt_le_dec (- a) 0) as [L|L], (Qclt_le_dec a 0) as [M|M]; try ring.
  - elim (Qclt_not_le _ _ L). now apply neg_pos.
  - apply Qcopp_le_compat in L. replace (- - a) with a in L by ring. replace (- 0) with 0 in L by ring. pose proof (Qcle_antisym _ _ L M) as E. rewrite E. ring.
Qed.
Lemma abs_abs a : qabs (qabs a) = qabs a. Proof. apply abs_of, abs_pos. Qed.
Lemma abs_cases a : qabs a = a \/ qabs a = - a. Proof. unfold qabs. destruct (Qclt_le_dec a 0); auto. Qed.
Lemma abs_sq a : qabs a * qabs a = a * a. Proof. destruct (abs_cases a) as [->| ->]; ring. Qed.
Lemma mul_pos a b : 0 <= a -> 0 <= b -> 0 <= a * b.
Proof. intros A B. replace 0 with (0 * b) by ring. now apply Qcmult_le_compat_r. Qed.
Lemma abs_mul a b : qabs (a * b) = qabs a * qabs b.
Proof.
  destruct (abs_cases a) as [A|A], (abs_cases b) as [B|B].
  - rewrite A, B. apply abs_of. apply mul_pos; [rewrite <- A|rewrite <- B]; apply abs_pos.
  - replace (a * b) with (- (a * - b)) by ring. rewrite abs_neg, A, B. apply abs_of. apply mul_pos; [rewrite <- A|rewrite <- B]; apply abs_pos.
  - replace (a * b) with (- (- a * b)) by ring. rewrite abs_neg, A, B. apply abs_of. apply mul_pos; [rewrite <- A|rewrite <- B]; apply abs_pos.
  - replace (a * b) with (- a * - b) by ring. rewrite A, B. apply abs_of. apply mul_pos; [rewrite <- A|rewrite <- B]; apply abs_pos.
Qed.
Lemma abs_0 : qabs 0 = 0. Proof. reflexivity. Qed.
Lemma abs_zero a : qabs a = 0 -> a = 0. Proof. destruct (abs_cases a) as [->| ->]; [auto|apply opp_0]. Qed.
Lemma abs_sub a b : qabs (a - b) = qabs (b - a). Proof. rewrite <- abs_neg. f_equal. ring. Qed.
Lemma abs_square a : qabs (a * a) = a * a. Proof. rewrite abs_mul. apply abs_sq. Qed.
Lemma abs_two : qabs (1 + 1) = 1 + 1. Proof. apply abs_of. discriminate. Qed.
Lemma abs_dbl a : qabs (a + a) = qabs a * (1 + 1). Proof. replace (a + a) with (a * (1 + 1)) by ring. now rewrite abs_mul, abs_two. Qed.
Lemma abs_div a b : b <> 0 -> qabs (a / b) = qabs a / qabs b.
Proof.
  intros B. assert (qabs b <> 0) by (intros E; apply B, abs_zero, E). replace (qabs a) with (qabs (a / b * b)) by (f_equal; field; exact B). rewrite abs_mul. field. assumption.
Qed.

Ltac mval := cbv [math_den fold_term map with_vars math_to_var math_sem both option_map rmapM rbind]; rewrite ?mlit_0, ?mlit_1, ?mlit_2, ?mlit_m1;
  repeat match goal with |- context [if Qclt_le_dec ?a 0 then - ?a else ?a] => change (if Qclt_le_dec a 0 then - a else a) with (qabs a) end.
(* what follows from the hypotheses that something is zero *)
Ltac mzero :=
  repeat match goal with
  | H : ?x = 0, N : ?x <> 0 |- _ => elim (N H)
  | H : 1 = 0 |- _ => elim (q10 H)
  | H : - _ = 0 |- _ => apply opp_0 in H
  | H : qabs _ = 0 |- _ => apply abs_zero in H
  | H : _ * _ = 0 |- _ => apply Qcmult_integral in H as [H|H]
  | H : _ / _ = 0, N : _ <> 0 |- _ => apply (div_0 _ _ N) in H
  | H : ?a + ?a = 0 |- _ => apply dbl_0 in H
  | H : ?a - ?b = 0 |- _ => apply sub_0 in H
  | H : ?x = 0 |- _ => is_var x; subst x
  | H : ?x = ?y |- _ => is_var x; is_var y; subst x
  | N : ?x <> 0 |- _ => elim N; rewrite ?abs_0; ring
  end.
Ltac mfield := first [reflexivity | ring | field; repeat split; first [assumption | discriminate | intros ?; mzero; fail]].
Ltac mcases := repeat match goal with |- context [Qc_eq_dec ?a 0] => lazymatch a with context [if _ then _ else _] => fail | _ => destruct (Qc_eq_dec a 0); try (exfalso; mzero; fail) end end.
Ltac msolve := mcases; first [reflexivity | f_equal; f_equal; mfield | exfalso; mzero; fail
  | f_equal; f_equal; first [apply abs_sub | apply abs_mul | symmetry; apply abs_mul | apply abs_abs | symmetry; apply abs_abs | apply abs_square | symmetry; apply abs_square | apply abs_sq | apply abs_neg | symmetry; apply abs_neg | apply abs_dbl | symmetry; apply abs_dbl
      | apply abs_div; assumption | symmetry; apply abs_div; assumption ]].
Ltac mgen env := repeat match goal with |- context [env ?s] => generalize (env s); let x := fresh "x" in intros x end.
Ltac math_line solve :=
  eexists; split; [vm_compute; reflexivity|]; split; [vm_compute; reflexivity|];
  cbv [same_value rlhs rrhs]; eexists; eexists; split; [vm_compute; reflexivity|]; split; [vm_compute; reflexivity|];
  let env := fresh "env" in intros env; mval; mgen env; clear env; solve.
Ltac math_one := first [right; apply mem_In; vm_compute; reflexivity | left; math_line msolve].
(* quotients with an absolute value *)
Ltac mabs := mcases; try reflexivity; f_equal; f_equal; match goal with |- context [qabs ?x] => destruct (abs_cases x) as [-> | ->] end; mfield.
Lemma rational_lines : Forall (fun s => mline same_value s \/ In s rational_undefined) rational_baseline.
Proof.
  unfold rational_baseline. repeat apply Forall_cons; [..|apply Forall_nil].
  all: first [math_one | left; math_line mabs].
Qed.
Lemma herbie_lines : Forall (fun s => mline same_value s \/ In s herbie_undefined) herbie_rational.
Proof.
  unfold herbie_rational. repeat apply Forall_cons; [..|apply Forall_nil].
  all: math_one.
Qed.
(* ---- the rules that change where a term has a value ---- *)
Ltac math_agree :=
  eexists; split; [vm_compute; reflexivity|]; split; [vm_compute; reflexivity|];
  cbv [rational_values rlhs rrhs]; eexists; eexists; split; [vm_compute; reflexivity|]; split; [vm_compute; reflexivity|];
  let env := fresh "env" in intros env p q; mval; mgen env; clear env; mcases; intros E1 E2;
  first [discriminate E1 | discriminate E2 | injection E1 as <-; injection E2 as <-; mfield].
Lemma rational_agree : Forall (mline rational_values) rational_undefined.
Proof. unfold rational_undefined. repeat apply Forall_cons; [..|apply Forall_nil]. all: math_agree. Qed.
Lemma herbie_agree : Forall (mline rational_values) herbie_undefined.
Proof. unfold herbie_undefined. repeat apply Forall_cons; [..|apply Forall_nil]. all: math_agree. Qed.
Definition math_differs : rule math_op -> Prop := differs MVar (fun _ => True) math_den.
Ltac math_wrong env :=
  eexists; split; [vm_compute; reflexivity|]; split; [vm_compute; reflexivity|];
  cbv [math_differs differs rlhs rrhs]; eexists; eexists; exists env; eexists; eexists; split; [vm_compute; reflexivity|]; split; [vm_compute; reflexivity|];
  split; [exact (fun _ => I)|]; split; [vm_compute; reflexivity|]; split; [vm_compute; reflexivity|]; discriminate.
Ltac math_wrong_any := first [math_wrong (fun _ : string => 0) | math_wrong (fun s => if String.eqb s "a" then 0 else 1) | math_wrong (fun s => if String.eqb s "b" then 0 else 1) | math_wrong (fun s => if String.eqb s "c" then 0 else 1)].
Lemma rational_wrong : Forall (mline math_differs) rational_undefined.
Proof. unfold rational_undefined. repeat apply Forall_cons; [..|apply Forall_nil]. all: math_wrong_any. Qed.
Lemma herbie_wrong : Forall (mline math_differs) herbie_undefined.
Proof. unfold herbie_undefined. repeat apply Forall_cons; [..|apply Forall_nil]. all: math_wrong_any. Qed.
