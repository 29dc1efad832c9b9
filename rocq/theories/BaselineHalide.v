(* baseline/halide.rules and baseline/oopsla-halide.rules: tactics *)
From Coq Require Import ZArith.
From Verif Require Import Base Lang Syntax Rule Ruleset RuleTextProofs Halide HalideSpec LearntSpec BaselineSpec BaselineProofs.
Open Scope string_scope.
Open Scope list_scope.
Local Open Scope Z_scope.

Definition hal_id (r : rule hal_op) : Prop := identity HVar (fun _ => True) (hal_den div_smt) r.
Definition hline : (rule hal_op -> Prop) -> string -> Prop := line hal_from_op hal_name.

Lemma mem_In (wrong : list string) s : mem s wrong = true -> In s wrong.
Proof. intros H. apply existsb_exists in H as (x & I & E). apply String.eqb_eq in E. now subst. Qed.

Lemma min_if a b : (if a <=? b then a else b) = Z.min a b. Proof. destruct (Z.leb_spec a b); lia. Qed.
Lemma max_if a b : (if a <=? b then b else a) = Z.max a b. Proof. destruct (Z.leb_spec a b); lia. Qed.

Lemma b2z_0 b : (b2z b =? 0) = negb b. Proof. now destruct b. Qed.

(* the value of a term *)
Ltac hval := cbv [hal_den fold_term map with_vars hal_to_var hal_sem rmapM rbind].
Ltac hbool :=
  repeat match goal with
  | |- context [(?x =? ?y)%Z] => destruct (Z.eqb_spec x y); try (exfalso; lia); cbn [negb andb orb xorb implb b2z]
  | |- context [(?x <=? ?y)%Z] => destruct (Z.leb_spec x y); try (exfalso; lia); cbn [negb andb orb xorb implb b2z]
  | |- context [(?x <? ?y)%Z] => destruct (Z.ltb_spec x y); try (exfalso; lia); cbn [negb andb orb xorb implb b2z]
  end.
Ltac hgen env := repeat match goal with |- context [env ?s] => generalize (env s); let x := fresh "x" in intros x end.
Ltac hminmax :=
  repeat match goal with
  | |- context [Z.max ?a ?b] => let E := fresh in destruct (Z.max_spec a b) as [[? E]|[? E]]; rewrite !E; clear E; try (exfalso; lia)
  | |- context [Z.min ?a ?b] => let E := fresh in destruct (Z.min_spec a b) as [[? E]|[? E]]; rewrite !E; clear E; try (exfalso; lia)
  end.
Ltac hsolve := rewrite ?min_if, ?max_if, ?b2z_0; first [lia | hbool; first [reflexivity | lia | ring | hminmax; first [lia | nia]]].
Ltac hal_line solve :=
  eexists; split; [vm_compute; reflexivity|]; split; [vm_compute; reflexivity|];
  cbv [hal_id identity rlhs rrhs]; eexists; eexists; split; [vm_compute; reflexivity|]; split; [vm_compute; reflexivity|];
  let env := fresh "env" in let R := fresh "R" in intros env R; eexists; split; [hval; reflexivity|hval; f_equal; symmetry; solve env R].
Ltac hal_plain env R := clear R; hgen env; clear env; hsolve.
Ltac hal_one := first [right; apply mem_In; vm_compute; reflexivity | left; hal_line hal_plain].

(* ---- rules for truth values ---- *)
Ltac hal_truth env R := repeat match goal with |- context [env ?s] => destruct (R s) as [->| ->] end; reflexivity.
Lemma truth_lines : Forall (hline (identity HVar is_truth (hal_den div_smt))) halide_truth_values.
Proof. unfold halide_truth_values. repeat apply Forall_cons; [..|apply Forall_nil]. all: hal_line hal_truth. Qed.

(* ---- division ---- *)
Lemma div_smt_shift q n m d : d <> 0 -> n = q * d + m -> div_smt n d = q + div_smt m d.
Proof.
  intros D ->. unfold div_smt. destruct (Z.ltb_spec 0 d).
  - rewrite Z.add_comm, Z.div_add by lia. lia.
  - replace (q * d + m) with (m + (- q) * (- d)) by ring. rewrite Z.div_add by lia. lia.
Qed.
Lemma div_smt_0 d : div_smt 0 d = 0.
Proof. unfold div_smt. destruct (Z.ltb_spec 0 d); rewrite ?Zdiv_0_l; reflexivity. Qed.
Lemma div_smt_exact q n d : d <> 0 -> n = q * d -> div_smt n d = q.
Proof. intros D E. rewrite (div_smt_shift q n 0 d D) by lia. rewrite div_smt_0. lia. Qed.
Ltac hdiv :=
  match goal with
  | |- div_smt ?n ?d = ?v =>
      match v with
      | context [div_smt ?m d] =>
          let e := fresh "e" in set (e := div_smt m d); rewrite (div_smt_shift (v - e) n m d) by (assumption || (subst e; ring)); fold e; ring
      | _ => apply div_smt_exact; [assumption|ring]
      end
  end.
Ltac hal_div env R :=
  repeat match goal with |- context [env ?s =? 0] => let H := fresh in pose proof (R s) as H; unfold nonzero_value in H; destruct (Z.eqb_spec (env s) 0); [contradiction|] end;
  hdiv.
Lemma divisor_lines : Forall (hline (identity HVar nonzero_value (hal_den div_smt))) halide_divisors.
Proof. unfold halide_divisors. repeat apply Forall_cons; [..|apply Forall_nil]. all: hal_line hal_div. Qed.

(* ---- the exceptions are not identities ---- *)
Definition hal_differs : rule hal_op -> Prop := differs HVar (fun _ => True) (hal_den div_smt).
Ltac hal_wrong env :=
  eexists; split; [vm_compute; reflexivity|]; split; [vm_compute; reflexivity|];
  cbv [hal_differs differs rlhs rrhs]; eexists; eexists; exists env; eexists; eexists; split; [vm_compute; reflexivity|]; split; [vm_compute; reflexivity|];
  split; [exact (fun _ => I)|]; split; [vm_compute; reflexivity|]; split; [vm_compute; reflexivity|]; discriminate.
Lemma wrong_lines : Forall (hline hal_differs) halide_wrong.
Proof.
  unfold halide_wrong, halide_truth_values, halide_divisors. cbn [app]. repeat apply Forall_cons; [..|apply Forall_nil].
  all: first [hal_wrong (fun _ : string => 0) | hal_wrong (fun s => if String.eqb s "x" then 0 else 2) | hal_wrong (fun s => if String.eqb s "c0" then 0 else 2) | hal_wrong (fun _ : string => 2)].
Qed.
