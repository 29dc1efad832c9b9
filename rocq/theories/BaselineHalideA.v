(* baseline/halide.rules: the first half *)
From Coq Require Import ZArith.
From Verif Require Import Base Lang Syntax Rule Ruleset Halide HalideSpec LearntSpec Baselines BaselineSpec BaselineProofs BaselineHalide.
Open Scope list_scope.
Local Open Scope Z_scope.

(* a product of a maximum and a minimum, and divisions by constants *)
Ltac hal_special env R :=
  clear R; hgen env; clear env; rewrite ?min_if, ?max_if;
  first [ match goal with |- Z.max ?x ?y * Z.min ?u ?v = _ => destruct (Z.le_ge_cases x y); [rewrite (Z.max_r x y), (Z.min_r u v) by lia|rewrite (Z.max_l x y), (Z.min_l u v) by lia]; ring end
        | match goal with |- (if ?x =? 0 then 0 else div_smt ?x ?x) = _ => destruct (Z.eqb_spec x 0); [reflexivity|transitivity 1; [apply div_smt_exact; [assumption|ring]|reflexivity]] end
        | match goal with |- (if ?x =? 0 then 0 else div_smt 0 ?x) = _ => rewrite div_smt_0; destruct (x =? 0); reflexivity end
        | match goal with |- (if ?c =? 0 then 0 else div_smt ?x ?c) = _ => change (div_smt x c = - x) || change (div_smt x c = x); apply div_smt_exact; [discriminate|ring] end ].
Lemma lines1 : Forall (fun s => hline hal_id s \/ In s halide_wrong) halide_baseline1.
Proof.
  unfold halide_baseline1. repeat apply Forall_cons; [..|apply Forall_nil].
  all: first [hal_one | left; hal_line hal_special].
Qed.
Lemma lines2 : Forall (fun s => hline hal_id s \/ In s halide_wrong) halide_baseline2.
Proof.
  unfold halide_baseline2. repeat apply Forall_cons; [..|apply Forall_nil].
  all: first [hal_one].
Qed.
Lemma lines3 : Forall (fun s => hline hal_id s \/ In s halide_wrong) halide_baseline3.
Proof.
  unfold halide_baseline3. repeat apply Forall_cons; [..|apply Forall_nil].
  all: first [hal_one | left; hal_line hal_special].
Qed.
