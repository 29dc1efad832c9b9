(* baseline/halide.rules: the second half, and baseline/oopsla-halide.rules *)
From Coq Require Import ZArith.
From Verif Require Import Base Lang Syntax Rule Ruleset Halide HalideSpec LearntSpec Baselines BaselineSpec BaselineProofs BaselineHalide.
Open Scope list_scope.
Local Open Scope Z_scope.

Lemma lines4 : Forall (fun s => hline hal_id s \/ In s halide_wrong) halide_baseline4.
Proof.
  unfold halide_baseline4. repeat apply Forall_cons; [..|apply Forall_nil].
  all: first [hal_one].
Qed.
Lemma lines5 : Forall (fun s => hline hal_id s \/ In s halide_wrong) halide_baseline5.
Proof.
  unfold halide_baseline5. repeat apply Forall_cons; [..|apply Forall_nil].
  all: first [hal_one].
Qed.
Lemma lines6 : Forall (fun s => hline hal_id s \/ In s halide_wrong) halide_baseline6.
Proof.
  unfold halide_baseline6. repeat apply Forall_cons; [..|apply Forall_nil].
  all: first [hal_one].
Qed.
Lemma oopsla_lines : Forall (hline hal_id) oopsla_halide.
Proof.
  unfold oopsla_halide. repeat apply Forall_cons; [..|apply Forall_nil].
  all: hal_line hal_plain.
Qed.
