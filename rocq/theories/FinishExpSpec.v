(* Reference notions for the recipe for exponentials in C74: its layers, and what can
   have been learned after some of them. *)
From Verif Require Import Base Workload Rule Ruleset Exp Recipes.
Open Scope list_scope.

Definition exp_recipe : list (res workload) := [exp_constant; exp_exp; exp_log; exp_no_pow; exp_simple; exp_div].
Fixpoint after_layers (ex : ruleset exp_op) (ls : list (res workload)) (s s' : ruleset exp_op * ruleset exp_op) : Prop :=
  match ls with
  | [] => s' = s
  | wl :: ls => exists s1, exp_layer wl ex s s1 /\ after_layers ex ls s1 s'
  end.
