(* Reference notions for C52: the terms over a language. *)
From Verif Require Import Base Sexp Recipe EnumSpec Infer.
Open Scope string_scope.
Open Scope list_scope.

(* Terms over the variables, values and operators of a language; the i-th list of
   operators has operators with i arguments, up to three.  The boolean says whether
   the term has a variable. *)
Inductive lterm (l : wlang) : bool -> sexp -> Prop :=
  | LT_var v : In v (w_vars l) -> lterm l true (Atom v)
  | LT_val v : In v (w_vals l) -> lterm l false (Atom v)
  | LT_app i ops o bs args : nth_error (w_ops l) i = Some ops -> i < 3 -> In o ops -> length args = S i ->
      Forall2 (lterm l) bs args -> lterm l (existsb (fun b => b) bs) (Lst (Atom o :: args)).

(* names recursive_rules gives a meaning *)
Definition placeholder (s : string) : Prop := s = "EXPR" \/ s = "VAR" \/ s = "VAL" \/ exists i, s = ("OP" ++ show_nat i)%string.
(* the names of the language are words other than those *)
Definition plain_names (l : wlang) : Prop :=
  forall x, In x (w_vars l) \/ In x (w_vals l) \/ In x (concat (w_ops l)) -> word x /\ ~ placeholder x.
