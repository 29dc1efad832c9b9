(* Reference notions for C20: the terms of a workload. *)
From Verif Require Import Base Sexp Lang Reader Syntax Rule Analysis Synth MinimizeSpec.
Open Scope list_scope.

(* the text of the s-expression is the term *)
Definition reads {O C} (L : lang O C) (s : sexp) (t : term O) : Prop := parse_rec (l_from_op L) (display s) = Some (to_rec t).
(* some term of the list has a variable *)
Definition mentions_var {O} (to_var : O -> option string) (ts : list (term O)) : Prop :=
  exists t o us s, In t ts /\ In (T o us) (subterms t) /\ to_var o = Some s.
(* no subterm has the operator *)
Definition without {O} (o : O) (t : term O) : Prop := forall us, ~ In (T o us) (subterms t).
