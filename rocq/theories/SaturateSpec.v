(* Reference notions for saturating rules. *)
From Verif Require Import Base Lang Rule Analysis MinimizeSpec Synth.
Open Scope list_scope.

(* [p] writes out [t] and nothing besides: every entry is a part of [t] *)
Definition neat {O} (p : recexpr O) (t : term O) : Prop :=
  tree p = Val t /\ forall p1 p2 q, p = p1 ++ p2 -> tree p1 = Val q -> In q (subterms t).
(* operators have the arguments they take, variables have none, and all variables
   are pattern variables *)
Definition plain_pnode {O C} (L : lang O C) (ar : O -> nat) (n : node (eov O)) : Prop :=
  match nop n with EN o => length (nch n) = ar o /\ l_to_var L o = None | PV _ => nch n = [] end.
Definition args {O} (t : term O) : list (term O) := match t with T _ ts => ts end.
