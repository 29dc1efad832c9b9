(* Languages whose analysis knows the value of literals and of nothing else: the
   interval of an operator says nothing unless the operator is itself a constant,
   there is no custom_modify and no term is made equal to a variable.  Bitvectors
   (src/bv.rs:187-196), Halide and Pos (default mk_interval, src/language.rs:172-179)
   are of this kind. *)
From Verif Require Import Base Lang Rule Ruleset Analysis Egraph EgraphSpec Synth Sched SynthSpec.
Open Scope list_scope.

Definition point {C} (c : C) : interval C := Itv (Some c) (Some c).

Record literal_only {O C} (L : lang O C) (ar : O -> nat) : Prop := {
  lo_eqb : forall a b, l_eqb L a b = true <-> a = b;
  lo_itv : forall o is i, l_itv L o is = Val i -> i = full \/ exists c, i = point c /\ l_const L c = [Node o []] /\ ar o = 0;
  lo_order : forall a b, l_cleb L a b = true -> l_cleb L b a = true -> a = b;
  lo_custom : forall g i, l_custom L g i = Val [];
  lo_links : forall vars n vs v c ts, l_init L vars = Val (n, vs) -> In (v, c, ts) vs -> ts = [];
  lo_vars : forall x, ar (l_mk_var L x) = 0;
  lo_from_op : forall s n o, l_from_op L s n = Some o -> ar o = n }.

(* every node has the number of children its operator takes (the types of Rust
   guarantee this) *)
Definition typed_node {O} (ar : O -> nat) (n : node O) : Prop := length (nch n) = ar (nop n).
Definition typed_pnode {O} (ar : O -> nat) (n : node (eov O)) : Prop :=
  match nop n with EN o => length (nch n) = ar o | PV _ => True end.
Definition typed_rule {O} (ar : O -> nat) (r : rule O) : Prop :=
  Forall (typed_pnode ar) (rlhs r) /\ Forall (typed_pnode ar) (rrhs r).

(* the e-graphs a user can get at with the rules [rs], as in [made], from terms
   with the right number of children *)
Inductive built {O C} (L : lang O C) (ar : O -> nat) (keep : eg O C -> nat -> nat -> bool) (rs : ruleset O) : eg O C -> Prop :=
  | B_new : built L ar keep rs eg_default
  | B_workload fuel w g : to_egraph L keep fuel w = Val g -> built L ar keep rs g
  | B_add fuel g r g' i : built L ar keep rs g -> Forall (typed_node ar) r ->
      s_add_expr L keep fuel g r = Val (g', i) -> built L ar keep rs g'
  | B_run fuel st g g' : built L ar keep rs g -> fair st -> scheduled L keep fuel st rs g g' -> built L ar keep rs g'.
