(* Reference notions for candidates: vectors that match, smallest terms, and the
   rules a pair of terms proposes. *)
From Coq Require Import NArith.
From Verif Require Import Base Lang Syntax Rule Ruleset RuleSpec Analysis AnalysisSpec Generalize Egraph EgraphSpec Synth.
Open Scope list_scope.

(* a sample at which both vectors are defined *)
Definition both {C} (v w : cvec C) (k : nat) (a b : C) : Prop := nth_error v k = Some (Some a) /\ nth_error w k = Some (Some b).
Definition agree {C} (v w : cvec C) : Prop := forall k a b, both v w k a b -> a = b.
Definition somewhere {C} (v : cvec C) : Prop := exists k a, nth_error v k = Some (Some a).
(* every sample has a value *)
Definition everywhere {C} (v : cvec C) : Prop := Forall (fun x => x <> None) v.

(* the vector of a class *)
Definition vec {O C} (g : eg O C) (i : nat) (v : cvec C) : Prop := exists d, class_data g i = Val d /\ sg_cvec d = v.

(* size of a term for extraction: terms with an operator that is not allowed, and
   terms of 2^64 - 1 nodes and more, all count as [usize_max] *)
Definition tcost {O} (allowed : O -> bool) (t : term O) : N :=
  if all_allowed allowed t then N.min usize_max (tsize t) else usize_max.
(* [e] denotes a smallest term of the class *)
Definition smallest {O D A} (allowed : O -> bool) (g : egraph O D A) (i : nat) (e : recexpr O) : Prop :=
  exists t, tree e = Val t /\ repr g t i /\ forall u, repr g u i -> (tcost allowed t <= tcost allowed u)%N.

(* [k] names a rule made from the two terms, in either direction *)
Definition named {O C} (L : lang O C) (e1 e2 : recexpr O) (k : string) : Prop :=
  exists fw bw x, candidate_pair (l_eqb L) (l_to_var L) (l_mk_var L) (l_name L) e1 e2 = Val (fw, bw) /\
    (fw = Some x \/ bw = Some x) /\ k = rname x.

(* rules can be made from the nodes of the e-graph: arities are right, operators
   can be read back, and 26 letters are enough for the variables *)
Record ready {O C} (L : lang O C) (ar : O -> nat) (g : eg O C) : Prop := {
  rd_arity : forall n i, In (n, i) (g_nodes g) -> length (nch n) = ar (nop n);
  rd_text : forall n i, In (n, i) (g_nodes g) -> l_to_var L (nop n) = None -> eov_ok (l_from_op L) (l_name L) ar (EN (nop n));
  rd_vars : exists vs, length vs <= 26 /\ forall n i x, In (n, i) (g_nodes g) -> l_to_var L (nop n) = Some x -> In x vs }.
(* Eq is equality, variables are leaves *)
Record regular {O C} (L : lang O C) (ar : O -> nat) : Prop := {
  rg_eqb : forall a b, l_eqb L a b = true <-> a = b;
  rg_ceqb : forall a b, l_ceqb L a b = true <-> a = b;
  rg_var : forall s, l_to_var L (l_mk_var L s) = Some s;
  rg_leaf : forall o, l_to_var L o <> None -> ar o = 0 }.
