(* Reference notions for e-class data: what samples and intervals say about a
   value, and the size of a term. *)
From Coq Require Import NArith.
From Verif Require Import Base Lang Analysis.

(* [x] says less than [y] about a sample; [c] less than [d] about all of them *)
Definition below {C} (x y : option C) : Prop := x = None \/ x = y.
Definition cbelow {C} (c d : cvec C) : Prop := Forall2 below c d.
(* [r] is the least vector of samples saying what [c] and [d] say *)
Definition cjoin {C} (c d r : cvec C) : Prop :=
  cbelow c r /\ cbelow d r /\ forall w, cbelow c w -> cbelow d w -> cbelow r w.
(* no sample has two different values *)
Definition compatible {C} (c d : cvec C) : Prop := exists w, cbelow c w /\ cbelow d w.

Definition in_itv {C} (leb : C -> C -> bool) (i : interval C) (x : C) : Prop :=
  match low i with Some a => leb a x = true | None => True end /\
  match high i with Some b => leb x b = true | None => True end.

(* the order used on constants is a total order, and equality is equality *)
Record total_order {C} (leb : C -> C -> bool) : Prop := {
  to_refl : forall a, leb a a = true;
  to_trans : forall a b c, leb a b = true -> leb b c = true -> leb a c = true;
  to_anti : forall a b, leb a b = true -> leb b a = true -> a = b;
  to_total : forall a b, leb a b = true \/ leb b a = true }.
Definition is_eqb {A} (e : A -> A -> bool) : Prop := forall a b, e a b = true <-> a = b.

(* number of operators and leaves of a term *)
Fixpoint tsize {O} (t : term O) : N :=
  match t with T _ ts => (1 + fold_right N.add 0 (map tsize ts))%N end.
(* every operator of the term is allowed *)
Fixpoint all_allowed {O} (allowed : O -> bool) (t : term O) : bool :=
  match t with T o ts => allowed o && forallb (all_allowed allowed) ts end.

(* merging any number of signatures into the first, in the given order *)
Fixpoint merge_all {O C} (allowed : O -> bool) (ceqb cleb : C -> C -> bool) (receqb : recexpr O -> recexpr O -> bool)
    (s : sig O C) (l : list (sig O C)) : res (sig O C) :=
  match l with
  | [] => Val s
  | x :: r => let* (s', _) := merge allowed ceqb cleb receqb s x in merge_all allowed ceqb cleb receqb s' r
  end.
