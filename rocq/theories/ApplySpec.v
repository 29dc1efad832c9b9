(* What applying a rule may do to an e-graph. *)
From Verif Require Import Base Lang Rule Analysis Egraph EgraphSpec Synth Sched.
Open Scope list_scope.

(* [g'] has new classes besides those of [g], each of them alone; the old classes
   have the same names, nodes and data as before *)
Record only_adds {O D A} (g g' : egraph O D A) : Prop := {
  oa_size : size g <= size g';
  oa_eqv : forall i j, i < size g -> (eqv g' i j <-> eqv g i j);
  oa_alone : forall i j, size g <= i -> eqv g' i j -> j = i;
  oa_nodes : forall o ch c, c < size g -> (has g' o ch c <-> has g o ch c);
  oa_data : forall c, c < size g -> class_data g' c = class_data g c }.
(* [g'] is [g] with the classes [a] and [b] made one *)
Record only_merges {O D A} (g : egraph O D A) (a b : nat) (g' : egraph O D A) : Prop := {
  om_size : size g' = size g;
  om_eqv : forall i j, eqv g' i j <-> eqv g i j \/ (eqv g i a /\ eqv g j b) \/ (eqv g i b /\ eqv g j a);
  om_nodes : forall o ch c, has g' o ch c <-> exists ch' c', has g o ch' c' /\ Forall2 (eqv g') ch' ch /\ eqv g' c' c;
  om_data : forall c, c < size g -> ~ eqv g c a -> ~ eqv g c b -> class_data g' c = class_data g c }.
(* the classes that are new in [g'] are instances of parts of the pattern *)
Definition new_are_parts {O C} (p : pat O) (s : list (string * nat)) (g g' : eg O C) : Prop :=
  forall x, size g <= x -> x < size g' -> exists p1 p2 q, p = p1 ++ p2 /\ tree p1 = Val q /\ pmatch g' s q x.
