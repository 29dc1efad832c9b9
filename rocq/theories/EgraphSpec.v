(* Reference notions for e-graphs, independent of how they are maintained. *)
From Verif Require Import Base Lang Egraph.
Open Scope list_scope.

Section Spec.
  Context {O D A : Type}.
  Local Notation egraph := (egraph O D A).

  (* two ids name the same class *)
  Definition eqv (g : egraph) (i j : nat) : Prop := exists r, find g i = Val r /\ find g j = Val r.
  (* class [c] has a node with operator [o] and children [ch], up to the names of
     classes *)
  Definition has (g : egraph) (o : O) (ch : list nat) (c : nat) : Prop :=
    exists n i, In (n, i) (g_nodes g) /\ nop n = o /\ Forall2 (eqv g) (nch n) ch /\ eqv g i c.
  (* ids below [size] are in use: each has a canonical id, data and a node, and
     nodes only mention ids in use; every class has a node over classes that are
     older *)
  Record wf (g : egraph) : Prop := {
    wf_rep : forall i r, find g i = Val r -> find g r = Val r;
    wf_data : length (g_data g) = size g;
    wf_nodes : forall n i, In (n, i) (g_nodes g) -> i < size g /\ Forall (fun c => c < size g) (nch n);
    wf_full : forall i, i < size g -> exists n, In (n, i) (g_nodes g);
    wf_founded : forall i, i < size g -> exists o ch, has g o ch i /\ Forall (fun c => c < i) ch }.

  (* class [c] represents the term *)
  Inductive repr (g : egraph) : term O -> nat -> Prop :=
    | Rp o ts ch c : Forall2 (repr g) ts ch -> has g o ch c -> repr g (T o ts) c.

  (* everything known in [g] is known in [g'], and ids keep their meaning *)
  Definition ext (g g' : egraph) : Prop :=
    size g <= size g' /\
    (forall i j, eqv g i j -> eqv g' i j) /\
    (forall o ch c, has g o ch c -> has g' o ch c).

  (* equal nodes are in equal classes *)
  Definition congruent (g : egraph) : Prop :=
    forall o ch c d, has g o ch c -> has g o ch d -> eqv g c d.

  (* an algebra for the operators gives every class the value [val] *)
  Definition models {V} (sem : O -> list V -> V) (val : nat -> V) (g : egraph) : Prop :=
    (forall i j, eqv g i j -> val i = val j) /\
    (forall n i, In (n, i) (g_nodes g) -> val i = sem (nop n) (map val (nch n))).
End Spec.

(* value of a term in an algebra *)
Fixpoint aval {O V} (sem : O -> list V -> V) (t : term O) : V :=
  match t with T o ts => sem o (map (aval sem) ts) end.
(* value of a pattern *)
Fixpoint paval {O V} (sem : O -> list V -> V) (s : string -> V) (t : term (eov O)) : V :=
  match t with
  | T (PV v) _ => s v
  | T (EN o) ts => sem o (map (paval sem s) ts)
  end.
