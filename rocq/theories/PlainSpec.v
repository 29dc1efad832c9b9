(* Reference notions for e-graphs made from workloads. *)
From Verif Require Import Base Lang Analysis Egraph EgraphSpec Synth.
Open Scope list_scope.

(* variables: written and read alike; their value comes from initialize_vars (which
   makes the variables it is given, or none) and from nowhere else *)
Record plain_vars {O C} (L : lang O C) : Prop := {
  pv_var : forall s, l_to_var L (l_mk_var L s) = Some s;
  pv_only : forall o s, l_to_var L o = Some s -> o = l_mk_var L s;
  pv_eval : forall n o s cs v, l_to_var L o = Some s -> l_eval L n o cs = Val v -> v = [];
  pv_init : forall vars n vs, l_init L vars = Val (n, vs) -> vs = [] \/ map (fun e => fst (fst e)) vs = vars }.

(* the elements in order of their first occurrence *)
Fixpoint first_seen (l : list string) : list string :=
  match l with
  | [] => []
  | x :: r => x :: List.filter (fun y => negb (String.eqb x y)) (first_seen r)
  end.
