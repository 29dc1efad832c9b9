(* Reference notions for the vectors of classes. *)
From Verif Require Import Base Lang Analysis MatchSpec Synth.
Open Scope list_scope.

(* one entry per sample, or no vector at all *)
Definition sized {C} (n : nat) (v : cvec C) : Prop := v = [] \/ length v = n.
(* [v] has an entry for each of [n] samples or none at all; when [e] is set no entry
   is missing *)
Definition shaped {C} (e : bool) (n : nat) (v : cvec C) : Prop := sized n v /\ (e = true -> everywhere v).
(* languages whose interpreter and initial vectors keep to this *)
Record vectors {O C} (L : lang O C) (e : bool) : Prop := {
  ve_eval : forall n o cs v, Forall (shaped e n) cs -> l_eval L n o cs = Val v -> shaped e n v;
  ve_init : forall vars n vs x v ts, l_init L vars = Val (n, vs) -> In (x, v, ts) vs -> shaped e n v }.
