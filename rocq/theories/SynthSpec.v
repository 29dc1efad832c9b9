(* What it means for an algebra to interpret a language and satisfy its rules. *)
From Coq Require Import Permutation.
From Verif Require Import Base Lang Rule Ruleset Analysis Egraph EgraphSpec Synth Sched.
Open Scope list_scope.

(* operators on values; the values that count; what an interval says about a value *)
Record algebra (O C V : Type) : Type := Alg {
  a_sem : O -> list V -> V; a_dom : V -> Prop; a_says : interval C -> V -> Prop }.
Arguments Alg {O C V} a_sem a_dom a_says.
Arguments a_sem {O C V} a.
Arguments a_dom {O C V} a.
Arguments a_says {O C V} a.

Section Algebra.
  Context {O C V : Type}.
  Variable L : lang O C.
  Variable A : algebra O C V.

  (* the algebra agrees with what the language computes at compile time: intervals
     and their intersections, constants, custom_modify and initialize_vars *)
  Record interprets : Prop := {
    in_dom : forall o vs, Forall (a_dom A) vs -> a_dom A (a_sem A o vs);
    in_itvs : forall o is i vs, Forall (a_dom A) vs -> Forall2 (a_says A) is vs -> l_itv L o is = Val i -> a_says A i (a_sem A o vs);
    in_merge : forall v i j k, a_dom A v -> a_says A i v -> a_says A j v ->
      mk_itv (l_cleb L) (omax (l_cleb L) (low i) (low j)) (omin (l_cleb L) (high i) (high j)) = Val k -> a_says A k v;
    in_const : forall a b v t, a_dom A v -> a_says A (Itv (Some a) (Some b)) v -> l_ceqb L a b = true ->
      tree (l_const L a) = Val t -> aval (a_sem A) t = v;
    in_custom : forall val (g : eg O C) i ts, wf g -> i < size g -> (forall j, j < size g -> a_dom A (val j)) ->
      models (a_sem A) val g -> l_custom L g i = Val ts -> forall r t, In r ts -> tree r = Val t -> aval (a_sem A) t = val i;
    in_init : forall vars n vs v c ts r t, l_init L vars = Val (n, vs) -> In (v, c, ts) vs -> In r ts -> tree r = Val t ->
      aval (a_sem A) t = a_sem A (l_mk_var L v) [] }.

  (* the guard of a rule, read in the algebra *)
  Definition guarded (k : kind) (s : string -> V) : Prop :=
    match k with
    | KGuard v => exists o args, l_allowed L o = true /\ Forall (a_dom A) args /\ s v = a_sem A o args
    | _ => True
    end.
  (* the two sides have the same value whatever the variables are *)
  Definition holds (r : rule O) : Prop :=
    exists tl tr, tree (rlhs r) = Val tl /\ tree (rrhs r) = Val tr /\
      forall s, (forall v, a_dom A (s v)) -> guarded (rkind r) s -> paval (a_sem A) s tl = paval (a_sem A) s tr.
  Definition all_hold (rs : ruleset O) : Prop := Forall (fun e => holds (snd e)) rs.
End Algebra.

(* no variable of the language inside a pattern *)
Fixpoint closed {O C} (L : lang O C) (t : term (eov O)) : Prop :=
  match t with
  | T (PV _) _ => True
  | T (EN o) ts => l_to_var L o = None /\ fold_right (fun t P => closed L t /\ P) True ts
  end.

(* the same algebra with other values for the variables of the language *)
Definition set_vars {O C V} (L : lang O C) (A : algebra O C V) (env : string -> V) : algebra O C V :=
  Alg (fun o vs => match l_to_var L o with Some x => env x | None => a_sem A o vs end) (a_dom A) (a_says A).

(* the order in which Compress looks at its groups is some order *)
Definition fair (st : strategy) : Prop :=
  match st with Compress order => forall l, Permutation l (order l) | _ => True end.

(* the e-graphs a user can get at with the rules [rs] *)
Inductive made {O C} (L : lang O C) (keep : eg O C -> nat -> nat -> bool) (rs : ruleset O) : eg O C -> Prop :=
  | M_new : made L keep rs eg_default
  | M_workload fuel w g : to_egraph L keep fuel w = Val g -> made L keep rs g
  | M_add fuel g r g' i : made L keep rs g -> s_add_expr L keep fuel g r = Val (g', i) -> made L keep rs g'
  | M_run fuel st g g' : made L keep rs g -> fair st -> scheduled L keep fuel st rs g g' -> made L keep rs g'.
