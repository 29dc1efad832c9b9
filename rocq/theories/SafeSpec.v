(* Rewriting with rules that are only safe from left to right: operators may be
   undefined at some values, and a rule may only be used on terms that are defined. *)
From Verif Require Import Base Lang Rule Ruleset Analysis Egraph EgraphSpec Synth SynthSpec.
Open Scope list_scope.

(* ---- algebras whose operators may leave the values that count ---- *)
Section Algebra.
  Context {O C V : Type}.
  Variable L : lang O C.
  Variable A : algebra O C V.

  (* every node of an expression, of a pattern under an assignment, has a value that
     counts *)
  Definition rec_ok (r : recexpr O) : Prop :=
    forall ts, run_buf (fun o ts => Val (T o ts)) r [] = Val ts -> Forall (fun t => a_dom A (aval (a_sem A) t)) ts.
  Definition pat_ok (s : string -> V) (p : pat O) : Prop :=
    forall ts, run_buf (fun o ts => Val (T o ts)) p [] = Val ts -> Forall (fun t => a_dom A (paval (a_sem A) s t)) ts.
  Fixpoint sub_ok (s : string -> V) (t : term (eov O)) : Prop :=
    match t with
    | T (PV v) _ => a_dom A (s v)
    | T (EN o) ts => a_dom A (paval (a_sem A) s (T (EN o) ts)) /\ fold_right (fun t P => sub_ok s t /\ P) True ts
    end.

  (* as [interprets] in SynthSpec.v, without closure under the operators: what the
     language computes at compile time is true and has values that count *)
  Record steady : Prop := {
    st_itvs : forall o is i vs, Forall (a_dom A) vs -> a_dom A (a_sem A o vs) -> Forall2 (a_says A) is vs -> l_itv L o is = Val i -> a_says A i (a_sem A o vs);
    st_merge : forall v i j k, a_dom A v -> a_says A i v -> a_says A j v ->
      mk_itv (l_cleb L) (omax (l_cleb L) (low i) (low j)) (omin (l_cleb L) (high i) (high j)) = Val k -> a_says A k v;
    st_const : forall a b v, a_dom A v -> a_says A (Itv (Some a) (Some b)) v -> l_ceqb L a b = true ->
      rec_ok (l_const L a) /\ forall t, tree (l_const L a) = Val t -> aval (a_sem A) t = v;
    st_custom : forall val (g : eg O C) i ts, wf g -> i < size g -> (forall j, j < size g -> a_dom A (val j)) ->
      models (a_sem A) val g -> l_custom L g i = Val ts -> forall r, In r ts -> rec_ok r /\ forall t, tree r = Val t -> aval (a_sem A) t = val i }.
  (* what is added for the variables of a workload *)
  Definition starts : Prop :=
    forall vars n vs v c ts, l_init L vars = Val (n, vs) -> In (v, c, ts) vs -> a_dom A (a_sem A (l_mk_var L v) []) /\
      forall r, In r ts -> rec_ok r /\ forall t, tree r = Val t -> aval (a_sem A) t = a_sem A (l_mk_var L v) [].

  (* wherever the left-hand side counts, the right-hand side does, with the same value *)
  Definition safe (r : rule O) : Prop :=
    exists tl tr, tree (rlhs r) = Val tl /\ tree (rrhs r) = Val tr /\
      forall s, (forall v, a_dom A (s v)) -> guarded L A (rkind r) s -> sub_ok s tl -> pat_ok s (rrhs r) /\ paval (a_sem A) s tl = paval (a_sem A) s tr.
  Definition all_safe (rs : ruleset O) : Prop := Forall (fun e => safe (snd e)) rs.
End Algebra.

(* the e-graphs a user can get at with the rules [rs] from expressions like [P] *)
Inductive made_of {O C} (L : lang O C) (keep : eg O C -> nat -> nat -> bool) (P : recexpr O -> Prop) (rs : ruleset O) : eg O C -> Prop :=
  | Mo_new : made_of L keep P rs eg_default
  | Mo_workload fuel w ss es g : Workload.force w = Val ss -> rmapM (fun s => unwrap (Syntax.parse_rec (l_from_op L) (Sexp.display s))) ss = Val es -> Forall P es ->
      to_egraph L keep fuel w = Val g -> made_of L keep P rs g
  | Mo_add fuel g r g' i : made_of L keep P rs g -> P r -> s_add_expr L keep fuel g r = Val (g', i) -> made_of L keep P rs g'
  | Mo_run fuel st g g' : made_of L keep P rs g -> fair st -> Sched.scheduled L keep fuel st rs g g' -> made_of L keep P rs g'.
