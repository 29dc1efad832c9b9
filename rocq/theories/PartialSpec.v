(* Meanings in which operators have no value at some arguments (division by zero, the
   logarithm of a negative number), and what rewriting may do then. *)
From Verif Require Import Base Lang Rule RuleSpec Ruleset Analysis AnalysisSpec Egraph EgraphSpec Synth SynthSpec SafeSpec Workload TotalSpec LearnSpec OpsSpec Infer DomainSound.
Open Scope list_scope.

Section Partial.
  Context {O C V : Type}.
  Variable L : lang O C.
  (* [Panic]: no value *)
  Variable sem : O -> list V -> res V.
  (* the value of a term, if it has one *)
  Fixpoint value (env : string -> V) (t : term O) : res V :=
    match t with T o ts => match l_to_var L o with Some x => Val (env x) | None => let* vs := rmapM (value env) ts in sem o vs end end.
  (* the value of a pattern: [env] for its variables, [genv] for the variables of the
     language in it *)
  Fixpoint pvalue (genv env : string -> V) (t : term (eov O)) : res V :=
    match t with
    | T (PV x) _ => Val (env x)
    | T (EN o) ts => match l_to_var L o with Some x => Val (genv x) | None => let* vs := rmapM (pvalue genv env) ts in sem o vs end
    end.
  Definition defined {X} (r : res X) : Prop := exists v, r = Val v.
  (* all nodes of an expression have values *)
  Definition rec_defined (env : string -> V) (r : recexpr O) : Prop := defined (fold_rec (with_vars (l_to_var L) env sem) r).
  (* Wherever the left-hand side has a value, the right-hand side has the same value.
     Nothing is asked where the left-hand side has none. *)
  Definition safe_rule (r : rule O) : Prop :=
    exists tl tr, tree (rlhs r) = Val tl /\ tree (rrhs r) = Val tr /\
      forall genv env v, pvalue genv env tl = Val v -> pden (l_to_var L) sem genv env (rrhs r) = Val v.
  (* all terms of the workload have values *)
  Definition workload_defined (w : workload) (env : string -> V) : Prop :=
    forall ss ts, force w = Val ss -> Forall2 (reads L) ss ts -> Forall (fun t => defined (value env t)) ts.

  (* the meaning as an algebra in which "no value" is a value that does not count *)
  Variable says : interval C -> V -> Prop.
  Definition lifted : algebra O C (res V) :=
    Alg (fun o vs => let* xs := rmapM (fun v => v) vs in sem o xs) defined (fun i v => forall x, v = Val x -> says i x).
  Definition at_env (env : string -> V) : algebra O C (res V) := set_vars L lifted (fun x => Val (env x)).

  (* Rewriting with safe rules: from terms that have values at [env], all terms in a
     class have one value. *)
  Definition rewrites_safely (ok : (string -> V) -> Prop) : Prop :=
    forall keep rs g env, ok env -> Forall (fun e => safe_rule (snd e)) rs -> made_of L keep (rec_defined env) rs g ->
      forall t u c, repr g t c -> repr g u c -> exists v, value env t = Val v /\ value env u = Val v.
  (* Fast-forwarding with safe rules: a rule that is learned generalizes two terms
     without forbidden operators that have one value wherever all terms of the workload
     have values. *)
  Definition forwards_safely (ok : (string -> V) -> Prop) : Prop :=
    forall keep fuel exploratory w prior new, NoDup (map fst prior) -> read_rules L prior -> read_rules L exploratory ->
      Forall (fun e => safe_rule (snd e)) prior -> Forall (fun e => safe_rule (snd e)) exploratory ->
      run_fast_forwarding L keep fuel exploratory w prior new ->
      forall k r, In (k, r) new -> exists t1 t2, generalizes L r t1 t2 /\
        all_allowed (l_allowed L) t1 = true /\ all_allowed (l_allowed L) t2 = true /\
        forall env, ok env -> workload_defined w env -> exists v, value env t1 = Val v /\ value env t2 = Val v.
  (* Deriving with safe rules: the derived rule is true where both sides have values;
     if only the left-hand side was given, the derived rule is safe. *)
  Definition derives_safely : Prop :=
    forall keep fuel lhs_only iter rs r, Forall (fun e => safe_rule (snd e)) rs -> Sched.can_derive L keep fuel lhs_only iter rs r true ->
      exists tl tr, tree (rlhs r) = Val tl /\ tree (rrhs r) = Val tr /\
        (general L (rlhs r) -> general L (rrhs r) -> forall genv env v, pden (l_to_var L) sem genv env (rlhs r) = Val v ->
           (lhs_only = false -> defined (pden (l_to_var L) sem genv env (rrhs r))) -> pvalue genv env tr = Val v).
End Partial.
