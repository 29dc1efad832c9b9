(* Reference notions for the variations of fast-forwarding. *)
From Coq Require Import NArith.
From Verif Require Import Base Sexp Lang LangProofs RuleSpec Rule Ruleset Analysis AnalysisSpec Egraph EgraphSpec Synth SynthSpec Sched Match MatchSpec Workload Minimize Infer TotalSpec OpsSpec DomainSpec SafeSpec PartialSpec ForwardSpec LearnSpec Phases.
Open Scope list_scope.

(* the rules that are run in the three phases *)
Definition run_rule {O} (p1 p2 p3 : phase O) (q : rule O) : Prop := rule_of (p_rules p1) q \/ rule_of (p_rules p2) q \/ rule_of (p_rules p3) q.
Definition fair_phases {O} (p1 p2 p3 : phase O) : Prop := fair (p_sched p1) /\ fair (p_sched p2) /\ fair (p_sched p3).

Section Variations.
  Context {O C : Type}.
  Variable L : lang O C.
  (* every variation learns consequences of the rules of its three phases, without
     forbidden operators and not among the rules it minimizes with; the row lists them *)
  Definition varies : Prop :=
    forall keep fuel w p1 p2 p3 m new row, fair_phases p1 p2 p3 ->
      read_rules L (p_rules p1) -> read_rules L (p_rules p2) -> read_rules L (p_rules p3) -> NoDup (map fst (p_rules m)) ->
      lifting_variation L keep fuel w p1 p2 p3 m new row ->
      f_rules row = map fst new /\ NoDup (map fst new) /\
      forall k r, In (k, r) new -> consequence L (run_rule p1 p2 p3) r /\ allowed_side L (rlhs r) /\ allowed_side L (rrhs r) /\ ~ In k (map fst (p_rules m)).
  (* What the rules of the first phase do not equate, and the e-graph of the last phase
     does, is proposed, between terms that are not larger. *)
  Definition varies_finds : Prop :=
    forall keep fuel w p1 p2 p3 m new row, fair_phases p1 p2 p3 ->
      read_rules L (p_rules p1) -> read_rules L (p_rules p2) -> read_rules L (p_rules p3) ->
      lifting_variation L keep fuel w p1 p2 p3 m new row ->
      let first := rule_of (p_rules p1) in
      let second q := rule_of (p_rules p1) q \/ rule_of (p_rules p2) q in
      exists g1 g2 g3 c1 c2 invalid,
        sound_for L first g1 /\ sound_for L second g2 /\ sound_for L (run_rule p1 p2 p3) g3 /\
        (forall ss ts, force w = Val ss -> Forall2 (reads L) ss ts -> Forall (fun t => exists c, repr g1 t c) ts) /\
        (forall t c, repr g1 t c -> repr g2 t c) /\ (forall t c, repr g2 t c -> repr g3 t c) /\
        proposes L g1 g2 c1 /\ proposes L g2 g3 c2 /\ minimize L keep fuel (p_sched m) (extend c1 c2) (p_rules m) new invalid /\
        (forall t1 t2 i j, repr g1 t1 i -> repr g1 t2 j -> eqv g3 i j -> all_allowed (l_allowed L) t1 = true -> all_allowed (l_allowed L) t2 = true ->
          (tsize t1 < usize_max)%N -> (tsize t2 < usize_max)%N -> ~ equal_under L first t1 t2 ->
          exists e1 e2 u1 u2, tree e1 = Val u1 /\ tree e2 = Val u2 /\ equal_under L second u1 t1 /\ equal_under L second u2 t2 /\
            (tcost (l_allowed L) u1 <= tsize t1)%N /\ (tcost (l_allowed L) u2 <= tsize t2)%N /\
            forall k, named L e1 e2 k -> In k (map fst c1) \/ In k (map fst c2)).
  (* With safe rules (PartialSpec.v): a rule that is learned generalizes two terms
     without forbidden operators that have one value wherever all terms of the workload
     have values. *)
  Definition varies_safely {V} (sem : O -> list V -> res V) (ok : (string -> V) -> Prop) : Prop :=
    forall keep fuel w p1 p2 p3 m new row, fair_phases p1 p2 p3 ->
      read_rules L (p_rules p1) -> read_rules L (p_rules p2) -> read_rules L (p_rules p3) -> NoDup (map fst (p_rules m)) ->
      (forall q, run_rule p1 p2 p3 q -> safe_rule L sem q) ->
      lifting_variation L keep fuel w p1 p2 p3 m new row ->
      forall k r, In (k, r) new -> exists t1 t2, generalizes L r t1 t2 /\
        all_allowed (l_allowed L) t1 = true /\ all_allowed (l_allowed L) t2 = true /\
        forall env, ok env -> workload_defined L sem w env -> exists v, value L sem env t1 = Val v /\ value L sem env t2 = Val v.
End Variations.
