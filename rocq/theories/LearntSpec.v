(* Rulesets that a recipe learns, and what it means for a rule to be true. *)
From Coq Require Import NArith ZArith QArith Qcanon.
From Verif Require Import Base Lang LangProofs BV BVSpec NatDom Rational RationalSpec Halide HalideSpec DomainSpec Rule Ruleset Workload Egraph Synth Infer OpsSpec.

(* Rulesets made by runs of inference.  [start] is what is asked of the rules a run
   starts from, apart from having no key twice; they need not be true.  A recipe
   also joins rulesets and drops rules (partition, remove_all, select). *)
Inductive learnt {O C} (L : lang O C) (start : ruleset O -> Prop) : ruleset O -> Prop :=
  | Lt_none : learnt L start []
  | Lt_workload keep fuel w prior fast allow_empty new : NoDup (map fst prior) -> start prior ->
      run_workload_internal L keep fuel w prior fast allow_empty new -> learnt L start new
  | Lt_forwarding keep fuel exploratory w prior new : NoDup (map fst prior) -> start prior -> start exploratory ->
      run_fast_forwarding L keep fuel exploratory w prior new -> learnt L start new
  | Lt_recursive keep fuel met l prior n all : learnt L start prior -> recursive_rules L keep fuel met l prior n all -> learnt L start all
  | Lt_extend a b : learnt L start a -> learnt L start b -> learnt L start (extend a b)
  | Lt_part a b : learnt L start b -> incl a b -> NoDup (map fst a) -> learnt L start a.

(* Whatever is learned has no key twice, can start another run, and can be saved
   and loaded. *)
Definition ready {O C} (L : lang O C) : Prop := forall rs, learnt L (read_rules L) rs -> NoDup (map fst rs) /\ read_rules L rs /\ reloads L rs.
(* Both sides, with the variables of the pattern read as variables of the language,
   have the same value for all values of the variables. *)
Definition identity {O A} (mk_var : string -> O) (in_range : A -> Prop) (den : (string -> A) -> term O -> res A) (r : rule O) : Prop :=
  exists tl tr, tree (instantiate mk_var (rlhs r)) = Val tl /\ tree (instantiate mk_var (rrhs r)) = Val tr /\
    forall env, (forall s, in_range (env s)) -> exists v, den env tl = Val v /\ den env tr = Val v.
(* Rational terms have no value where they divide by zero: where both sides have
   values these agree, and unless the condition of an [if] divides, a side has a
   value exactly where the other has. *)
Definition rational_identity (r : rule math_op) : Prop :=
  exists tl tr, tree (instantiate MVar (rlhs r)) = Val tl /\ tree (instantiate MVar (rrhs r)) = Val tr /\
    (forall env p q, math_den env tl = Val (Some p) -> math_den env tr = Val (Some q) -> p = q) /\
    (safe_ifs tl -> safe_ifs tr -> forall env, math_den env tl = Val None <-> math_den env tr = Val None).
(* no conditionals, and the same variables on both sides *)
Definition strict_rule (r : rule math_op) : Prop := forall tl tr, tree (instantiate MVar (rlhs r)) = Val tl -> tree (instantiate MVar (rrhs r)) = Val tr ->
  tall (fun o => o <> MIf) tl /\ tall (fun o => o <> MIf) tr /\ forall v, In v (tvars math_to_var tl) <-> In v (tvars math_to_var tr).
(* A rule without variables of the language that is an identity. *)
Definition true_rule {O C A} (L : lang O C) (mk_var : string -> O) (in_range : A -> Prop) (den : (string -> A) -> term O -> res A) (r : rule O) : Prop :=
  (forall n o, In n (rlhs r) -> nop n = EN o -> l_to_var L o = None) /\ (forall n o, In n (rrhs r) -> nop n = EN o -> l_to_var L o = None) /\
  identity mk_var in_range den r.
