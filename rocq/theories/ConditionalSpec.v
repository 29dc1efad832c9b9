(* Reference notions for conditional rules of the rational domain. *)
From Coq Require Import QArith Qcanon.
From Verif Require Import Base Lang LangProofs Syntax Rule Ruleset Rational RationalSpec RuleSpec.
From Verif Require Egraph Synth Sched SynthSpec Minimize MinimizeSpec.
Open Scope list_scope.

(* the term [d] divides somewhere inside the other term *)
Inductive denominator (d : term (eov math_op)) : term (eov math_op) -> Prop :=
  | Dn_here x : denominator d (T (EN MDiv) [x; d])
  | Dn_sub o ts t : In t ts -> denominator d t -> denominator d (T o ts).
(* ... in exactly one of two terms *)
Definition divides_one (tl tr d : term (eov math_op)) : Prop :=
  (denominator d tl /\ ~ denominator d tr) \/ (denominator d tr /\ ~ denominator d tl).
(* it is the only one *)
Definition only_one_sided (tl tr d : term (eov math_op)) : Prop :=
  divides_one tl tr d /\ forall e, divides_one tl tr e -> e = d.

(* the value of a pattern; None where it divides by zero *)
Definition pat_value (env : string -> Qc) (t : term (eov math_op)) : res (option Qc) := math_den env (inst_term MVar t).
(* the two terms agree where both have values *)
Definition agree (tl tr : term (eov math_op)) : Prop :=
  forall env p q, pat_value env tl = Val (Some p) -> pat_value env tr = Val (Some q) -> p = q.
(* no conditional occurs in the term *)
Definition unconditional (t : term (eov math_op)) : Prop := tall (fun o => o <> EN MIf) t.
(* the guarded right-hand side: (if d rhs lhs) *)
Definition guarded (d tl tr : term (eov math_op)) : term (eov math_op) := T (EN MIf) [d; tr; tl].
(* the solver refutes every formula that is false for all rationals *)
Definition real_complete (check : zbool -> sat_result) : Prop :=
  forall f, (forall div0 env, fden div0 env f = false) -> check f = Unsat.

(* [x] is [r] with its right-hand side guarded *)
Definition conditional_of (r x : rule math_op) : Prop := exists tl tr d, tree (rlhs r) = Val tl /\ tree (rrhs r) = Val tr /\ only_one_sided tl tr d /\
  rlhs x = rlhs r /\ tree (rrhs x) = Val (guarded d tl tr).
(* the same rule up to its name and its direction *)
Definition same_sides (x y : rule math_op) : Prop := (rlhs x = rlhs y /\ rrhs x = rrhs y) \/ (rlhs x = rrhs y /\ rrhs x = rlhs y).
(* [x] is a candidate or a guarded candidate, in either direction *)
Definition comes_from (cands : ruleset math_op) (x : rule math_op) : Prop := exists p, In p cands /\
  (same_sides x (snd p) \/ exists r y, same_sides r (snd p) /\ conditional_of r y /\ same_sides x y).
(* running rules that are prior ones, or validated ones, with names among [keys],
   makes the two sides of [r] equal *)
Definition follows {O C} (L : Synth.lang O C) keep fuel (prior : ruleset O) (keys : list string) (r : rule O) : Prop :=
  exists st rules, SynthSpec.fair st /\ MinimizeSpec.merged_by L keep fuel st rules r /\
    forall e, In e rules -> In (fst e) keys /\ (In e prior \/ Minimize.is_valid L (snd e) = Val true).
