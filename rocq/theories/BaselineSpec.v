(* The rules of the files in baseline/ that are not true, as lines of these files. *)
From Coq Require Import ZArith NArith QArith Qcanon.
From Verif Require Import Base Lang LangProofs Lines Rule Ruleset BV BVSpec Rational RationalSpec Halide HalideSpec Egraph Synth SynthSpec Report LearntSpec.
Open Scope string_scope.
Open Scope list_scope.

(* baseline/halide.rules: true of 0 and 1 only *)
Definition halide_truth_values : list string :=
  ["(! (! ?x)) ==> ?x"; "(select ?x ?y 0) ==> (&& ?x ?y)"; "(select ?x ?y 1) ==> (|| (! ?x) ?y)";
   "(select ?x 0 ?y) ==> (&& (! ?x) ?y)"; "(select ?x 1 ?y) ==> (|| ?x ?y)"; "(== ?x 1) ==> ?x"].
(* baseline/halide.rules: false when the divisor is 0 *)
Definition halide_divisors : list string :=
  ["(/ ?x ?x) ==> 1";
   "(/ (- (* ?x ?c0) ?y) ?c0) ==> (+ ?x (/ (- 0 ?y) ?c0))";
   "(/ (- (- (* ?x ?c0) ?y) ?z) ?c0) ==> (+ ?x (/ (- (- 0 ?y) ?z) ?c0))";
   "(/ (+ ?x ?y) ?x) ==> (+ (/ ?y ?x) 1)"; "(/ (+ ?y ?x) ?x) ==> (+ (/ ?y ?x) 1)";
   "(/ (- ?x ?y) ?x) ==> (+ (/ (- ?y) ?x) 1)"; "(/ (- ?y ?x) ?x) ==> (- (/ ?y ?x) 1)";
   "(/ (+ (+ ?x ?y) ?z) ?x) ==> (+ (/ (+ ?y ?z) ?x) 1)"; "(/ (+ (+ ?y ?x) ?z) ?x) ==> (+ (/ (+ ?y ?z) ?x) 1)";
   "(/ (+ ?z (+ ?x ?y)) ?x) ==> (+ (/ (+ ?z ?y) ?x) 1)"; "(/ (+ ?z (+ ?y ?x)) ?x) ==> (+ (/ (+ ?z ?y) ?x) 1)";
   "(/ (* ?x ?y) ?x) ==> ?y"; "(/ (* ?y ?x) ?x) ==> ?y";
   "(/ (+ (* ?x ?y) ?z) ?x) ==> (+ ?y (/ ?z ?x))"; "(/ (+ (* ?y ?x) ?z) ?x) ==> (+ ?y (/ ?z ?x))";
   "(/ (+ ?z (* ?x ?y)) ?x) ==> (+ (/ ?z ?x) ?y)"; "(/ (+ ?z (* ?y ?x)) ?x) ==> (+ (/ ?z ?x) ?y)";
   "(/ (- (* ?x ?y) ?z) ?x) ==> (+ ?y (/ (- ?z) ?x))"; "(/ (- (* ?y ?x) ?z) ?x) ==> (+ ?y (/ (- ?z) ?x))";
   "(/ (- ?z (* ?x ?y)) ?x) ==> (- (/ ?z ?x) ?y)"; "(/ (- ?z (* ?y ?x)) ?x) ==> (- (/ ?z ?x) ?y)"].
Definition halide_wrong : list string := halide_truth_values ++ halide_divisors.
(* baseline/bv4.rules: not true of bit-vectors of more than four bits *)
Definition bv4_narrow : list string :=
  ["(<< (<< ?a ?a) ?a) ==> (<< (+ ?a ?a) ?a)"; "(<< (+ ?a ?a) ?a) ==> (<< (<< ?a ?a) ?a)"].
(* baseline/rational.rules and baseline/herbie-rational.rules: one side divides by
   zero where the other does not *)
Definition rational_undefined : list string :=
  ["(* ?a ?b) ==> (* ?a (* ?b (/ ?a ?a)))"; "(* ?a (* ?b (/ ?a ?a))) ==> (* ?a ?b)";
   "(/ (* ?a ?b) (/ ?a ?a)) ==> (* ?a ?b)"; "(* ?a ?b) ==> (/ (* ?a ?b) (/ ?a ?a))";
   "(* ?a (* ?b (/ 0 ?a))) ==> 0"; "(* ?a (/ 0 ?a)) ==> 0"].
Definition herbie_undefined : list string :=
  ["(/ ?a ?b) ==> (/ 1 (/ ?b ?a))"; "(/ ?a ?a) ==> 1"; "(/ 0 ?a) ==> 0"; "(/ 1 (/ 1 ?a)) ==> ?a";
   "(* ?a (/ 1 ?a)) ==> 1"; "(* (/ 1 ?a) ?a) ==> 1";
   "(+ ?a ?b) ==> (/ (- (* ?a ?a) (* ?b ?b)) (- ?a ?b))"; "(- ?a ?b) ==> (/ (- (* ?a ?a) (* ?b ?b)) (+ ?a ?b))";
   "(/ (* ?a ?b) ?c) ==> (/ ?a (/ ?c ?b))"; "(/ ?a (/ ?b ?c)) ==> (* (/ ?a ?b) ?c)"].

(* a text with one rule in each line: it loads, and gives these rules under the
   names the lines have *)
Definition loads {O} (from_op : string -> nat -> option O) (name : O -> string) (ls : list string) (rs : ruleset O) : Prop :=
  rs_from_file from_op name (unlines ls) = Val rs /\ map fst rs = ls /\ forall k r, In (k, r) rs -> rname r = k.

(* values under which the exceptions in halide.rules are true *)
Definition is_truth (z : Z) : Prop := z = 0%Z \/ z = 1%Z.
Definition nonzero_value (z : Z) : Prop := z <> 0%Z.

(* rational rules: where both sides have a value it is the same *)
Definition rational_values (r : rule math_op) : Prop :=
  exists tl tr, tree (instantiate MVar (rlhs r)) = Val tl /\ tree (instantiate MVar (rrhs r)) = Val tr /\
    forall env p q, math_den env tl = Val (Some p) -> math_den env tr = Val (Some q) -> p = q.

(* some values of the variables tell the two sides apart *)
Definition differs {O A B} (mk_var : string -> O) (in_range : A -> Prop) (den : (string -> A) -> term O -> res B) (r : rule O) : Prop :=
  exists tl tr env v v', tree (instantiate mk_var (rlhs r)) = Val tl /\ tree (instantiate mk_var (rrhs r)) = Val tr /\
    (forall s, in_range (env s)) /\ den env tl = Val v /\ den env tr = Val v' /\ v <> v'.

(* Every derivability report puts the rules named in [wrong] among those that the
   ruleset cannot derive. *)
Definition never_derived {O C} (L : lang O C) (wrong : list string) (rs against : ruleset O) : Prop :=
  forall keep fuel lhs_only can cannot, get_derivability L keep fuel lhs_only rs against (can, cannot) ->
  forall s, In s wrong -> ~ In s can /\ In s cannot.
(* All the rules hold: then the language has one value only. *)
Definition one_value {O C} (L : lang O C) (rs : ruleset O) : Prop :=
  forall V (A : algebra O C V), interprets L A -> all_hold L A rs -> forall x y, a_dom A x -> a_dom A y -> x = y.
