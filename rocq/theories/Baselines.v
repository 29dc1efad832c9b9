(* The rule files in baseline/, with which the derivability reports compare the
   learned rules (tests/bool.rs:292, tests/bv4.rs:31 and 38, tests/bv32.rs:109,
   tests/halide.rs:317-318, tests/rational.rs:803-804): the lines of each file, in
   order.  Ruleset::from_file is rs_from_file in Ruleset.v. *)
From Verif Require Import Base.
Open Scope string_scope.
Open Scope list_scope.

(* baseline/bool.rules:1-51 *)
Definition bool_baseline : list string :=
  ["(& ?a (& ?b ?c)) ==> (& ?c (& ?a ?b))";
   "(& ?c (& ?a ?b)) ==> (& ?a (& ?b ?c))";
   "(| ?a (| ?b ?c)) ==> (| ?c (| ?a ?b))";
   "(| ?c (| ?a ?b)) ==> (| ?a (| ?b ?c))";
   "(^ ?a (^ ?b ?c)) ==> (^ (^ ?c ?a) ?b)";
   "(^ (^ ?c ?a) ?b) ==> (^ ?a (^ ?b ?c))";
   "(| ?a (& ?b ?c)) ==> (& (| ?a ?b) (| ?a ?c))";
   "(& (| ?a ?b) (| ?a ?c)) ==> (| ?a (& ?b ?c))";
   "(| (& ?a ?b) (& ?b ?c)) ==> (& ?b (| ?a ?c))";
   "(& ?b (| ?a ?c)) ==> (| (& ?a ?b) (& ?b ?c))";
   "(| ?a (^ ?b ?c)) ==> (| ?a (^ ?c (| ?a ?b)))";
   "(| ?a (^ ?c (| ?a ?b))) ==> (| ?a (^ ?b ?c))";
   "(^ (& ?a ?b) (& ?b ?c)) ==> (& ?b (^ ?a ?c))";
   "(& ?b (^ ?a ?c)) ==> (^ (& ?a ?b) (& ?b ?c))";
   "(& ?a (^ ?b ?c)) ==> (& ?a (^ ?b (& ?c ?a)))";
   "(& ?a (^ ?b (& ?c ?a))) ==> (& ?a (^ ?b ?c))";
   "(^ (| ?a ?b) (| ?a ?c)) ==> (& (~ ?a) (^ ?b ?c))";
   "(& (~ ?a) (^ ?b ?c)) ==> (^ (| ?a ?b) (| ?a ?c))";
   "(^ ?a (| ?b (^ ?a ?c))) ==> (^ (& ?a ?b) (| ?b ?c))";
   "(^ (& ?a ?b) (| ?b ?c)) ==> (^ ?a (| ?b (^ ?a ?c)))";
   "(^ ?a ?b) ==> (^ ?b ?a)";
   "(^ ?b ?a) ==> (^ ?a ?b)";
   "(& ?a ?b) ==> (& ?b ?a)";
   "(& ?b ?a) ==> (& ?a ?b)";
   "(| ?a ?b) ==> (| ?b ?a)";
   "(| ?b ?a) ==> (| ?a ?b)";
   "(~ (^ ?a ?b)) ==> (^ ?b (~ ?a))";
   "(^ ?b (~ ?a)) ==> (~ (^ ?a ?b))";
   "(^ ?a (^ ?a ?b)) ==> ?b";
   "(& ?a (| ?a ?b)) ==> ?a";
   "(| ?a (& ?a ?b)) ==> ?a";
   "(| ?a (^ ?b ?b)) ==> ?a";
   "(& ?a (^ ?b ?b)) ==> (^ ?a ?a)";
   "(| ?a ?b) ==> (| ?b (^ ?a ?b))";
   "(| ?b (^ ?a ?b)) ==> (| ?a ?b)";
   "(~ (& ?a ?b)) ==> (| (~ ?b) (~ ?a))";
   "(| (~ ?b) (~ ?a)) ==> (~ (& ?a ?b))";
   "(& ?a (~ ?b)) ==> (& ?a (^ ?a ?b))";
   "(& ?a (^ ?a ?b)) ==> (& ?a (~ ?b))";
   "(^ ?a (& ?a ?b)) ==> (& ?a (~ ?b))";
   "(& ?a (~ ?b)) ==> (^ ?a (& ?a ?b))";
   "(^ ?a (| ?a ?b)) ==> (& ?b (~ ?a))";
   "(& ?b (~ ?a)) ==> (^ ?a (| ?a ?b))";
   "?a ==> (~ (~ ?a))";
   "(~ (~ ?a)) ==> ?a";
   "?a ==> (| ?a ?a)";
   "(| ?a ?a) ==> ?a";
   "?a ==> (& ?a ?a)";
   "(& ?a ?a) ==> ?a";
   "(| ?a (~ ?a)) ==> (^ ?a (~ ?a))";
   "(^ ?a (~ ?a)) ==> (| ?a (~ ?a))"].
(* baseline/bv4.rules:1-84 *)
Definition bv4_baseline : list string :=
  ["(+ ?a (+ ?b ?c)) ==> (+ ?b (+ ?a ?c))";
   "(+ ?b (+ ?a ?c)) ==> (+ ?a (+ ?b ?c))";
   "(<< (<< ?a ?b) ?c) ==> (<< (<< ?a ?c) ?b)";
   "(<< (<< ?a ?c) ?b) ==> (<< (<< ?a ?b) ?c)";
   "(& ?a (& ?b ?c)) ==> (& ?c (& ?a ?b))";
   "(& ?c (& ?a ?b)) ==> (& ?a (& ?b ?c))";
   "(* ?a (* ?b ?c)) ==> (* ?c (* ?a ?b))";
   "(* ?c (* ?a ?b)) ==> (* ?a (* ?b ?c))";
   "(| ?a (| ?b ?c)) ==> (| ?c (| ?a ?b))";
   "(| ?c (| ?a ?b)) ==> (| ?a (| ?b ?c))";
   "(-- (-- ?a ?b) ?c) ==> (-- (-- ?a ?c) ?b)";
   "(-- (-- ?a ?c) ?b) ==> (-- (-- ?a ?b) ?c)";
   "(>> (>> ?a ?b) ?c) ==> (>> (>> ?a ?c) ?b)";
   "(>> (>> ?a ?c) ?b) ==> (>> (>> ?a ?b) ?c)";
   "(-- ?a (-- ?b ?c)) ==> (-- ?c (-- ?b ?a))";
   "(-- ?c (-- ?b ?a)) ==> (-- ?a (-- ?b ?c))";
   "(<< (* ?a ?b) ?c) ==> (* ?a (<< ?b ?c))";
   "(* ?a (<< ?b ?c)) ==> (<< (* ?a ?b) ?c)";
   "(-- (+ ?a ?b) ?c) ==> (+ ?b (-- ?a ?c))";
   "(+ ?b (-- ?a ?c)) ==> (-- (+ ?a ?b) ?c)";
   "(-- ?a (-- ?b ?c)) ==> (+ ?a (-- ?c ?b))";
   "(+ ?a (-- ?c ?b)) ==> (-- ?a (-- ?b ?c))";
   "(* ?a (<< ?b ?c)) ==> (* ?b (<< ?a ?c))";
   "(* ?b (<< ?a ?c)) ==> (* ?a (<< ?b ?c))";
   "(-- ?a (+ ?b ?c)) ==> (-- (-- ?a ?b) ?c)";
   "(-- (-- ?a ?b) ?c) ==> (-- ?a (+ ?b ?c))";
   "(& ?a ?b) ==> (& ?b ?a)";
   "(& ?b ?a) ==> (& ?a ?b)";
   "(| ?a ?b) ==> (| ?b ?a)";
   "(| ?b ?a) ==> (| ?a ?b)";
   "(+ ?a ?b) ==> (+ ?b ?a)";
   "(+ ?b ?a) ==> (+ ?a ?b)";
   "(* ?a ?b) ==> (* ?b ?a)";
   "(* ?b ?a) ==> (* ?a ?b)";
   "(-- ?a ?b) ==> (- (-- ?b ?a))";
   "(- (-- ?b ?a)) ==> (-- ?a ?b)";
   "(-- ?a (- ?b)) ==> (+ ?a ?b)";
   "(+ ?a ?b) ==> (-- ?a (- ?b))";
   "(-- ?a ?b) ==> (+ ?a (- ?b))";
   "(+ ?a (- ?b)) ==> (-- ?a ?b)";
   "(<< (- ?a) ?b) ==> (- (<< ?a ?b))";
   "(- (<< ?a ?b)) ==> (<< (- ?a) ?b)";
   "(- (* ?a ?b)) ==> (* ?b (- ?a))";
   "(* ?b (- ?a)) ==> (- (* ?a ?b))";
   "(-- ?a (~ ?b)) ==> (-- ?b (~ ?a))";
   "(-- ?b (~ ?a)) ==> (-- ?a (~ ?b))";
   "(~ (-- ?a ?b)) ==> (+ ?b (~ ?a))";
   "(+ ?b (~ ?a)) ==> (~ (-- ?a ?b))";
   "(>> ?a (-- ?b ?b)) ==> ?a";
   "(<< ?a (-- ?b ?b)) ==> ?a";
   "(| ?a (-- ?b ?b)) ==> ?a";
   "(+ ?a (-- ?b ?a)) ==> ?b";
   "(| ?a (& ?a ?b)) ==> ?a";
   "(& ?a (| ?a ?b)) ==> ?a";
   "(-- ?a (+ ?a ?b)) ==> (- ?b)";
   "(>> (-- ?a ?a) ?b) ==> (-- ?a ?a)";
   "(<< (-- ?a ?a) ?b) ==> (-- ?b ?b)";
   "(& ?a (-- ?b ?b)) ==> (-- ?a ?a)";
   "(* ?a (-- ?b ?b)) ==> (-- ?a ?a)";
   "(>> ?a ?b) ==> (>> (| ?a ?b) ?b)";
   "(>> (| ?a ?b) ?b) ==> (>> ?a ?b)";
   "(>> (& ?a ?b) ?b) ==> (-- ?a ?a)";
   "(>> ?a (| ?a ?b)) ==> (-- ?b ?b)";
   "(& ?a (<< ?b ?a)) ==> (-- ?b ?b)";
   "(-- ?a (& ?a ?b)) ==> (& ?a (~ ?b))";
   "(& ?a (~ ?b)) ==> (-- ?a (& ?a ?b))";
   "(-- (| ?a ?b) ?a) ==> (& ?b (~ ?a))";
   "(& ?b (~ ?a)) ==> (-- (| ?a ?b) ?a)";
   "(* ?a (+ ?b ?b)) ==> (* ?b (+ ?a ?a))";
   "(* ?b (+ ?a ?a)) ==> (* ?a (+ ?b ?b))";
   "(| ?a (<< ?b ?a)) ==> (+ ?a (<< ?b ?a))";
   "(+ ?a (<< ?b ?a)) ==> (| ?a (<< ?b ?a))";
   "?a ==> (~ (~ ?a))";
   "(~ (~ ?a)) ==> ?a";
   "?a ==> (& ?a ?a)";
   "(& ?a ?a) ==> ?a";
   "?a ==> (| ?a ?a)";
   "(| ?a ?a) ==> ?a";
   "(>> ?a ?a) ==> (-- ?a ?a)";
   "(-- ?a ?a) ==> (>> ?a ?a)";
   "(| ?a (~ ?a)) ==> (+ ?a (~ ?a))";
   "(+ ?a (~ ?a)) ==> (| ?a (~ ?a))";
   "(<< (<< ?a ?a) ?a) ==> (<< (+ ?a ?a) ?a)";
   "(<< (+ ?a ?a) ?a) ==> (<< (<< ?a ?a) ?a)"].
(* baseline/bv32.rules:1-78 *)
Definition bv32_baseline : list string :=
  ["(+ ?a (+ ?b ?c)) ==> (+ ?b (+ ?a ?c))";
   "(+ ?b (+ ?a ?c)) ==> (+ ?a (+ ?b ?c))";
   "(<< (<< ?a ?b) ?c) ==> (<< (<< ?a ?c) ?b)";
   "(<< (<< ?a ?c) ?b) ==> (<< (<< ?a ?b) ?c)";
   "(& ?a (& ?b ?c)) ==> (& ?c (& ?a ?b))";
   "(& ?c (& ?a ?b)) ==> (& ?a (& ?b ?c))";
   "(* ?a (* ?b ?c)) ==> (* ?c (* ?a ?b))";
   "(* ?c (* ?a ?b)) ==> (* ?a (* ?b ?c))";
   "(| ?a (| ?b ?c)) ==> (| ?c (| ?a ?b))";
   "(| ?c (| ?a ?b)) ==> (| ?a (| ?b ?c))";
   "(-- (-- ?a ?b) ?c) ==> (-- (-- ?a ?c) ?b)";
   "(-- (-- ?a ?c) ?b) ==> (-- (-- ?a ?b) ?c)";
   "(>> (>> ?a ?b) ?c) ==> (>> (>> ?a ?c) ?b)";
   "(>> (>> ?a ?c) ?b) ==> (>> (>> ?a ?b) ?c)";
   "(-- ?a (-- ?b ?c)) ==> (-- ?c (-- ?b ?a))";
   "(-- ?c (-- ?b ?a)) ==> (-- ?a (-- ?b ?c))";
   "(-- (+ ?a ?b) ?c) ==> (+ ?b (-- ?a ?c))";
   "(+ ?b (-- ?a ?c)) ==> (-- (+ ?a ?b) ?c)";
   "(-- ?a (-- ?b ?c)) ==> (+ ?c (-- ?a ?b))";
   "(+ ?c (-- ?a ?b)) ==> (-- ?a (-- ?b ?c))";
   "(-- ?a (+ ?b ?c)) ==> (-- (-- ?a ?b) ?c)";
   "(-- (-- ?a ?b) ?c) ==> (-- ?a (+ ?b ?c))";
   "(& ?a ?b) ==> (& ?b ?a)";
   "(& ?b ?a) ==> (& ?a ?b)";
   "(| ?a ?b) ==> (| ?b ?a)";
   "(| ?b ?a) ==> (| ?a ?b)";
   "(+ ?a ?b) ==> (+ ?b ?a)";
   "(+ ?b ?a) ==> (+ ?a ?b)";
   "(* ?a ?b) ==> (* ?b ?a)";
   "(* ?b ?a) ==> (* ?a ?b)";
   "(-- ?a ?b) ==> (- (-- ?b ?a))";
   "(- (-- ?b ?a)) ==> (-- ?a ?b)";
   "(-- ?a (- ?b)) ==> (+ ?a ?b)";
   "(+ ?a ?b) ==> (-- ?a (- ?b))";
   "(-- ?a ?b) ==> (+ ?a (- ?b))";
   "(+ ?a (- ?b)) ==> (-- ?a ?b)";
   "(<< (- ?a) ?b) ==> (- (<< ?a ?b))";
   "(- (<< ?a ?b)) ==> (<< (- ?a) ?b)";
   "(- (* ?a ?b)) ==> (* ?b (- ?a))";
   "(* ?b (- ?a)) ==> (- (* ?a ?b))";
   "(-- ?a (~ ?b)) ==> (-- ?b (~ ?a))";
   "(-- ?b (~ ?a)) ==> (-- ?a (~ ?b))";
   "(~ (-- ?a ?b)) ==> (+ ?b (~ ?a))";
   "(+ ?b (~ ?a)) ==> (~ (-- ?a ?b))";
   "(>> ?a (-- ?b ?b)) ==> ?a";
   "(<< ?a (-- ?b ?b)) ==> ?a";
   "(| ?a (-- ?b ?b)) ==> ?a";
   "(+ ?a (-- ?b ?b)) ==> ?a";
   "(| ?a (& ?a ?b)) ==> ?a";
   "(& ?a (| ?a ?b)) ==> ?a";
   "(-- ?a (+ ?a ?b)) ==> (- ?b)";
   "(>> (-- ?a ?a) ?b) ==> (-- ?a ?a)";
   "(<< (-- ?a ?a) ?b) ==> (-- ?b ?b)";
   "(& ?a (-- ?b ?b)) ==> (-- ?a ?a)";
   "(* ?a (-- ?b ?b)) ==> (-- ?a ?a)";
   "(>> ?a ?b) ==> (>> (| ?a ?b) ?b)";
   "(>> (| ?a ?b) ?b) ==> (>> ?a ?b)";
   "(>> (& ?a ?b) ?a) ==> (-- ?a ?a)";
   "(>> ?a (| ?a ?b)) ==> (-- ?a ?a)";
   "(& ?a (<< ?b ?a)) ==> (-- ?a ?a)";
   "(-- ?a (& ?a ?b)) ==> (& ?a (~ ?b))";
   "(& ?a (~ ?b)) ==> (-- ?a (& ?a ?b))";
   "(-- (| ?a ?b) ?a) ==> (& ?b (~ ?a))";
   "(& ?b (~ ?a)) ==> (-- (| ?a ?b) ?a)";
   "(* ?a (+ ?b ?b)) ==> (* ?b (+ ?a ?a))";
   "(* ?b (+ ?a ?a)) ==> (* ?a (+ ?b ?b))";
   "(| ?a (<< ?b ?a)) ==> (+ ?a (<< ?b ?a))";
   "(+ ?a (<< ?b ?a)) ==> (| ?a (<< ?b ?a))";
   "?a ==> (~ (~ ?a))";
   "(~ (~ ?a)) ==> ?a";
   "?a ==> (& ?a ?a)";
   "(& ?a ?a) ==> ?a";
   "?a ==> (| ?a ?a)";
   "(| ?a ?a) ==> ?a";
   "(>> ?a ?a) ==> (-- ?a ?a)";
   "(-- ?a ?a) ==> (>> ?a ?a)";
   "(| ?a (~ ?a)) ==> (+ ?a (~ ?a))";
   "(+ ?a (~ ?a)) ==> (| ?a (~ ?a))"].
(* baseline/halide.rules:1-121 *)
Definition halide_baseline1 : list string :=
  ["(! (< ?x ?y)) ==> (<= ?y ?x)";
   "(! (<= ?x ?y)) ==> (< ?y ?x)";
   "(! (== ?x ?y)) ==> (!= ?x ?y)";
   "(! (!= ?x ?y)) ==> (== ?x ?y)";
   "(! (! ?x)) ==> ?x";
   "(! (&& (! ?x) ?y)) ==> (|| ?x (! ?y))";
   "(! (|| (! ?x) ?y)) ==> (&& ?x (! ?y))";
   "(! (&& ?x (! ?y))) ==> (|| (! ?x) ?y)";
   "(! (|| ?x (! ?y))) ==> (&& (! ?x) ?y)";
   "(< ?x ?x) ==> 0";
   "(< (max ?x ?y) ?x) ==> 0";
   "(< (max ?y ?x) ?x) ==> 0";
   "(< ?x (min ?x ?y)) ==> 0";
   "(< ?x (min ?y ?x)) ==> 0";
   "(< (max ?y ?z) (min ?x ?y)) ==> 0";
   "(< (max ?y ?z) (min ?y ?x)) ==> 0";
   "(< (max ?z ?y) (min ?x ?y)) ==> 0";
   "(< (max ?z ?y) (min ?y ?x)) ==> 0";
   "(< (- ?x ?y) ?z) ==> (< ?x (+ ?z ?y))";
   "(< ?z (- ?x ?y)) ==> (< (+ ?z ?y) ?x)";
   "(< (+ (- ?x ?y) ?z) ?w) ==> (< (+ ?x ?z) (+ ?y ?w))";
   "(< (+ ?z (- ?x ?y)) ?w) ==> (< (+ ?x ?z) (+ ?y ?w))";
   "(< ?w (+ (- ?x ?y) ?z)) ==> (< (+ ?w ?y) (+ ?x ?z))";
   "(< ?w (+ ?z (- ?x ?y))) ==> (< (+ ?w ?y) (+ ?x ?z))";
   "(< (+ (+ (- ?x ?y) ?z) ?u) ?w) ==> (< (+ (+ ?x ?z) ?u) (+ ?w ?y))";
   "(< (+ (+ ?z (- ?x ?y)) ?u) ?w) ==> (< (+ (+ ?x ?z) ?u) (+ ?w ?y))";
   "(< (+ ?u (+ (- ?x ?y) ?z)) ?w) ==> (< (+ (+ ?x ?z) ?u) (+ ?w ?y))";
   "(< (+ ?u (+ ?z (- ?x ?y))) ?w) ==> (< (+ (+ ?x ?z) ?u) (+ ?w ?y))";
   "(< ?w (+ (+ (- ?x ?y) ?z) ?u)) ==> (< (+ ?w ?y) (+ (+ ?x ?z) ?u))";
   "(< ?w (+ (+ ?z (- ?x ?y)) ?u)) ==> (< (+ ?w ?y) (+ (+ ?x ?z) ?u))";
   "(< ?w (+ ?u (+ (- ?x ?y) ?z))) ==> (< (+ ?w ?y) (+ (+ ?x ?z) ?u))";
   "(< ?w (+ ?u (+ ?z (- ?x ?y)))) ==> (< (+ ?w ?y) (+ (+ ?x ?z) ?u))";
   "(< ?x (+ ?x ?y)) ==> (< 0 ?y)";
   "(< ?x (+ ?y ?x)) ==> (< 0 ?y)";
   "(< (+ ?x ?y) ?x) ==> (< ?y 0)";
   "(< (+ ?y ?x) ?x) ==> (< ?y 0)";
   "(< ?x (+ (+ ?x ?y) ?z)) ==> (< 0 (+ ?y ?z))";
   "(< ?x (+ (+ ?y ?x) ?z)) ==> (< 0 (+ ?y ?z))";
   "(< ?x (+ ?z (+ ?x ?y))) ==> (< 0 (+ ?z ?y))";
   "(< ?x (+ ?z (+ ?y ?x))) ==> (< 0 (+ ?z ?y))";
   "(< (+ (+ ?x ?y) ?z) ?x) ==> (< (+ ?y ?z) 0)";
   "(< (+ (+ ?y ?x) ?z) ?x) ==> (< (+ ?y ?z) 0)";
   "(< (+ ?z (+ ?x ?y)) ?x) ==> (< (+ ?z ?y) 0)";
   "(< (+ ?z (+ ?y ?x)) ?x) ==> (< (+ ?z ?y) 0)";
   "(< (+ ?x ?y) (+ ?x ?z)) ==> (< ?y ?z)";
   "(< (+ ?x ?y) (+ ?z ?x)) ==> (< ?y ?z)";
   "(< (+ ?y ?x) (+ ?x ?z)) ==> (< ?y ?z)";
   "(< (+ ?y ?x) (+ ?z ?x)) ==> (< ?y ?z)";
   "(< (+ (+ ?x ?y) ?w) (+ ?x ?z)) ==> (< (+ ?y ?w) ?z)";
   "(< (+ (+ ?y ?x) ?w) (+ ?x ?z)) ==> (< (+ ?y ?w) ?z)";
   "(< (+ ?w (+ ?x ?y)) (+ ?x ?z)) ==> (< (+ ?y ?w) ?z)";
   "(< (+ ?w (+ ?y ?x)) (+ ?x ?z)) ==> (< (+ ?y ?w) ?z)";
   "(< (+ (+ ?x ?y) ?w) (+ ?z ?x)) ==> (< (+ ?y ?w) ?z)";
   "(< (+ (+ ?y ?x) ?w) (+ ?z ?x)) ==> (< (+ ?y ?w) ?z)";
   "(< (+ ?w (+ ?x ?y)) (+ ?z ?x)) ==> (< (+ ?y ?w) ?z)";
   "(< (+ ?w (+ ?y ?x)) (+ ?z ?x)) ==> (< (+ ?y ?w) ?z)";
   "(< (+ ?x ?z) (+ (+ ?x ?y) ?w)) ==> (< ?z (+ ?y ?w))";
   "(< (+ ?x ?z) (+ (+ ?y ?x) ?w)) ==> (< ?z (+ ?y ?w))";
   "(< (+ ?x ?z) (+ ?w (+ ?x ?y))) ==> (< ?z (+ ?y ?w))";
   "(< (+ ?x ?z) (+ ?w (+ ?y ?x))) ==> (< ?z (+ ?y ?w))";
   "(< (+ ?z ?x) (+ (+ ?x ?y) ?w)) ==> (< ?z (+ ?y ?w))";
   "(< (+ ?z ?x) (+ (+ ?y ?x) ?w)) ==> (< ?z (+ ?y ?w))";
   "(< (+ ?z ?x) (+ ?w (+ ?x ?y))) ==> (< ?z (+ ?y ?w))";
   "(< (+ ?z ?x) (+ ?w (+ ?y ?x))) ==> (< ?z (+ ?y ?w))";
   "(< (+ (+ ?x ?y) ?w) (+ (+ ?x ?z) ?u)) ==> (< (+ ?y ?w) (+ ?z ?u))";
   "(< (+ (+ ?y ?x) ?w) (+ (+ ?x ?z) ?u)) ==> (< (+ ?y ?w) (+ ?z ?u))";
   "(< (+ (+ ?x ?y) ?w) (+ (+ ?z ?x) ?u)) ==> (< (+ ?y ?w) (+ ?z ?u))";
   "(< (+ (+ ?y ?x) ?w) (+ (+ ?z ?x) ?u)) ==> (< (+ ?y ?w) (+ ?z ?u))";
   "(< (+ ?w (+ ?x ?y)) (+ (+ ?x ?z) ?u)) ==> (< (+ ?y ?w) (+ ?z ?u))";
   "(< (+ ?w (+ ?y ?x)) (+ (+ ?x ?z) ?u)) ==> (< (+ ?y ?w) (+ ?z ?u))";
   "(< (+ ?w (+ ?x ?y)) (+ (+ ?z ?x) ?u)) ==> (< (+ ?y ?w) (+ ?z ?u))";
   "(< (+ ?w (+ ?y ?x)) (+ (+ ?z ?x) ?u)) ==> (< (+ ?y ?w) (+ ?z ?u))";
   "(< (+ (+ ?x ?y) ?w) (+ ?u (+ ?x ?z))) ==> (< (+ ?y ?w) (+ ?z ?u))";
   "(< (+ (+ ?y ?x) ?w) (+ ?u (+ ?x ?z))) ==> (< (+ ?y ?w) (+ ?z ?u))";
   "(< (+ (+ ?x ?y) ?w) (+ ?u (+ ?z ?x))) ==> (< (+ ?y ?w) (+ ?z ?u))";
   "(< (+ (+ ?y ?x) ?w) (+ ?u (+ ?z ?x))) ==> (< (+ ?y ?w) (+ ?z ?u))";
   "(< (+ ?w (+ ?x ?y)) (+ ?u (+ ?x ?z))) ==> (< (+ ?y ?w) (+ ?z ?u))";
   "(< (+ ?w (+ ?y ?x)) (+ ?u (+ ?x ?z))) ==> (< (+ ?y ?w) (+ ?z ?u))";
   "(< (+ ?w (+ ?x ?y)) (+ ?u (+ ?z ?x))) ==> (< (+ ?y ?w) (+ ?z ?u))";
   "(< (+ ?w (+ ?y ?x)) (+ ?u (+ ?z ?x))) ==> (< (+ ?y ?w) (+ ?z ?u))";
   "(< (min ?x ?y) ?x) ==> (< ?y ?x)";
   "(< (min ?y ?x) ?x) ==> (< ?y ?x)";
   "(< ?x (max ?x ?y)) ==> (< ?x ?y)";
   "(< ?x (max ?y ?x)) ==> (< ?x ?y)";
   "(< (min ?z ?y) (min ?x ?y)) ==> (< ?z (min ?x ?y))";
   "(< (min ?z ?y) (min ?y ?x)) ==> (< ?z (min ?y ?x))";
   "(< (min ?y ?z) (min ?x ?y)) ==> (< ?z (min ?x ?y))";
   "(< (min ?y ?z) (min ?y ?x)) ==> (< ?z (min ?y ?x))";
   "(< (max ?z ?y) (max ?x ?y)) ==> (< (max ?z ?y) ?x)";
   "(< (max ?z ?y) (max ?y ?x)) ==> (< (max ?z ?y) ?x)";
   "(< (max ?y ?z) (max ?x ?y)) ==> (< (max ?z ?y) ?x)";
   "(< (max ?y ?z) (max ?y ?x)) ==> (< (max ?z ?y) ?x)";
   "(* 0 ?x) ==> 0";
   "(* 1 ?x) ==> ?x";
   "(* ?x 0) ==> 0";
   "(* ?x 1) ==> ?x";
   "(* (- 0 ?x) ?y) ==> (- 0 (* ?x ?y))";
   "(* ?x (- 0 ?y)) ==> (- 0 (* ?x ?y))";
   "(* ?x (* ?y ?c0)) ==> (* (* ?x ?y) ?c0)";
   "(* (max ?x ?y) (min ?x ?y)) ==> (* ?x ?y)";
   "(* (max ?x ?y) (min ?y ?x)) ==> (* ?y ?x)";
   "(* ?x (select ?y 1 0)) ==> (select ?y ?x 0)";
   "(* (select ?x 1 0) ?y) ==> (select ?x ?y 0)";
   "(select 1 ?x ?y) ==> ?x";
   "(select 0 ?x ?y) ==> ?y";
   "(select ?x ?y ?y) ==> ?y";
   "(select (!= ?x ?y) ?z ?w) ==> (select (== ?x ?y) ?w ?z)";
   "(select (<= ?x ?y) ?z ?w) ==> (select (< ?y ?x) ?w ?z)";
   "(select ?x (select ?y ?z ?w) ?z) ==> (select (&& ?x (! ?y)) ?w ?z)";
   "(select ?x (select ?y ?z ?w) ?w) ==> (select (&& ?x ?y) ?z ?w)";
   "(select ?x ?y (select ?z ?y ?w)) ==> (select (|| ?x ?z) ?y ?w)";
   "(select ?x ?y (select ?z ?w ?y)) ==> (select (|| ?x (! ?z)) ?y ?w)";
   "(select ?x (select ?x ?y ?z) ?w) ==> (select ?x ?y ?w)";
   "(select ?x ?y (select ?x ?z ?w)) ==> (select ?x ?y ?w)";
   "(select ?x (+ ?y ?z) (+ ?y ?w)) ==> (+ ?y (select ?x ?z ?w))";
   "(select ?x (+ ?y ?z) (+ ?w ?y)) ==> (+ ?y (select ?x ?z ?w))";
   "(select ?x (+ ?z ?y) (+ ?y ?w)) ==> (+ ?y (select ?x ?z ?w))";
   "(select ?x (+ ?z ?y) (+ ?w ?y)) ==> (+ (select ?x ?z ?w) ?y)";
   "(select ?x (- ?y ?z) (- ?y ?w)) ==> (- ?y (select ?x ?z ?w))";
   "(select ?x (- ?y ?z) (+ ?y ?w)) ==> (+ ?y (select ?x (- ?z) ?w))";
   "(select ?x (+ ?y ?z) (- ?y ?w)) ==> (+ ?y (select ?x ?z (- ?w)))"].
(* baseline/halide.rules:122-242 *)
Definition halide_baseline2 : list string :=
  ["(select ?x (- ?y ?z) (+ ?w ?y)) ==> (+ ?y (select ?x (- ?z) ?w))";
   "(select ?x (+ ?z ?y) (- ?y ?w)) ==> (+ ?y (select ?x ?z (- ?w)))";
   "(select ?x (- ?z ?y) (- ?w ?y)) ==> (- (select ?x ?z ?w) ?y)";
   "(select ?x (* ?y ?z) (* ?y ?w)) ==> (* ?y (select ?x ?z ?w))";
   "(select ?x (* ?y ?z) (* ?w ?y)) ==> (* ?y (select ?x ?z ?w))";
   "(select ?x (* ?z ?y) (* ?y ?w)) ==> (* ?y (select ?x ?z ?w))";
   "(select ?x (* ?z ?y) (* ?w ?y)) ==> (* (select ?x ?z ?w) ?y)";
   "(select ?x (- 0 (* ?y ?z)) (* ?y ?w)) ==> (* ?y (select ?x (- 0 ?z) ?w))";
   "(select ?x (- 0 (* ?y ?z)) (* ?w ?y)) ==> (* ?y (select ?x (- 0 ?z) ?w))";
   "(select ?x (- 0 (* ?z ?y)) (* ?y ?w)) ==> (* ?y (select ?x (- 0 ?z) ?w))";
   "(select ?x (- 0 (* ?z ?y)) (* ?w ?y)) ==> (* (select ?x (- 0 ?z) ?w) ?y)";
   "(select ?x (* ?y ?z) (- 0 (* ?y ?w))) ==> (* ?y (select ?x ?z (- 0 ?w)))";
   "(select ?x (* ?y ?z) (- 0 (* ?w ?y))) ==> (* ?y (select ?x ?z (- 0 ?w)))";
   "(select ?x (* ?z ?y) (- 0 (* ?y ?w))) ==> (* ?y (select ?x ?z (- 0 ?w)))";
   "(select ?x (* ?z ?y) (- 0 (* ?w ?y))) ==> (* (select ?x ?z (- 0 ?w)) ?y)";
   "(select ?x (/ ?z ?y) (/ ?w ?y)) ==> (/ (select ?x ?z ?w) ?y)";
   "(select ?x (+ (+ ?y ?z) ?u) (+ ?y ?w)) ==> (+ ?y (select ?x (+ ?z ?u) ?w))";
   "(select ?x (- (+ ?y ?z) ?u) (+ ?y ?w)) ==> (+ ?y (select ?x (- ?z ?u) ?w))";
   "(select ?x (+ ?u (+ ?y ?z)) (+ ?y ?w)) ==> (+ ?y (select ?x (+ ?u ?z) ?w))";
   "(select ?x (+ ?y ?z) (+ (+ ?y ?w) ?u)) ==> (+ ?y (select ?x ?z (+ ?w ?u)))";
   "(select ?x (+ ?y ?z) (- (+ ?y ?w) ?u)) ==> (+ ?y (select ?x ?z (- ?w ?u)))";
   "(select ?x (+ ?y ?z) (+ ?u (+ ?y ?w))) ==> (+ ?y (select ?x ?z (+ ?u ?w)))";
   "(select ?x (+ (+ ?y ?z) ?u) (+ ?w ?y)) ==> (+ ?y (select ?x (+ ?z ?u) ?w))";
   "(select ?x (- (+ ?y ?z) ?u) (+ ?w ?y)) ==> (+ ?y (select ?x (- ?z ?u) ?w))";
   "(select ?x (+ ?u (+ ?y ?z)) (+ ?w ?y)) ==> (+ ?y (select ?x (+ ?u ?z) ?w))";
   "(select ?x (+ ?y ?z) (+ (+ ?w ?y) ?u)) ==> (+ ?y (select ?x ?z (+ ?w ?u)))";
   "(select ?x (+ ?y ?z) (- (+ ?w ?y) ?u)) ==> (+ ?y (select ?x ?z (- ?w ?u)))";
   "(select ?x (+ ?y ?z) (+ ?u (+ ?w ?y))) ==> (+ ?y (select ?x ?z (+ ?u ?w)))";
   "(select ?x (+ (+ ?z ?y) ?u) (+ ?y ?w)) ==> (+ ?y (select ?x (+ ?z ?u) ?w))";
   "(select ?x (- (+ ?z ?y) ?u) (+ ?y ?w)) ==> (+ ?y (select ?x (- ?z ?u) ?w))";
   "(select ?x (+ ?u (+ ?z ?y)) (+ ?y ?w)) ==> (+ ?y (select ?x (+ ?u ?z) ?w))";
   "(select ?x (+ ?z ?y) (+ (+ ?y ?w) ?u)) ==> (+ ?y (select ?x ?z (+ ?w ?u)))";
   "(select ?x (+ ?z ?y) (- (+ ?y ?w) ?u)) ==> (+ ?y (select ?x ?z (- ?w ?u)))";
   "(select ?x (+ ?z ?y) (+ ?u (+ ?y ?w))) ==> (+ ?y (select ?x ?z (+ ?u ?w)))";
   "(select ?x (+ (+ ?z ?y) ?u) (+ ?w ?y)) ==> (+ (select ?x (+ ?z ?u) ?w) ?y)";
   "(select ?x (- (+ ?z ?y) ?u) (+ ?w ?y)) ==> (+ (select ?x (- ?z ?u) ?w) ?y)";
   "(select ?x (+ ?u (+ ?z ?y)) (+ ?w ?y)) ==> (+ (select ?x (+ ?u ?z) ?w) ?y)";
   "(select ?x (+ ?z ?y) (+ (+ ?w ?y) ?u)) ==> (+ (select ?x ?z (+ ?w ?u)) ?y)";
   "(select ?x (+ ?z ?y) (- (+ ?w ?y) ?u)) ==> (+ (select ?x ?z (- ?w ?u)) ?y)";
   "(select ?x (+ ?z ?y) (+ ?u (+ ?w ?y))) ==> (+ (select ?x ?z (+ ?u ?w)) ?y)";
   "(select ?x (+ ?y (- ?z ?w)) (- ?u ?w)) ==> (- (select ?x (+ ?y ?z) ?u) ?w)";
   "(select ?x (+ (- ?y ?z) ?w) (- ?u ?z)) ==> (- (select ?x (+ ?w ?y) ?u) ?z)";
   "(select ?x (+ (+ ?y ?z) ?u) ?y) ==> (+ ?y (select ?x (+ ?z ?u) 0))";
   "(select ?x (+ (+ ?z ?y) ?u) ?y) ==> (+ ?y (select ?x (+ ?z ?u) 0))";
   "(select ?x (- (+ ?y ?z) ?u) ?y) ==> (+ ?y (select ?x (- ?z ?u) 0))";
   "(select ?x (- (+ ?z ?y) ?u) ?y) ==> (+ ?y (select ?x (- ?z ?u) 0))";
   "(select ?x (+ ?u (+ ?y ?z)) ?y) ==> (+ ?y (select ?x (+ ?u ?z) 0))";
   "(select ?x (+ ?u (+ ?z ?y)) ?y) ==> (+ ?y (select ?x (+ ?u ?z) 0))";
   "(select ?x ?y (+ (+ ?y ?z) ?u)) ==> (+ ?y (select ?x 0 (+ ?z ?u)))";
   "(select ?x ?y (+ (+ ?z ?y) ?u)) ==> (+ ?y (select ?x 0 (+ ?z ?u)))";
   "(select ?x ?y (- (+ ?y ?z) ?u)) ==> (+ ?y (select ?x 0 (- ?z ?u)))";
   "(select ?x ?y (- (+ ?z ?y) ?u)) ==> (+ ?y (select ?x 0 (- ?z ?u)))";
   "(select ?x ?y (+ ?u (+ ?y ?z))) ==> (+ ?y (select ?x 0 (+ ?u ?z)))";
   "(select ?x ?y (+ ?u (+ ?z ?y))) ==> (+ ?y (select ?x 0 (+ ?u ?z)))";
   "(select ?x (+ (+ ?y ?z) ?w) (+ (+ ?u ?y) ?v)) ==> (+ ?y (select ?x (+ ?z ?w) (+ ?u ?v)))";
   "(select ?x (+ (- ?y ?z) ?w) (+ (+ ?u ?y) ?v)) ==> (+ ?y (select ?x (- ?w ?z) (+ ?u ?v)))";
   "(select ?x (+ ?y (+ ?z ?w)) (+ ?u (+ ?v ?w))) ==> (+ ?w (select ?x (+ ?z ?y) (+ ?u ?v)))";
   "(select ?x (+ ?y (+ ?z ?w)) (+ ?u (+ ?v ?z))) ==> (+ ?z (select ?x (+ ?y ?w) (+ ?u ?v)))";
   "(select ?x (+ ?y (+ ?z ?w)) (+ ?u (+ ?w ?v))) ==> (+ ?w (select ?x (+ ?z ?y) (+ ?u ?v)))";
   "(select ?x (+ ?y (+ ?z ?w)) (+ ?u (+ ?z ?v))) ==> (+ ?z (select ?x (+ ?y ?w) (+ ?u ?v)))";
   "(select ?x (+ ?y (+ ?z ?w)) (+ (+ ?u ?w) ?v)) ==> (+ ?w (select ?x (+ ?z ?y) (+ ?u ?v)))";
   "(select ?x (+ ?y (+ ?z ?w)) (+ (+ ?u ?z) ?v)) ==> (+ ?z (select ?x (+ ?y ?w) (+ ?u ?v)))";
   "(select ?x (+ ?y (+ ?z ?w)) (+ (+ ?w ?u) ?v)) ==> (+ ?w (select ?x (+ ?z ?y) (+ ?v ?u)))";
   "(select ?x (+ ?y (+ ?z ?w)) (+ (+ ?z ?u) ?v)) ==> (+ ?z (select ?x (+ ?y ?w) (+ ?v ?u)))";
   "(select ?x (+ (+ ?y ?z) ?w) (+ ?u (+ ?v ?y))) ==> (+ ?y (select ?x (+ ?z ?w) (+ ?u ?v)))";
   "(select ?x (+ (+ ?y ?z) ?w) (+ ?u (+ ?v ?z))) ==> (+ ?z (select ?x (+ ?y ?w) (+ ?u ?v)))";
   "(select ?x (+ (+ ?y ?z) ?w) (+ ?u (+ ?y ?v))) ==> (+ ?y (select ?x (+ ?z ?w) (+ ?u ?v)))";
   "(select ?x (+ (+ ?y ?z) ?w) (+ ?u (+ ?z ?v))) ==> (+ ?z (select ?x (+ ?y ?w) (+ ?u ?v)))";
   "(select ?x (+ (+ ?y ?z) ?w) (+ (+ ?u ?z) ?v)) ==> (+ ?z (select ?x (+ ?y ?w) (+ ?u ?v)))";
   "(select ?x (+ (+ ?y ?z) ?w) (+ (+ ?y ?u) ?v)) ==> (+ ?y (select ?x (+ ?z ?w) (+ ?v ?u)))";
   "(select ?x (+ (+ ?y ?z) ?w) (+ (+ ?z ?u) ?v)) ==> (+ ?z (select ?x (+ ?y ?w) (+ ?v ?u)))";
   "(select ?x (select ?y ?z ?w) (select ?y ?u ?w)) ==> (select ?y (select ?x ?z ?u) ?w)";
   "(select ?x (select ?y ?z ?w) (select ?y ?z ?u)) ==> (select ?y ?z (select ?x ?w ?u))";
   "(select (< ?x ?y) ?x ?y) ==> (min ?x ?y)";
   "(select (< ?x ?y) ?y ?x) ==> (max ?x ?y)";
   "(select (< ?x 0) (* ?x ?y) 0) ==> (* (min ?x 0) ?y)";
   "(select (< ?x 0) 0 (* ?x ?y)) ==> (* (max ?x 0) ?y)";
   "(select ?x (min ?y ?w) (min ?z ?w)) ==> (min (select ?x ?y ?z) ?w)";
   "(select ?x (min ?y ?w) (min ?w ?z)) ==> (min (select ?x ?y ?z) ?w)";
   "(select ?x (min ?w ?y) (min ?z ?w)) ==> (min ?w (select ?x ?y ?z))";
   "(select ?x (min ?w ?y) (min ?w ?z)) ==> (min ?w (select ?x ?y ?z))";
   "(select ?x (max ?y ?w) (max ?z ?w)) ==> (max (select ?x ?y ?z) ?w)";
   "(select ?x (max ?y ?w) (max ?w ?z)) ==> (max (select ?x ?y ?z) ?w)";
   "(select ?x (max ?w ?y) (max ?z ?w)) ==> (max ?w (select ?x ?y ?z))";
   "(select ?x (max ?w ?y) (max ?w ?z)) ==> (max ?w (select ?x ?y ?z))";
   "(select ?x (select ?y ?z (min ?w ?z)) (min ?u ?z)) ==> (min (select ?x (select ?y ?z ?w) ?u) ?z)";
   "(select ?x (select ?y (min ?w ?z) ?z) (min ?u ?z)) ==> (min (select ?x (select ?y ?w ?z) ?u) ?z)";
   "(select ?x (min ?u ?z) (select ?y ?z (min ?w ?z))) ==> (min (select ?x ?u (select ?y ?z ?w)) ?z)";
   "(select ?x (min ?u ?z) (select ?y (min ?w ?z) ?z)) ==> (min (select ?x ?u (select ?y ?w ?z)) ?z)";
   "(select ?x (select ?y ?z (min ?w ?z)) (min ?z ?u)) ==> (min (select ?x (select ?y ?z ?w) ?u) ?z)";
   "(select ?x (select ?y (min ?w ?z) ?z) (min ?z ?u)) ==> (min (select ?x (select ?y ?w ?z) ?u) ?z)";
   "(select ?x (min ?z ?u) (select ?y ?z (min ?w ?z))) ==> (min (select ?x ?u (select ?y ?z ?w)) ?z)";
   "(select ?x (min ?z ?u) (select ?y (min ?w ?z) ?z)) ==> (min (select ?x ?u (select ?y ?w ?z)) ?z)";
   "(select ?x (select ?y ?z (min ?z ?w)) (min ?u ?z)) ==> (min (select ?x (select ?y ?z ?w) ?u) ?z)";
   "(select ?x (select ?y (min ?z ?w) ?z) (min ?u ?z)) ==> (min (select ?x (select ?y ?w ?z) ?u) ?z)";
   "(select ?x (min ?u ?z) (select ?y ?z (min ?z ?w))) ==> (min (select ?x ?u (select ?y ?z ?w)) ?z)";
   "(select ?x (min ?u ?z) (select ?y (min ?z ?w) ?z)) ==> (min (select ?x ?u (select ?y ?w ?z)) ?z)";
   "(select ?x (select ?y ?z (min ?z ?w)) (min ?z ?u)) ==> (min (select ?x (select ?y ?z ?w) ?u) ?z)";
   "(select ?x (select ?y (min ?z ?w) ?z) (min ?z ?u)) ==> (min (select ?x (select ?y ?w ?z) ?u) ?z)";
   "(select ?x (min ?z ?u) (select ?y ?z (min ?z ?w))) ==> (min (select ?x ?u (select ?y ?z ?w)) ?z)";
   "(select ?x (min ?z ?u) (select ?y (min ?z ?w) ?z)) ==> (min (select ?x ?u (select ?y ?w ?z)) ?z)";
   "(select ?x (select ?y ?z (max ?w ?z)) (max ?u ?z)) ==> (max (select ?x (select ?y ?z ?w) ?u) ?z)";
   "(select ?x (select ?y (max ?w ?z) ?z) (max ?u ?z)) ==> (max (select ?x (select ?y ?w ?z) ?u) ?z)";
   "(select ?x (max ?u ?z) (select ?y ?z (max ?w ?z))) ==> (max (select ?x ?u (select ?y ?z ?w)) ?z)";
   "(select ?x (max ?u ?z) (select ?y (max ?w ?z) ?z)) ==> (max (select ?x ?u (select ?y ?w ?z)) ?z)";
   "(select ?x (select ?y ?z (max ?w ?z)) (max ?z ?u)) ==> (max (select ?x (select ?y ?z ?w) ?u) ?z)";
   "(select ?x (select ?y (max ?w ?z) ?z) (max ?z ?u)) ==> (max (select ?x (select ?y ?w ?z) ?u) ?z)";
   "(select ?x (max ?z ?u) (select ?y ?z (max ?w ?z))) ==> (max (select ?x ?u (select ?y ?z ?w)) ?z)";
   "(select ?x (max ?z ?u) (select ?y (max ?w ?z) ?z)) ==> (max (select ?x ?u (select ?y ?w ?z)) ?z)";
   "(select ?x (select ?y ?z (max ?z ?w)) (max ?u ?z)) ==> (max (select ?x (select ?y ?z ?w) ?u) ?z)";
   "(select ?x (select ?y (max ?z ?w) ?z) (max ?u ?z)) ==> (max (select ?x (select ?y ?w ?z) ?u) ?z)";
   "(select ?x (max ?u ?z) (select ?y ?z (max ?z ?w))) ==> (max (select ?x ?u (select ?y ?z ?w)) ?z)";
   "(select ?x (max ?u ?z) (select ?y (max ?z ?w) ?z)) ==> (max (select ?x ?u (select ?y ?w ?z)) ?z)";
   "(select ?x (select ?y ?z (max ?z ?w)) (max ?z ?u)) ==> (max (select ?x (select ?y ?z ?w) ?u) ?z)";
   "(select ?x (select ?y (max ?z ?w) ?z) (max ?z ?u)) ==> (max (select ?x (select ?y ?w ?z) ?u) ?z)";
   "(select ?x (max ?z ?u) (select ?y ?z (max ?z ?w))) ==> (max (select ?x ?u (select ?y ?z ?w)) ?z)";
   "(select ?x (max ?z ?u) (select ?y (max ?z ?w) ?z)) ==> (max (select ?x ?u (select ?y ?w ?z)) ?z)";
   "(select ?x (+ ?y ?z) ?y) ==> (+ ?y (select ?x ?z 0))";
   "(select ?x ?y (+ ?y ?z)) ==> (+ ?y (select ?x 0 ?z))";
   "(select ?x ?y 0) ==> (&& ?x ?y)";
   "(select ?x ?y 1) ==> (|| (! ?x) ?y)"].
(* baseline/halide.rules:243-363 *)
Definition halide_baseline3 : list string :=
  ["(select ?x 0 ?y) ==> (&& (! ?x) ?y)";
   "(select ?x 1 ?y) ==> (|| ?x ?y)";
   "(max ?x ?x) ==> ?x";
   "(max (select ?x (max ?z ?y) ?w) ?z) ==> (max (select ?x ?y ?w) ?z)";
   "(max (select ?x (max ?z ?y) ?w) ?y) ==> (max (select ?x ?z ?w) ?y)";
   "(max (select ?x ?w (max ?z ?y)) ?z) ==> (max (select ?x ?w ?y) ?z)";
   "(max (select ?x ?w (max ?z ?y)) ?y) ==> (max (select ?x ?w ?z) ?y)";
   "(max (max ?x ?c0) ?y) ==> (max (max ?x ?y) ?c0)";
   "(max (max ?x ?y) (max ?x ?z)) ==> (max (max ?y ?z) ?x)";
   "(max (max ?y ?x) (max ?x ?z)) ==> (max (max ?y ?z) ?x)";
   "(max (max ?x ?y) (max ?z ?x)) ==> (max (max ?y ?z) ?x)";
   "(max (max ?y ?x) (max ?z ?x)) ==> (max (max ?y ?z) ?x)";
   "(max (max ?x ?y) (max ?z ?w)) ==> (max (max (max ?x ?y) ?z) ?w)";
   "(max (min ?x ?y) (min ?x ?z)) ==> (min ?x (max ?y ?z))";
   "(max (min ?x ?y) (min ?z ?x)) ==> (min ?x (max ?y ?z))";
   "(max (min ?y ?x) (min ?x ?z)) ==> (min (max ?y ?z) ?x)";
   "(max (min ?y ?x) (min ?z ?x)) ==> (min (max ?y ?z) ?x)";
   "(max (min (max ?x ?y) ?z) ?y) ==> (max (min ?x ?z) ?y)";
   "(max (min (max ?y ?x) ?z) ?y) ==> (max ?y (min ?x ?z))";
   "(max (max ?x (min ?y ?z)) ?y) ==> (max ?x ?y)";
   "(max (max ?x (min ?y ?z)) ?z) ==> (max ?x ?z)";
   "(max (max (min ?x ?y) ?z) ?x) ==> (max ?z ?x)";
   "(max (max (min ?x ?y) ?z) ?y) ==> (max ?z ?y)";
   "(max ?x (max ?y (min ?x ?z))) ==> (max ?y ?x)";
   "(max ?x (max ?y (min ?z ?x))) ==> (max ?y ?x)";
   "(max ?x (max (min ?x ?y) ?z)) ==> (max ?x ?z)";
   "(max ?x (max (min ?y ?x) ?z)) ==> (max ?x ?z)";
   "(max (select ?x (min ?y ?z) ?w) ?z) ==> (select ?x ?z (max ?w ?z))";
   "(max (select ?x (min ?z ?y) ?w) ?z) ==> (select ?x ?z (max ?w ?z))";
   "(max ?z (select ?x (min ?y ?z) ?w)) ==> (select ?x ?z (max ?z ?w))";
   "(max ?z (select ?x (min ?z ?y) ?w)) ==> (select ?x ?z (max ?z ?w))";
   "(max (select ?x ?y (min ?w ?z)) ?z) ==> (select ?x (max ?y ?z) ?z)";
   "(max (select ?x ?y (min ?z ?w)) ?z) ==> (select ?x (max ?y ?z) ?z)";
   "(max ?z (select ?x ?y (min ?w ?z))) ==> (select ?x (max ?z ?y) ?z)";
   "(max ?z (select ?x ?y (min ?z ?w))) ==> (select ?x (max ?z ?y) ?z)";
   "(max (select ?x ?y ?z) (select ?x ?w ?u)) ==> (select ?x (max ?y ?w) (max ?z ?u))";
   "(max (+ ?x ?y) (+ ?x ?z)) ==> (+ ?x (max ?y ?z))";
   "(max (+ ?x ?y) (+ ?z ?x)) ==> (+ ?x (max ?y ?z))";
   "(max (+ ?y ?x) (+ ?x ?z)) ==> (+ (max ?y ?z) ?x)";
   "(max (+ ?y ?x) (+ ?z ?x)) ==> (+ (max ?y ?z) ?x)";
   "(max ?x (+ ?x ?z)) ==> (+ ?x (max ?z 0))";
   "(max ?x (+ ?z ?x)) ==> (+ ?x (max ?z 0))";
   "(max (+ ?y ?x) ?x) ==> (+ (max ?y 0) ?x)";
   "(max (+ ?x ?y) ?x) ==> (+ ?x (max ?y 0))";
   "(max (max (+ ?x ?y) ?z) (+ ?x ?w)) ==> (max (+ ?x (max ?y ?w)) ?z)";
   "(max (max ?z (+ ?x ?y)) (+ ?x ?w)) ==> (max (+ ?x (max ?y ?w)) ?z)";
   "(max (max (+ ?x ?y) ?z) (+ ?w ?x)) ==> (max (+ ?x (max ?y ?w)) ?z)";
   "(max (max ?z (+ ?x ?y)) (+ ?w ?x)) ==> (max (+ ?x (max ?y ?w)) ?z)";
   "(max (max (+ ?y ?x) ?z) (+ ?x ?w)) ==> (max (+ (max ?y ?w) ?x) ?z)";
   "(max (max ?z (+ ?y ?x)) (+ ?x ?w)) ==> (max (+ (max ?y ?w) ?x) ?z)";
   "(max (max (+ ?y ?x) ?z) (+ ?w ?x)) ==> (max (+ (max ?y ?w) ?x) ?z)";
   "(max (max ?z (+ ?y ?x)) (+ ?w ?x)) ==> (max (+ (max ?y ?w) ?x) ?z)";
   "(max (+ (+ ?x ?w) ?y) (+ ?x ?z)) ==> (+ ?x (max (+ ?w ?y) ?z))";
   "(max (+ (+ ?w ?x) ?y) (+ ?x ?z)) ==> (+ (max (+ ?w ?y) ?z) ?x)";
   "(max (+ (+ ?x ?w) ?y) (+ ?z ?x)) ==> (+ ?x (max (+ ?w ?y) ?z))";
   "(max (+ (+ ?w ?x) ?y) (+ ?z ?x)) ==> (+ (max (+ ?w ?y) ?z) ?x)";
   "(max (+ (+ ?x ?w) ?y) ?x) ==> (+ ?x (max (+ ?w ?y) 0))";
   "(max (+ (+ ?w ?x) ?y) ?x) ==> (+ ?x (max (+ ?w ?y) 0))";
   "(max (+ ?x ?y) (+ (+ ?w ?x) ?z)) ==> (+ ?x (max (+ ?w ?z) ?y))";
   "(max (+ ?x ?y) (+ (+ ?x ?w) ?z)) ==> (+ ?x (max (+ ?w ?z) ?y))";
   "(max (+ ?y ?x) (+ (+ ?w ?x) ?z)) ==> (+ (max (+ ?w ?z) ?y) ?x)";
   "(max (+ ?y ?x) (+ (+ ?x ?w) ?z)) ==> (+ (max (+ ?w ?z) ?y) ?x)";
   "(max ?x (+ (+ ?w ?x) ?z)) ==> (+ ?x (max (+ ?w ?z) 0))";
   "(max ?x (+ (+ ?x ?w) ?z)) ==> (+ ?x (max (+ ?w ?z) 0))";
   "(max (- ?y ?x) (- ?z ?x)) ==> (- (max ?y ?z) ?x)";
   "(max (- ?x ?y) (- ?x ?z)) ==> (- ?x (min ?y ?z))";
   "(max (- ?x ?y) (+ (- ?z ?y) ?w)) ==> (- (max ?x (+ ?z ?w)) ?y)";
   "(max (- ?x ?y) (+ ?w (- ?z ?y))) ==> (- (max ?x (+ ?w ?z)) ?y)";
   "(max ?x (- ?x ?y)) ==> (- ?x (min ?y 0))";
   "(max (- ?x ?y) ?x) ==> (- ?x (min ?y 0))";
   "(max ?x (+ (- ?x ?y) ?z)) ==> (+ ?x (max (- ?z ?y) 0))";
   "(max ?x (+ ?z (- ?x ?y))) ==> (+ ?x (max (- ?z ?y) 0))";
   "(max ?x (- (- ?x ?y) ?z)) ==> (- ?x (min (+ ?y ?z) 0))";
   "(max (+ (- ?x ?y) ?z) ?x) ==> (+ (max (- ?z ?y) 0) ?x)";
   "(max (+ ?z (- ?x ?y)) ?x) ==> (+ (max (- ?z ?y) 0) ?x)";
   "(max (- (- ?x ?y) ?z) ?x) ==> (- ?x (min (+ ?y ?z) 0))";
   "(== ?x 1) ==> ?x";
   "(== ?x 0) ==> (! ?x)";
   "(== (* ?x ?y) 0) ==> (|| (== ?x 0) (== ?y 0))";
   "(== (select ?x 0 ?y) 0) ==> (|| ?x (== ?y 0))";
   "(== (select ?x ?y 0) 0) ==> (|| (! ?x) (== ?y 0))";
   "(== (- (max ?x ?y) ?y) 0) ==> (<= ?x ?y)";
   "(== (- (min ?x ?y) ?y) 0) ==> (<= ?y ?x)";
   "(== (- (max ?y ?x) ?y) 0) ==> (<= ?x ?y)";
   "(== (- (min ?y ?x) ?y) 0) ==> (<= ?y ?x)";
   "(== (- ?y (max ?x ?y)) 0) ==> (<= ?x ?y)";
   "(== (- ?y (min ?x ?y)) 0) ==> (<= ?y ?x)";
   "(== (- ?y (max ?y ?x)) 0) ==> (<= ?x ?y)";
   "(== (- ?y (min ?y ?x)) 0) ==> (<= ?y ?x)";
   "(== (max ?x 0) 0) ==> (<= ?x 0)";
   "(== (min ?x 0) 0) ==> (<= 0 ?x)";
   "(== (- ?c0 ?x) 0) ==> (== ?x ?c0)";
   "(== (- ?x ?y) 0) ==> (== ?x ?y)";
   "(== ?x 0) ==> (== ?x 0)";
   "(/ ?x 1) ==> ?x";
   "(/ ?x 0) ==> 0";
   "(/ ?x ?x) ==> 1";
   "(/ 0 ?x) ==> 0";
   "(/ ?x ?x) ==> (select (== ?x 0) 0 1)";
   "(/ (- (* ?x ?c0) ?y) ?c0) ==> (+ ?x (/ (- 0 ?y) ?c0))";
   "(/ (- (- (* ?x ?c0) ?y) ?z) ?c0) ==> (+ ?x (/ (- (- 0 ?y) ?z) ?c0))";
   "(/ (+ ?x ?y) ?x) ==> (+ (/ ?y ?x) 1)";
   "(/ (+ ?y ?x) ?x) ==> (+ (/ ?y ?x) 1)";
   "(/ (- ?x ?y) ?x) ==> (+ (/ (- ?y) ?x) 1)";
   "(/ (- ?y ?x) ?x) ==> (- (/ ?y ?x) 1)";
   "(/ (+ (+ ?x ?y) ?z) ?x) ==> (+ (/ (+ ?y ?z) ?x) 1)";
   "(/ (+ (+ ?y ?x) ?z) ?x) ==> (+ (/ (+ ?y ?z) ?x) 1)";
   "(/ (+ ?z (+ ?x ?y)) ?x) ==> (+ (/ (+ ?z ?y) ?x) 1)";
   "(/ (+ ?z (+ ?y ?x)) ?x) ==> (+ (/ (+ ?z ?y) ?x) 1)";
   "(/ (* ?x ?y) ?x) ==> ?y";
   "(/ (* ?y ?x) ?x) ==> ?y";
   "(/ (+ (* ?x ?y) ?z) ?x) ==> (+ ?y (/ ?z ?x))";
   "(/ (+ (* ?y ?x) ?z) ?x) ==> (+ ?y (/ ?z ?x))";
   "(/ (+ ?z (* ?x ?y)) ?x) ==> (+ (/ ?z ?x) ?y)";
   "(/ (+ ?z (* ?y ?x)) ?x) ==> (+ (/ ?z ?x) ?y)";
   "(/ (- (* ?x ?y) ?z) ?x) ==> (+ ?y (/ (- ?z) ?x))";
   "(/ (- (* ?y ?x) ?z) ?x) ==> (+ ?y (/ (- ?z) ?x))";
   "(/ (- ?z (* ?x ?y)) ?x) ==> (- (/ ?z ?x) ?y)";
   "(/ (- ?z (* ?y ?x)) ?x) ==> (- (/ ?z ?x) ?y)";
   "(/ ?x -1) ==> (- ?x)";
   "(&& (!= ?x ?y) (== ?x ?y)) ==> 0"].
(* baseline/halide.rules:364-484 *)
Definition halide_baseline4 : list string :=
  ["(&& (!= ?x ?y) (== ?y ?x)) ==> 0";
   "(&& (&& ?z (!= ?x ?y)) (== ?x ?y)) ==> 0";
   "(&& (&& ?z (!= ?x ?y)) (== ?y ?x)) ==> 0";
   "(&& (&& (!= ?x ?y) ?z) (== ?x ?y)) ==> 0";
   "(&& (&& (!= ?x ?y) ?z) (== ?y ?x)) ==> 0";
   "(&& (&& ?z (== ?x ?y)) (!= ?x ?y)) ==> 0";
   "(&& (&& ?z (== ?x ?y)) (!= ?y ?x)) ==> 0";
   "(&& (&& (== ?x ?y) ?z) (!= ?x ?y)) ==> 0";
   "(&& (&& (== ?x ?y) ?z) (!= ?y ?x)) ==> 0";
   "(&& ?x (! ?x)) ==> 0";
   "(&& (! ?x) ?x) ==> 0";
   "(&& (<= ?y ?x) (< ?x ?y)) ==> 0";
   "(&& (|| ?x (&& ?y ?z)) ?y) ==> (&& (|| ?x ?z) ?y)";
   "(&& (|| ?x (&& ?z ?y)) ?y) ==> (&& (|| ?x ?z) ?y)";
   "(&& ?y (|| ?x (&& ?y ?z))) ==> (&& ?y (|| ?x ?z))";
   "(&& ?y (|| ?x (&& ?z ?y))) ==> (&& ?y (|| ?x ?z))";
   "(&& (|| (&& ?y ?z) ?x) ?y) ==> (&& (|| ?z ?x) ?y)";
   "(&& (|| (&& ?z ?y) ?x) ?y) ==> (&& (|| ?z ?x) ?y)";
   "(&& ?y (|| (&& ?y ?z) ?x)) ==> (&& ?y (|| ?z ?x))";
   "(&& ?y (|| (&& ?z ?y) ?x)) ==> (&& ?y (|| ?z ?x))";
   "(&& (&& ?x (|| ?y ?z)) ?y) ==> (&& ?x ?y)";
   "(&& (&& ?x (|| ?z ?y)) ?y) ==> (&& ?x ?y)";
   "(&& ?y (&& ?x (|| ?y ?z))) ==> (&& ?y ?x)";
   "(&& ?y (&& ?x (|| ?z ?y))) ==> (&& ?y ?x)";
   "(&& (&& (|| ?y ?z) ?x) ?y) ==> (&& ?x ?y)";
   "(&& (&& (|| ?z ?y) ?x) ?y) ==> (&& ?x ?y)";
   "(&& ?y (&& (|| ?y ?z) ?x)) ==> (&& ?y ?x)";
   "(&& ?y (&& (|| ?z ?y) ?x)) ==> (&& ?y ?x)";
   "(&& (|| ?x ?y) (|| ?x ?z)) ==> (|| ?x (&& ?y ?z))";
   "(&& (|| ?x ?y) (|| ?z ?x)) ==> (|| ?x (&& ?y ?z))";
   "(&& (|| ?y ?x) (|| ?x ?z)) ==> (|| ?x (&& ?y ?z))";
   "(&& (|| ?y ?x) (|| ?z ?x)) ==> (|| ?x (&& ?y ?z))";
   "(&& (< ?x ?y) (< ?x ?z)) ==> (< ?x (min ?y ?z))";
   "(&& (< ?y ?x) (< ?z ?x)) ==> (< (max ?y ?z) ?x)";
   "(&& (<= ?x ?y) (<= ?x ?z)) ==> (<= ?x (min ?y ?z))";
   "(&& (<= ?y ?x) (<= ?z ?x)) ==> (<= (max ?y ?z) ?x)";
   "(- ?x 0) ==> ?x";
   "(- ?x ?x) ==> 0";
   "(- (select ?x ?y ?z) (select ?x ?w ?u)) ==> (select ?x (- ?y ?w) (- ?z ?u))";
   "(- (select ?x ?y ?z) ?y) ==> (select ?x 0 (- ?z ?y))";
   "(- (select ?x ?y ?z) ?z) ==> (select ?x (- ?y ?z) 0)";
   "(- ?y (select ?x ?y ?z)) ==> (select ?x 0 (- ?y ?z))";
   "(- ?z (select ?x ?y ?z)) ==> (select ?x (- ?z ?y) 0)";
   "(- (select ?x (+ ?y ?w) ?z) ?y) ==> (select ?x ?w (- ?z ?y))";
   "(- (select ?x (+ ?w ?y) ?z) ?y) ==> (select ?x ?w (- ?z ?y))";
   "(- (select ?x ?y (+ ?z ?w)) ?z) ==> (select ?x (- ?y ?z) ?w)";
   "(- (select ?x ?y (+ ?w ?z)) ?z) ==> (select ?x (- ?y ?z) ?w)";
   "(- (select ?x (+ ?y (+ ?z ?w)) ?u) ?w) ==> (select ?x (+ ?y ?z) (- ?u ?w))";
   "(- (select ?x (+ ?y (+ ?z ?w)) ?u) ?z) ==> (select ?x (+ ?y ?w) (- ?u ?z))";
   "(- (select ?x (+ (+ ?y ?z) ?w) ?u) ?y) ==> (select ?x (+ ?w ?z) (- ?u ?y))";
   "(- (select ?x (+ (+ ?y ?z) ?w) ?u) ?z) ==> (select ?x (+ ?w ?y) (- ?u ?z))";
   "(- (select ?x (+ ?y ?z) ?w) (+ ?u ?y)) ==> (- (select ?x ?z (- ?w ?y)) ?u)";
   "(- (select ?x (+ ?y ?z) ?w) (+ ?u ?z)) ==> (- (select ?x ?y (- ?w ?z)) ?u)";
   "(- (select ?x (+ ?y ?z) ?w) (+ ?y ?u)) ==> (- (select ?x ?z (- ?w ?y)) ?u)";
   "(- (select ?x (+ ?y ?z) ?w) (+ ?z ?u)) ==> (- (select ?x ?y (- ?w ?z)) ?u)";
   "(- ?y (select ?x (+ ?y ?w) ?z)) ==> (- 0 (select ?x ?w (- ?z ?y)))";
   "(- ?y (select ?x (+ ?w ?y) ?z)) ==> (- 0 (select ?x ?w (- ?z ?y)))";
   "(- ?z (select ?x ?y (+ ?z ?w))) ==> (- 0 (select ?x (- ?y ?z) ?w))";
   "(- ?z (select ?x ?y (+ ?w ?z))) ==> (- 0 (select ?x (- ?y ?z) ?w))";
   "(- (+ ?x ?y) ?x) ==> ?y";
   "(- (+ ?x ?y) ?y) ==> ?x";
   "(- ?x (+ ?x ?y)) ==> (- ?y)";
   "(- ?y (+ ?x ?y)) ==> (- ?x)";
   "(- (- ?x ?y) ?x) ==> (- ?y)";
   "(- (+ (select ?x ?y ?z) ?w) (select ?x ?u ?v)) ==> (+ (select ?x (- ?y ?u) (- ?z ?v)) ?w)";
   "(- (+ ?w (select ?x ?y ?z)) (select ?x ?u ?v)) ==> (+ (select ?x (- ?y ?u) (- ?z ?v)) ?w)";
   "(- (select ?x ?y ?z) (+ (select ?x ?u ?v) ?w)) ==> (- (select ?x (- ?y ?u) (- ?z ?v)) ?w)";
   "(- (select ?x ?y ?z) (+ ?w (select ?x ?u ?v))) ==> (- (select ?x (- ?y ?u) (- ?z ?v)) ?w)";
   "(- (- (select ?x ?y ?z) ?w) (select ?x ?u ?v)) ==> (- (select ?x (- ?y ?u) (- ?z ?v)) ?w)";
   "(- (+ ?x ?c0) ?y) ==> (+ (- ?x ?y) ?c0)";
   "(- ?x (- ?y ?z)) ==> (+ ?x (- ?z ?y))";
   "(- ?x (+ ?y ?c0)) ==> (- (- ?x ?y) ?c0)";
   "(- (* ?x ?y) (* ?z ?y)) ==> (* (- ?x ?z) ?y)";
   "(- (* ?x ?y) (* ?y ?z)) ==> (* (- ?x ?z) ?y)";
   "(- (* ?y ?x) (* ?z ?y)) ==> (* ?y (- ?x ?z))";
   "(- (* ?y ?x) (* ?y ?z)) ==> (* ?y (- ?x ?z))";
   "(- (+ ?u (* ?x ?y)) (* ?z ?y)) ==> (+ ?u (* (- ?x ?z) ?y))";
   "(- (+ ?u (* ?x ?y)) (* ?y ?z)) ==> (+ ?u (* (- ?x ?z) ?y))";
   "(- (+ ?u (* ?y ?x)) (* ?z ?y)) ==> (+ ?u (* ?y (- ?x ?z)))";
   "(- (+ ?u (* ?y ?x)) (* ?y ?z)) ==> (+ ?u (* ?y (- ?x ?z)))";
   "(- (- ?u (* ?x ?y)) (* ?z ?y)) ==> (- ?u (* (+ ?x ?z) ?y))";
   "(- (- ?u (* ?x ?y)) (* ?y ?z)) ==> (- ?u (* (+ ?x ?z) ?y))";
   "(- (- ?u (* ?y ?x)) (* ?z ?y)) ==> (- ?u (* ?y (+ ?x ?z)))";
   "(- (- ?u (* ?y ?x)) (* ?y ?z)) ==> (- ?u (* ?y (+ ?x ?z)))";
   "(- (+ (* ?x ?y) ?u) (* ?z ?y)) ==> (+ ?u (* (- ?x ?z) ?y))";
   "(- (+ (* ?x ?y) ?u) (* ?y ?z)) ==> (+ ?u (* (- ?x ?z) ?y))";
   "(- (+ (* ?y ?x) ?u) (* ?z ?y)) ==> (+ ?u (* ?y (- ?x ?z)))";
   "(- (+ (* ?y ?x) ?u) (* ?y ?z)) ==> (+ ?u (* ?y (- ?x ?z)))";
   "(- (- (* ?x ?y) ?u) (* ?z ?y)) ==> (- (* (- ?x ?z) ?y) ?u)";
   "(- (- (* ?x ?y) ?u) (* ?y ?z)) ==> (- (* (- ?x ?z) ?y) ?u)";
   "(- (- (* ?y ?x) ?u) (* ?z ?y)) ==> (- (* ?y (- ?x ?z)) ?u)";
   "(- (- (* ?y ?x) ?u) (* ?y ?z)) ==> (- (* ?y (- ?x ?z)) ?u)";
   "(- (* ?x ?y) (+ ?u (* ?z ?y))) ==> (- (* (- ?x ?z) ?y) ?u)";
   "(- (* ?x ?y) (+ ?u (* ?y ?z))) ==> (- (* (- ?x ?z) ?y) ?u)";
   "(- (* ?y ?x) (+ ?u (* ?z ?y))) ==> (- (* ?y (- ?x ?z)) ?u)";
   "(- (* ?y ?x) (+ ?u (* ?y ?z))) ==> (- (* ?y (- ?x ?z)) ?u)";
   "(- (* ?x ?y) (- ?u (* ?z ?y))) ==> (- (* (+ ?x ?z) ?y) ?u)";
   "(- (* ?x ?y) (- ?u (* ?y ?z))) ==> (- (* (+ ?x ?z) ?y) ?u)";
   "(- (* ?y ?x) (- ?u (* ?z ?y))) ==> (- (* ?y (+ ?x ?z)) ?u)";
   "(- (* ?y ?x) (- ?u (* ?y ?z))) ==> (- (* ?y (+ ?x ?z)) ?u)";
   "(- (* ?x ?y) (+ (* ?z ?y) ?u)) ==> (- (* (- ?x ?z) ?y) ?u)";
   "(- (* ?x ?y) (+ (* ?y ?z) ?u)) ==> (- (* (- ?x ?z) ?y) ?u)";
   "(- (* ?y ?x) (+ (* ?z ?y) ?u)) ==> (- (* ?y (- ?x ?z)) ?u)";
   "(- (* ?y ?x) (+ (* ?y ?z) ?u)) ==> (- (* ?y (- ?x ?z)) ?u)";
   "(- (* ?x ?y) (- (* ?z ?y) ?u)) ==> (+ (* (- ?x ?z) ?y) ?u)";
   "(- (* ?x ?y) (- (* ?y ?z) ?u)) ==> (+ (* (- ?x ?z) ?y) ?u)";
   "(- (* ?y ?x) (- (* ?z ?y) ?u)) ==> (+ (* ?y (- ?x ?z)) ?u)";
   "(- (* ?y ?x) (- (* ?y ?z) ?u)) ==> (+ (* ?y (- ?x ?z)) ?u)";
   "(- (+ ?x ?y) (+ ?x ?z)) ==> (- ?y ?z)";
   "(- (+ ?x ?y) (+ ?z ?x)) ==> (- ?y ?z)";
   "(- (+ ?y ?x) (+ ?x ?z)) ==> (- ?y ?z)";
   "(- (+ ?y ?x) (+ ?z ?x)) ==> (- ?y ?z)";
   "(- (+ (+ ?x ?y) ?z) ?x) ==> (+ ?y ?z)";
   "(- (+ (+ ?y ?x) ?z) ?x) ==> (+ ?y ?z)";
   "(- (+ ?z (+ ?x ?y)) ?x) ==> (+ ?z ?y)";
   "(- (+ ?z (+ ?y ?x)) ?x) ==> (+ ?z ?y)";
   "(- ?x (+ ?y (- ?x ?z))) ==> (- ?z ?y)";
   "(- ?x (+ (- ?x ?y) ?z)) ==> (- ?y ?z)";
   "(- (+ ?x (- ?y ?z)) ?y) ==> (- ?x ?z)";
   "(- (+ (- ?x ?y) ?z) ?x) ==> (- ?z ?y)";
   "(- ?x (+ ?y (+ ?x ?z))) ==> (- 0 (+ ?y ?z))"].
(* baseline/halide.rules:485-605 *)
Definition halide_baseline5 : list string :=
  ["(- ?x (+ ?y (+ ?z ?x))) ==> (- 0 (+ ?y ?z))";
   "(- ?x (+ (+ ?x ?y) ?z)) ==> (- 0 (+ ?y ?z))";
   "(- ?x (+ (+ ?y ?x) ?z)) ==> (- 0 (+ ?y ?z))";
   "(- (+ ?x ?y) (+ ?z (+ ?w ?x))) ==> (- ?y (+ ?z ?w))";
   "(- (+ ?x ?y) (+ ?z (+ ?w ?y))) ==> (- ?x (+ ?z ?w))";
   "(- (+ ?x ?y) (+ ?z (+ ?x ?w))) ==> (- ?y (+ ?z ?w))";
   "(- (+ ?x ?y) (+ ?z (+ ?y ?w))) ==> (- ?x (+ ?z ?w))";
   "(- (+ ?x ?y) (+ (+ ?x ?z) ?w)) ==> (- ?y (+ ?z ?w))";
   "(- (+ ?x ?y) (+ (+ ?y ?z) ?w)) ==> (- ?x (+ ?z ?w))";
   "(- (+ ?x ?y) (+ (+ ?z ?x) ?w)) ==> (- ?y (+ ?z ?w))";
   "(- (+ ?x ?y) (+ (+ ?z ?y) ?w)) ==> (- ?x (+ ?z ?w))";
   "(- (- ?x ?y) (+ ?x ?z)) ==> (- (- 0 ?y) ?z)";
   "(- (- ?x ?y) (+ ?z ?x)) ==> (- (- 0 ?y) ?z)";
   "(- (- (+ ?x ?y) ?z) ?x) ==> (- ?y ?z)";
   "(- (- (+ ?x ?y) ?z) ?y) ==> (- ?x ?z)";
   "(- ?x (min (- ?x ?y) 0)) ==> (max ?x ?y)";
   "(- ?x (max (- ?x ?y) 0)) ==> (min ?x ?y)";
   "(- (+ ?x ?y) (min ?x ?y)) ==> (max ?y ?x)";
   "(- (+ ?x ?y) (min ?y ?x)) ==> (max ?y ?x)";
   "(- (+ ?x ?y) (max ?x ?y)) ==> (min ?y ?x)";
   "(- (+ ?x ?y) (max ?y ?x)) ==> (min ?x ?y)";
   "(- 0 (+ ?x (- ?y ?z))) ==> (- ?z (+ ?x ?y))";
   "(- 0 (+ (- ?x ?y) ?z)) ==> (- ?y (+ ?x ?z))";
   "(- (- (- ?x ?y) ?z) ?x) ==> (- 0 (+ ?y ?z))";
   "(- (max ?x ?y) ?x) ==> (max (- ?y ?x) 0)";
   "(- (min ?x ?y) ?x) ==> (min (- ?y ?x) 0)";
   "(- (max ?x ?y) ?y) ==> (max (- ?x ?y) 0)";
   "(- (min ?x ?y) ?y) ==> (min (- ?x ?y) 0)";
   "(- ?x (min ?y (- ?x ?z))) ==> (max (- ?x ?y) ?z)";
   "(- ?x (min (- ?x ?y) ?z)) ==> (max ?y (- ?x ?z))";
   "(- ?x (max ?y (- ?x ?z))) ==> (min (- ?x ?y) ?z)";
   "(- ?x (max (- ?x ?y) ?z)) ==> (min ?y (- ?x ?z))";
   "(- (min (- ?x ?y) 0) ?x) ==> (- 0 (max ?x ?y))";
   "(- (max (- ?x ?y) 0) ?x) ==> (- 0 (min ?x ?y))";
   "(- (min ?x ?y) (+ ?x ?y)) ==> (- 0 (max ?y ?x))";
   "(- (min ?x ?y) (+ ?y ?x)) ==> (- 0 (max ?x ?y))";
   "(- (max ?x ?y) (+ ?x ?y)) ==> (- 0 (min ?x ?y))";
   "(- (max ?x ?y) (+ ?y ?x)) ==> (- 0 (min ?y ?x))";
   "(- (* ?x ?y) ?x) ==> (* ?x (- ?y 1))";
   "(- (* ?x ?y) ?y) ==> (* (- ?x 1) ?y)";
   "(- ?x (* ?x ?y)) ==> (* ?x (- 1 ?y))";
   "(- ?x (* ?y ?x)) ==> (* (- 1 ?y) ?x)";
   "(- (min (+ ?x ?y) ?z) ?x) ==> (min (- ?z ?x) ?y)";
   "(- (min (+ ?y ?x) ?z) ?x) ==> (min (- ?z ?x) ?y)";
   "(- (min ?z (+ ?x ?y)) ?x) ==> (min (- ?z ?x) ?y)";
   "(- (min ?z (+ ?y ?x)) ?x) ==> (min (- ?z ?x) ?y)";
   "(- (min ?x (+ ?w (+ ?y ?z))) ?z) ==> (min (- ?x ?z) (+ ?w ?y))";
   "(- (min ?x (+ ?w (+ ?z ?y))) ?z) ==> (min (- ?x ?z) (+ ?w ?y))";
   "(- (min ?x (+ (+ ?y ?z) ?w)) ?z) ==> (min (- ?x ?z) (+ ?y ?w))";
   "(- (min ?x (+ (+ ?z ?y) ?w)) ?z) ==> (min (- ?x ?z) (+ ?y ?w))";
   "(- (min (+ ?w (+ ?y ?z)) ?x) ?z) ==> (min (- ?x ?z) (+ ?w ?y))";
   "(- (min (+ ?w (+ ?z ?y)) ?x) ?z) ==> (min (- ?x ?z) (+ ?w ?y))";
   "(- (min (+ (+ ?y ?z) ?w) ?x) ?z) ==> (min (- ?x ?z) (+ ?y ?w))";
   "(- (min (+ (+ ?z ?y) ?w) ?x) ?z) ==> (min (- ?x ?z) (+ ?y ?w))";
   "(- (min ?x ?y) (min ?y ?x)) ==> 0";
   "(- (max (+ ?x ?y) ?z) ?x) ==> (max (- ?z ?x) ?y)";
   "(- (max (+ ?y ?x) ?z) ?x) ==> (max (- ?z ?x) ?y)";
   "(- (max ?z (+ ?x ?y)) ?x) ==> (max (- ?z ?x) ?y)";
   "(- (max ?z (+ ?y ?x)) ?x) ==> (max (- ?z ?x) ?y)";
   "(- (max ?x (+ ?w (+ ?y ?z))) ?z) ==> (max (- ?x ?z) (+ ?w ?y))";
   "(- (max ?x (+ ?w (+ ?z ?y))) ?z) ==> (max (- ?x ?z) (+ ?w ?y))";
   "(- (max ?x (+ (+ ?y ?z) ?w)) ?z) ==> (max (- ?x ?z) (+ ?y ?w))";
   "(- (max ?x (+ (+ ?z ?y) ?w)) ?z) ==> (max (- ?x ?z) (+ ?y ?w))";
   "(- (max (+ ?w (+ ?y ?z)) ?x) ?z) ==> (max (- ?x ?z) (+ ?w ?y))";
   "(- (max (+ ?w (+ ?z ?y)) ?x) ?z) ==> (max (- ?x ?z) (+ ?w ?y))";
   "(- (max (+ (+ ?y ?z) ?w) ?x) ?z) ==> (max (- ?x ?z) (+ ?y ?w))";
   "(- (max (+ (+ ?z ?y) ?w) ?x) ?z) ==> (max (- ?x ?z) (+ ?y ?w))";
   "(- (max ?x ?y) (max ?y ?x)) ==> 0";
   "(- (+ (min (+ ?x ?y) ?z) ?w) ?x) ==> (+ (min (- ?z ?x) ?y) ?w)";
   "(- (min (+ (+ ?x ?y) ?w) ?z) ?x) ==> (min (- ?z ?x) (+ ?y ?w))";
   "(- (min (min (+ ?x ?z) ?y) ?w) ?x) ==> (min (- (min ?y ?w) ?x) ?z)";
   "(- (min (min ?y (+ ?x ?z)) ?w) ?x) ==> (min (- (min ?y ?w) ?x) ?z)";
   "(- (min (+ (* (+ ?x ?y) ?u) ?z) ?w) (* ?x ?u)) ==> (min (- ?w (* ?x ?u)) (+ (* ?y ?u) ?z))";
   "(- (min (+ (* (+ ?y ?x) ?u) ?z) ?w) (* ?x ?u)) ==> (min (- ?w (* ?x ?u)) (+ (* ?y ?u) ?z))";
   "(|| (!= ?x ?y) (== ?x ?y)) ==> 1";
   "(|| (!= ?x ?y) (== ?y ?x)) ==> 1";
   "(|| (|| ?z (!= ?x ?y)) (== ?x ?y)) ==> 1";
   "(|| (|| ?z (!= ?x ?y)) (== ?y ?x)) ==> 1";
   "(|| (|| (!= ?x ?y) ?z) (== ?x ?y)) ==> 1";
   "(|| (|| (!= ?x ?y) ?z) (== ?y ?x)) ==> 1";
   "(|| (|| ?z (== ?x ?y)) (!= ?x ?y)) ==> 1";
   "(|| (|| ?z (== ?x ?y)) (!= ?y ?x)) ==> 1";
   "(|| (|| (== ?x ?y) ?z) (!= ?x ?y)) ==> 1";
   "(|| (|| (== ?x ?y) ?z) (!= ?y ?x)) ==> 1";
   "(|| ?x (! ?x)) ==> 1";
   "(|| (! ?x) ?x) ==> 1";
   "(|| (<= ?y ?x) (< ?x ?y)) ==> 1";
   "(|| (&& ?x (|| ?y ?z)) ?y) ==> (|| (&& ?x ?z) ?y)";
   "(|| (&& ?x (|| ?z ?y)) ?y) ==> (|| (&& ?x ?z) ?y)";
   "(|| ?y (&& ?x (|| ?y ?z))) ==> (|| ?y (&& ?x ?z))";
   "(|| ?y (&& ?x (|| ?z ?y))) ==> (|| ?y (&& ?x ?z))";
   "(|| (&& (|| ?y ?z) ?x) ?y) ==> (|| (&& ?z ?x) ?y)";
   "(|| (&& (|| ?z ?y) ?x) ?y) ==> (|| (&& ?z ?x) ?y)";
   "(|| ?y (&& (|| ?y ?z) ?x)) ==> (|| ?y (&& ?z ?x))";
   "(|| ?y (&& (|| ?z ?y) ?x)) ==> (|| ?y (&& ?z ?x))";
   "(|| (|| ?x (&& ?y ?z)) ?y) ==> (|| ?x ?y)";
   "(|| (|| ?x (&& ?z ?y)) ?y) ==> (|| ?x ?y)";
   "(|| ?y (|| ?x (&& ?y ?z))) ==> (|| ?y ?x)";
   "(|| ?y (|| ?x (&& ?z ?y))) ==> (|| ?y ?x)";
   "(|| (|| (&& ?y ?z) ?x) ?y) ==> (|| ?x ?y)";
   "(|| (|| (&& ?z ?y) ?x) ?y) ==> (|| ?x ?y)";
   "(|| ?y (|| (&& ?y ?z) ?x)) ==> (|| ?y ?x)";
   "(|| ?y (|| (&& ?z ?y) ?x)) ==> (|| ?y ?x)";
   "(|| (&& ?x ?y) (&& ?x ?z)) ==> (&& ?x (|| ?y ?z))";
   "(|| (&& ?x ?y) (&& ?z ?x)) ==> (&& ?x (|| ?y ?z))";
   "(|| (&& ?y ?x) (&& ?x ?z)) ==> (&& ?x (|| ?y ?z))";
   "(|| (&& ?y ?x) (&& ?z ?x)) ==> (&& ?x (|| ?y ?z))";
   "(|| (< ?x ?y) (< ?x ?z)) ==> (< ?x (max ?y ?z))";
   "(|| (< ?y ?x) (< ?z ?x)) ==> (< (min ?y ?z) ?x)";
   "(|| (<= ?x ?y) (<= ?x ?z)) ==> (<= ?x (max ?y ?z))";
   "(|| (<= ?y ?x) (<= ?z ?x)) ==> (<= (min ?y ?z) ?x)";
   "(+ ?x 0) ==> ?x";
   "(+ 0 ?x) ==> ?x";
   "(+ ?x ?x) ==> (* ?x 2)";
   "(+ (select ?x ?y ?z) (select ?x ?w ?u)) ==> (select ?x (+ ?y ?w) (+ ?z ?u))";
   "(+ (select ?x ?y ?z) (+ (select ?x ?u ?v) ?w)) ==> (+ (select ?x (+ ?y ?u) (+ ?z ?v)) ?w)";
   "(+ (select ?x ?y ?z) (+ ?w (select ?x ?u ?v))) ==> (+ (select ?x (+ ?y ?u) (+ ?z ?v)) ?w)";
   "(+ (select ?x ?y ?z) (- (select ?x ?u ?v) ?w)) ==> (- (select ?x (+ ?y ?u) (+ ?z ?v)) ?w)";
   "(+ (select ?x ?y ?z) (- ?w (select ?x ?u ?v))) ==> (+ (select ?x (- ?y ?u) (- ?z ?v)) ?w)";
   "(+ ?x (* ?y -1)) ==> (- ?x ?y)";
   "(+ (* ?x -1) ?y) ==> (- ?y ?x)"].
(* baseline/halide.rules:606-725 *)
Definition halide_baseline6 : list string :=
  ["(+ (+ ?x ?c0) ?y) ==> (+ (+ ?x ?y) ?c0)";
   "(+ ?x (+ ?y ?c0)) ==> (+ (+ ?x ?y) ?c0)";
   "(+ (- ?c0 ?x) ?y) ==> (+ (- ?y ?x) ?c0)";
   "(+ (max ?x (+ (* ?y ?c0) ?z)) (* (- ?u ?y) ?c0)) ==> (+ (max (- ?x (* ?y ?c0)) ?z) (* ?u ?c0))";
   "(+ (- ?x ?y) ?y) ==> ?x";
   "(+ ?x (- ?y ?x)) ==> ?y";
   "(+ (+ (- ?x ?y) ?z) ?y) ==> (+ ?x ?z)";
   "(+ (+ ?z (- ?x ?y)) ?y) ==> (+ ?z ?x)";
   "(+ ?x (+ (- ?y ?x) ?z)) ==> (+ ?y ?z)";
   "(+ ?x (+ ?z (- ?y ?x))) ==> (+ ?z ?y)";
   "(+ ?x (- ?c0 ?y)) ==> (+ (- ?x ?y) ?c0)";
   "(+ (- ?x ?y) (- ?y ?z)) ==> (- ?x ?z)";
   "(+ (- ?x ?y) (- ?z ?x)) ==> (- ?z ?y)";
   "(+ (- ?x ?y) (+ ?y ?z)) ==> (+ ?x ?z)";
   "(+ (- ?x ?y) (+ ?z ?y)) ==> (+ ?x ?z)";
   "(+ ?x (- (- ?y ?x) ?z)) ==> (- ?y ?z)";
   "(+ (- (- ?x ?y) ?z) ?y) ==> (- ?x ?z)";
   "(+ ?x (- ?y (+ ?x ?z))) ==> (- ?y ?z)";
   "(+ ?x (- ?y (+ ?z ?x))) ==> (- ?y ?z)";
   "(+ (- ?x (+ ?y ?z)) ?y) ==> (- ?x ?z)";
   "(+ (- ?x (+ ?y ?z)) ?z) ==> (- ?x ?y)";
   "(+ ?x (- (- 0 ?y) ?z)) ==> (- ?x (+ ?y ?z))";
   "(+ (- (- 0 ?x) ?y) ?z) ==> (- ?z (+ ?x ?y))";
   "(+ (* ?x ?y) (* ?z ?y)) ==> (* (+ ?x ?z) ?y)";
   "(+ (* ?x ?y) (* ?y ?z)) ==> (* (+ ?x ?z) ?y)";
   "(+ (* ?y ?x) (* ?z ?y)) ==> (* ?y (+ ?x ?z))";
   "(+ (* ?y ?x) (* ?y ?z)) ==> (* ?y (+ ?x ?z))";
   "(+ ?x (* ?x ?y)) ==> (* ?x (+ ?y 1))";
   "(+ ?x (* ?y ?x)) ==> (* (+ ?y 1) ?x)";
   "(+ (* ?x ?y) ?x) ==> (* ?x (+ ?y 1))";
   "(+ (min ?x (- ?y ?z)) ?z) ==> (min (+ ?x ?z) ?y)";
   "(+ (min (- ?y ?z) ?x) ?z) ==> (min ?y (+ ?x ?z))";
   "(+ ?z (min ?x (- ?y ?z))) ==> (min (+ ?z ?x) ?y)";
   "(+ ?z (min (- ?y ?z) ?x)) ==> (min ?y (+ ?z ?x))";
   "(+ ?z (max ?x (- ?y ?z))) ==> (max (+ ?z ?x) ?y)";
   "(+ ?z (max (- ?y ?z) ?x)) ==> (max ?y (+ ?z ?x))";
   "(+ (max ?x (- ?y ?z)) ?z) ==> (max (+ ?x ?z) ?y)";
   "(+ (max (- ?y ?z) ?x) ?z) ==> (max ?y (+ ?x ?z))";
   "(+ (max ?x ?y) (min ?x ?y)) ==> (+ ?x ?y)";
   "(+ (max ?x ?y) (min ?y ?x)) ==> (+ ?x ?y)";
   "(min ?x ?x) ==> ?x";
   "(min (select ?x (min ?z ?y) ?w) ?y) ==> (min (select ?x ?z ?w) ?y)";
   "(min (select ?x (min ?z ?y) ?w) ?z) ==> (min (select ?x ?y ?w) ?z)";
   "(min (select ?x ?w (min ?z ?y)) ?y) ==> (min (select ?x ?w ?z) ?y)";
   "(min (select ?x ?w (min ?z ?y)) ?z) ==> (min (select ?x ?w ?y) ?z)";
   "(min (min ?x ?c0) ?y) ==> (min (min ?x ?y) ?c0)";
   "(min (min ?x ?y) (min ?x ?z)) ==> (min (min ?y ?z) ?x)";
   "(min (min ?y ?x) (min ?x ?z)) ==> (min (min ?y ?z) ?x)";
   "(min (min ?x ?y) (min ?z ?x)) ==> (min (min ?y ?z) ?x)";
   "(min (min ?y ?x) (min ?z ?x)) ==> (min (min ?y ?z) ?x)";
   "(min (min ?x ?y) (min ?z ?w)) ==> (min (min (min ?x ?y) ?z) ?w)";
   "(min (max ?x ?y) (max ?x ?z)) ==> (max ?x (min ?y ?z))";
   "(min (max ?x ?y) (max ?z ?x)) ==> (max ?x (min ?y ?z))";
   "(min (max ?y ?x) (max ?x ?z)) ==> (max (min ?y ?z) ?x)";
   "(min (max ?y ?x) (max ?z ?x)) ==> (max (min ?y ?z) ?x)";
   "(min (max (min ?x ?y) ?z) ?y) ==> (min (max ?x ?z) ?y)";
   "(min (max (min ?y ?x) ?z) ?y) ==> (min ?y (max ?x ?z))";
   "(min ?x (min ?y (max ?x ?z))) ==> (min ?y ?x)";
   "(min ?x (min ?y (max ?z ?x))) ==> (min ?y ?x)";
   "(min ?x (min (max ?x ?y) ?z)) ==> (min ?x ?z)";
   "(min ?x (min (max ?y ?x) ?z)) ==> (min ?x ?z)";
   "(min (min ?x (max ?y ?z)) ?y) ==> (min ?x ?y)";
   "(min (min ?x (max ?y ?z)) ?z) ==> (min ?x ?z)";
   "(min (min (max ?x ?y) ?z) ?x) ==> (min ?z ?x)";
   "(min (min (max ?x ?y) ?z) ?y) ==> (min ?z ?y)";
   "(min (select ?x (max ?y ?z) ?w) ?z) ==> (select ?x ?z (min ?w ?z))";
   "(min (select ?x (max ?z ?y) ?w) ?z) ==> (select ?x ?z (min ?w ?z))";
   "(min ?z (select ?x (max ?y ?z) ?w)) ==> (select ?x ?z (min ?z ?w))";
   "(min ?z (select ?x (max ?z ?y) ?w)) ==> (select ?x ?z (min ?z ?w))";
   "(min (select ?x ?y (max ?w ?z)) ?z) ==> (select ?x (min ?y ?z) ?z)";
   "(min (select ?x ?y (max ?z ?w)) ?z) ==> (select ?x (min ?y ?z) ?z)";
   "(min ?z (select ?x ?y (max ?w ?z))) ==> (select ?x (min ?z ?y) ?z)";
   "(min ?z (select ?x ?y (max ?z ?w))) ==> (select ?x (min ?z ?y) ?z)";
   "(min (select ?x ?y ?z) (select ?x ?w ?u)) ==> (select ?x (min ?y ?w) (min ?z ?u))";
   "(min (+ ?x ?y) (+ ?x ?z)) ==> (+ ?x (min ?y ?z))";
   "(min (+ ?x ?y) (+ ?z ?x)) ==> (+ ?x (min ?y ?z))";
   "(min (+ ?y ?x) (+ ?x ?z)) ==> (+ (min ?y ?z) ?x)";
   "(min (+ ?y ?x) (+ ?z ?x)) ==> (+ (min ?y ?z) ?x)";
   "(min ?x (+ ?x ?z)) ==> (+ ?x (min ?z 0))";
   "(min ?x (+ ?z ?x)) ==> (+ ?x (min ?z 0))";
   "(min (+ ?y ?x) ?x) ==> (+ (min ?y 0) ?x)";
   "(min (+ ?x ?y) ?x) ==> (+ ?x (min ?y 0))";
   "(min (min (+ ?x ?y) ?z) (+ ?x ?w)) ==> (min (+ ?x (min ?y ?w)) ?z)";
   "(min (min ?z (+ ?x ?y)) (+ ?x ?w)) ==> (min (+ ?x (min ?y ?w)) ?z)";
   "(min (min (+ ?x ?y) ?z) (+ ?w ?x)) ==> (min (+ ?x (min ?y ?w)) ?z)";
   "(min (min ?z (+ ?x ?y)) (+ ?w ?x)) ==> (min (+ ?x (min ?y ?w)) ?z)";
   "(min (min (+ ?y ?x) ?z) (+ ?x ?w)) ==> (min (+ (min ?y ?w) ?x) ?z)";
   "(min (min ?z (+ ?y ?x)) (+ ?x ?w)) ==> (min (+ (min ?y ?w) ?x) ?z)";
   "(min (min (+ ?y ?x) ?z) (+ ?w ?x)) ==> (min (+ (min ?y ?w) ?x) ?z)";
   "(min (min ?z (+ ?y ?x)) (+ ?w ?x)) ==> (min (+ (min ?y ?w) ?x) ?z)";
   "(min (+ (+ ?x ?w) ?y) (+ ?x ?z)) ==> (+ ?x (min (+ ?w ?y) ?z))";
   "(min (+ (+ ?w ?x) ?y) (+ ?x ?z)) ==> (+ (min (+ ?w ?y) ?z) ?x)";
   "(min (+ (+ ?x ?w) ?y) (+ ?z ?x)) ==> (+ ?x (min (+ ?w ?y) ?z))";
   "(min (+ (+ ?w ?x) ?y) (+ ?z ?x)) ==> (+ (min (+ ?w ?y) ?z) ?x)";
   "(min (+ (+ ?x ?w) ?y) ?x) ==> (+ ?x (min (+ ?w ?y) 0))";
   "(min (+ (+ ?w ?x) ?y) ?x) ==> (+ ?x (min (+ ?w ?y) 0))";
   "(min (+ ?x ?y) (+ (+ ?w ?x) ?z)) ==> (+ ?x (min (+ ?w ?z) ?y))";
   "(min (+ ?x ?y) (+ (+ ?x ?w) ?z)) ==> (+ ?x (min (+ ?w ?z) ?y))";
   "(min (+ ?y ?x) (+ (+ ?w ?x) ?z)) ==> (+ (min (+ ?w ?z) ?y) ?x)";
   "(min (+ ?y ?x) (+ (+ ?x ?w) ?z)) ==> (+ (min (+ ?w ?z) ?y) ?x)";
   "(min ?x (+ (+ ?w ?x) ?z)) ==> (+ ?x (min (+ ?w ?z) 0))";
   "(min ?x (+ (+ ?x ?w) ?z)) ==> (+ ?x (min (+ ?w ?z) 0))";
   "(min (- ?y ?x) (- ?z ?x)) ==> (- (min ?y ?z) ?x)";
   "(min (- ?x ?y) (- ?x ?z)) ==> (- ?x (max ?y ?z))";
   "(min (- ?x ?y) (+ (- ?z ?y) ?w)) ==> (- (min ?x (+ ?z ?w)) ?y)";
   "(min (- ?x ?y) (+ ?w (- ?z ?y))) ==> (- (min ?x (+ ?w ?z)) ?y)";
   "(min ?x (- ?x ?y)) ==> (- ?x (max ?y 0))";
   "(min (- ?x ?y) ?x) ==> (- ?x (max ?y 0))";
   "(min ?x (+ (- ?x ?y) ?z)) ==> (+ ?x (min (- ?z ?y) 0))";
   "(min ?x (+ ?z (- ?x ?y))) ==> (+ ?x (min (- ?z ?y) 0))";
   "(min ?x (- (- ?x ?y) ?z)) ==> (- ?x (max (+ ?y ?z) 0))";
   "(min (+ (- ?x ?y) ?z) ?x) ==> (+ (min (- ?z ?y) 0) ?x)";
   "(min (+ ?z (- ?x ?y)) ?x) ==> (+ (min (- ?z ?y) 0) ?x)";
   "(min (- (- ?x ?y) ?z) ?x) ==> (- ?x (max (+ ?y ?z) 0))";
   "(max ?c0 ?x) ==> (max ?x ?c0)";
   "(max ?x (max ?y ?c0)) ==> (max (max ?x ?y) ?c0)";
   "(min ?c0 ?x) ==> (min ?x ?c0)";
   "(min ?x (min ?y ?c0)) ==> (min (min ?x ?y) ?c0)";
   "(- (min ?x ?y) (max ?x ?z)) ==> (min (- (min ?x ?y) (max ?x ?z)) 0)";
   "(- (max ?x ?y) (min ?x ?z)) ==> (max (- (max ?x ?y) (min ?x ?z)) 0)"].
(* baseline/halide.rules *)
Definition halide_baseline : list string := halide_baseline1 ++ halide_baseline2 ++ halide_baseline3 ++ halide_baseline4 ++ halide_baseline5 ++ halide_baseline6.
(* baseline/oopsla-halide.rules:1-90 *)
Definition oopsla_halide : list string :=
  ["(max ?a ?b) ==> (max ?b ?a)";
   "(max ?b ?a) ==> (max ?a ?b)";
   "(min ?a ?b) ==> (min ?b ?a)";
   "(min ?b ?a) ==> (min ?a ?b)";
   "(&& ?a ?b) ==> (&& ?b ?a)";
   "(&& ?b ?a) ==> (&& ?a ?b)";
   "(|| ?a ?b) ==> (|| ?b ?a)";
   "(|| ?b ?a) ==> (|| ?a ?b)";
   "(== ?a ?b) ==> (== ?b ?a)";
   "(== ?b ?a) ==> (== ?a ?b)";
   "(!= ?a ?b) ==> (!= ?b ?a)";
   "(!= ?b ?a) ==> (!= ?a ?b)";
   "(^ ?a ?b) ==> (^ ?b ?a)";
   "(^ ?b ?a) ==> (^ ?a ?b)";
   "(* ?a ?b) ==> (* ?b ?a)";
   "(* ?b ?a) ==> (* ?a ?b)";
   "(+ ?a ?b) ==> (+ ?b ?a)";
   "(+ ?b ?a) ==> (+ ?a ?b)";
   "(select ?a ?b ?b) ==> ?b";
   "?a ==> (min ?a ?a)";
   "(min ?a ?a) ==> ?a";
   "?a ==> (max ?a ?a)";
   "(max ?a ?a) ==> ?a";
   "(== ?a ?a) ==> (<= ?a ?a)";
   "(<= ?a ?a) ==> (== ?a ?a)";
   "(|| ?a ?a) ==> (&& ?a ?a)";
   "(&& ?a ?a) ==> (|| ?a ?a)";
   "(^ ?a ?a) ==> (< ?a ?a)";
   "(< ?a ?a) ==> (^ ?a ?a)";
   "(< ?a ?a) ==> (!= ?a ?a)";
   "(!= ?a ?a) ==> (< ?a ?a)";
   "(- ?a ?a) ==> (!= ?a ?a)";
   "(!= ?a ?a) ==> (- ?a ?a)";
   "?a ==> (* ?a 1)";
   "(* ?a 1) ==> ?a";
   "?a ==> (- ?a 0)";
   "(- ?a 0) ==> ?a";
   "?a ==> (+ ?a 0)";
   "(+ ?a 0) ==> ?a";
   "(<= ?a ?a) ==> 1";
   "(< ?a ?a) ==> 0";
   "(- ?a) ==> (- 0 ?a)";
   "(- 0 ?a) ==> (- ?a)";
   "(^ ?a -1) ==> (! ?a)";
   "(! ?a) ==> (^ ?a -1)";
   "(^ ?a 1) ==> (! ?a)";
   "(! ?a) ==> (^ ?a 1)";
   "(== ?a 0) ==> (! ?a)";
   "(! ?a) ==> (== ?a 0)";
   "(- ?a) ==> (* ?a -1)";
   "(* ?a -1) ==> (- ?a)";
   "(&& ?a ?a) ==> (&& ?a -1)";
   "(&& ?a -1) ==> (&& ?a ?a)";
   "(&& ?a ?a) ==> (&& ?a 1)";
   "(&& ?a 1) ==> (&& ?a ?a)";
   "(|| ?a 0) ==> (&& ?a ?a)";
   "(&& ?a ?a) ==> (|| ?a 0)";
   "(^ ?a 0) ==> (&& ?a ?a)";
   "(&& ?a ?a) ==> (^ ?a 0)";
   "(&& ?a ?a) ==> (!= ?a 0)";
   "(!= ?a 0) ==> (&& ?a ?a)";
   "?a ==> (select -1 ?a -1)";
   "(select -1 ?a -1) ==> ?a";
   "?a ==> (select 0 0 ?a)";
   "(select 0 0 ?a) ==> ?a";
   "?a ==> (select 1 ?a 1)";
   "(select 1 ?a 1) ==> ?a";
   "(|| ?a -1) ==> 1";
   "(|| ?a 1) ==> 1";
   "(&& ?a 0) ==> 0";
   "(* ?a 0) ==> 0";
   "(<= ?a 0) ==> (< ?a 1)";
   "(< ?a 1) ==> (<= ?a 0)";
   "(<= ?a -1) ==> (< ?a 0)";
   "(< ?a 0) ==> (<= ?a -1)";
   "(<= 0 ?a) ==> (< -1 ?a)";
   "(< -1 ?a) ==> (<= 0 ?a)";
   "(<= 1 ?a) ==> (< 0 ?a)";
   "(< 0 ?a) ==> (<= 1 ?a)";
   "(- ?a -1) ==> (+ ?a 1)";
   "(+ ?a 1) ==> (- ?a -1)";
   "(- ?a 1) ==> (+ ?a -1)";
   "(+ ?a -1) ==> (- ?a 1)";
   "(select ?a 0 ?a) ==> 0";
   "(select ?a 0 1) ==> (! ?a)";
   "(! ?a) ==> (select ?a 0 1)";
   "(select -1 0 ?a) ==> 0";
   "(select -1 1 ?a) ==> 1";
   "(select 1 -1 ?a) ==> -1";
   "(select 1 0 ?a) ==> 0"].
(* baseline/rational.rules:1-113 *)
Definition rational_baseline : list string :=
  ["(* ?a (* ?b ?c)) ==> (* ?b (* ?a ?c))";
   "(* ?b (* ?a ?c)) ==> (* ?a (* ?b ?c))";
   "(- ?a (- ?b ?c)) ==> (- ?c (- ?b ?a))";
   "(- ?c (- ?b ?a)) ==> (- ?a (- ?b ?c))";
   "(- (- ?a ?b) ?c) ==> (- (- ?a ?c) ?b)";
   "(- (- ?a ?c) ?b) ==> (- (- ?a ?b) ?c)";
   "(+ ?a (+ ?b ?c)) ==> (+ ?b (+ ?a ?c))";
   "(+ ?b (+ ?a ?c)) ==> (+ ?a (+ ?b ?c))";
   "(- (+ ?a ?b) ?c) ==> (+ ?b (- ?a ?c))";
   "(+ ?b (- ?a ?c)) ==> (- (+ ?a ?b) ?c)";
   "(* ?a (- ?b ?c)) ==> (* (~ ?a) (- ?c ?b))";
   "(* (~ ?a) (- ?c ?b)) ==> (* ?a (- ?b ?c))";
   "(+ ?a (- ?b (+ ?a ?c))) ==> (- ?b ?c)";
   "(- (* ?a ?b) (* ?b ?c)) ==> (* ?b (- ?a ?c))";
   "(* ?b (- ?a ?c)) ==> (- (* ?a ?b) (* ?b ?c))";
   "(+ (* ?a ?b) (* ?b ?c)) ==> (* ?b (+ ?a ?c))";
   "(* ?b (+ ?a ?c)) ==> (+ (* ?a ?b) (* ?b ?c))";
   "(* ?a (* ?b (/ ?c ?a))) ==> (* ?a (* ?c (/ ?b ?a)))";
   "(* ?a (* ?c (/ ?b ?a))) ==> (* ?a (* ?b (/ ?c ?a)))";
   "(* ?a ?b) ==> (* ?b ?a)";
   "(* ?b ?a) ==> (* ?a ?b)";
   "(+ ?a ?b) ==> (+ ?b ?a)";
   "(+ ?b ?a) ==> (+ ?a ?b)";
   "(fabs (- ?a ?b)) ==> (fabs (- ?b ?a))";
   "(fabs (- ?b ?a)) ==> (fabs (- ?a ?b))";
   "(fabs (* ?a ?b)) ==> (* (fabs ?a) (fabs ?b))";
   "(* (fabs ?a) (fabs ?b)) ==> (fabs (* ?a ?b))";
   "(* ?a ?b) ==> (* ?a (* ?b (/ ?a ?a)))";
   "(* ?a (* ?b (/ ?a ?a))) ==> (* ?a ?b)";
   "(/ (* ?a ?b) (/ ?a ?a)) ==> (* ?a ?b)";
   "(* ?a ?b) ==> (/ (* ?a ?b) (/ ?a ?a))";
   "(/ (- ?a ?b) (- ?b ?a)) ==> (/ (- ?b ?a) (- ?a ?b))";
   "(/ (- ?b ?a) (- ?a ?b)) ==> (/ (- ?a ?b) (- ?b ?a))";
   "(/ (- ?a ?b) (- ?a ?b)) ==> (/ (- ?b ?a) (- ?b ?a))";
   "(/ (- ?b ?a) (- ?b ?a)) ==> (/ (- ?a ?b) (- ?a ?b))";
   "(- (* ?a ?a) (* ?b ?b)) ==> (* (- ?a ?b) (+ ?a ?b))";
   "(* (- ?a ?b) (+ ?a ?b)) ==> (- (* ?a ?a) (* ?b ?b))";
   "(/ 0 (- ?a ?b)) ==> (/ 0 (- ?b ?a))";
   "(/ 0 (- ?b ?a)) ==> (/ 0 (- ?a ?b))";
   "(* ?a (* ?b (/ 0 ?a))) ==> 0";
   "(* (/ 0 ?a) (/ ?a ?b)) ==> (* (/ 0 ?a) (/ 0 ?b))";
   "(* (/ 0 ?a) (/ 0 ?b)) ==> (* (/ 0 ?a) (/ ?a ?b))";
   "(* (/ 0 ?a) (/ ?a ?b)) ==> (* (/ 0 ?b) (/ ?b ?a))";
   "(* (/ 0 ?b) (/ ?b ?a)) ==> (* (/ 0 ?a) (/ ?a ?b))";
   "(fabs ?a) ==> (fabs (fabs ?a))";
   "(fabs (fabs ?a)) ==> (fabs ?a)";
   "(fabs (* ?a ?a)) ==> (* ?a ?a)";
   "(* ?a ?a) ==> (fabs (* ?a ?a))";
   "(/ ?a (fabs ?a)) ==> (/ (fabs ?a) ?a)";
   "(/ (fabs ?a) ?a) ==> (/ ?a (fabs ?a))";
   "(/ ?a ?a) ==> (/ (fabs ?a) (fabs ?a))";
   "(/ (fabs ?a) (fabs ?a)) ==> (/ ?a ?a)";
   "(/ (~ ?a) (fabs ?a)) ==> (/ (fabs ?a) (~ ?a))";
   "(/ (fabs ?a) (~ ?a)) ==> (/ (~ ?a) (fabs ?a))";
   "(/ ?a ?a) ==> (/ (* ?a ?a) (* ?a ?a))";
   "(/ (* ?a ?a) (* ?a ?a)) ==> (/ ?a ?a)";
   "(/ ?a ?a) ==> (/ (+ ?a ?a) (+ ?a ?a))";
   "(/ (+ ?a ?a) (+ ?a ?a)) ==> (/ ?a ?a)";
   "?a ==> (* ?a 1)";
   "(* ?a 1) ==> ?a";
   "?a ==> (- ?a 0)";
   "(- ?a 0) ==> ?a";
   "?a ==> (+ ?a 0)";
   "(+ ?a 0) ==> ?a";
   "?a ==> (/ ?a 1)";
   "(/ ?a 1) ==> ?a";
   "(- ?a ?a) ==> 0";
   "(~ ?a) ==> (* ?a -1)";
   "(* ?a -1) ==> (~ ?a)";
   "(~ ?a) ==> (- 0 ?a)";
   "(- 0 ?a) ==> (~ ?a)";
   "(~ ?a) ==> (/ ?a -1)";
   "(/ ?a -1) ==> (~ ?a)";
   "(fabs (+ ?a ?a)) ==> (* (fabs ?a) 2)";
   "(* (fabs ?a) 2) ==> (fabs (+ ?a ?a))";
   "(/ (* ?a ?a) ?a) ==> (+ ?a (/ 0 ?a))";
   "(+ ?a (/ 0 ?a)) ==> (/ (* ?a ?a) ?a)";
   "(/ (* ?a ?a) (~ ?a)) ==> (- (/ 0 ?a) ?a)";
   "(- (/ 0 ?a) ?a) ==> (/ (* ?a ?a) (~ ?a))";
   "(/ (* ?a ?a) (fabs ?a)) ==> (+ (/ 0 ?a) (fabs ?a))";
   "(+ (/ 0 ?a) (fabs ?a)) ==> (/ (* ?a ?a) (fabs ?a))";
   "(* ?a 0) ==> 0";
   "(- ?a 1) ==> (+ ?a -1)";
   "(+ ?a -1) ==> (- ?a 1)";
   "(- ?a -1) ==> (+ ?a 1)";
   "(+ ?a 1) ==> (- ?a -1)";
   "(/ 0 ?a) ==> (/ 0 (fabs ?a))";
   "(/ 0 (fabs ?a)) ==> (/ 0 ?a)";
   "(* ?a (/ 0 ?a)) ==> 0";
   "(/ 0 ?a) ==> (/ 0 (+ ?a ?a))";
   "(/ 0 (+ ?a ?a)) ==> (/ 0 ?a)";
   "(/ 0 ?a) ==> (/ 0 (* ?a ?a))";
   "(/ 0 (* ?a ?a)) ==> (/ 0 ?a)";
   "(/ (/ 0 ?a) ?a) ==> (/ (/ 0 ?a) (~ ?a))";
   "(/ (/ 0 ?a) (~ ?a)) ==> (/ (/ 0 ?a) ?a)";
   "(/ (/ 0 ?a) ?a) ==> (/ (/ 0 ?a) (fabs ?a))";
   "(/ (/ 0 ?a) (fabs ?a)) ==> (/ (/ 0 ?a) ?a)";
   "(/ (/ 0 ?a) ?a) ==> (/ (/ 0 ?a) (+ ?a ?a))";
   "(/ (/ 0 ?a) (+ ?a ?a)) ==> (/ (/ 0 ?a) ?a)";
   "(/ (/ 0 ?a) ?a) ==> (/ (/ 0 ?a) (* ?a ?a))";
   "(/ (/ 0 ?a) (* ?a ?a)) ==> (/ (/ 0 ?a) ?a)";
   "(/ (+ ?a 1) ?a) ==> (* (+ ?a 1) (/ 1 ?a))";
   "(* (+ ?a 1) (/ 1 ?a)) ==> (/ (+ ?a 1) ?a)";
   "(- (/ 0 ?a) (/ ?a ?a)) ==> (* ?a (/ -1 ?a))";
   "(* ?a (/ -1 ?a)) ==> (- (/ 0 ?a) (/ ?a ?a))";
   "(- (/ ?a ?a) (/ 0 ?a)) ==> (* ?a (/ 1 ?a))";
   "(* ?a (/ 1 ?a)) ==> (- (/ ?a ?a) (/ 0 ?a))";
   "(/ (- 1 ?a) ?a) ==> (* (- 1 ?a) (/ 1 ?a))";
   "(* (- 1 ?a) (/ 1 ?a)) ==> (/ (- 1 ?a) ?a)";
   "(/ (+ ?a -1) ?a) ==> (* (- 1 ?a) (/ -1 ?a))";
   "(* (- 1 ?a) (/ -1 ?a)) ==> (/ (+ ?a -1) ?a)";
   "(/ (- -1 ?a) ?a) ==> (* (/ -1 ?a) (+ ?a 1))";
   "(* (/ -1 ?a) (+ ?a 1)) ==> (/ (- -1 ?a) ?a)"].
(* baseline/herbie-rational.rules:1-87 *)
Definition herbie_rational : list string :=
  ["(fabs ?a) ==> (fabs (~ ?a))";
   "(* (fabs ?a) (fabs ?b)) ==> (fabs (* ?a ?b))";
   "(/ (fabs ?a) (fabs ?b)) ==> (fabs (/ ?a ?b))";
   "(fabs (fabs ?a)) ==> (fabs ?a)";
   "(fabs (- ?a ?b)) ==> (fabs (- ?b ?a))";
   "(fabs (~ ?a)) ==> (fabs ?a)";
   "(fabs (* ?a ?a)) ==> (* ?a ?a)";
   "(fabs (* ?a ?b)) ==> (* (fabs ?a) (fabs ?b))";
   "(fabs (/ ?a ?b)) ==> (/ (fabs ?a) (fabs ?b))";
   "(* (~ ?a) (~ ?a)) ==> (* ?a ?a)";
   "(* (fabs ?a) (fabs ?a)) ==> (* ?a ?a)";
   "(- (/ ?a ?b) (/ ?c ?b)) ==> (/ (- ?a ?c) ?b)";
   "(+ (/ ?a ?b) (/ ?c ?d)) ==> (/ (+ (* ?a ?d) (* ?b ?c)) (* ?b ?d))";
   "(- (/ ?a ?b) (/ ?c ?d)) ==> (/ (- (* ?a ?d) (* ?b ?c)) (* ?b ?d))";
   "(* (/ ?a ?b) (/ ?c ?d)) ==> (/ (* ?a ?c) (* ?b ?d))";
   "(/ ?a ?b) ==> (/ (~ ?a) (~ ?b))";
   "(/ (- ?a ?b) ?c) ==> (- (/ ?a ?c) (/ ?b ?c))";
   "(/ (* ?a ?b) (* ?c ?d)) ==> (* (/ ?a ?c) (/ ?b ?d))";
   "?a ==> (* 1 ?a)";
   "(/ ?a ?b) ==> (* ?a (/ 1 ?b))";
   "(* ?a (/ 1 ?b)) ==> (/ ?a ?b)";
   "(/ ?a ?b) ==> (/ 1 (/ ?b ?a))";
   "(- ?a ?b) ==> (+ ?a (~ ?b))";
   "(+ ?a (~ ?b)) ==> (- ?a ?b)";
   "(~ ?a) ==> (- 0 ?a)";
   "(~ ?a) ==> (* -1 ?a)";
   "(+ 0 ?a) ==> ?a";
   "(+ ?a 0) ==> ?a";
   "(- ?a 0) ==> ?a";
   "(- 0 ?a) ==> (~ ?a)";
   "(~ (~ ?a)) ==> ?a";
   "(* 1 ?a) ==> ?a";
   "(* ?a 1) ==> ?a";
   "(/ ?a 1) ==> ?a";
   "(* -1 ?a) ==> (~ ?a)";
   "(- ?a ?a) ==> 0";
   "(/ ?a ?a) ==> 1";
   "(/ 0 ?a) ==> 0";
   "(* 0 ?a) ==> 0";
   "(* ?a 0) ==> 0";
   "(/ 1 (/ 1 ?a)) ==> ?a";
   "(* ?a (/ 1 ?a)) ==> 1";
   "(* (/ 1 ?a) ?a) ==> 1";
   "(+ ?a ?b) ==> (/ (- (* ?a ?a) (* ?b ?b)) (- ?a ?b))";
   "(- ?a ?b) ==> (/ (- (* ?a ?a) (* ?b ?b)) (+ ?a ?b))";
   "(* (* ?a ?b) (* ?a ?b)) ==> (* (* ?a ?a) (* ?b ?b))";
   "(* (* ?a ?a) (* ?b ?b)) ==> (* (* ?a ?b) (* ?a ?b))";
   "(- (* ?a ?a) (* ?b ?b)) ==> (* (+ ?a ?b) (- ?a ?b))";
   "(- (* ?a ?a) 1) ==> (* (+ ?a 1) (- ?a 1))";
   "(+ (* ?a ?a) -1) ==> (* (+ ?a 1) (- ?a 1))";
   "(- ?a (* (~ ?b) ?c)) ==> (+ ?a (* ?b ?c))";
   "(- ?a (* ?b ?c)) ==> (+ ?a (* (~ ?b) ?c))";
   "(~ (* ?a ?b)) ==> (* (~ ?a) ?b)";
   "(~ (* ?a ?b)) ==> (* ?a (~ ?b))";
   "(* (~ ?a) ?b) ==> (~ (* ?a ?b))";
   "(* ?a (~ ?b)) ==> (~ (* ?a ?b))";
   "(~ (+ ?a ?b)) ==> (+ (~ ?a) (~ ?b))";
   "(+ (~ ?a) (~ ?b)) ==> (~ (+ ?a ?b))";
   "(/ (~ ?a) ?b) ==> (~ (/ ?a ?b))";
   "(~ (/ ?a ?b)) ==> (/ (~ ?a) ?b)";
   "(* ?a (+ ?b ?c)) ==> (+ (* ?a ?b) (* ?a ?c))";
   "(* ?a (+ ?b ?c)) ==> (+ (* ?b ?a) (* ?c ?a))";
   "(+ (* ?a ?b) (* ?a ?c)) ==> (* ?a (+ ?b ?c))";
   "(- (* ?a ?b) (* ?a ?c)) ==> (* ?a (- ?b ?c))";
   "(+ (* ?a ?b) (* ?c ?b)) ==> (* ?b (+ ?a ?c))";
   "(- (* ?a ?b) (* ?c ?b)) ==> (* ?b (- ?a ?c))";
   "(+ (* ?a ?b) ?b) ==> (* (+ ?a 1) ?b)";
   "(+ ?a (* ?b ?a)) ==> (* (+ ?b 1) ?a)";
   "(+ ?a ?a) ==> (* 2 ?a)";
   "(+ ?a (+ ?b ?c)) ==> (+ (+ ?a ?b) ?c)";
   "(+ (+ ?a ?b) ?c) ==> (+ ?a (+ ?b ?c))";
   "(+ ?a (- ?b ?c)) ==> (- (+ ?a ?b) ?c)";
   "(+ (- ?a ?b) ?c) ==> (- ?a (- ?b ?c))";
   "(- ?a (+ ?b ?c)) ==> (- (- ?a ?b) ?c)";
   "(- (+ ?a ?b) ?c) ==> (+ ?a (- ?b ?c))";
   "(- (- ?a ?b) ?c) ==> (- ?a (+ ?b ?c))";
   "(- ?a (- ?b ?c)) ==> (+ (- ?a ?b) ?c)";
   "(* ?a (* ?b ?c)) ==> (* (* ?a ?b) ?c)";
   "(* (* ?a ?b) ?c) ==> (* ?a (* ?b ?c))";
   "(* ?a (/ ?b ?c)) ==> (/ (* ?a ?b) ?c)";
   "(* (/ ?a ?b) ?c) ==> (/ (* ?a ?c) ?b)";
   "(/ ?a (* ?b ?c)) ==> (/ (/ ?a ?b) ?c)";
   "(/ (* ?a ?b) ?c) ==> (/ ?a (/ ?c ?b))";
   "(/ ?a (/ ?b ?c)) ==> (* (/ ?a ?b) ?c)";
   "(/ (/ ?a ?b) ?c) ==> (/ ?a (* ?c ?b))";
   "(+ ?a ?b) ==> (+ ?b ?a)";
   "(* ?a ?b) ==> (* ?b ?a)"].
