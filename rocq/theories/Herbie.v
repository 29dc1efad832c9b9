(* The rule files baseline/herbie-trig.rules and baseline/herbie-exp.rules, which the
   trigonometric and the exponential recipe are compared with (tests/trig.rs:359,
   tests/exponential.rs:291): their lines, in order.  Ruleset::from_file is
   rs_from_file in Ruleset.v. *)
From Verif Require Import Base.
Open Scope string_scope.
Open Scope list_scope.

(* baseline/herbie-trig.rules *)
Definition herbie_trig : list string :=
  ["(* (sin ?a) (sin ?a)) ==> (- 1 (* (cos ?a) (cos ?a)))";
   "(* (cos ?a) (cos ?a)) ==> (- 1 (* (sin ?a) (sin ?a)))";
   "(sin (+ ?a ?b)) ==> (+ (* (sin ?a) (cos ?b)) (* (cos ?a) (sin ?b)))";
   "(cos (+ ?a ?b)) ==> (- (* (cos ?a) (cos ?b)) (* (sin ?a) (sin ?b)))";
   "(tan (+ ?a ?b)) ==> (/ (+ (tan ?a) (tan ?b)) (- 1 (* (tan ?a) (tan ?b))))";
   "(sin (- ?a ?b)) ==> (- (* (sin ?a) (cos ?b)) (* (cos ?a) (sin ?b)))";
   "(cos (- ?a ?b)) ==> (+ (* (cos ?a) (cos ?b)) (* (sin ?a) (sin ?b)))";
   "(sin (* 2 ?a)) ==> (* 2 (* (sin ?a) (cos ?a)))";
   "(* 2 (* (sin ?a) (cos ?a))) ==> (sin (* 2 ?a))";
   "(cos (* 2 ?a)) ==> (- (* (cos ?a) (cos ?a)) (* (sin ?a) (sin ?a)))";
   "(- (* (cos ?a) (cos ?a)) (* (sin ?a) (sin ?a))) ==> (cos (* 2 ?a))";
   "(tan (* 2 ?a)) ==> (/ (* 2 (tan ?a)) (- 1 (* (tan ?a) (tan ?a))))";
   "(/ (* 2 (tan ?a)) (- 1 (* (tan ?a) (tan ?a)))) ==> (tan (* 2 ?a))";
   "(* (sin ?a) (sin ?a)) ==> (- 1/2 (* 1/2 (cos (* 2 ?a))))";
   "(* (cos ?a) (cos ?a)) ==> (+ 1/2 (* 1/2 (cos (* 2 ?a))))";
   "(- (sin ?a) (sin ?b)) ==> (* 2 (* (sin (/ (- ?a ?b) 2)) (cos (/ (+ ?a ?b) 2))))";
   "(- (cos ?a) (cos ?b)) ==> (* -2 (* (sin (/ (- ?a ?b) 2)) (sin (/ (+ ?a ?b) 2))))";
   "(+ (sin ?a) (sin ?b)) ==> (* 2 (* (sin (/ (+ ?a ?b) 2)) (cos (/ (- ?a ?b) 2))))";
   "(+ (cos ?a) (cos ?b)) ==> (* 2 (* (cos (/ (+ ?a ?b) 2)) (cos (/ (- ?a ?b) 2))))";
   "(* (cos ?a) (cos ?b)) ==> (/ (+ (cos (+ ?a ?b)) (cos (- ?a ?b))) 2)";
   "(* (sin ?a) (sin ?b)) ==> (/ (- (cos (- ?a ?b)) (cos (+ ?a ?b))) 2)";
   "(* (sin ?a) (cos ?b)) ==> (/ (+ (sin (- ?a ?b)) (sin (+ ?a ?b))) 2)";
   "(tan ?a) ==> (/ (sin ?a) (cos ?a))";
   "(/ (sin ?a) (cos ?a)) ==> (tan ?a)";
   "(tan (/ (+ ?a ?b) 2)) ==> (/ (+ (sin ?a) (sin ?b)) (+ (cos ?a) (cos ?b)))";
   "(tan (/ (- ?a ?b) 2)) ==> (/ (- (sin ?a) (sin ?b)) (+ (cos ?a) (cos ?b)))";
   "(sin (~ ?a)) ==> (~ (sin ?a))";
   "(cos (~ ?a)) ==> (cos ?a)";
   "(tan (~ ?a)) ==> (~ (tan ?a))";
   "(sin 0) ==> 0";
   "(cos 0) ==> 1";
   "(tan 0) ==> 0";
   "(+ (* (cos ?a) (cos ?a)) (* (sin ?a) (sin ?a))) ==> 1";
   "(- 1 (* (cos ?a) (cos ?a))) ==> (* (sin ?a) (sin ?a))";
   "(- 1 (* (sin ?a) (sin ?a))) ==> (* (cos ?a) (cos ?a))";
   "(+ (* (cos ?a) (cos ?a)) -1) ==> (~ (* (sin ?a) (sin ?a)))";
   "(+ (* (sin ?a) (sin ?a)) -1) ==> (~ (* (cos ?a) (cos ?a)))";
   "(- (* (cos ?a) (cos ?a)) 1) ==> (~ (* (sin ?a) (sin ?a)))";
   "(- (* (sin ?a) (sin ?a)) 1) ==> (~ (* (cos ?a) (cos ?a)))";
   "(/ (sin ?a) (+ 1 (cos ?a))) ==> (tan (/ ?a 2))";
   "(/ (~ (sin ?a)) (+ 1 (cos ?a))) ==> (tan (/ (~ ?a) 2))";
   "(/ (- 1 (cos ?a)) (sin ?a)) ==> (tan (/ ?a 2))";
   "(/ (- 1 (cos ?a)) (~ (sin ?a))) ==> (tan (/ (~ ?a) 2))";
   "(/ (+ (sin ?a) (sin ?b)) (+ (cos ?a) (cos ?b))) ==> (tan (/ (+ ?a ?b) 2))";
   "(/ (- (sin ?a) (sin ?b)) (+ (cos ?a) (cos ?b))) ==> (tan (/ (- ?a ?b) 2))"].
(* baseline/herbie-exp.rules *)
Definition herbie_exp : list string :=
  ["(+ (log ?a) (log ?b)) ==> (log (* ?a ?b))";
   "(- (log ?a) (log ?b)) ==> (log (/ ?a ?b))";
   "(~ (log ?a)) ==> (log (/ 1 ?a))";
   "(log (* ?a ?b)) ==> (+ (log ?a) (log ?b))";
   "(log (/ ?a ?b)) ==> (- (log ?a) (log ?b))";
   "(log (/ 1 ?a)) ==> (~ (log ?a))";
   "(log (pow ?a ?b)) ==> (* ?b (log ?a))";
   "(/ 1 ?a) ==> (pow ?a -1)";
   "(pow 0 ?a) ==> 0";
   "(pow (exp ?a) ?b) ==> (exp (* ?a ?b))";
   "(pow ?a ?b) ==> (exp (* (log ?a) ?b))";
   "(* (pow ?a ?b) (pow ?a ?c)) ==> (pow ?a (+ ?b ?c))";
   "(* (pow ?a ?b) (pow ?c ?b)) ==> (pow (* ?a ?c) ?b)";
   "(pow (pow ?a ?b) ?c) ==> (pow ?a (* ?b ?c))";
   "(pow ?a (~ ?b)) ==> (/ 1 (pow ?a ?b))";
   "(/ 1 (pow ?a ?b)) ==> (pow ?a (~ ?b))";
   "(/ (pow ?a ?b) (pow ?a ?c)) ==> (pow ?a (- ?b ?c))";
   "(pow ?a (- ?b ?c)) ==> (/ (pow ?a ?b) (pow ?a ?c))";
   "(pow ?a (* ?b ?c)) ==> (pow (pow ?a ?b) ?c)";
   "(pow ?a (+ ?b ?c)) ==> (* (pow ?a ?b) (pow ?a ?c))";
   "(pow (* ?a ?b) ?c) ==> (* (pow ?a ?c) (pow ?b ?c))";
   "(sqrt ?a) ==> (pow ?a 1/2)";
   "(* ?a ?a) ==> (pow ?a 2)";
   "(cbrt ?a) ==> (pow ?a 1/3)";
   "(* (* ?a ?a) ?a) ==> (pow ?a 3)";
   "(exp (* (log ?a) ?b)) ==> (pow ?a ?b)";
   "(* (pow ?a ?b) ?a) ==> (pow ?a (+ ?b 1))";
   "(pow ?a 1/2) ==> (sqrt ?a)";
   "(pow ?a 2) ==> (* ?a ?a)";
   "(pow ?a 3) ==> (* (* ?a ?a) ?a)";
   "(pow ?a 1/3) ==> (cbrt ?a)";
   "?a ==> (pow ?a 1)";
   "(pow ?a 0) ==> 1";
   "(pow 1 ?a) ==> 1";
   "(pow ?a 1) ==> ?a";
   "(pow ?a -1) ==> (/ 1 ?a)";
   "(* (exp ?a) (exp ?b)) ==> (exp (+ ?a ?b))";
   "(/ 1 (exp ?a)) ==> (exp (~ ?a))";
   "(/ (exp ?a) (exp ?b)) ==> (exp (- ?a ?b))";
   "(exp (* ?a ?b)) ==> (pow (exp ?a) ?b)";
   "(exp (/ ?a 2)) ==> (sqrt (exp ?a))";
   "(exp (/ ?a 3)) ==> (cbrt (exp ?a))";
   "(exp (* ?a 2)) ==> (* (exp ?a) (exp ?a))";
   "(exp (* ?a 3)) ==> (pow (exp ?a) 3)";
   "(exp (+ ?a ?b)) ==> (* (exp ?a) (exp ?b))";
   "(exp (~ ?a)) ==> (/ 1 (exp ?a))";
   "(exp (- ?a ?b)) ==> (/ (exp ?a) (exp ?b))";
   "(exp 0) ==> 1";
   "1 ==> (exp 0)";
   "(exp (log ?a)) ==> ?a";
   "(log (exp ?a)) ==> ?a";
   "?a ==> (exp (log ?a))";
   "?a ==> (log (exp ?a))";
   "(* ?a (* ?a ?a)) ==> (pow ?a 3)";
   "(cbrt (* ?a ?b)) ==> (* (cbrt ?a) (cbrt ?b))";
   "(cbrt (/ ?a ?b)) ==> (/ (cbrt ?a) (cbrt ?b))";
   "(* (cbrt ?a) (cbrt ?b)) ==> (cbrt (* ?a ?b))";
   "(/ (cbrt ?a) (cbrt ?b)) ==> (cbrt (/ ?a ?b))";
   "?a ==> (* (* (cbrt ?a) (cbrt ?a)) (cbrt ?a))";
   "?a ==> (cbrt (* (* ?a ?a) ?a))";
   "(pow (* ?a ?b) 3) ==> (* (pow ?a 3) (pow ?b 3))";
   "(pow (/ ?a ?b) 3) ==> (/ (pow ?a 3) (pow ?b 3))";
   "(pow ?a 3) ==> (* ?a (* ?a ?a))";
   "(pow (cbrt ?a) 3) ==> ?a";
   "(cbrt (pow ?a 3)) ==> ?a";
   "(* (* (cbrt ?a) (cbrt ?a)) (cbrt ?a)) ==> ?a";
   "(* (cbrt ?a) (* (cbrt ?a) (cbrt ?a))) ==> ?a";
   "(pow (~ ?a) 3) ==> (~ (pow ?a 3))";
   "(sqrt (* ?a ?b)) ==> (* (sqrt ?a) (sqrt ?b))";
   "(sqrt (/ ?a ?b)) ==> (/ (sqrt ?a) (sqrt ?b))";
   "(sqrt (pow ?a ?b)) ==> (pow ?a (/ ?b 2))";
   "(pow (sqrt ?a) ?b) ==> (pow ?a (/ ?b 2))";
   "(* (sqrt ?a) (sqrt ?b)) ==> (sqrt (* ?a ?b))";
   "(/ (sqrt ?a) (sqrt ?b)) ==> (sqrt (/ ?a ?b))";
   "?a ==> (* (sqrt ?a) (sqrt ?a))";
   "(* (sqrt ?a) (sqrt ?a)) ==> ?a";
   "(+ (pow ?a 3) (pow ?b 3)) ==> (* (+ (* ?a ?a) (- (* ?b ?b) (* ?a ?b))) (+ ?a ?b))";
   "(- (pow ?a 3) (pow ?b 3)) ==> (* (+ (* ?a ?a) (+ (* ?b ?b) (* ?a ?b))) (- ?a ?b))";
   "(+ ?a ?b) ==> (/ (+ (pow ?a 3) (pow ?b 3)) (+ (* ?a ?a) (- (* ?b ?b) (* ?a ?b))))";
   "(- ?a ?b) ==> (/ (- (pow ?a 3) (pow ?b 3)) (+ (* ?a ?a) (+ (* ?b ?b) (* ?a ?b))))";
   "(pow ?a ?b) ==> (* (pow ?a (/ ?b 2)) (pow ?a (/ ?b 2)))";
   "(* (pow ?a ?b) (pow ?a ?b)) ==> (pow ?a (* 2 ?b))"].
