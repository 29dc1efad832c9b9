(* What the rules of baseline/herbie-trig.rules and baseline/herbie-exp.rules mean, and
   those that are not true, as lines of these files. *)
From Coq Require Import Reals QArith Qcanon Qreals.
From Verif Require Import Base Lang Rule Ruleset Synth PartialSpec Egraph Report Exp ExpSpec.
Open Scope string_scope.
Open Scope list_scope.

(* ---- real numbers, with no value where a function is not defined ---- *)
(* Powers: of positive numbers, of 0 with exponents that are not negative (0 to the 0 is
   1, as in C and Rust), and of negative numbers with whole exponents. *)
Definition real_pow (x y : R) : res R :=
  if Rlt_dec 0 x then Val (Rpower x y)
  else if Req_EM_T x 0 then if Rlt_dec 0 y then Val 0%R else if Req_EM_T y 0 then Val 1%R else Panic
  else if Req_EM_T y (IZR (Int_part y)) then Val (powerRZ x (Int_part y)) else Panic.
(* third roots of all numbers *)
Definition real_cbrt (x : R) : R :=
  if Rlt_dec 0 x then Rpower x (1 / 3) else if Req_EM_T x 0 then 0%R else (- Rpower (- x) (1 / 3))%R.
Definition real_sem (o : exp_op) (args : list R) : res R :=
  match o, args with
  | EExp, [x] => Val (exp x)
  | ELog, [x] => if Rlt_dec 0 x then Val (ln x) else Panic
  | EPow, [x; y] => real_pow x y
  | ESqrt, [x] => if Rle_dec 0 x then Val (sqrt x) else Panic
  | ECbrt, [x] => Val (real_cbrt x)
  | ENeg, [x] => Val (- x)%R
  | EAdd, [x; y] => Val (x + y)%R
  | ESub, [x; y] => Val (x - y)%R
  | EMul, [x; y] => Val (x * y)%R
  | EDiv, [x; y] => if Req_EM_T y 0 then Panic else Val (x / y)%R
  | EIf, [c; x; y] => Val (if Req_EM_T c 0 then y else x)
  | EAbs, [x] => Val (Rabs x)
  | ENum q, [] => Val (Q2R (this q))
  | _, _ => Panic
  end.

(* ---- what a rule says ---- *)
Section Rules.
  Context {O C V : Type}.
  Variable L : lang O C.
  Variable sem : O -> list V -> res V.
  (* where both sides have values these are the same ([safe_rule] in PartialSpec.v also
     asks for a value of the right-hand side wherever the left-hand side has one) *)
  Definition agrees (r : rule O) : Prop :=
    exists tl tr, tree (rlhs r) = Val tl /\ tree (rrhs r) = Val tr /\
      forall genv env v w, pvalue L sem genv env tl = Val v -> pvalue L sem genv env tr = Val w -> v = w.
  (* both sides have values, and the same, if all variables are in range *)
  Definition identity_on (in_range : V -> Prop) (r : rule O) : Prop :=
    exists tl tr, tree (rlhs r) = Val tl /\ tree (rrhs r) = Val tr /\
      forall genv env, (forall x, in_range (env x)) -> exists v, pvalue L sem genv env tl = Val v /\ pvalue L sem genv env tr = Val v.
End Rules.

(* every derivability report of this kind (with the left-hand sides only, or with both
   sides) puts the rules named in [wrong] among those that the ruleset cannot derive *)
Definition left_out {O C} (L : lang O C) (lhs_only : bool) (wrong : list string) (rs against : ruleset O) : Prop :=
  forall keep fuel can cannot, get_derivability L keep fuel lhs_only rs against (can, cannot) -> forall s, In s wrong -> ~ In s can /\ In s cannot.

(* ---- the exceptions ---- *)
(* herbie-trig.rules: the right-hand side lacks a value somewhere *)
Definition trig_lossy : list string :=
  ["(tan (+ ?a ?b)) ==> (/ (+ (tan ?a) (tan ?b)) (- 1 (* (tan ?a) (tan ?b))))";
   "(tan (* 2 ?a)) ==> (/ (* 2 (tan ?a)) (- 1 (* (tan ?a) (tan ?a))))";
   "(tan (/ (+ ?a ?b) 2)) ==> (/ (+ (sin ?a) (sin ?b)) (+ (cos ?a) (cos ?b)))";
   "(tan (/ (- ?a ?b) 2)) ==> (/ (- (sin ?a) (sin ?b)) (+ (cos ?a) (cos ?b)))"].
(* herbie-exp.rules: false at 0 (the first), false of negative numbers (the others) *)
Definition exp_wrong : list string :=
  ["(pow 0 ?a) ==> 0"; "(pow (pow ?a ?b) ?c) ==> (pow ?a (* ?b ?c))"; "(pow ?a (* ?b ?c)) ==> (pow (pow ?a ?b) ?c)";
   "(sqrt (pow ?a ?b)) ==> (pow ?a (/ ?b 2))"].
(* herbie-exp.rules: the right-hand side lacks a value somewhere *)
Definition exp_lossy : list string :=
  ["(log (* ?a ?b)) ==> (+ (log ?a) (log ?b))"; "(log (/ ?a ?b)) ==> (- (log ?a) (log ?b))"; "(log (pow ?a ?b)) ==> (* ?b (log ?a))";
   "(pow ?a ?b) ==> (exp (* (log ?a) ?b))";
   "(pow ?a (~ ?b)) ==> (/ 1 (pow ?a ?b))"; "(pow ?a (- ?b ?c)) ==> (/ (pow ?a ?b) (pow ?a ?c))";
   "(pow ?a (+ ?b ?c)) ==> (* (pow ?a ?b) (pow ?a ?c))"; "(pow (* ?a ?b) ?c) ==> (* (pow ?a ?c) (pow ?b ?c))";
   "(cbrt ?a) ==> (pow ?a 1/3)"; "?a ==> (exp (log ?a))";
   "(sqrt (* ?a ?b)) ==> (* (sqrt ?a) (sqrt ?b))"; "(sqrt (/ ?a ?b)) ==> (/ (sqrt ?a) (sqrt ?b))"; "?a ==> (* (sqrt ?a) (sqrt ?a))";
   "(+ ?a ?b) ==> (/ (+ (pow ?a 3) (pow ?b 3)) (+ (* ?a ?a) (- (* ?b ?b) (* ?a ?b))))";
   "(- ?a ?b) ==> (/ (- (pow ?a 3) (pow ?b 3)) (+ (* ?a ?a) (+ (* ?b ?b) (* ?a ?b))))";
   "(pow ?a ?b) ==> (* (pow ?a (/ ?b 2)) (pow ?a (/ ?b 2)))"].
