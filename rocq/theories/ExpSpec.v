(* What the terms of the exponential domain mean: real numbers; logarithms, powers and
   roots of positive numbers only. *)
From Coq Require Import Reals QArith Qcanon Qreals.
From Verif Require Import Base Lang Exp.
Open Scope list_scope.

(* Division by zero gives zero.  The rules leave no choice: ?a ==> (/ ?a (/ ?a ?a)) is
   among them. *)
Definition rdiv (x y : R) : R := if Req_EM_T y 0 then 0%R else (x / y)%R.
Definition positive (x : R) (y : R) : res R := if Rlt_dec 0 x then Val y else Panic.
(* the third root of a positive number *)
Definition rcbrt (x : R) : R := Rpower x (1 / 3).
Definition exp_sem (o : exp_op) (args : list R) : res R :=
  match o, args with
  | EExp, [x] => Val (exp x)
  | ELog, [x] => positive x (ln x)
  | EPow, [x; y] => positive x (Rpower x y)
  | ESqrt, [x] => positive x (sqrt x)
  | ECbrt, [x] => positive x (rcbrt x)
  | ENeg, [x] => Val (- x)%R
  | EAdd, [x; y] => Val (x + y)%R
  | ESub, [x; y] => Val (x - y)%R
  | EMul, [x; y] => Val (x * y)%R
  | EDiv, [x; y] => Val (rdiv x y)
  | EIf, [c; x; y] => Val (if Req_EM_T c 0 then y else x)
  | EAbs, [x] => Val (Rabs x)
  | ENum q, [] => Val (Q2R (this q))
  | _, _ => Panic
  end.
(* the variables of the workload are positive: initialize_vars joins v and (exp (log v)) *)
Definition positive_vars (env : string -> R) : Prop := forall v, (0 < env v)%R.
