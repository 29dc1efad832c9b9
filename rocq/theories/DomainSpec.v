(* Reference meanings used to state the properties of the domains. *)
From Coq Require Import NArith ZArith.
From Verif Require Import Base Lang BoolDom NatDom PosDom BvBoolDom.

(* truth tables *)
Definition bool_sem (o : bool_op) (args : list bool) : res bool :=
  match o, args with
  | BNot, [x] => Val (if x then false else true)
  | BAnd, [x; y] => Val (if x then y else false)
  | BOr, [x; y] => Val (if x then true else y)
  | BXor, [x; y] => Val (if x then (if y then false else true) else y)
  | BImplies, [x; y] => Val (if x then y else true)
  | BLit b, [] => Val b
  | _, _ => Panic
  end.
(* value of a boolean term under an assignment *)
Definition bool_den (env : string -> bool) (t : term bool_op) : res bool :=
  fold_term (with_vars bool_to_var env bool_sem) t.

(* x lies in the interval *)
Definition within {C} (le : C -> C -> Prop) (i : interval C) (x : C) : Prop :=
  (forall l, low i = Some l -> le l x) /\ (forall h, high i = Some h -> le x h).
Definition ble (a b : bool) : Prop := a = true -> b = true.

(* naturals *)
Definition nat_sem (o : nat_op) (args : list N) : res N :=
  match o, args with
  | NZ, [] => Val 0%N
  | NS, [x] => Val (x + 1)%N
  | NAdd, [x; y] => Val (x + y)%N
  | NMul, [x; y] => Val (x * y)%N
  | _, _ => Panic
  end.
Definition nat_den (env : string -> N) (t : term nat_op) : res N :=
  fold_term (with_vars nat_to_var env nat_sem) t.
(* value of a solver expression over the integers *)
Fixpoint zint_den (env : string -> Z) (e : zint) : Z :=
  match e with
  | IConst s => env s
  | INum z => z
  | IAdd a b => zint_den env a + zint_den env b
  | IMul a b => zint_den env a * zint_den env b
  end%Z.
(* the solver's answers to "a <> b" are right *)
Definition int_unsat_right (check : zint -> zint -> sat_result) : Prop :=
  forall a b, check a b = Unsat -> forall env, zint_den env a = zint_den env b.
Definition int_sat_right (check : zint -> zint -> sat_result) : Prop :=
  forall a b, check a b = Sat -> exists env, zint_den env a <> zint_den env b.

(* binary positives: XO n = 2n, XI n = 2n + 1 *)
Definition pos_sem (o : pos_op) (args : list N) : res N :=
  match o, args with
  | PZ, [] => Val 0%N
  | PS, [x] => Val (x + 1)%N
  | PXH, [] => Val 1%N
  | PXO, [x] => Val (2 * x)%N
  | PXI, [x] => Val (2 * x + 1)%N
  | PAdd, [x; y] => Val (x + y)%N
  | PMul, [x; y] => Val (x * y)%N
  | _, _ => Panic
  end.
Definition pos_den (env : string -> N) (t : term pos_op) : res N :=
  fold_term (with_vars pos_to_var env pos_sem) t.

(* booleans and two-bit vectors, given by their bits; ill-sorted terms have no
   value *)
Inductive bbv := BB (b : bool) | BV2 (hi lo : bool).
Definition bits2 (n : N) : bbv := BV2 (N.testbit n 1) (N.testbit n 0).
Definition bb_sem (o : bb_op) (args : list bbv) : res bbv :=
  match o, args with
  | XNot, [BB x] => Val (BB (negb x))
  | XAnd, [BB x; BB y] => Val (BB (x && y))
  | XOr, [BB x; BB y] => Val (BB (x || y))
  | XXor, [BB x; BB y] => Val (BB (xorb x y))
  | XImplies, [BB x; BB y] => Val (BB (implb x y))
  | XLit b, [] => Val (BB b)
  | XBand, [BV2 a b; BV2 c d] => Val (BV2 (a && c) (b && d))
  | XBor, [BV2 a b; BV2 c d] => Val (BV2 (a || c) (b || d))
  | XBxor, [BV2 a b; BV2 c d] => Val (BV2 (xorb a c) (xorb b d))
  | XBnot, [BV2 a b] => Val (BV2 (negb a) (negb b))
  | XNum v, [] => Val (bits2 v)
  | XMake, [BB a; BB b] => Val (BV2 a b)
  | XFirst, [BV2 a _] => Val (BB a)
  | XSecond, [BV2 _ b] => Val (BB b)
  | _, _ => Panic
  end.
