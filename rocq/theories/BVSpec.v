(* Reference semantics of fixed-width bitvectors: integers modulo 2^w, as in
   SMT-LIB's FixedSizeBitVectors.  Independent of the model in BV.v except for
   the syntax of terms and solver expressions. *)
From Coq Require Import NArith ZArith.
From Verif Require Import Base Lang BV.
Local Open Scope N_scope.

(* a w-bit value *)
Definition inr (w a : N) : Prop := a < 2 ^ w.

(* SMT-LIB operators on values below 2^w *)
Definition smt_add (w a b : N) : N := (a + b) mod 2 ^ w.
Definition smt_neg (w a : N) : N := (2 ^ w - a) mod 2 ^ w.
Definition smt_sub (w a b : N) : N := smt_add w a (smt_neg w b).
Definition smt_mul (w a b : N) : N := (a * b) mod 2 ^ w.
Definition smt_shl (w a b : N) : N := (a * 2 ^ b) mod 2 ^ w.
Definition smt_lshr (w a b : N) : N := a / 2 ^ b.
Definition smt_not (w a : N) : N := 2 ^ w - 1 - a.

(* value of a solver expression *)
Fixpoint zden (w : N) (env : string -> N) (e : zbv) : N :=
  match e with
  | ZConst s => env s
  | ZNum v => v mod 2 ^ w
  | ZAdd a b => smt_add w (zden w env a) (zden w env b)
  | ZSub a b => smt_sub w (zden w env a) (zden w env b)
  | ZMul a b => smt_mul w (zden w env a) (zden w env b)
  | ZShl a b => smt_shl w (zden w env a) (zden w env b)
  | ZLshr a b => smt_lshr w (zden w env a) (zden w env b)
  | ZAnd a b => N.land (zden w env a) (zden w env b)
  | ZOr a b => N.lor (zden w env a) (zden w env b)
  | ZXor a b => N.lxor (zden w env a) (zden w env b)
  | ZNot a => smt_not w (zden w env a)
  | ZNeg a => smt_neg w (zden w env a)
  end.

(* the solver's unsat (sat) answers to "a <> b" are right *)
Definition unsat_right (w : N) (check : zbv -> zbv -> sat_result) : Prop :=
  forall a b, check a b = Unsat ->
    forall env, (forall s, inr w (env s)) -> zden w env a = zden w env b.
Definition sat_right (w : N) (check : zbv -> zbv -> sat_result) : Prop :=
  forall a b, check a b = Sat ->
    exists env, (forall s, inr w (env s)) /\ zden w env a <> zden w env b.

(* value of a term under an assignment *)
Definition bv_sem (w : N) (o : bv_op) (args : list N) : res N :=
  match o, args with
  | VNeg, [a] => Val (smt_neg w a)
  | VNot, [a] => Val (smt_not w a)
  | VAdd, [a; b] => Val (smt_add w a b)
  | VSub, [a; b] => Val (smt_sub w a b)
  | VMul, [a; b] => Val (smt_mul w a b)
  | VShl, [a; b] => Val (smt_shl w a b)
  | VShr, [a; b] => Val (smt_lshr w a b)
  | VAnd, [a; b] => Val (N.land a b)
  | VOr, [a; b] => Val (N.lor a b)
  | VXor, [a; b] => Val (N.lxor a b)
  | VLit c, [] => Val c
  | _, _ => Panic
  end.
Definition bv_den (w : N) (env : string -> N) (t : term bv_op) : res N :=
  fold_term (with_vars bv_to_var env (bv_sem w)) t.

(* all literals of a RecExpr satisfy P *)
Definition lits (P : N -> Prop) (r : recexpr bv_op) : Prop :=
  forall n c, In n r -> nop n = VLit c -> P c.
