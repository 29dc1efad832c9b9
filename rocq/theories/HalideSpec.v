(* Reference meanings for the Halide domain: integers without bounds. *)
From Coq Require Import ZArith.
From Verif Require Import Base Lang Halide.
Open Scope list_scope.
Local Open Scope Z_scope.

Definition b2z (b : bool) : Z := if b then 1 else 0.
(* [dv] is the integer division used when the divisor is not zero *)
Definition hal_sem (dv : Z -> Z -> Z) (o : hal_op) (args : list Z) : res Z :=
  match o, args with
  | HLit c, [] => Val c
  | HLt, [a; b] => Val (b2z (a <? b))
  | HLeq, [a; b] => Val (b2z (a <=? b))
  | HEq, [a; b] => Val (b2z (a =? b))
  | HNeq, [a; b] => Val (b2z (negb (a =? b)))
  | HImplies, [a; b] => Val (b2z (implb (negb (a =? 0)) (negb (b =? 0))))
  | HNot, [a] => Val (b2z (a =? 0))
  | HNeg, [a] => Val (- a)
  | HAnd, [a; b] => Val (b2z (negb (a =? 0) && negb (b =? 0)))
  | HOr, [a; b] => Val (b2z (negb (a =? 0) || negb (b =? 0)))
  | HXor, [a; b] => Val (b2z (xorb (negb (a =? 0)) (negb (b =? 0))))
  | HAdd, [a; b] => Val (a + b)
  | HSub, [a; b] => Val (a - b)
  | HMul, [a; b] => Val (a * b)
  | HDiv, [a; b] => Val (if b =? 0 then 0 else dv a b)
  | HMin, [a; b] => Val (if a <=? b then a else b)
  | HMax, [a; b] => Val (if a <=? b then b else a)
  | HSelect, [a; b; c] => Val (if a =? 0 then c else b)
  | _, _ => Panic
  end.
Definition hal_den (dv : Z -> Z -> Z) (env : string -> Z) (t : term hal_op) : res Z :=
  fold_term (with_vars hal_to_var env (hal_sem dv)) t.

(* rounding towards zero (Rust), and SMT-LIB's div: the remainder is not negative *)
Definition div_trunc (a b : Z) : Z := Z.quot a b.
Definition div_smt (a b : Z) : Z := if 0 <? b then a / b else - (a / - b).

(* meaning of the solver's expressions *)
Fixpoint hint_den (env : string -> Z) (e : hint) : Z :=
  match e with
  | JVar s => env s
  | JNum z => z
  | JAdd a b => hint_den env a + hint_den env b
  | JSub a b => hint_den env a - hint_den env b
  | JMul a b => hint_den env a * hint_den env b
  | JDiv a b => div_smt (hint_den env a) (hint_den env b)
  | JNeg a => - hint_den env a
  | JIte c a b => if hbool_den env c then hint_den env a else hint_den env b
  end
with hbool_den (env : string -> Z) (f : hbool) : bool :=
  match f with
  | GLt a b => hint_den env a <? hint_den env b
  | GLe a b => hint_den env a <=? hint_den env b
  | GEq a b => hint_den env a =? hint_den env b
  | GNot a => negb (hbool_den env a)
  | GAnd a b => hbool_den env a && hbool_den env b
  | GOr a b => hbool_den env a || hbool_den env b
  | GXor a b => xorb (hbool_den env a) (hbool_den env b)
  | GImplies a b => implb (hbool_den env a) (hbool_den env b)
  end.
(* the solver's unsat answers to "a <> b" are right *)
Definition hal_unsat_right (check : hint -> hint -> sat_result) : Prop :=
  forall a b, check a b = Unsat -> forall env, hint_den env a = hint_den env b.
(* and it proves everything that is true *)
Definition hal_unsat_complete (check : hint -> hint -> sat_result) : Prop :=
  forall a b, (forall env, hint_den env a = hint_den env b) -> check a b = Unsat.

(* no division met while evaluating the term rounds a negative dividend *)
Inductive div_ok (env : string -> Z) : term hal_op -> Prop :=
  | DO_node o ts : (forall t, In t ts -> div_ok env t) ->
      (o = HDiv -> forall x y a b, ts = [x; y] ->
         hal_den div_trunc env x = Val a -> hal_den div_trunc env y = Val b ->
         b = 0 \/ 0 <= a \/ (b | a)) ->
      div_ok env (T o ts).

(* the value of every subterm fits 64 bits *)
Inductive fits (env : string -> Z) : term hal_op -> Prop :=
  | F_node o ts : (forall t, In t ts -> fits env t) ->
      (forall v, hal_den div_trunc env (T o ts) = Val v -> - 2 ^ 63 <= v < 2 ^ 63) ->
      fits env (T o ts).
