(* Model of the Halide domain, tests/halide.rs.  Constants are i64: Z with range
   checks.  mk_interval is not overridden: every interval is (-inf, inf). *)
From Coq Require Import ZArith.
From Verif Require Import Base Lang Util Number.
Open Scope string_scope.
Open Scope list_scope.

(* tests/halide.rs:7-29 *)
Inductive hal_op :=
  | HLit (z : Z) | HLt | HLeq | HEq | HNeq | HImplies | HNot | HNeg | HAnd | HOr | HXor
  | HAdd | HSub | HMul | HDiv | HMin | HMax | HSelect | HVar (s : string).

Definition hal_arity (o : hal_op) : nat :=
  match o with HLit _ | HVar _ => 0 | HNot | HNeg => 1 | HSelect => 3 | _ => 2 end.

(* define_language!: variants in order, a literal before everything else, a
   symbol last; "-" is Neg with one child and Sub with two *)
Definition hal_from_op (s : string) (n : nat) : option hal_op :=
  match (if Nat.eqb n 0 then parse_i64 s else None) with
  | Some z => Some (HLit z)
  | None =>
      if String.eqb s "<" && Nat.eqb n 2 then Some HLt
      else if String.eqb s "<=" && Nat.eqb n 2 then Some HLeq
      else if String.eqb s "==" && Nat.eqb n 2 then Some HEq
      else if String.eqb s "!=" && Nat.eqb n 2 then Some HNeq
      else if String.eqb s "->" && Nat.eqb n 2 then Some HImplies
      else if String.eqb s "!" && Nat.eqb n 1 then Some HNot
      else if String.eqb s "-" && Nat.eqb n 1 then Some HNeg
      else if String.eqb s "&&" && Nat.eqb n 2 then Some HAnd
      else if String.eqb s "||" && Nat.eqb n 2 then Some HOr
      else if String.eqb s "^" && Nat.eqb n 2 then Some HXor
      else if String.eqb s "+" && Nat.eqb n 2 then Some HAdd
      else if String.eqb s "-" && Nat.eqb n 2 then Some HSub
      else if String.eqb s "*" && Nat.eqb n 2 then Some HMul
      else if String.eqb s "/" && Nat.eqb n 2 then Some HDiv
      else if String.eqb s "min" && Nat.eqb n 2 then Some HMin
      else if String.eqb s "max" && Nat.eqb n 2 then Some HMax
      else if String.eqb s "select" && Nat.eqb n 3 then Some HSelect
      else if Nat.eqb n 0 then Some (HVar s) else None
  end.
Definition hal_name (o : hal_op) : string :=
  match o with
  | HLit z => show_i64 z
  | HLt => "<" | HLeq => "<=" | HEq => "==" | HNeq => "!=" | HImplies => "->" | HNot => "!"
  | HNeg => "-" | HAnd => "&&" | HOr => "||" | HXor => "^" | HAdd => "+" | HSub => "-"
  | HMul => "*" | HDiv => "/" | HMin => "min" | HMax => "max" | HSelect => "select"
  | HVar s => s
  end.

(* tests/halide.rs:129-135 *)
Definition hal_to_var (o : hal_op) : option string :=
  match o with HVar s => Some s | _ => None end.
(* tests/halide.rs:141-143 *)
Definition hal_is_constant (o : hal_op) : bool := match o with HLit _ => true | _ => false end.

Definition truth (b : bool) : option Z := Some (if b then 1 else 0)%Z.
Definition nonzero (z : Z) : bool := negb (z =? 0)%Z.
(* i64::checked_* *)
Definition checked (z : Z) : option Z := if in_i64 z then Some z else None.
(* integer negation panics on i64::MIN (debug builds) *)
Definition neg_i64 (z : Z) : res Z := if in_i64 (- z) then Val (- z)%Z else Panic.

(* tests/halide.rs:34-104 *)
Definition hal_eval (cvec_len : nat) (o : hal_op) (args : list (cvec Z)) : res (cvec Z) :=
  match o, args with
  | HLit c, [] => Val (repeat (Some c) cvec_len)
  | HLt, [x; y] => Val (map2 (fun x y => truth (x <? y)%Z) x y)
  | HLeq, [x; y] => Val (map2 (fun x y => truth (x <=? y)%Z) x y)
  | HEq, [x; y] => Val (map2 (fun x y => truth (x =? y)%Z) x y)
  | HNeq, [x; y] => Val (map2 (fun x y => truth (negb (x =? y)%Z)) x y)
  | HImplies, [x; y] => Val (map2 (fun x y => truth (negb (nonzero x) || nonzero y)) x y)
  | HNot, [x] => Val (map1 (fun x => truth (x =? 0)%Z) x)
  | HNeg, [x] =>
      rmapM (fun x => match x with
                      | Some x => let* y := neg_i64 x in Val (Some y)
                      | None => Val None
                      end) x
  | HAnd, [x; y] => Val (map2 (fun x y => truth (nonzero x && nonzero y)) x y)
  | HOr, [x; y] => Val (map2 (fun x y => truth (nonzero x || nonzero y)) x y)
  | HXor, [x; y] => Val (map2 (fun x y => truth (xorb (nonzero x) (nonzero y))) x y)
  | HAdd, [x; y] => Val (map2 (fun x y => checked (x + y)) x y)
  | HSub, [x; y] => Val (map2 (fun x y => checked (x - y)) x y)
  | HMul, [x; y] => Val (map2 (fun x y => checked (x * y)) x y)
  | HDiv, [x; y] =>
      Val (map2 (fun x y => if (y =? 0)%Z then Some 0%Z else checked (Z.quot x y)) x y)
  | HMin, [x; y] => Val (map2 (fun x y => Some (Z.min x y)) x y)
  | HMax, [x; y] => Val (map2 (fun x y => Some (Z.max x y)) x y)
  | HSelect, [x; y; z] => Val (map3 (fun x y z => Some (if nonzero x then y else z)) x y z)
  | HVar _, [] => Val []
  | _, _ => Panic
  end.

(* tests/halide.rs:106-127 *)
Definition hal_samples : list Z := [-10; -1; 0; 1; 2; 5; 100]%Z.
Definition hal_init (vars : list string) : res (nat * list (string * cvec Z)) :=
  init_product (map Some hal_samples) vars.

(* z3::ast::Int and z3::ast::Bool values built by egg_to_z3 *)
Inductive hint :=
  | JVar (s : string) | JNum (z : Z) | JAdd (a b : hint) | JSub (a b : hint) | JMul (a b : hint)
  | JDiv (a b : hint) | JNeg (a : hint) | JIte (c : hbool) (a b : hint)
with hbool :=
  | GLt (a b : hint) | GLe (a b : hint) | GEq (a b : hint) | GNot (a : hbool)
  | GAnd (a b : hbool) | GOr (a b : hbool) | GXor (a b : hbool) | GImplies (a b : hbool).

Definition jzero : hint := JNum 0.
Definition jone : hint := JNum 1.
Definition gnz (a : hint) : hbool := GNot (GEq a jzero).
(* tests/halide.rs:163-282 *)
Definition hal_to_z3 (o : hal_op) (args : list hint) : res hint :=
  match o, args with
  | HLit c, [] => Val (JNum c)
  | HLt, [l; r] => Val (JIte (GLt l r) jone jzero)
  | HLeq, [l; r] => Val (JIte (GLe l r) jone jzero)
  | HEq, [l; r] => Val (JIte (GEq l r) jone jzero)
  | HNeq, [l; r] => Val (JIte (GEq l r) jzero jone)
  | HImplies, [l; r] => Val (JIte (GImplies (gnz l) (gnz r)) jone jzero)
  | HNot, [l] => Val (JIte (GEq l jzero) jone jzero)
  | HNeg, [l] => Val (JNeg l)
  | HAnd, [l; r] => Val (JIte (GAnd (gnz l) (gnz r)) jone jzero)
  | HOr, [l; r] => Val (JIte (GOr (gnz l) (gnz r)) jone jzero)
  | HXor, [l; r] => Val (JIte (GXor (gnz l) (gnz r)) jone jzero)
  | HAdd, [l; r] => Val (JAdd l r)
  | HSub, [l; r] => Val (JSub l r)
  | HMul, [l; r] => Val (JMul l r)
  | HDiv, [l; r] => Val (JIte (GEq r jzero) jzero (JDiv l r))
  | HMin, [l; r] => Val (JIte (GLe l r) l r)
  | HMax, [l; r] => Val (JIte (GLe l r) r l)
  | HSelect, [c; l; r] => Val (JIte (gnz c) l r)
  | HVar v, [] => Val (JVar v)
  | _, _ => Panic
  end.

(* tests/halide.rs:146-161 *)
Definition hal_validate (check : hint -> hint -> sat_result) (lhs rhs : pat hal_op) : res validation :=
  validate_neq HVar hal_to_z3 check lhs rhs.
