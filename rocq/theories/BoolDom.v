(* Model of the boolean domain, tests/bool.rs *)
From Verif Require Import Base Lang Util.
Open Scope string_scope.
Open Scope list_scope.

(* tests/bool.rs:6-16 *)
Inductive bool_op :=
| BNot | BAnd | BOr | BXor | BImplies | BLit (b : bool) | BVar (s : string).

Definition bool_arity (o : bool_op) : nat :=
  match o with BNot => 1 | BLit _ | BVar _ => 0 | _ => 2 end.

(* tests/bool.rs:101-106 *)
Definition bool_to_var (o : bool_op) : option string :=
  match o with BVar s => Some s | _ => None end.

(* tests/bool.rs:21-34 *)
Definition bool_eval (cvec_len : nat) (o : bool_op) (args : list (cvec bool))
  : res (cvec bool) :=
  match o, args with
  | BNot, [x] => Val (map1 (fun x => Some (negb x)) x)
  | BAnd, [x; y] => Val (map2 (fun x y => Some (x && y)) x y)
  | BOr, [x; y] => Val (map2 (fun x y => Some (x || y)) x y)
  | BXor, [x; y] => Val (map2 (fun x y => Some (xorb x y)) x y)
  | BImplies, [x; y] => Val (map2 (fun x y => Some (negb x || y)) x y)
  | BLit c, [] => Val (repeat (Some c) cvec_len)
  | BVar _, [] => Val []
  | _, _ => Panic
  end.

(* false < true *)
Definition bool_leb (a b : bool) : bool := implb a b.

(* tests/bool.rs:36-82 *)
Definition unwrap_interval (i : interval bool) : res (bool * bool) :=
  let* l := unwrap (low i) in let* h := unwrap (high i) in Val (l, h).
Definition bool_mk_interval (o : bool_op) (args : list (interval bool))
  : res (interval bool) :=
  match o, args with
  | BLit c, [] => mk_itv bool_leb (Some c) (Some c)
  | BVar _, [] => mk_itv bool_leb (Some false) (Some true)
  | BNot, [x] =>
      let* (l, h) := unwrap_interval x in
      mk_itv bool_leb (Some (negb h)) (Some (negb l))
  | BAnd, [x; y] =>
      let* (xl, xh) := unwrap_interval x in let* (yl, yh) := unwrap_interval y in
      mk_itv bool_leb (Some (xl && yl)) (Some (xh && yh))
  | BOr, [x; y] =>
      let* (xl, xh) := unwrap_interval x in let* (yl, yh) := unwrap_interval y in
      mk_itv bool_leb (Some (xl || yl)) (Some (xh || yh))
  | BXor, [x; y] =>
      let* (xl, xh) := unwrap_interval x in let* (yl, yh) := unwrap_interval y in
      if Bool.eqb xl xh && Bool.eqb yl yh
      then mk_itv bool_leb (Some (xorb xl yl)) (Some (xorb xl yl))
      else mk_itv bool_leb (Some false) (Some true)
  | BImplies, [x; y] =>
      let* (xl, xh) := unwrap_interval x in let* (yl, yh) := unwrap_interval y in
      mk_itv bool_leb (Some (negb xh || yl)) (Some (negb xl || yh))
  | _, _ => Panic
  end.

(* tests/bool.rs:84-95 *)
Definition bool_samples : list bool := [true; false].
Definition bool_init (vars : list string) : res (nat * list (string * cvec bool)) :=
  init_product (map Some bool_samples) vars.

(* tests/bool.rs:108-110 *)
Definition bool_validate (lhs rhs : pat bool_op) : validation := Valid.
