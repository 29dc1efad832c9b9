(* Model of src/bv.rs: bitvectors of width N stored in a u128. *)
From Coq Require Import NArith.
From Verif Require Import Base Lang.
Local Open Scope N_scope.

(* src/bv.rs:14-15: Inner = u128, INNER_N = 128 *)
Definition inner_n : N := 128.
(* the largest u128, i.e. !0 *)
Definition u128_max : N := 2 ^ inner_n - 1.
(* u128 arithmetic wraps *)
Definition u128 (x : N) : N := x mod 2 ^ inner_n.

(* src/bv.rs:18-22.  The width is a const generic: 1 <= N <= 128, otherwise the
   constants do not compile. *)
Definition all_ones (w : N) : N := N.shiftr u128_max (inner_n - w).
Definition bv_neg_one (w : N) : N := all_ones w.
Definition bv_min (w : N) : N := u128 (N.shiftl 1 (w - 1)).
Definition bv_max (w : N) : N := N.shiftr (all_ones w) 1.

(* src/bv.rs:24-26 *)
Definition bv_new (w n : N) : N := N.land n (all_ones w).
(* src/bv.rs:28-42 *)
Definition bv_add (w a b : N) : N := bv_new w (u128 (a + b)).
Definition bv_sub (w a b : N) : N := bv_new w (u128 (a + 2 ^ inner_n - b)).
Definition bv_mul (w a b : N) : N := bv_new w (u128 (a * b)).
Definition bv_neg (w a : N) : N := bv_new w (u128 (2 ^ inner_n - a)).
(* src/bv.rs:44-58; the amount is below 128, so the u128 shift does not panic *)
Definition bv_shl (w a b : N) : N :=
  if w <=? b then 0 else bv_new w (u128 (N.shiftl a b)).
Definition bv_shr (w a b : N) : N :=
  if w <=? b then 0 else bv_new w (N.shiftr a b).
(* src/bv.rs:61-91; !x on u128 flips all 128 bits *)
Definition bv_not (w a : N) : N := bv_new w (N.lxor a u128_max).
Definition bv_and (w a b : N) : N := bv_new w (N.land a b).
Definition bv_or (w a b : N) : N := bv_new w (N.lor a b).
Definition bv_xor (w a b : N) : N := bv_new w (N.lxor a b).

(* src/bv.rs:143-158: the language *)
Inductive bv_op :=
| VAdd | VSub | VMul | VNeg | VNot | VShl | VShr | VAnd | VOr | VXor
| VLit (c : N) | VVar (s : string).

Definition bv_arity (o : bv_op) : nat :=
  match o with VNeg | VNot => 1 | VLit _ | VVar _ => 0 | _ => 2 end.

(* src/bv.rs:198-204 *)
Definition bv_to_var (o : bv_op) : option string :=
  match o with VVar s => Some s | _ => None end.

(* src/bv.rs:163-185 *)
Definition bv_eval (w : N) (cvec_len : nat) (o : bv_op) (args : list (cvec N))
  : res (cvec N) :=
  match o, args with
  | VNeg, [a] => Val (map1 (fun a => Some (bv_neg w a)) a)
  | VNot, [a] => Val (map1 (fun a => Some (bv_not w a)) a)
  | VAdd, [a; b] => Val (map2 (fun a b => Some (bv_add w a b)) a b)
  | VSub, [a; b] => Val (map2 (fun a b => Some (bv_sub w a b)) a b)
  | VMul, [a; b] => Val (map2 (fun a b => Some (bv_mul w a b)) a b)
  | VShl, [a; b] => Val (map2 (fun a b => Some (bv_shl w a b)) a b)
  | VShr, [a; b] => Val (map2 (fun a b => Some (bv_shr w a b)) a b)
  | VAnd, [a; b] => Val (map2 (fun a b => Some (bv_and w a b)) a b)
  | VOr, [a; b] => Val (map2 (fun a b => Some (bv_or w a b)) a b)
  | VXor, [a; b] => Val (map2 (fun a b => Some (bv_xor w a b)) a b)
  | VLit c, [] => Val (repeat (Some c) cvec_len)
  | VVar _, [] => Val []
  | _, _ => Panic
  end.

(* src/bv.rs:187-196 *)
Definition bv_mk_interval (o : bv_op) (args : list (interval N)) : res (interval N) :=
  match o with
  | VLit c => mk_itv N.leb (Some c) (Some c)
  | _ => Val full
  end.

(* z3::ast::BV values as built by src/bv.rs:248-267 *)
Inductive zbv :=
| ZConst (s : string)      (* BV::new_const(v, N) *)
| ZNum (v : N)             (* BV::from_u64(v, N) *)
| ZAdd (a b : zbv) | ZSub (a b : zbv) | ZMul (a b : zbv)
| ZShl (a b : zbv) | ZLshr (a b : zbv)
| ZAnd (a b : zbv) | ZOr (a b : zbv) | ZXor (a b : zbv)
| ZNot (a : zbv) | ZNeg (a : zbv).

(* src/bv.rs:252-263; "c.0 as u64" keeps the low 64 bits *)
Definition bv_to_z3 (o : bv_op) (args : list zbv) : res zbv :=
  match o, args with
  | VVar v, [] => Val (ZConst v)
  | VLit c, [] => Val (ZNum (c mod 2 ^ 64))
  | VAdd, [a; b] => Val (ZAdd a b)
  | VSub, [a; b] => Val (ZSub a b)
  | VMul, [a; b] => Val (ZMul a b)
  | VShl, [a; b] => Val (ZShl a b)
  | VShr, [a; b] => Val (ZLshr a b)
  | VAnd, [a; b] => Val (ZAnd a b)
  | VOr, [a; b] => Val (ZOr a b)
  | VXor, [a; b] => Val (ZXor a b)
  | VNot, [a] => Val (ZNot a)
  | VNeg, [a] => Val (ZNeg a)
  | _, _ => Panic
  end.

(* src/bv.rs:242-281 *)
Definition bv_validate (check : zbv -> zbv -> sat_result) (lhs rhs : pat bv_op)
  : res validation :=
  validate_neq VVar bv_to_z3 check lhs rhs.

(* src/bv.rs:222-233: the samples of every variable; sort + dedup leaves the
   distinct values in increasing order *)
Fixpoint insert_sorted (x : N) (l : list N) : list N :=
  match l with
  | [] => [x]
  | y :: r => if x <? y then x :: l else if x =? y then l else y :: insert_sorted x r
  end.
Definition sort_dedup (l : list N) : list N := fold_right insert_sorted [] l.
Definition bv_samples (w : N) : list N :=
  sort_dedup (flat_map (fun i =>
    let i := bv_new w i in
    [bv_add w (bv_min w) i; bv_sub w (bv_max w) i; i; bv_neg w i]) [0; 1]).
