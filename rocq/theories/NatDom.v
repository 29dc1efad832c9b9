(* Model of the natural-number domain, tests/nat.rs.  Constants are BigInt: Z. *)
From Coq Require Import ZArith.
From Verif Require Import Base Lang Syntax.
Open Scope string_scope.
Open Scope list_scope.

(* tests/nat.rs:8-16 *)
Inductive nat_op := NZ | NS | NAdd | NMul | NVar (s : string).

Definition nat_arity (o : nat_op) : nat :=
  match o with NZ | NVar _ => 0 | NS => 1 | NAdd | NMul => 2 end.

(* define_language!: variants in order; Symbol parses any text *)
Definition nat_from_op (s : string) (n : nat) : option nat_op :=
  if String.eqb s "Z" && Nat.eqb n 0 then Some NZ
  else if String.eqb s "S" && Nat.eqb n 1 then Some NS
  else if String.eqb s "+" && Nat.eqb n 2 then Some NAdd
  else if String.eqb s "*" && Nat.eqb n 2 then Some NMul
  else if Nat.eqb n 0 then Some (NVar s) else None.
Definition nat_name (o : nat_op) : string :=
  match o with NZ => "Z" | NS => "S" | NAdd => "+" | NMul => "*" | NVar s => s end.

(* tests/nat.rs:112-118 *)
Definition nat_to_var (o : nat_op) : option string :=
  match o with NVar s => Some s | _ => None end.
(* tests/nat.rs:124-126 *)
Definition nat_is_constant (o : nat_op) : bool := match o with NZ => true | _ => false end.

(* tests/nat.rs:32-43 *)
Definition nat_eval (cvec_len : nat) (o : nat_op) (args : list (cvec Z)) : res (cvec Z) :=
  match o, args with
  | NZ, [] => Val (repeat (Some 0%Z) cvec_len)
  | NS, [x] => Val (map1 (fun x => Some (x + 1)%Z) x)
  | NAdd, [x; y] => Val (map2 (fun x y => Some (x + y)%Z) x y)
  | NMul, [x; y] => Val (map2 (fun x y => Some (x * y)%Z) x y)
  | NVar _, [] => Val []
  | _, _ => Panic
  end.

Definition zip_with (f : Z -> Z -> Z) (a b : option Z) : option Z :=
  match a, b with Some x, Some y => Some (f x y) | _, _ => None end.
(* tests/nat.rs:45-97; expect panics on an infinite lower bound *)
Definition nat_mk_interval (o : nat_op) (args : list (interval Z)) : res (interval Z) :=
  match o, args with
  | NZ, [] => mk_itv Z.leb (Some 0%Z) (Some 0%Z)
  | NS, [x] =>
      let* l := unwrap (low x) in
      mk_itv Z.leb (Some (l + 1)%Z) (option_map (fun h => (h + 1)%Z) (high x))
  | NAdd, [x; y] =>
      let* l := unwrap (zip_with Z.add (low x) (low y)) in
      mk_itv Z.leb (Some l) (zip_with Z.add (high x) (high y))
  | NMul, [x; y] =>
      let* l := unwrap (zip_with Z.mul (low x) (low y)) in
      mk_itv Z.leb (Some l) (zip_with Z.mul (high x) (high y))
  | NVar _, [] => mk_itv Z.leb (Some 0%Z) None
  | _, _ => Panic
  end.

(* tests/nat.rs:99-110: ten random u64 per variable; the random numbers are the
   argument [rng] *)
Definition nat_cvec_len : nat := 10.
Definition nat_init (rng : nat -> Z) (vars : list string) : nat * list (string * cvec Z) :=
  (nat_cvec_len,
   combine vars (map (fun i => map (fun j => Some (rng (i * nat_cvec_len + j)))
                                   (seq 0 nat_cvec_len))
                     (seq 0 (length vars)))).

(* tests/nat.rs:18-27: the nodes added, as a term.  The recursion has no base
   case below zero; Panic stands for "did not stop within the fuel". *)
Fixpoint nat_constant_id (fuel : nat) (c : Z) : res (term nat_op) :=
  match fuel with
  | 0 => Panic
  | S k =>
      if Z.eqb c 0 then Val (T NZ [])
      else let* t := nat_constant_id k (c - 1) in Val (T NS [t])
  end.
(* tests/nat.rs:128-134 *)
Definition nat_constant (fuel : nat) (c : Z) : res (term nat_op) :=
  if Z.eqb c 0 then Val (T NZ [])
  else let* t := nat_constant_id fuel (c - 1) in Val (T NS [t]).

(* z3::ast::Int values built by egg_to_z3 *)
Inductive zint := IConst (s : string) | INum (z : Z) | IAdd (a b : zint) | IMul (a b : zint).

(* tests/nat.rs:152-172 *)
Definition nat_to_z3 (o : nat_op) (args : list zint) : res zint :=
  match o, args with
  | NZ, [] => Val (INum 0)
  | NS, [x] => Val (IAdd x (INum 1))
  | NAdd, [x; y] => Val (IAdd x y)
  | NMul, [x; y] => Val (IMul x y)
  | NVar v, [] => Val (IConst v)
  | _, _ => Panic
  end.

(* tests/nat.rs:136-150 *)
Definition nat_validate (check : zint -> zint -> sat_result) (lhs rhs : pat nat_op)
  : res validation :=
  validate_neq NVar nat_to_z3 check lhs rhs.
