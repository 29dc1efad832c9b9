(* Model of the bitvector/boolean bridge, tests/bv-bool.rs: BV<2> in terms of
   booleans. *)
From Coq Require Import NArith.
From Verif Require Import Base Sexp Reader Lang BV BVText Syntax Rule Ruleset.
Open Scope string_scope.
Open Scope list_scope.

(* tests/bv-bool.rs:8-31 *)
Inductive bb_op :=
| XNot | XAnd | XOr | XXor | XImplies | XLit (b : bool)
| XBand | XBor | XBxor | XBnot | XNum (v : N) | XVar (s : string)
| XMake | XFirst | XSecond.

Definition bb_arity (o : bb_op) : nat :=
  match o with
  | XLit _ | XNum _ | XVar _ => 0
  | XNot | XBnot | XFirst | XSecond => 1
  | _ => 2
  end.

Definition parse_bool (s : string) : option bool :=
  if String.eqb s "true" then Some true
  else if String.eqb s "false" then Some false else None.

(* define_language!: the variants in order, the data variants for leaves *)
Definition bb_from_op (s : string) (n : nat) : option bb_op :=
  if String.eqb s "~" && Nat.eqb n 1 then Some XNot
  else if String.eqb s "&" && Nat.eqb n 2 then Some XAnd
  else if String.eqb s "|" && Nat.eqb n 2 then Some XOr
  else if String.eqb s "^" && Nat.eqb n 2 then Some XXor
  else if String.eqb s "->" && Nat.eqb n 2 then Some XImplies
  else match parse_bool s, n with
  | Some b, 0 => Some (XLit b)
  | _, _ =>
  if String.eqb s "and" && Nat.eqb n 2 then Some XBand
  else if String.eqb s "or" && Nat.eqb n 2 then Some XBor
  else if String.eqb s "xor" && Nat.eqb n 2 then Some XBxor
  else if String.eqb s "not" && Nat.eqb n 1 then Some XBnot
  else match parse_bv 2 s, n with
  | Some v, 0 => Some (XNum v)
  | _, _ =>
  if Nat.eqb n 0 then Some (XVar s)
  else if String.eqb s "bv" && Nat.eqb n 2 then Some XMake
  else if String.eqb s "first" && Nat.eqb n 1 then Some XFirst
  else if String.eqb s "second" && Nat.eqb n 1 then Some XSecond
  else None
  end end.

Definition bb_name (o : bb_op) : string :=
  match o with
  | XNot => "~" | XAnd => "&" | XOr => "|" | XXor => "^" | XImplies => "->"
  | XLit true => "true" | XLit false => "false"
  | XBand => "and" | XBor => "or" | XBxor => "xor" | XBnot => "not"
  | XNum v => show_bv v | XVar s => s
  | XMake => "bv" | XFirst => "first" | XSecond => "second"
  end.

(* tests/bv-bool.rs:101-107 *)
Definition bb_to_var (o : bb_op) : option string :=
  match o with XVar s => Some s | _ => None end.

(* tests/bv-bool.rs:69-80 *)
Definition bb_allowed (o : bb_op) : bool :=
  match o with
  | XBand | XBxor | XBnot | XBor | XNum _ | XVar _ | XMake => true
  | _ => false
  end.

(* tests/bv-bool.rs:45-67 *)
Definition bb_def_rule : res (rule bb_op) :=
  let* l := unwrap (parse_pat bb_from_op "?a") in
  let* r := unwrap (parse_pat bb_from_op "(bv (first ?a) (second ?a))") in
  Val (Rule "def-bv" l r (KGuard "a")).
Definition bb_exploratory : res (ruleset bb_op) :=
  let* m := rs_new bb_from_op bb_name
    ["(first (not ?a)) ==> (~ (first ?a))";
     "(second (not ?a)) ==> (~ (second ?a))";
     "(first (and ?a ?b)) ==> (& (first ?a) (first ?b))";
     "(second (and ?a ?b)) ==> (& (second ?a) (second ?b))";
     "(first (or ?a ?b)) ==> (| (first ?a) (first ?b))";
     "(second (or ?a ?b)) ==> (| (second ?a) (second ?b))";
     "(first (xor ?a ?b)) ==> (^ (first ?a) (first ?b))";
     "(second (xor ?a ?b)) ==> (^ (second ?a) (second ?b))"] in
  let* d := bb_def_rule in
  Val (rs_add m d).

(* tests/bv-bool.rs:117-151: what custom_modify does to a class, given the nodes
   of the class and of the classes its nodes refer to: the constant added, if
   any *)
Definition bool_const (nodes : list (node bb_op)) : option bool :=
  fold_right (fun n acc => match nop n with XLit b => Some b | _ => acc end) None nodes.
Definition make_const (x y : bool) : N :=
  match x, y with true, true => 3 | true, false => 2 | false, true => 1 | false, false => 0 end.
Fixpoint fold_make (class : nat -> list (node bb_op)) (nodes : list (node bb_op)) : option N :=
  match nodes with
  | [] => None
  | n :: r =>
      match nop n, nch n with
      | XMake, [i; j] =>
          match bool_const (class i), bool_const (class j) with
          | Some x, Some y => Some (make_const x y)
          | _, _ => fold_make class r
          end
      | _, _ => fold_make class r
      end
  end.
Definition bb_custom_modify (class : nat -> list (node bb_op)) (id : nat) : option N :=
  if existsb (fun n => match nop n with XNum _ => true | _ => false end) (class id)
  then None else fold_make class (class id).
