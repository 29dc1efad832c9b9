(* Terms as egg stores them, and the pieces of src/language.rs and src/lib.rs
   that do not depend on an e-graph.  A language is a type of operators [O];
   the payload of literals and variables is part of the operator. *)
From Verif Require Import Base.
Open Scope string_scope.
Open Scope list_scope.

(* An e-node: operator and children ids (egg::Language; the enums generated by
   define_language!).  Rust fixes the number of children per variant; here the
   interpreters answer Panic on a wrong number, which from_op never builds. *)
Record node (O : Type) : Type := Node { nop : O; nch : list nat }.
Arguments Node {O} nop nch.
Arguments nop {O} n.
Arguments nch {O} n.

(* egg::RecExpr: nodes whose children are positions of the same array *)
Definition recexpr (O : Type) : Type := list (node O).

(* the same as a tree *)
Inductive term (O : Type) : Type := T (o : O) (ts : list (term O)).
Arguments T {O} o ts.

(* v[i] *)
Definition index {A} (l : list A) (i : nat) : res A :=
  match nth_error l i with Some a => Val a | None => Panic end.

Section Fold.
  Context {O A : Type}.
  Variable f : O -> list A -> res A.

  (* The loop "for node in expr { buf.push(... buf[usize::from(*a)] ...) }" of
     every egg_to_z3 (src/bv.rs:248-267, tests/nat.rs:152-172, ...). *)
  Fixpoint run_buf (r : recexpr O) (buf : list A) : res (list A) :=
    match r with
    | [] => Val buf
    | n :: r' =>
        let* args := rmapM (index buf) (nch n) in
        let* v := f (nop n) args in
        run_buf r' (buf ++ [v])
    end.

  (* buf.pop().unwrap() *)
  Definition pop_unwrap (buf : list A) : res A :=
    match rev buf with [] => Panic | x :: _ => Val x end.

  Definition fold_rec (r : recexpr O) : res A :=
    let* buf := run_buf r [] in pop_unwrap buf.

  (* the same recursion on trees *)
  Fixpoint fold_term (t : term O) : res A :=
    match t with
    | T o ts => let* args := rmapM fold_term ts in f o args
    end.
End Fold.

(* the tree a RecExpr stands for *)
Definition tree {O} (r : recexpr O) : res (term O) :=
  fold_rec (fun o ts => Val (T o ts)) r.

(* egg::ENodeOrVar; a pattern is a RecExpr of these *)
Inductive eov (O : Type) : Type := EN (o : O) | PV (v : string).
Arguments EN {O} o.
Arguments PV {O} v.
Definition pat (O : Type) : Type := recexpr (eov O).

(* src/language.rs:276-292.  A pattern variable is stored without its leading
   "?", so the assertion of line 285 always holds here. *)
Definition instantiate_op {O} (mk_var : string -> O) (o : eov O) : O :=
  match o with EN o => o | PV v => mk_var v end.
Definition instantiate {O} (mk_var : string -> O) (p : pat O) : recexpr O :=
  map (fun n => Node (instantiate_op mk_var (nop n)) (nch n)) p.

(* src/lib.rs:43-50 and z3::SatResult *)
Inductive validation := Valid | Invalid | Unknown.
Inductive sat_result := Sat | Unsat | SUnknown.

(* src/lib.rs:120-146 *)
Record interval (C : Type) : Type := Itv { low : option C; high : option C }.
Arguments Itv {C} low high.
Arguments low {C} i.
Arguments high {C} i.
Definition full {C} : interval C := Itv None None.
(* src/lib.rs:126-137: asserts low <= high when both are finite *)
Definition mk_itv {C} (leb : C -> C -> bool) (lo hi : option C) : res (interval C) :=
  match lo, hi with
  | Some a, Some b => if leb a b then Val (Itv lo hi) else Panic
  | _, _ => Val (Itv lo hi)
  end.
(* Option::expect / unwrap *)
Definition unwrap {A} (o : option A) : res A :=
  match o with Some a => Val a | None => Panic end.

(* src/language.rs:149-151: characteristic vectors *)
Definition cvec (C : Type) : Type := list (option C).

(* src/util.rs:32-64: the map! macro *)
Section MapMacro.
  Context {C : Type}.
  Definition map1 (f : C -> option C) (a : cvec C) : cvec C :=
    map (fun x => match x with Some x => f x | None => None end) a.
  Definition map2 (f : C -> C -> option C) (a b : cvec C) : cvec C :=
    map (fun t => match t with (Some x, Some y) => f x y | _ => None end)
        (combine a b).
  Definition map3 (f : C -> C -> C -> option C) (a b c : cvec C) : cvec C :=
    map (fun t => match t with (Some x, Some y, Some z) => f x y z | _ => None end)
        (combine (combine a b) c).
End MapMacro.

(* The characteristic vector of a term: the interpreter of the domain applied
   bottom-up (src/language.rs:70, "enode.eval(cvec_len, get_cvec)"), with the
   vectors of the variables as set by initialize_vars. *)
Definition with_vars {O A} (to_var : O -> option string) (env : string -> A)
    (f : O -> list A -> res A) (o : O) (args : list A) : res A :=
  match to_var o with Some s => Val (env s) | None => f o args end.
Definition cvec_term {O C} (eval : nat -> O -> list (cvec C) -> res (cvec C))
    (to_var : O -> option string) (n : nat) (vc : string -> cvec C)
    (t : term O) : res (cvec C) :=
  fold_term (with_vars to_var vc (eval n)) t.

(* variables of a term, left to right *)
Fixpoint tvars {O} (to_var : O -> option string) (t : term O) : list string :=
  match t with
  | T o ts => match to_var o with Some s => [s] | None => [] end ++ flat_map (tvars to_var) ts
  end.

(* Shape shared by the validate functions that only assert "lhs <> rhs"
   (src/bv.rs:242-281, tests/nat.rs:136-150): encode both sides and ask the
   solver.  [check e1 e2] is the answer of the external solver to the query
   "not (e1 = e2)". *)
Definition validate_neq {O E} (mk_var : string -> O) (enc : O -> list E -> res E)
    (check : E -> E -> sat_result) (lhs rhs : pat O) : res validation :=
  let* l := fold_rec enc (instantiate mk_var lhs) in
  let* r := fold_rec enc (instantiate mk_var rhs) in
  Val (match check l r with Unsat => Valid | Sat => Invalid | SUnknown => Unknown end).
