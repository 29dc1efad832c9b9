(* Shared vocabulary of the model: explicit panics and finite maps. *)
From Coq Require Export String Ascii Arith Bool Lia List.
Export ListNotations.
Open Scope list_scope.
Open Scope nat_scope.

(* Outcome of a Rust function that may panic (unwrap, assert!, indexing). *)
Inductive res (A : Type) : Type :=
| Val (a : A)
| Panic.
Arguments Val {A} a.
Arguments Panic {A}.

Definition rbind {A B} (x : res A) (f : A -> res B) : res B :=
  match x with Val a => f a | Panic => Panic end.
Definition rmap {A B} (f : A -> B) (x : res A) : res B :=
  match x with Val a => Val (f a) | Panic => Panic end.
Notation "'let*' x ':=' a 'in' b" := (rbind a (fun x => b))
  (at level 200, x pattern, a at level 100, b at level 200, right associativity).

Section ResList.
  Context {A B : Type}.
  (* Iterator::map(..).collect() where the closure may panic *)
  Variable f : A -> res B.
  Fixpoint rmapM (l : list A) : res (list B) :=
    match l with
    | [] => Val []
    | x :: r => let* y := f x in let* ys := rmapM r in Val (y :: ys)
    end.
End ResList.

Section ResBool.
  Context {A : Type}.
  Variable f : A -> res bool.
  (* Vec::retain *)
  Fixpoint rfilter (l : list A) : res (list A) :=
    match l with
    | [] => Val []
    | x :: r => let* b := f x in let* ys := rfilter r in
                Val (if b then x :: ys else ys)
    end.
  (* Iterator::all, stops at the first false *)
  Fixpoint rall (l : list A) : res bool :=
    match l with
    | [] => Val true
    | x :: r => let* b := f x in if b then rall r else Val false
    end.
  (* Iterator::any, stops at the first true *)
  Fixpoint rany (l : list A) : res bool :=
    match l with
    | [] => Val false
    | x :: r => let* b := f x in if b then Val true else rany r
    end.
End ResBool.

(* Finite maps with string keys as association lists (first binding wins). *)
Section Assoc.
  Context {V : Type}.
  Fixpoint lookup (m : list (string * V)) (k : string) : option V :=
    match m with
    | [] => None
    | (k', v) :: r => if String.eqb k k' then Some v else lookup r k
    end.
End Assoc.

Definition sum (l : list nat) : nat := fold_right plus 0 l.
Definition maxl (l : list nat) : nat := fold_right Nat.max 0 l.
