(* Model of src/enumo/filter.rs *)
From Verif Require Import Base Sexp Pattern.

(* src/enumo/filter.rs:5-14 *)
Inductive filter : Type :=
| MetricLt (m : metric) (n : nat)
| MetricEq (m : metric) (n : nat)
| Contains (p : pattern)
| Excludes (p : pattern)
| Canon (symbols : list string)
| FAnd (fs : list filter)
| FOr (fs : list filter)
| Invert (f : filter).

(* The Contains case of src/enumo/filter.rs:22-28 *)
Fixpoint contains (p : pattern) (t : sexp) : bool :=
  matches p t ||
  match t with
  | Atom _ => false
  | Lst args => existsb (contains p) args
  end.

(* src/enumo/filter.rs:18-35 *)
Fixpoint test (f : filter) (t : sexp) : res bool :=
  match f with
  | MetricLt m n => let* k := measure m t in Val (Nat.ltb k n)
  | MetricEq m n => let* k := measure m t in Val (Nat.eqb k n)
  | Contains p => Val (contains p t)
  | Excludes p => Val (negb (contains p t))
  | Canon symbols => let* c := canon symbols t in Val (sexp_eqb t c)
  | FAnd fs => rall (fun f => test f t) fs
  | FOr fs => rany (fun f => test f t) fs
  | Invert f => let* b := test f t in Val (negb b)
  end.

(* src/enumo/filter.rs:38-51 *)
Definition subsumed_by (f : filter) (fs : list filter) : bool :=
  match f with
  | MetricLt m n =>
      existsb (fun g => match g with
                        | MetricLt m1 n1 => metric_eqb m m1 && Nat.leb n1 n
                        | _ => false
                        end) fs
  | _ => false
  end.

(* src/enumo/filter.rs:57-74 *)
Definition and_all (f g : filter) : list filter :=
  match f, g with
  | FAnd f1s, FAnd f2s => f1s ++ f2s
  | FAnd fs, f => fs ++ [f]
  | f, FAnd fs => fs ++ [f]
  | f1, f2 => [f1; f2]
  end.

(* src/enumo/filter.rs:75-80 *)
Definition minimize_conj (all : list filter) : list filter :=
  fold_left (fun minimized f =>
               if subsumed_by f minimized then minimized else minimized ++ [f])
            all [].

(* src/enumo/filter.rs:56-83 *)
Definition fand (f g : filter) : filter := FAnd (minimize_conj (and_all f g)).

(* src/enumo/filter.rs:90-98 *)
Fixpoint is_monotonic (f : filter) : bool :=
  match f with
  | MetricLt _ _ => true
  | Excludes _ => true
  | FAnd fs => forallb is_monotonic fs
  | _ => false
  end.
