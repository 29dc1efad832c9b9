(* Model of src/enumo/sexp.rs and src/enumo/metric.rs *)
From Verif Require Import Base.
Open Scope string_scope.
Open Scope list_scope.

(* src/enumo/sexp.rs:7-10 *)
Inductive sexp : Type :=
| Atom (s : string)
| Lst (l : list sexp).

(* #[derive(PartialEq)] of src/enumo/sexp.rs:6 *)
Fixpoint sexp_eqb (a b : sexp) {struct a} : bool :=
  match a, b with
  | Atom x, Atom y => String.eqb x y
  | Lst xs, Lst ys =>
      (fix go (xs ys : list sexp) : bool :=
         match xs, ys with
         | [], [] => true
         | x :: xs', y :: ys' => sexp_eqb x y && go xs' ys'
         | _, _ => false
         end) xs ys
  | _, _ => false
  end.

(* src/enumo/metric.rs:3-11 *)
Inductive metric := Atoms | Lists | Depth.

Definition metric_eqb (a b : metric) : bool :=
  match a, b with
  | Atoms, Atoms | Lists, Lists | Depth, Depth => true
  | _, _ => false
  end.

(* src/enumo/sexp.rs:112: [.max().unwrap()] panics on an empty list *)
Definition max_unwrap (l : list nat) : res nat :=
  match l with [] => Panic | _ => Val (maxl l) end.

(* src/enumo/sexp.rs:103-115.  usize sums are unbounded here. *)
Fixpoint measure (m : metric) (t : sexp) : res nat :=
  match t with
  | Atom _ => match m with Lists => Val 0 | Atoms | Depth => Val 1 end
  | Lst l =>
      let* ns := rmapM (measure m) l in
      match m with
      | Atoms => Val (sum ns)
      | Lists => Val (sum ns + 1)
      | Depth => let* d := max_unwrap ns in Val (d + 1)
      end
  end.

(* Cartesian product, last factor varying fastest. *)
Fixpoint cart {A} (ls : list (list A)) : list (list A) :=
  match ls with
  | [] => [[]]
  | l :: r => flat_map (fun x => map (cons x) (cart r)) l
  end.

(* itertools 0.9 Itertools::multi_cartesian_product: an adaptor over zero
   iterators yields no element at all (its state machine answers "finished" at
   the start when there is no iterator to advance). *)
Definition multi_cartesian_product {A} (ls : list (list A)) : list (list A) :=
  match ls with [] => [] | _ => cart ls end.

(* src/enumo/sexp.rs:89-101 *)
Fixpoint plug (name : string) (pegs : list sexp) (t : sexp) : list sexp :=
  match t with
  | Atom s => if String.eqb s name then pegs else [t]
  | Lst l => map Lst (multi_cartesian_product (map (plug name pegs) l))
  end.

(* slice::contains on strings *)
Definition mem_str (x : string) (l : list string) : bool :=
  existsb (String.eqb x) l.

Definition renaming := list (string * string).

(* src/enumo/sexp.rs:51-69.  [symbols[idx]] may be out of bounds. *)
Fixpoint mk_canon (symbols : list string) (t : sexp) (acc : renaming * nat)
  : res (renaming * nat) :=
  match t with
  | Atom x =>
      let '(sub, idx) := acc in
      match mem_str x symbols, lookup sub x with
      | true, None =>
          match nth_error symbols idx with
          | Some v => Val ((x, v) :: sub, idx + 1)
          | None => Panic
          end
      | _, _ => Val (sub, idx)
      end
  | Lst l =>
      (fix go (l : list sexp) (acc : renaming * nat) : res (renaming * nat) :=
         match l with
         | [] => Val acc
         | t :: r => let* acc' := mk_canon symbols t acc in go r acc'
         end) l acc
  end.

(* src/enumo/sexp.rs:71-82 *)
Fixpoint apply_subst (sub : renaming) (t : sexp) : sexp :=
  match t with
  | Atom s => match lookup sub s with Some v => Atom v | None => Atom s end
  | Lst l => Lst (map (apply_subst sub) l)
  end.

(* src/enumo/sexp.rs:84-87 *)
Definition canon (symbols : list string) (t : sexp) : res sexp :=
  let* (sub, _) := mk_canon symbols t ([], 0) in Val (apply_subst sub t).

(* src/enumo/sexp.rs:22-36: every element of a list is followed by a space *)
Fixpoint display (t : sexp) : string :=
  match t with
  | Atom x => x
  | Lst l => "(" ++ fold_right (fun x acc => display x ++ " " ++ acc) ")" l
  end%string.
