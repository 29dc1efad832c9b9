(* Model of src/enumo/pattern.rs *)
From Verif Require Import Base Sexp Reader.
Open Scope string_scope.
Open Scope list_scope.

(* src/enumo/pattern.rs:7-12 *)
Inductive pattern : Type :=
| PWild
| PVar (v : string)
| PLit (s : string)
| PList (l : list pattern).

(* str::starts_with('?') *)
Definition starts_q (s : string) : bool :=
  match s with String c _ => Ascii.eqb c "?" | "" => false end.

(* src/enumo/pattern.rs:25-37 *)
Fixpoint from_symbolic_expr (t : sexp) : pattern :=
  match t with
  | Atom s => if String.eqb s "*" then PWild
              else if starts_q s then PVar s else PLit s
  | Lst l => PList (map from_symbolic_expr l)
  end.

(* impl FromStr for Pattern: src/enumo/pattern.rs:14-22 *)
Definition pattern_from_str (s : string) : res pattern :=
  match parse_str s with Some t => Val (from_symbolic_expr t) | None => Panic end.

Definition substitution := list (string * sexp).

(* src/enumo/pattern.rs:43-97 *)
Fixpoint matches_with (p : pattern) (t : sexp) (sub : substitution) {struct p}
  : option substitution :=
  match p with
  | PWild => Some sub
  | PVar v =>
      match lookup sub v with
      | Some x => if sexp_eqb t x then Some sub else None
      | None => Some ((v, t) :: sub)
      end
  | PLit a =>
      match t with
      | Atom b => if String.eqb a b then Some sub else None
      | Lst _ => None
      end
  | PList ps =>
      match t with
      | Atom _ => None
      | Lst args =>
          if Nat.eqb (length ps) (length args) then
            (fix go (ps : list pattern) (args : list sexp) (sub : substitution)
               : option substitution :=
               match ps, args with
               | p :: ps', a :: args' =>
                   match matches_with p a sub with
                   | Some sub' => go ps' args' sub'
                   | None => None
                   end
               | _, _ => Some sub
               end) ps args sub
          else None
      end
  end.

(* src/enumo/pattern.rs:39-41 *)
Definition matches (p : pattern) (t : sexp) : bool :=
  match matches_with p t [] with Some _ => true | None => false end.
