(* Concrete syntax: reading and printing of terms, patterns and rules.
   The reader of terms is egg's (RecExpr::from_str over
   symbolic_expressions), an external crate; modelled from its documented
   behaviour.  A domain supplies [from_op] (egg::FromOp as generated by
   define_language!: operator text and number of children) and [name] (the
   Display of an operator). *)
From Verif Require Import Base Sexp Reader Lang.
Open Scope string_scope.
Open Scope list_scope.

(* egg::RecExpr::from_str, as a tree: the empty list and a list headed by a list
   are errors *)
Fixpoint term_of_sexp {O} (from_op : string -> nat -> option O) (s : sexp) : option (term O) :=
  match s with
  | Atom w => option_map (fun o => T o []) (from_op w 0)
  | Lst [] => None
  | Lst (Lst _ :: _) => None
  | Lst (Atom w :: l) =>
      match
        (fix go (l : list sexp) : option (list (term O)) :=
           match l with
           | [] => Some []
           | x :: r =>
               match term_of_sexp from_op x, go r with
               | Some t, Some ts => Some (t :: ts)
               | _, _ => None
               end
           end) l
      with
      | Some ts => option_map (fun o => T o ts) (from_op w (length ts))
      | None => None
      end
  end.

(* RecExpr::add in depth-first order: children first, one entry per occurrence *)
Fixpoint add_term {O} (t : term O) (r : recexpr O) : recexpr O * nat :=
  match t with
  | T o ts =>
      let '(r', ids) :=
        (fix go (ts : list (term O)) (r : recexpr O) (ids : list nat) : recexpr O * list nat :=
           match ts with
           | [] => (r, ids)
           | t :: ts' => let '(r', i) := add_term t r in go ts' r' (ids ++ [i])
           end) ts r [] in
      (r' ++ [Node o ids], length r')
  end.
Definition to_rec {O} (t : term O) : recexpr O := fst (add_term t []).

(* str::parse of a term: None is Err *)
Definition parse_rec {O} (from_op : string -> nat -> option O) (s : string) : option (recexpr O) :=
  match parse_str s with
  | Some x => option_map to_rec (term_of_sexp from_op x)
  | None => None
  end.

(* FromOp for ENodeOrVar: a word of length > 1 that starts with ? is a pattern
   variable and takes no arguments; otherwise an operator *)
Definition pat_from_op {O} (from_op : string -> nat -> option O) (s : string) (n : nat)
  : option (eov O) :=
  match s with
  | String c (String d r) =>
      if Ascii.eqb c "?"
      then match n with 0 => Some (PV (String d r)) | _ => None end
      else option_map EN (from_op s n)
  | _ => option_map EN (from_op s n)
  end.
Definition parse_pat {O} (from_op : string -> nat -> option O) (s : string) : option (pat O) :=
  parse_rec (pat_from_op from_op) s.

(* Display of a term: a leaf is its operator, otherwise (op c1 ... cn).
   Operators are printed verbatim (quoting of unusual atoms by the s-expression
   crate is not modelled). *)
Fixpoint show_term {O} (name : O -> string) (t : term O) : string :=
  match t with
  | T o [] => name o
  | T o ts => "(" ++ name o ++ fold_right (fun t acc => " " ++ show_term name t ++ acc)%string ")" ts
  end.
Definition pat_name {O} (name : O -> string) (o : eov O) : string :=
  match o with EN o => name o | PV v => "?" ++ v end.
(* Display of a RecExpr *)
Definition show_rec {O} (name : O -> string) (r : recexpr O) : res string :=
  match r with
  | [] => Val "()"
  | _ => let* t := tree r in Val (show_term name t)
  end.
Definition show_pat {O} (name : O -> string) (p : pat O) : res string :=
  show_rec (pat_name name) p.

(* str::split_once("=>") *)
Fixpoint split_arrow (s : string) : option (string * string) :=
  match s with
  | String "=" (String ">" r) => Some ("", r)
  | String c r =>
      match split_arrow r with
      | Some (a, b) => Some (String c a, b)
      | None => None
      end
  | "" => None
  end.

(* str::contains("<=>") *)
Fixpoint has_biarrow (s : string) : bool :=
  match s with
  | String "<" (String "=" (String ">" _)) => true
  | String _ r => has_biarrow r
  | "" => false
  end.
