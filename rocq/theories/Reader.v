(* The s-expression reader used by the code base
   (symbolic_expressions::parser::parse_str, an external crate).  Modelled from
   its use in /repo: whitespace separates tokens, parentheses delimit lists,
   text after the first complete expression is ignored (src/enumo/rule.rs:28
   relies on that: splitting "l ==> r" at "=>" leaves "l =" to be read).
   Quoted strings are not modelled: a double quote is a read error. *)
From Verif Require Import Base Sexp.
Open Scope string_scope.
Open Scope list_scope.

Inductive token := TOpen | TClose | TWord (s : string) | TBad.

Definition is_space (c : ascii) : bool :=
  Ascii.eqb c " " || Ascii.eqb c "009" || Ascii.eqb c "010" || Ascii.eqb c "013".
Definition is_delim (c : ascii) : bool :=
  is_space c || Ascii.eqb c "(" || Ascii.eqb c ")" || Ascii.eqb c """".

(* [cur] is the word being read, in order *)
Definition flush (cur : string) (r : list token) : list token :=
  match cur with "" => r | _ => TWord cur :: r end.

Fixpoint lex (s : string) (cur : string) : list token :=
  match s with
  | "" => flush cur []
  | String c r =>
      if is_space c then flush cur (lex r "")
      else if Ascii.eqb c "(" then flush cur (TOpen :: lex r "")
      else if Ascii.eqb c ")" then flush cur (TClose :: lex r "")
      else if Ascii.eqb c """" then flush cur (TBad :: lex r "")
      else lex r (cur ++ String c "")%string
  end.
Definition tokens (s : string) : list token := lex s "".

(* Stack of partially read lists, innermost first, each reversed.
   [None] is a read error; input without any expression reads as the empty
   list (Sexp::Empty, mapped to List([]) in src/enumo/sexp.rs:47). *)
Fixpoint read_tokens (ts : list token) (st : list (list sexp)) : option sexp :=
  match ts with
  | [] => match st with [] => Some (Lst []) | _ => None end
  | TOpen :: r => read_tokens r ([] :: st)
  | TClose :: r =>
      match st with
      | [] => None
      | [cur] => Some (Lst (rev cur))
      | cur :: par :: st' => read_tokens r ((Lst (rev cur) :: par) :: st')
      end
  | TWord w :: r =>
      match st with
      | [] => Some (Atom w)
      | cur :: st' => read_tokens r ((Atom w :: cur) :: st')
      end
  | TBad :: _ => None
  end.

(* parse_str *)
Definition parse_str (s : string) : option sexp := read_tokens (tokens s) [].

(* impl FromStr for Sexp: src/enumo/sexp.rs:12-20 (read errors panic, the
   result of the reader is converted structurally, 39-49) *)
Definition sexp_from_str (s : string) : res sexp :=
  match parse_str s with Some t => Val t | None => Panic end.
