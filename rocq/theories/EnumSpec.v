(* Specification vocabulary for workloads, filters and patterns.  Nothing here
   mentions the functions of the model (except the data types they share). *)
From Verif Require Import Base Sexp Pattern Filter Workload.

(* reflexive subterm relation *)
Inductive subterm : sexp -> sexp -> Prop :=
| sub_refl t : subterm t t
| sub_in s t l : In t l -> subterm s t -> subterm s (Lst l).

(* the atoms of a term from left to right *)
Fixpoint leaves (t : sexp) : list string :=
  match t with
  | Atom s => [s]
  | Lst l => flat_map leaves l
  end.

(* number of list nodes *)
Fixpoint nlists (t : sexp) : nat :=
  match t with Atom _ => 0 | Lst l => S (sum (map nlists l)) end.

(* height; an atom has height 1 *)
Fixpoint height (t : sexp) : nat :=
  match t with Atom _ => 1 | Lst l => S (maxl (map height l)) end.

Definition size (m : metric) (t : sexp) : nat :=
  match m with Atoms => length (leaves t) | Lists => nlists t | Depth => height t end.

(* no empty list anywhere in the term *)
Fixpoint proper (t : sexp) : bool :=
  match t with
  | Atom _ => true
  | Lst l => negb (match l with [] => true | _ => false end) && forallb proper l
  end.

(* [fill P a t t']: t' is t with every occurrence of the atom a replaced,
   independently of the others, by some term satisfying P *)
Inductive fill (P : sexp -> Prop) (a : string) : sexp -> sexp -> Prop :=
| fill_hole t : P t -> fill P a (Atom a) t
| fill_atom s : s <> a -> fill P a (Atom s) (Atom s)
| fill_list l l' : Forall2 (fill P a) l l' -> fill P a (Lst l) (Lst l').

(* uniform replacement of an atom by a term *)
Fixpoint subst_atom (a : string) (s : sexp) (t : sexp) : sexp :=
  match t with
  | Atom x => if String.eqb x a then s else t
  | Lst l => Lst (map (subst_atom a s) l)
  end.

Definition occurs (a : string) (t : sexp) : Prop := In a (leaves t).
Definition occurrences (a : string) (t : sexp) : nat :=
  count_occ string_dec (leaves t) a.

(* [pinst sigma p t]: t is an instance of p under sigma *)
Inductive pinst (sigma : string -> sexp) : pattern -> sexp -> Prop :=
| pinst_wild t : pinst sigma PWild t
| pinst_var v : pinst sigma (PVar v) (sigma v)
| pinst_lit s : pinst sigma (PLit s) (Atom s)
| pinst_list ps ts : Forall2 (pinst sigma) ps ts -> pinst sigma (PList ps) (Lst ts).

(* first occurrences, in order, of the elements of [syms] in a list of atoms *)
Fixpoint firsts_from (syms seen l : list string) : list string :=
  match l with
  | [] => []
  | x :: r => if mem_str x syms && negb (mem_str x seen)
              then x :: firsts_from syms (x :: seen) r
              else firsts_from syms seen r
  end.
Definition firsts (syms : list string) (t : sexp) : list string :=
  firsts_from syms [] (leaves t).

(* a term is canonical when the listed symbols appear for the first time in the
   order in which they are listed *)
Definition canonical (syms : list string) (t : sexp) : Prop :=
  exists rest, syms = firsts syms t ++ rest.

(* a word the reader keeps in one piece: non-empty, without white space,
   parentheses or double quotes *)
Fixpoint all_chars (p : ascii -> bool) (s : string) : bool :=
  match s with EmptyString => true | String c r => p c && all_chars p r end.
Definition word_char (c : ascii) : bool :=
  negb (existsb (Ascii.eqb c) [" "; "009"; "010"; "013"; "("; ")"; """"]%char).
Definition word (s : string) : Prop := s <> EmptyString /\ all_chars word_char s = true.

(* all atoms are words *)
Fixpoint words (t : sexp) : Prop :=
  match t with
  | Atom s => word s
  | Lst l => fold_right (fun t acc => words t /\ acc) True l
  end.

(* renaming of the listed symbols *)
Fixpoint rename (syms : list string) (rho : string -> string) (t : sexp) : sexp :=
  match t with
  | Atom x => Atom (if mem_str x syms then rho x else x)
  | Lst l => Lst (map (rename syms rho) l)
  end.

(* t' is t up to a one-to-one renaming of the listed symbols *)
Definition alpha (syms : list string) (t t' : sexp) : Prop :=
  exists rho,
    (forall x, In x syms -> occurs x t -> In (rho x) syms) /\
    (forall x y, In x syms -> In y syms -> occurs x t -> occurs y t ->
                 rho x = rho y -> x = y) /\
    t' = rename syms rho t.

(* meaning of filters *)
Fixpoint sat (f : filter) (t : sexp) : Prop :=
  match f with
  | MetricLt m n => size m t < n
  | MetricEq m n => size m t = n
  | Contains p => exists s sigma, subterm s t /\ pinst sigma p s
  | Excludes p => ~ exists s sigma, subterm s t /\ pinst sigma p s
  | Canon syms => canonical syms t
  | FAnd fs => fold_right (fun f acc => sat f t /\ acc) True fs
  | FOr fs => fold_right (fun f acc => sat f t \/ acc) False fs
  | Invert f => ~ sat f t
  end.

(* symbol lists of Canon filters are duplicate-free *)
Fixpoint syms_ok (f : filter) : Prop :=
  match f with
  | Canon syms => NoDup syms
  | FAnd fs | FOr fs => fold_right (fun f acc => syms_ok f /\ acc) True fs
  | Invert f => syms_ok f
  | _ => True
  end.

(* [keeps P l l']: l' is l without the elements violating P, in order *)
Inductive keeps {A} (P : A -> Prop) : list A -> list A -> Prop :=
| keeps_nil : keeps P [] []
| keeps_yes x l l' : P x -> keeps P l l' -> keeps P (x :: l) (x :: l')
| keeps_no x l l' : ~ P x -> keeps P l l' -> keeps P (x :: l) l'.

(* every literal term inside a workload is proper *)
Fixpoint wproper (w : workload) : Prop :=
  match w with
  | WSet l => Forall (fun t => proper t = true) l
  | WPlug w _ pegs => wproper w /\ wproper pegs
  | WFilter _ w => wproper w
  | WAppend ws => fold_right (fun w acc => wproper w /\ acc) True ws
  end.

(* The language of a grammar: productions [G] with placeholder [a].
   [gen_at k]: derivable with derivation trees of height at most k. *)
Fixpoint gen_at (G : list sexp) (a : string) (k : nat) (t : sexp) : Prop :=
  match k with
  | 0 => False
  | S j => exists p, In p G /\ fill (gen_at G a j) a p t
  end.
Definition gen (G : list sexp) (a : string) (t : sexp) : Prop :=
  exists k, gen_at G a k t.

(* every production that mentions the placeholder strictly increases the
   metric: it is not the bare placeholder and, when atoms are counted, it has at
   least two atoms *)
Definition productive (m : metric) (a : string) (p : sexp) : Prop :=
  occurs a p ->
  p <> Atom a /\ match m with Atoms => 2 <= length (leaves p) | _ => True end.
