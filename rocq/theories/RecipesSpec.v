(* Reference notions for the recipes: the terms of a workload. *)
From Verif Require Import Base Sexp Lang Rule Ruleset Synth Workload Infer TotalSpec OpsSpec.
Open Scope string_scope.
Open Scope list_scope.

(* Built from the atoms and the operators, each with its number of arguments, and
   from nothing else. *)
Inductive built (atoms : list string) (ops : list (string * nat)) : sexp -> Prop :=
  | B_atom s : In s atoms -> built atoms ops (Atom s)
  | B_app o args : In (o, length args) ops -> Forall (built atoms ops) args -> built atoms ops (Lst (Atom o :: args)).
(* the workload can be enumerated, and these are its terms *)
Definition terms_over (wl : res workload) (atoms : list string) (ops : list (string * nat)) : Prop :=
  exists w us, wl = Val w /\ force w = Val us /\ Forall (built atoms ops) us.
(* operators of one number of arguments *)
Definition each (k : nat) (l : list string) : list (string * nat) := map (fun o => (o, k)) l.
(* the workloads of recursive_rules, of every size *)
Definition steps_over (met : metric) (l : wlang) (atoms : list string) (ops : list (string * nat)) : Prop :=
  forall n, terms_over (sized_workload met n l) atoms ops.

(* the terms of a workload, up to order and number *)
Definition exactly (wl : res workload) (P : sexp -> Prop) : Prop :=
  exists w us, wl = Val w /\ force w = Val us /\ forall u, In u us <-> P u.
(* each operator with each argument, and with each pair of arguments *)
Definition un (ops : list string) (l : list sexp) : list sexp := flat_map (fun o => map (fun x => Lst [Atom o; x]) l) ops.
Definition bin (ops : list string) (l : list sexp) : list sexp := flat_map (fun o => flat_map (fun x => map (fun y => Lst [Atom o; x; y]) l) l) ops.
(* f(f(x)) is in the term *)
Fixpoint twice (f : string) (t : sexp) : bool :=
  match t with
  | Atom _ => false
  | Lst l => match l with [Atom g; Lst [Atom h; _]] => String.eqb g f && String.eqb h f | _ => false end || existsb (twice f) l
  end.
Definition op1 (o : string) (x : sexp) : sexp := Lst [Atom o; x].
Definition op2 (o : string) (x y : sexp) : sexp := Lst [Atom o; x; y].

(* variables, and one operator applied to them *)
Definition shallow (uops bops atoms : list string) : list sexp := map Atom atoms ++ un uops (map Atom atoms) ++ bin bops (map Atom atoms).
Definition over_layer (uops bops : list string) (l : list sexp) : list sexp := un uops l ++ bin bops l.
Definition never_twice (l : list sexp) : list sexp := List.filter (fun t => negb (twice "exp" t) && negb (twice "log" t)) l.
(* rational.rs: a, b, products of two of them, and sums and differences of these *)
Definition factors : list sexp := [Atom "a"; Atom "b"] ++ bin ["*"] [Atom "a"; Atom "b"].
Definition polynomials : list sexp := factors ++ bin ["+"; "-"] factors.
(* halide.rs: selections *)
Definition abcd : list sexp := map Atom ["a"; "b"; "c"; "d"].
Definition choose (l m n : list sexp) : list sexp := flat_map (fun x => flat_map (fun y => map (fun z => Lst [Atom "select"; x; y; z]) n) m) l.
Definition selections (ops : list string) : list sexp :=
  choose abcd (abcd ++ bin ops abcd) (abcd ++ bin ops abcd) ++ flat_map (fun o => flat_map (fun x => map (op2 o x) (choose abcd abcd abcd)) abcd) ops.
(* trig.rs *)
Definition sct : list string := ["sin"; "cos"; "tan"].
Definition sc : list string := ["sin"; "cos"].
Definition pi_over (n : string) : sexp := op2 "/" (Atom "PI") (Atom n).
Definition va : sexp := Atom "a".
Definition vb : sexp := Atom "b".
Definition at_constants : list sexp :=
  List.filter (fun t => negb (sexp_eqb t (op1 "tan" (pi_over "2")))) (un sct [Atom "0"; pi_over "6"; pi_over "4"; pi_over "3"; pi_over "2"; Atom "PI"; op2 "*" (Atom "PI") (Atom "2")]).
Definition at_single : list sexp := un sct [va; op1 "~" va; op2 "+" (Atom "PI") va; op2 "-" (Atom "PI") va].
Definition at_double : list sexp := un sct [op2 "+" va va].
Definition at_coangles : list sexp := un sc [va; op2 "-" (pi_over "2") va; op2 "+" (pi_over "2") va; op2 "*" (Atom "2") va].
Definition at_two : list sexp := un sc [va; vb; op2 "+" va vb; op2 "-" va vb].
Definition numbers : list sexp := map Atom ["-2"; "-1"; "0"; "1"; "2"].
Definition and_halves (l : list sexp) : list sexp := l ++ map (fun x => op2 "/" x (Atom "2")) l.
(* two different arguments *)
Definition distinct (o : string) (l : list sexp) : list sexp := flat_map (fun x => flat_map (fun y => if sexp_eqb x y then [] else [op2 o x y]) l) l.

(* every term of the workload is a term of the language *)
Definition all_read {O C} (L : lang O C) (wl : res workload) : Prop :=
  exists w us ts, wl = Val w /\ force w = Val us /\ Forall2 (reads L) us ts.
(* What a recipe returns: no key twice, the file written from it reads as the same
   rules, and each rule is like [good] and has only operators in [A]. *)
Definition delivers {O C} (L : lang O C) (ar : O -> nat) (A : O -> Prop) (good : rule O -> Prop) (all : ruleset O) : Prop :=
  NoDup (map fst all) /\ reloads L all /\ forall k r, In (k, r) all -> good r /\ rule_uses L (over L ar A) r.
