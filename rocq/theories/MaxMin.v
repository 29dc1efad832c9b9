(* Model of the domain of tests/maxmin.rs: max and min are lowered to conditionals.
   ("Very experimental. Doesn't work.", tests/maxmin.rs:3.) *)
From Coq Require Import NArith ZArith QArith Qcanon.
From Verif Require Import Base Sexp Lang Syntax Rule Ruleset Number Rational Workload Recipe Filter Analysis Egraph Synth Domains Trig Exp Recipes.
Open Scope string_scope.
Open Scope list_scope.

(* tests/maxmin.rs:130-162 *)
Inductive mm_op :=
  | XLess | XCase | XEndCase | XNot | XAnd | XOr | XTrue | XFalse
  | XKnow | XBinop | XUnop | XBool | XDummy2 | XDummy3 | XIf | XMax | XMin | XCheat | XLit (q : Qc) | XVar (s : string).
Definition mm_arity (o : mm_op) : nat :=
  match o with
  | XNot | XBool => 1
  | XLess | XAnd | XOr | XKnow | XUnop | XDummy2 | XMax | XMin | XCheat => 2
  | XCase | XBinop | XDummy3 | XIf => 3
  | _ => 0
  end.
Definition mm_eqb (a b : mm_op) : bool :=
  match a, b with
  | XLess, XLess | XCase, XCase | XEndCase, XEndCase | XNot, XNot | XAnd, XAnd | XOr, XOr | XTrue, XTrue
  | XFalse, XFalse | XKnow, XKnow | XBinop, XBinop | XUnop, XUnop | XBool, XBool
  | XDummy2, XDummy2 | XDummy3, XDummy3 | XIf, XIf | XMax, XMax | XMin, XMin | XCheat, XCheat => true
  | XLit p, XLit q => qeqb p q
  | XVar s, XVar t => String.eqb s t
  | _, _ => false
  end.
(* define_language!: the variants in order.  An operator that is written with another
   number of children, like the & of (binop & ?a ?b), is read as a variable. *)
Definition mm_from_op (s : string) (n : nat) : option mm_op :=
  if String.eqb s "<" && Nat.eqb n 2 then Some XLess
  else if String.eqb s "case" && Nat.eqb n 3 then Some XCase
  else if String.eqb s "endcase" && Nat.eqb n 0 then Some XEndCase
  else if String.eqb s "!" && Nat.eqb n 1 then Some XNot
  else if String.eqb s "&" && Nat.eqb n 2 then Some XAnd
  else if String.eqb s "|" && Nat.eqb n 2 then Some XOr
  else if String.eqb s "true" && Nat.eqb n 0 then Some XTrue
  else if String.eqb s "false" && Nat.eqb n 0 then Some XFalse
  else if String.eqb s "know" && Nat.eqb n 2 then Some XKnow
  else if String.eqb s "binop" && Nat.eqb n 3 then Some XBinop
  else if String.eqb s "unop" && Nat.eqb n 2 then Some XUnop
  else if String.eqb s "bool" && Nat.eqb n 1 then Some XBool
  else if String.eqb s "dummy2" && Nat.eqb n 2 then Some XDummy2
  else if String.eqb s "dummy3" && Nat.eqb n 3 then Some XDummy3
  else if String.eqb s "ite" && Nat.eqb n 3 then Some XIf
  else if String.eqb s "max" && Nat.eqb n 2 then Some XMax
  else if String.eqb s "min" && Nat.eqb n 2 then Some XMin
  else if String.eqb s "cheat" && Nat.eqb n 2 then Some XCheat
  else if Nat.eqb n 0
  then match parse_fraction s with Some q => Some (XLit q) | None => Some (XVar s) end
  else None.
Definition mm_name (o : mm_op) : string :=
  match o with
  | XLess => "<" | XCase => "case" | XEndCase => "endcase" | XNot => "!" | XAnd => "&" | XOr => "|" 
  | XTrue => "true" | XFalse => "false" | XKnow => "know" | XBinop => "binop" | XUnop => "unop" | XBool => "bool" | XDummy2 => "dummy2" | XDummy3 => "dummy3"
  | XIf => "ite" | XMax => "max" | XMin => "min" | XCheat => "cheat"
  | XLit q => show_bigratio q | XVar s => s
  end.
(* tests/maxmin.rs:426-440 *)
Definition mm_to_var (o : mm_op) : option string := match o with XVar s => Some s | _ => None end.
Definition mm_is_constant (o : mm_op) : bool := match o with XLit _ => true | _ => false end.
(* tests/maxmin.rs:405-413 *)
Definition mm_allowed (o : mm_op) : bool := match o with XMax | XMin | XVar _ | XCheat => true | _ => false end.
(* tests/maxmin.rs:164-449; mk_interval and custom_modify are the defaults *)
Definition mm_lang : lang mm_op Qc := {|
  l_eqb := mm_eqb; l_from_op := mm_from_op; l_name := mm_name; l_to_var := mm_to_var; l_mk_var := XVar;
  l_is_const := mm_is_constant;
  l_eval := no_cvec;                                               (* tests/maxmin.rs:416-421 *)
  l_itv := no_interval; l_allowed := mm_allowed;
  l_ceqb := qeqb; l_cleb := qleb;
  l_const := fun c => [Node (XLit c) []];                          (* tests/maxmin.rs:442-444 *)
  l_custom := no_modify;
  l_init := fun _ => Val (0, []);                                  (* tests/maxmin.rs:424 *)
  l_validate := fun _ _ => Val Valid |}.                           (* tests/maxmin.rs:446-448 *)

(* tests/maxmin.rs:32-128 *)
Definition mm_lines : list string :=
  ["(& ?a ?b) ==> (binop & ?a ?b)";
   "(binop & ?a ?b) ==> (& ?a ?b)";
   "(| ?a ?b) ==> (binop | ?a ?b)";
   "(binop | ?a ?b) ==> (| ?a ?b)";
   "(< ?a ?b) ==> (binop < ?a ?b)";
   "(binop < ?a ?b) ==> (< ?a ?b)";
   "(! ?a) ==> (unop ! ?a)";
   "(unop ! ?a) ==> (! ?a)";
   "(& false ?a) ==> false";
   "(& true ?a) ==> ?a";
   "(& ?a (! ?a)) ==> false";
   "(| true ?a) ==> true";
   "(| false ?a) ==> ?a";
   "(| ?a (! ?a)) ==> true";
   "(! true) ==> false";
   "(! false) ==> true";
   "(& ?b ?a) ==> (& ?a ?b)";
   "(& ?a ?a) ==> ?a";
   "(& ?c (& ?b ?a)) ==> (& ?a (& ?b ?c))";
   "(| ?b ?a) ==> (| ?a ?b)";
   "(| ?a ?a) ==> ?a";
   "(| ?c (| ?b ?a)) ==> (| ?a (| ?b ?c))";
   "(! (! ?a)) ==> ?a";
   "?a ==> (! (! ?a))";
   "(! ?a) ==> (bool (dummy2 ! ?a))";
   "(bool (dummy2 ! ?a)) ==> (! ?a)";
   "(< ?a ?b) ==> (bool (dummy3 < ?a ?b))";
   "(bool (dummy3 < ?a ?b)) ==> (< ?a ?b)";
   "(& ?a ?b) ==> (bool (dummy3 & ?a ?b))";
   "(bool (dummy3 & ?a ?b)) ==> (& ?a ?b)";
   "(| ?a ?b) ==> (bool (dummy3 | ?a ?b))";
   "(bool (dummy3 | ?a ?b)) ==> (| ?a ?b)";
   "(binop ?op ?a (case ?c ?t ?rest)) ==> (case ?c (binop ?op ?a ?t) (binop ?op ?a ?rest))";
   "(binop ?op (case ?c ?t ?rest) ?a) ==> (case ?c (binop ?op ?t ?a) (binop ?op ?rest ?a))";
   "(binop ?op ?a endcase) ==> endcase";
   "(binop ?op endcase ?a) ==> endcase";
   "(case false ?t ?rest) ==> ?rest";
   "(case true ?t ?rest) ==> ?t";
   "(case ?c1 ?t1 (case ?c2 ?t2 ?rest)) ==> (case ?c2 ?t2 (case ?c1 ?t1 ?rest))";
   "(case ?x (case ?c ?t ?rest) ?outer) ==> (case (& ?x ?c) ?t (case (& ?x (! ?c)) ?rest ?outer))";
   "(case ?x endcase ?outer) ==> ?outer";
   "(case ?c1 ?t (case ?c2 ?t ?rest)) ==> (case (| ?c1 ?c2) ?t ?rest)";
   "(case ?c ?t ?rest) ==> (case ?c (know ?c ?t) ?rest)";
   "(know ?k ?e) ==> ?e";
   "(know ?k (case ?c ?t ?rest)) ==> (know ?k (case (know ?k ?c) (know ?k ?t) ?rest))";
   "(know ?k (binop ?op ?a ?b)) ==> (know ?k (binop ?op (know ?k ?a) (know ?k ?b)))";
   "(know ?k (unop ?op ?a)) ==> (know ?k (unop ?op (know ?k ?a)))";
   "(know (& ?k1 ?k2) ?e) ==> (know ?k1 (know ?k2 ?e))";
   "(know ?k1 (know ?k2 ?e)) ==> (know (& ?k1 ?k2) ?e)";
   "(know ?k (bool ?a)) ==> (know ?k (| (! ?k) (bool ?a)))"].
(* tests/maxmin.rs:396-403 *)
Definition mm_lifting_lines : list string :=
  ["(ite ?c ?t ?e) ==> (case ?c ?t (case (! ?c) ?e endcase))";
   "(max ?a ?b) ==> (ite (< ?a ?b) ?b ?a)";
   "(min ?a ?b) ==> (ite (< ?a ?b) ?a ?b)"].
Definition mm_prior : res (ruleset mm_op) := rs_new mm_from_op mm_name mm_lines.
Definition mm_exploratory : res (ruleset mm_op) := rs_new mm_from_op mm_name mm_lifting_lines.
(* tests/maxmin.rs:460-467 *)
Definition mm_work (n : nat) : res workload :=
  let* b := base_lang 2 in
  let* w := iter_metric b "EXPR" Atoms n in
  let* f := has_pat "VAR" in
  let* w := wplug (wfilter w f) "VAL" wempty in
  let* w := plug_new w "VAR" ["a"; "b"] in
  let* w := wplug w "OP1" wempty in
  plug_new w "OP2" ["max"; "min"].
