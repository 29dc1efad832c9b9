(* Reference notions for the domain of maxima and minima: the number of a term, and a
   meaning for all terms in which the lowering of max and min is right. *)
From Coq Require Import QArith Qcanon.
From Verif Require Import Base Lang Rule Ruleset Number Rational Analysis Egraph EgraphSpec Synth SynthSpec DomainAlg MaxMin.
Open Scope string_scope.
Open Scope list_scope.

Definition larger (x y : Qc) : Qc := if Qclt_le_dec x y then y else x.
Definition smaller (x y : Qc) : Qc := if Qclt_le_dec x y then x else y.

(* ---- the number of a term in max, min and variables; nothing is known about cheat ---- *)
Section Extremum.
  Variables (cheat : Qc -> Qc -> Qc) (s : string -> Qc).
  Definition both (f : Qc -> Qc -> Qc) (x y : option Qc) : option Qc := match x, y with Some x, Some y => Some (f x y) | _, _ => None end.
  Fixpoint extremum (t : term (eov mm_op)) : option Qc :=
    match t with
    | T (PV v) _ => Some (s v)
    | T (EN XMax) [a; b] => both larger (extremum a) (extremum b)
    | T (EN XMin) [a; b] => both smaller (extremum a) (extremum b)
    | T (EN XCheat) [a; b] => both cheat (extremum a) (extremum b)
    | _ => None
    end.
End Extremum.
(* the two sides of the rule are such terms, and have the same number whatever the
   variables and cheat are *)
Definition true_of_numbers (r : rule mm_op) : Prop :=
  exists tl tr, tree (rlhs r) = Val tl /\ tree (rrhs r) = Val tr /\
    forall cheat s, exists x, extremum cheat s tl = Some x /\ extremum cheat s tr = Some x.

(* ---- all terms: numbers, truth values, or nothing ---- *)
Inductive mval := VNum (q : Qc) | VBool (b : bool) | VNone.
(* what is not the truth value true counts as false *)
Definition truth (v : mval) : bool := match v with VBool b => b | _ => false end.
Definition less (v w : mval) : bool := match v, w with VNum x, VNum y => if Qclt_le_dec x y then true else false | _, _ => false end.
Definition choice (c t e : mval) : mval := if truth c then t else e.
Definition mm_sem (cheat : Qc -> Qc -> Qc) (o : mm_op) (args : list mval) : mval :=
  match o, args with
  | XLess, [a; b] => VBool (less a b)
  | XCase, [c; t; rest] => choice c t rest
  | XIf, [c; t; e] => choice c t e
  | XNot, [a] => VBool (negb (truth a))
  | XAnd, [a; b] => VBool (truth a && truth b)
  | XOr, [a; b] => VBool (truth a || truth b)
  | XTrue, [] => VBool true
  | XFalse, [] => VBool false
  | XKnow, [_; e] => e
  | XBool, [a] => a
  | XMax, [a; b] => if less a b then b else a
  | XMin, [a; b] => if less a b then a else b
  | XCheat, [VNum x; VNum y] => VNum (cheat x y)
  | XLit q, [] => VNum q
  | _, _ => VNone
  end.
Definition mm_alg (cheat : Qc -> Qc -> Qc) : algebra mm_op Qc mval := Alg (mm_sem cheat) (fun _ => True) only_full.
(* both sides of a rule mean the same, whatever the variables stand for *)
Definition equation (r : rule mm_op) : Prop :=
  exists tl tr, tree (rlhs r) = Val tl /\ tree (rrhs r) = Val tr /\
    forall cheat env s, paval (a_sem (set_vars mm_lang (mm_alg cheat) env)) s tl = paval (a_sem (set_vars mm_lang (mm_alg cheat) env)) s tr.
(* those of the rules the domain starts from that are equations in this meaning *)
Definition mm_equations : list string :=
  ["(& false ?a) ==> false"; "(& ?a (! ?a)) ==> false"; "(| true ?a) ==> true"; "(| ?a (! ?a)) ==> true"; "(! true) ==> false"; "(! false) ==> true";
   "(& ?b ?a) ==> (& ?a ?b)"; "(& ?c (& ?b ?a)) ==> (& ?a (& ?b ?c))"; "(| ?b ?a) ==> (| ?a ?b)"; "(| ?c (| ?b ?a)) ==> (| ?a (| ?b ?c))";
   "(case false ?t ?rest) ==> ?rest"; "(case true ?t ?rest) ==> ?t";
   "(case ?x (case ?c ?t ?rest) ?outer) ==> (case (& ?x ?c) ?t (case (& ?x (! ?c)) ?rest ?outer))";
   "(case ?c1 ?t (case ?c2 ?t ?rest)) ==> (case (| ?c1 ?c2) ?t ?rest)"; "(case ?c ?t ?rest) ==> (case ?c (know ?c ?t) ?rest)"; "(know ?k ?e) ==> ?e";
   "(know ?k (case ?c ?t ?rest)) ==> (know ?k (case (know ?k ?c) (know ?k ?t) ?rest))";
   "(know ?k (binop ?op ?a ?b)) ==> (know ?k (binop ?op (know ?k ?a) (know ?k ?b)))";
   "(know ?k (unop ?op ?a)) ==> (know ?k (unop ?op (know ?k ?a)))";
   "(know (& ?k1 ?k2) ?e) ==> (know ?k1 (know ?k2 ?e))"; "(know ?k1 (know ?k2 ?e)) ==> (know (& ?k1 ?k2) ?e)"].

(* ---- rules that leave only one value ---- *)
(* whatever the operators mean, if the rules hold then all values are the same *)
Definition collapses (rs : ruleset mm_op) : Prop :=
  forall V (A : algebra mm_op Qc V), interprets mm_lang A -> all_hold mm_lang A rs -> forall x y, a_dom A x -> a_dom A y -> x = y.
(* some of the rules the domain starts from, by what they say *)
Definition collapsing : list (list string) :=
  [["(case true ?t ?rest) ==> ?t"; "(case ?x endcase ?outer) ==> ?outer"];
   ["(case true ?t ?rest) ==> ?t"; "(case ?c1 ?t1 (case ?c2 ?t2 ?rest)) ==> (case ?c2 ?t2 (case ?c1 ?t1 ?rest))"];
   ["(know ?k ?e) ==> ?e"; "(know ?k (bool ?a)) ==> (know ?k (| (! ?k) (bool ?a)))"; "(! false) ==> true"; "(| true ?a) ==> true";
    "(! ?a) ==> (bool (dummy2 ! ?a))"; "(! true) ==> false"; "(case false ?t ?rest) ==> ?rest"; "(case true ?t ?rest) ==> ?t"];
   ["(binop ?op ?a endcase) ==> endcase"; "(& ?a ?b) ==> (binop & ?a ?b)"; "(& false ?a) ==> false"; "(| ?a ?b) ==> (binop | ?a ?b)";
    "(| true ?a) ==> true"; "(case false ?t ?rest) ==> ?rest"; "(case true ?t ?rest) ==> ?t"]].
(* the operators that learned rules do not have *)
Definition lowered (o : mm_op) : Prop := match o with XMax | XMin | XCheat | XVar _ => False | _ => True end.
