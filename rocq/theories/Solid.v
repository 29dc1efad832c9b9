(* Model of the domain of solids, tests/szalinski.rs: solids are lowered to functions
   of the three coordinates. *)
From Coq Require Import ZArith.
From Verif Require Import Base Sexp Lines Lang Syntax Rule Ruleset Number Workload Recipe Filter Analysis Egraph Synth Domains Infer.
Open Scope string_scope.
Open Scope list_scope.

(* tests/szalinski.rs:13-48 *)
Inductive cf_op :=
  | CMax | CMin | CAdd | CSub | CMul | CDiv | CDimX | CDimY | CDimZ | CSubst | COp | CScalar | CLit | CLiteral (z : Z)
  | CCube | CCylinder | CSphere | CTrans | CScale | CUnion | CInter | CVec3 | CTrue | CFalse | CEmpty | CVar (s : string).
Definition cf_arity (o : cf_op) : nat :=
  match o with
  | CScalar | CLit => 1
  | CCube | CSphere | CTrans | CScale | CUnion | CInter => 2
  | COp | CCylinder | CVec3 => 3
  | CSubst => 4
  | _ => 0
  end.
Definition cf_eqb (a b : cf_op) : bool :=
  match a, b with
  | CMax, CMax | CMin, CMin | CAdd, CAdd | CSub, CSub | CMul, CMul | CDiv, CDiv | CDimX, CDimX | CDimY, CDimY | CDimZ, CDimZ
  | CSubst, CSubst | COp, COp | CScalar, CScalar | CLit, CLit | CCube, CCube | CCylinder, CCylinder | CSphere, CSphere
  | CTrans, CTrans | CScale, CScale | CUnion, CUnion | CInter, CInter | CVec3, CVec3 | CTrue, CTrue | CFalse, CFalse | CEmpty, CEmpty => true
  | CLiteral x, CLiteral y => Z.eqb x y
  | CVar s, CVar t => String.eqb s t
  | _, _ => false
  end.
(* define_language!: the variants in order *)
Definition cf_from_op (s : string) (n : nat) : option cf_op :=
  if String.eqb s "max" && Nat.eqb n 0 then Some CMax
  else if String.eqb s "min" && Nat.eqb n 0 then Some CMin
  else if String.eqb s "+" && Nat.eqb n 0 then Some CAdd
  else if String.eqb s "-" && Nat.eqb n 0 then Some CSub
  else if String.eqb s "*" && Nat.eqb n 0 then Some CMul
  else if String.eqb s "/" && Nat.eqb n 0 then Some CDiv
  else if String.eqb s "x" && Nat.eqb n 0 then Some CDimX
  else if String.eqb s "y" && Nat.eqb n 0 then Some CDimY
  else if String.eqb s "z" && Nat.eqb n 0 then Some CDimZ
  else if String.eqb s "subst" && Nat.eqb n 4 then Some CSubst
  else if String.eqb s "op" && Nat.eqb n 3 then Some COp
  else if String.eqb s "Scalar" && Nat.eqb n 1 then Some CScalar
  else if String.eqb s "Lit" && Nat.eqb n 1 then Some CLit
  else match (if Nat.eqb n 0 then parse_i64 s else None) with
  | Some z => Some (CLiteral z)
  | None =>
      if String.eqb s "Cube" && Nat.eqb n 2 then Some CCube
      else if String.eqb s "Cylinder" && Nat.eqb n 3 then Some CCylinder
      else if String.eqb s "Sphere" && Nat.eqb n 2 then Some CSphere
      else if String.eqb s "Trans" && Nat.eqb n 2 then Some CTrans
      else if String.eqb s "Scale" && Nat.eqb n 2 then Some CScale
      else if String.eqb s "Union" && Nat.eqb n 2 then Some CUnion
      else if String.eqb s "Inter" && Nat.eqb n 2 then Some CInter
      else if String.eqb s "Vec3" && Nat.eqb n 3 then Some CVec3
      else if String.eqb s "true" && Nat.eqb n 0 then Some CTrue
      else if String.eqb s "false" && Nat.eqb n 0 then Some CFalse
      else if String.eqb s "Empty" && Nat.eqb n 0 then Some CEmpty
      else if Nat.eqb n 0 then Some (CVar s) else None
  end.
Definition cf_name (o : cf_op) : string :=
  match o with
  | CMax => "max" | CMin => "min" | CAdd => "+" | CSub => "-" | CMul => "*" | CDiv => "/" | CDimX => "x" | CDimY => "y" | CDimZ => "z"
  | CSubst => "subst" | COp => "op" | CScalar => "Scalar" | CLit => "Lit" | CLiteral z => show_i64 z
  | CCube => "Cube" | CCylinder => "Cylinder" | CSphere => "Sphere" | CTrans => "Trans" | CScale => "Scale" | CUnion => "Union"
  | CInter => "Inter" | CVec3 => "Vec3" | CTrue => "true" | CFalse => "false" | CEmpty => "Empty" | CVar s => s
  end.
(* tests/szalinski.rs:186-200 *)
Definition cf_to_var (o : cf_op) : option string := match o with CVar s => Some s | _ => None end.
Definition cf_is_constant (o : cf_op) : bool := match o with CLiteral _ => true | _ => false end.
(* tests/szalinski.rs:117-146 *)
Definition is_caddy (o : cf_op) : bool :=
  match o with
  | CCube | CCylinder | CSphere | CTrans | CScale | CUnion | CInter | CEmpty | CVec3 | CTrue | CFalse => true
  | _ => false
  end.
(* tests/szalinski.rs:159-172 *)
Definition cf_allowed (o : cf_op) : bool :=
  is_caddy o || match o with CVar _ | CLiteral _ | CLit | COp | CDiv | CMul | CSub | CAdd => true | _ => false end.
(* tests/szalinski.rs:148-209 *)
Definition cf_lang : lang cf_op Z := {|
  l_eqb := cf_eqb; l_from_op := cf_from_op; l_name := cf_name; l_to_var := cf_to_var; l_mk_var := CVar;
  l_is_const := cf_is_constant; l_eval := no_cvec; l_itv := no_interval; l_allowed := cf_allowed;
  l_ceqb := Z.eqb; l_cleb := Z.leb;
  l_const := fun c => [Node (CLiteral c) []];
  l_custom := no_modify;
  l_init := fun _ => Val (0, []);
  l_validate := fun _ _ => Val Valid |}.

(* tests/szalinski.rs:50-67 *)
Definition subst_lines : list string := [
  "(Lit ?x) ==> (Scalar (Lit ?x))";
  "(subst ?x ?y ?z (Scalar ?a)) ==> (Scalar ?a)";
  "(subst ?x ?y ?z x) ==> ?x";
  "(subst ?x ?y ?z y) ==> ?y";
  "(subst ?x ?y ?z z) ==> ?z";
  "(subst ?x ?y ?z (op ?op ?a ?b)) ==> (op ?op (subst ?x ?y ?z ?a) (subst ?x ?y ?z ?b))";
  "(subst ?x ?y ?z (subst ?x2 ?y2 ?z2 ?a)) ==>
            (subst (subst ?x ?y ?z ?x2)
                   (subst ?x ?y ?z ?y2)
                   (subst ?x ?y ?z ?z2)
                   ?a)";
  "(subst x y z ?a) ==> ?a";
  "(Scalar (op ?op ?a ?b)) ==> (op ?op (Scalar ?a) (Scalar ?b))"].
(* tests/szalinski.rs:69-84 *)
Definition frep_lines : list string := [
  "(op / ?a (Lit 1)) ==> ?a";
  "(op - ?a (Lit 0)) ==> ?a";
  "(op - (op / ?a ?c) (op / ?b ?c)) ==> (op / (op - ?a ?b) ?c)";
  "(op - (op / ?a ?c) ?b) ==> (op / (op - ?a (op * ?b ?c)) ?c)";
  "(op / (op / ?a ?b) ?c) ==> (op / ?a (op * ?b ?c))";
  "(op - ?a (op + ?b ?c)) ==> (op - (op - ?a ?b) ?c)"].
(* tests/szalinski.rs:86-90 *)
Definition subst_and_frep_lines : list string := frep_lines ++ subst_lines.
(* tests/szalinski.rs:92-115 *)
Definition lifting_lines : list string := [
  "(Scale (Vec3 ?w ?h ?l) ?e) ==> (subst (op / x (Scalar ?w)) (op / y (Scalar ?h)) (op / z (Scalar ?l)) ?e)";
  "(Cube (Vec3 ?a ?b ?c) false) ==>
         (op min (op min (op min (op / x (Scalar ?a))
                        (op / y (Scalar ?b)))
                   (op / z (Scalar ?c)))
              (op min (op min (op - (Lit 1) (op / x (Scalar ?a)))
                        (op - (Lit 1) (op / y (Scalar ?b))))
                   (op - (Lit 1) (op / z (Scalar ?c)))))";
  "(Cylinder (Vec3 ?h ?r ?r) ?params true) ==>
         (op min (op - (op - (Lit 1) (op * (op / x (Scalar ?r)) (op / x (Scalar ?r))))
                 (op * (op / y (Scalar ?r)) (op / y (Scalar ?r))))
              (op min (op - (op / (Lit 1) (Lit 2)) (op / z (Scalar ?h)))
                   (op + (op / (Lit 1) (Lit 2)) (op / z (Scalar ?h)))))";
  "(Sphere ?r ?params) ==> (op - (op - (op - (Lit 1) (op * (op / x (Scalar ?r)) (op / x (Scalar ?r))))
                               (op * (op / y (Scalar ?r)) (op / y (Scalar ?r))))
                            (op * (op / z (Scalar ?r)) (op / z (Scalar ?r))))";
  "(Trans (Vec3 ?a ?b ?c) ?e) ==> (subst (op - x (Scalar ?a)) (op - y (Scalar ?b)) (op - z (Scalar ?c)) ?e)"].
(* tests/szalinski.rs:306-316 *)
Definition expected_lines : list string := [
  "?a <=> (Trans (Vec3 (Lit 0) (Lit 0) (Lit 0)) ?a)";
  "?a <=> (Scale (Vec3 (Lit 1) (Lit 1) (Lit 1)) ?a)";
  "(Scale (Vec3 ?b ?b ?b) (Cylinder (Vec3 (Lit 1) (Lit 1) (Lit 1)) ?a true)) <=> (Cylinder (Vec3 ?b ?b ?b) ?a true)";
  "(Scale (Vec3 (op * ?f ?e) (op * ?d ?c) (op * ?b ?a)) (Cube (Vec3 (Lit 1) (Lit 1) (Lit 1)) false)) <=> (Scale (Vec3 ?f ?d ?b) (Cube (Vec3 ?e ?c ?a) false))";
  "(Scale (Vec3 ?g ?e ?c) (Scale (Vec3 ?f ?d ?b) ?a)) <=> (Scale (Vec3 (op * ?g ?f) (op * ?e ?d) (op * ?c ?b)) ?a)";
  "(Trans (Vec3 (op + ?g ?d) (op + ?f ?c) (op + ?e ?b)) ?a) <=> (Trans (Vec3 ?g ?f ?e) (Trans (Vec3 ?d ?c ?b) ?a))";
  "(Scale (Vec3 ?d ?c ?b) (Trans (Vec3 ?g ?f ?e) ?a)) <=> (Trans (Vec3 (op * ?g ?d) (op * ?f ?c) (op * ?e ?b)) (Scale (Vec3 ?d ?c ?b) ?a))";
  "(Trans (Vec3 ?g ?e ?c) (Scale (Vec3 ?f ?d ?b) ?a)) <=> (Scale (Vec3 ?f ?d ?b) (Trans (Vec3 (op / ?g ?f) (op / ?e ?d) (op / ?c ?b)) ?a))";
  "(Scale (Vec3 ?f ?d ?b) (Cube (Vec3 ?e ?c ?a) false)) <=> (Cube (Vec3 (op * ?f ?e) (op * ?d ?c) (op * ?b ?a)) false)"].
Definition cf_prior : res (ruleset cf_op) := rs_new cf_from_op cf_name subst_and_frep_lines.
Definition cf_exploratory : res (ruleset cf_op) := rs_new cf_from_op cf_name lifting_lines.
Definition cf_expected : res (ruleset cf_op) := rs_new cf_from_op cf_name expected_lines.

(* tests/szalinski.rs:280-301: the loop of rule_lifting, one layer per workload *)
Inductive layers (keep : eg cf_op Z -> nat -> nat -> bool) (fuel : nat) (ex : ruleset cf_op) : list workload -> ruleset cf_op -> ruleset cf_op -> ruleset cf_op -> ruleset cf_op -> Prop :=
  | Ls_done all learned : layers keep fuel ex [] all learned all learned
  | Ls_more w ws all learned chosen all' learned' :
      run_fast_forwarding cf_lang keep fuel ex w all chosen ->
      layers keep fuel ex ws (extend all chosen) (extend learned chosen) all' learned' ->
      layers keep fuel ex (w :: ws) all learned all' learned'.
