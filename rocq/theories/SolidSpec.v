(* Reference notions for the domain of solids: the points of a solid, and a meaning for
   all terms in which the rules of the domain can be read as equations. *)
From Coq Require Import ZArith Reals.
From Verif Require Import Base Lang Rule RuleSpec Ruleset Analysis Egraph EgraphSpec Synth SynthSpec DomainAlg Solid.
Open Scope list_scope.

(* ---- the points of a solid ---- *)
Definition arith (o : cf_op) (x y : R) : option R :=
  match o with
  | CMax => Some (Rmax x y) | CMin => Some (Rmin x y) | CAdd => Some (x + y)%R | CSub => Some (x - y)%R | CMul => Some (x * y)%R
  | CDiv => if Req_EM_T y 0 then None else Some (x / y)%R
  | _ => None
  end.
Section Points.
  (* the numbers and the solids that variables stand for; a solid is given by a
     function that is not negative at its points *)
  Variables (num : string -> R) (sol : string -> R -> R -> R -> R).
  Variable is_num : string -> bool.

  Fixpoint number (t : term cf_op) : option R :=
    match t with
    | T (CVar s) [] => if is_num s then Some (num s) else None
    | T CLit [T (CLiteral z) []] => Some (IZR z)
    | T COp [T o []; a; b] => match number a, number b with Some x, Some y => arith o x y | _, _ => None end
    | _ => None
    end.
  (* solids whose dimensions are positive and whose factors are not zero *)
  Fixpoint proper (t : term cf_op) : Prop :=
    match t with
    | T (CVar s) [] => is_num s = false
    | T CTrans [T CVec3 [a; b; c]; e] => (exists x y z, number a = Some x /\ number b = Some y /\ number c = Some z) /\ proper e
    | T CScale [T CVec3 [a; b; c]; e] =>
        (exists x y z, number a = Some x /\ number b = Some y /\ number c = Some z /\ x <> 0 /\ y <> 0 /\ z <> 0)%R /\ proper e
    | T CCube [T CVec3 [a; b; c]; T f []] =>
        (exists x y z, number a = Some x /\ number b = Some y /\ number c = Some z /\ 0 < x /\ 0 < y /\ 0 < z)%R /\ (f = CTrue \/ f = CFalse)
    | T CCylinder [T CVec3 [h; r; r']; _; T f []] =>
        (exists x y, number h = Some x /\ number r = Some y /\ number r' = Some y /\ 0 < x /\ 0 < y)%R /\ (f = CTrue \/ f = CFalse)
    | T CSphere [r; _] => exists x, number r = Some x /\ (0 < x)%R
    | T CUnion [e; f] | T CInter [e; f] => proper e /\ proper f
    | T CEmpty [] => True
    | _ => False
    end.
  Definition the (o : option R) : R := match o with Some x => x | None => 0 end.
  (* the points of a proper solid *)
  Fixpoint inside (t : term cf_op) (x y z : R) : Prop :=
    match t with
    | T (CVar s) [] => (0 <= sol s x y z)%R
    | T CTrans [T CVec3 [a; b; c]; e] => inside e (x - the (number a)) (y - the (number b)) (z - the (number c))
    | T CScale [T CVec3 [a; b; c]; e] => inside e (x / the (number a)) (y / the (number b)) (z / the (number c))
    | T CCube [T CVec3 [a; b; c]; T f []] =>
        let u := the (number a) in
        let v := the (number b) in
        let w := the (number c) in
        match f with
        | CFalse => 0 <= x <= u /\ 0 <= y <= v /\ 0 <= z <= w
        | _ => - (u / 2) <= x <= u / 2 /\ - (v / 2) <= y <= v / 2 /\ - (w / 2) <= z <= w / 2
        end%R
    | T CCylinder [T CVec3 [h; r; _]; _; T f []] =>
        let u := the (number h) in
        let v := the (number r) in
        match f with
        | CFalse => x * x + y * y <= v * v /\ 0 <= z <= u
        | _ => x * x + y * y <= v * v /\ - (u / 2) <= z <= u / 2
        end%R
    | T CSphere [r; _] => let u := the (number r) in (x * x + y * y + z * z <= u * u)%R
    | T CUnion [e; f] => inside e x y z \/ inside f x y z
    | T CInter [e; f] => inside e x y z /\ inside f x y z
    | _ => False
    end.
End Points.
(* two solids have the same points, whatever the variables stand for *)
Definition same_points (t u : term cf_op) : Prop :=
  forall num sol is_num, proper num is_num t -> proper num is_num u -> forall x y z, inside num sol is_num t x y z <-> inside num sol is_num u x y z.

(* ---- a meaning for all terms ---- *)
(* A value is a function of three coordinates.  So that every term has a value, also
   one that makes no sense, like (Trans true (Vec3 x y z)), a coordinate and a value of
   the function is a tree of numbers, given as a function of the paths in it; a number
   is the tree with this number everywhere, a vector has its components below it, and
   true, false and the operators are numbers.  No number stands for what is undefined,
   such as a quotient by zero. *)
Definition field := list nat -> option R.
Definition shape := field -> field -> field -> field.
Definition num_field (x : R) : field := fun _ => Some x.
Definition num_shape (x : R) : shape := fun _ _ _ => num_field x.
Definition code (o : cf_op) : R := match o with CMax => 1 | CMin => 2 | CAdd => 3 | CSub => 4 | CMul => 5 | CDiv => 6 | CTrue => 1 | _ => 0 end.
Definition decode (x : R) : cf_op :=
  if Req_EM_T x 1 then CMax else if Req_EM_T x 2 then CMin else if Req_EM_T x 3 then CAdd else if Req_EM_T x 4 then CSub
  else if Req_EM_T x 5 then CMul else if Req_EM_T x 6 then CDiv else CEmpty.
Definition apply1 (o a b : option R) : option R := match o, a, b with Some c, Some x, Some y => arith (decode c) x y | _, _, _ => None end.
Definition applyf (o a b : field) : field := fun p => apply1 (o p) (a p) (b p).
Definition with_op (o : cf_op) (a b : field) : field := applyf (num_field (code o)) a b.
Definition origin : field := num_field 0.
Definition scalar (f : shape) : shape := fun _ _ _ => f origin origin origin.
Definition component (n : nat) (v : shape) : field := fun p => v origin origin origin (n :: p).
Definition vector (a b c : shape) : shape := fun x y z p => match p with 0 :: p => a x y z p | 1 :: p => b x y z p | 2 :: p => c x y z p | _ => None end.
(* the first of the two where the condition is true, the second where it is false *)
Definition choose (b f g : field) : field := fun p => match b p with Some k => if Req_EM_T k 1 then f p else g p | None => None end.
Definition add_f := with_op CAdd.
Definition sub_f := with_op CSub.
Definition mul_f := with_op CMul.
Definition div_f := with_op CDiv.
Definition min_f := with_op CMin.
Definition one_f := num_field 1.
Definition half_f := num_field (1 / 2).
Definition trans (v e : shape) : shape := fun x y z => e (sub_f x (component 0 v)) (sub_f y (component 1 v)) (sub_f z (component 2 v)).
Definition scale (v e : shape) : shape := fun x y z => e (div_f x (component 0 v)) (div_f y (component 1 v)) (div_f z (component 2 v)).
(* from 0 to 1 in the three directions *)
Definition unit_cube (x y z : field) : field :=
  min_f (min_f (min_f x y) z) (min_f (min_f (sub_f one_f x) (sub_f one_f y)) (sub_f one_f z)).
(* in the middle, or with a corner at the origin *)
Definition cube (v b : shape) : shape := fun x y z =>
  let x' := div_f x (component 0 v) in
  let y' := div_f y (component 1 v) in
  let z' := div_f z (component 2 v) in
  choose (b x y z) (unit_cube (add_f x' half_f) (add_f y' half_f) (add_f z' half_f)) (unit_cube x' y' z').
(* the vector has the height and the radius at the bottom and at the top; [s] goes
   from 0 at the bottom to 1 at the top *)
Definition cone (r r' x y s : field) : field :=
  let radius := add_f r (mul_f (sub_f r' r) s) in
  min_f (sub_f (sub_f one_f (mul_f (div_f x radius) (div_f x radius))) (mul_f (div_f y radius) (div_f y radius))) (min_f (sub_f one_f s) s).
Definition cylinder (v b : shape) : shape := fun x y z =>
  let z' := div_f z (component 0 v) in
  choose (b x y z) (cone (component 1 v) (component 2 v) x y (add_f z' half_f)) (cone (component 1 v) (component 2 v) x y z').
Definition sphere (r : shape) : shape := fun x y z =>
  let radius := r origin origin origin in
  sub_f (sub_f (sub_f one_f (mul_f (div_f x radius) (div_f x radius))) (mul_f (div_f y radius) (div_f y radius))) (mul_f (div_f z radius) (div_f z radius)).
Definition cf_sem (o : cf_op) (args : list shape) : shape :=
  match o, args with
  | CDimX, [] => fun x y z => x
  | CDimY, [] => fun x y z => y
  | CDimZ, [] => fun x y z => z
  | CSubst, [f; g; h; e] => fun x y z => e (f x y z) (g x y z) (h x y z)
  | COp, [o; f; g] => fun x y z => applyf (o origin origin origin) (f x y z) (g x y z)
  | (CScalar | CLit), [f] => scalar f
  | CLiteral n, [] => num_shape (IZR n)
  | CCube, [v; b] => cube v b
  | CCylinder, [v; _; b] => cylinder v b
  | CSphere, [r; _] => sphere r
  | CTrans, [v; e] => trans v e
  | CScale, [v; e] => scale v e
  | CUnion, [e; f] => fun x y z => with_op CMax (e x y z) (f x y z)
  | CInter, [e; f] => fun x y z => with_op CMin (e x y z) (f x y z)
  | CVec3, [a; b; c] => vector a b c
  | CEmpty, [] => num_shape (-1)
  | _, _ => num_shape (code o)
  end.
Definition cf_alg : algebra cf_op Z shape := Alg cf_sem (fun _ => True) only_full.
Definition meaning (env : string -> shape) (t : term cf_op) : shape := aval (a_sem (set_vars cf_lang cf_alg env)) t.
(* both sides of a rule mean the same, whatever the variables stand for *)
Definition equation (r : rule cf_op) : Prop :=
  exists tl tr, tree (rlhs r) = Val tl /\ tree (rrhs r) = Val tr /\
    forall env s, paval (a_sem (set_vars cf_lang cf_alg env)) s tl = paval (a_sem (set_vars cf_lang cf_alg env)) s tr.
(* variables that stand for numbers and for solids *)
Definition solid_shape (f : R -> R -> R -> R) : shape := fun x y z p => match x p, y p, z p with Some a, Some b, Some c => Some (f a b c) | _, _, _ => None end.
Definition stands (num : string -> R) (sol : string -> R -> R -> R -> R) (is_num : string -> bool) (s : string) : shape :=
  if is_num s then num_shape (num s) else solid_shape (sol s).
(* the rules the domain starts from, the rules for lowering *)
Definition given_rule (q : rule cf_op) : Prop := exists m k, (cf_prior = Val m \/ cf_exploratory = Val m) /\ In (k, q) m.
(* applied to a solid, the rule gives a solid with the same points: with any terms for the
   variables of the rule, if its sides are proper solids then they have the same points *)
Definition preserves (r : rule cf_op) : Prop :=
  exists tl tr, tree (rlhs r) = Val tl /\ tree (rrhs r) = Val tr /\ forall sigma : string -> term cf_op, same_points (psubst sigma tl) (psubst sigma tr).
(* the operators that learned rules do not have *)
Definition lowered (o : cf_op) : Prop := In o [CMax; CMin; CDimX; CDimY; CDimZ; CSubst; CScalar].
