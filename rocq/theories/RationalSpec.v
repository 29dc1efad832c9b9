(* Reference meanings for the rational domain. *)
From Coq Require Import QArith Qcanon.
From Verif Require Import Base Lang Syntax Rational.
Open Scope list_scope.
Local Open Scope Qc_scope.

(* Values are rationals; None is "division by zero".  A conditional needs its
   condition and the branch taken. *)
Definition both (f : Qc -> Qc -> option Qc) (x y : option Qc) : option Qc :=
  match x, y with Some a, Some b => f a b | _, _ => None end.
Definition math_sem (o : math_op) (args : list (option Qc)) : res (option Qc) :=
  match o, args with
  | MAdd, [x; y] => Val (both (fun a b => Some (a + b)) x y)
  | MSub, [x; y] => Val (both (fun a b => Some (a - b)) x y)
  | MMul, [x; y] => Val (both (fun a b => Some (a * b)) x y)
  | MDiv, [x; y] => Val (both (fun a b => if Qc_eq_dec b 0 then None else Some (a / b)) x y)
  | MNeg, [x] => Val (option_map (fun a => - a) x)
  | MAbs, [x] => Val (option_map (fun a => if Qclt_le_dec a 0 then - a else a) x)
  | MIf, [c; y; z] => Val (match c with Some a => if Qc_eq_dec a 0 then z else y | None => None end)
  | MLit q, [] => Val (Some q)
  | _, _ => Panic
  end.
(* value of a term under an assignment *)
Definition math_den (env : string -> Qc) (t : term math_op) : res (option Qc) :=
  fold_term (with_vars math_to_var (fun s => Some (env s)) math_sem) t.

(* Meaning of the solver's expressions: division by zero is an unknown function
   of the dividend. *)
Fixpoint rden (div0 : Qc -> Qc) (env : string -> Qc) (e : zreal) : Qc :=
  match e with
  | RVar s => env s
  | RNum q => q
  | RAdd a b => rden div0 env a + rden div0 env b
  | RSub a b => rden div0 env a - rden div0 env b
  | RMul a b => rden div0 env a * rden div0 env b
  | RDiv a b =>
      if Qc_eq_dec (rden div0 env b) 0 then div0 (rden div0 env a)
      else rden div0 env a / rden div0 env b
  | RNeg a => - rden div0 env a
  | RIte c a b => if fden div0 env c then rden div0 env a else rden div0 env b
  end
with fden (div0 : Qc -> Qc) (env : string -> Qc) (f : zbool) : bool :=
  match f with
  | FBool b => b
  | FEq a b => if Qc_eq_dec (rden div0 env a) (rden div0 env b) then true else false
  | FLe a b => if Qclt_le_dec (rden div0 env b) (rden div0 env a) then false else true
  | FNot a => negb (fden div0 env a)
  | FAnd a b => fden div0 env a && fden div0 env b
  | FOr a b => fden div0 env a || fden div0 env b
  | FImplies a b => implb (fden div0 env a) (fden div0 env b)
  | FIff a b => Bool.eqb (fden div0 env a) (fden div0 env b)
  end.
(* the solver's unsat answers are right, for rational values *)
Definition real_unsat_right (check : zbool -> sat_result) : Prop :=
  forall f, check f = Unsat -> forall div0 env, fden div0 env f = false.

(* no division inside the condition of a conditional *)
Inductive has_div : term math_op -> Prop :=
  | hd_div ts : has_div (T MDiv ts)
  | hd_sub o ts t : In t ts -> has_div t -> has_div (T o ts).
Inductive safe_ifs : term math_op -> Prop :=
  | si_node o ts : (forall t, In t ts -> safe_ifs t) ->
      (o = MIf -> forall c r, ts = c :: r -> ~ has_div c) -> safe_ifs (T o ts).

(* a pattern with its variables turned into variables of the language *)
Fixpoint inst_term {O} (mk_var : string -> O) (t : term (eov O)) : term O :=
  match t with T o ts => T (instantiate_op mk_var o) (map (inst_term mk_var) ts) end.
