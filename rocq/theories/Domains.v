(* The implementations of SynthLanguage as records: src/bv.rs and the domains of
   tests/. *)
From Coq Require Import NArith ZArith QArith Qcanon.
From Verif Require Import Base Sexp Reader Lang Util BV BVText BoolDom NatDom PosDom BvBoolDom Number Rational Halide
  Syntax Rule Ruleset Analysis Generalize Egraph Synth.
Open Scope string_scope.
Open Scope list_scope.

(* initialize_vars that makes no term equal to a variable *)
Definition no_links {O C} (r : res (nat * list (string * cvec C))) : res (nat * list (string * cvec C * list (recexpr O))) :=
  let* (n, vs) := r in Val (n, map (fun vc => (vc, [])) vs).
(* the default custom_modify, src/language.rs:161-163 *)
Definition no_modify {O C} (g : eg O C) (i : nat) : res (list (recexpr O)) := Val [].
(* the default is_allowed_op, src/language.rs:233-238 *)
Definition all_allowed_ops {O} (o : O) : bool := true.
(* the default mk_interval, src/language.rs:172-179 *)
Definition no_interval {O C} (o : O) (is : list (interval C)) : res (interval C) := Val full.
(* eval of the domains without characteristic vectors *)
Definition no_cvec {O C} (n : nat) (o : O) (cs : list (cvec C)) : res (cvec C) := Val [].

(* ---- src/bv.rs:143-281 ---- *)
Definition bv_eqb (a b : bv_op) : bool :=
  match a, b with
  | VAdd, VAdd | VSub, VSub | VMul, VMul | VNeg, VNeg | VNot, VNot | VShl, VShl | VShr, VShr
  | VAnd, VAnd | VOr, VOr | VXor, VXor => true
  | VLit c, VLit d => N.eqb c d
  | VVar s, VVar t => String.eqb s t
  | _, _ => false
  end.
(* src/bv.rs:143-158: the operators in order, then literals, then symbols *)
Definition bv_from_op (w : N) (s : string) (n : nat) : option bv_op :=
  if String.eqb s "+" && Nat.eqb n 2 then Some VAdd
  else if String.eqb s "--" && Nat.eqb n 2 then Some VSub
  else if String.eqb s "*" && Nat.eqb n 2 then Some VMul
  else if String.eqb s "-" && Nat.eqb n 1 then Some VNeg
  else if String.eqb s "~" && Nat.eqb n 1 then Some VNot
  else if String.eqb s "<<" && Nat.eqb n 2 then Some VShl
  else if String.eqb s ">>" && Nat.eqb n 2 then Some VShr
  else if String.eqb s "&" && Nat.eqb n 2 then Some VAnd
  else if String.eqb s "|" && Nat.eqb n 2 then Some VOr
  else if String.eqb s "^" && Nat.eqb n 2 then Some VXor
  else if Nat.eqb n 0 then
    match parse_bv w s with Some c => Some (VLit c) | None => Some (VVar s) end
  else None.
Definition bv_name (o : bv_op) : string :=
  match o with
  | VAdd => "+" | VSub => "--" | VMul => "*" | VNeg => "-" | VNot => "~" | VShl => "<<" | VShr => ">>"
  | VAnd => "&" | VOr => "|" | VXor => "^" | VLit c => show_bv c | VVar s => s
  end.
(* src/bv.rs:210-212 *)
Definition bv_is_constant (o : bv_op) : bool := match o with VLit _ => true | _ => false end.
Definition bv_lang (w : N) (check : zbv -> zbv -> sat_result) : lang bv_op N := {|
  l_eqb := bv_eqb; l_from_op := bv_from_op w; l_name := bv_name; l_to_var := bv_to_var; l_mk_var := VVar;
  l_is_const := bv_is_constant; l_eval := bv_eval w; l_itv := bv_mk_interval; l_allowed := all_allowed_ops;
  l_ceqb := N.eqb; l_cleb := N.leb;
  l_const := fun c => [Node (VLit c) []];                       (* src/bv.rs:214-216 *)
  l_custom := no_modify;
  l_init := fun vars => no_links (init_product (map Some (bv_samples w)) vars);   (* src/bv.rs:218-240 *)
  l_validate := bv_validate check |}.

(* ---- tests/bool.rs ---- *)
Definition bool_op_eqb (a b : bool_op) : bool :=
  match a, b with
  | BNot, BNot | BAnd, BAnd | BOr, BOr | BXor, BXor | BImplies, BImplies => true
  | BLit c, BLit d => Bool.eqb c d
  | BVar s, BVar t => String.eqb s t
  | _, _ => false
  end.
Definition bool_from_op (s : string) (n : nat) : option bool_op :=
  if String.eqb s "~" && Nat.eqb n 1 then Some BNot
  else if String.eqb s "&" && Nat.eqb n 2 then Some BAnd
  else if String.eqb s "|" && Nat.eqb n 2 then Some BOr
  else if String.eqb s "^" && Nat.eqb n 2 then Some BXor
  else if String.eqb s "->" && Nat.eqb n 2 then Some BImplies
  else if Nat.eqb n 0 then
    match parse_bool s with Some b => Some (BLit b) | None => Some (BVar s) end
  else None.
Definition bool_name (o : bool_op) : string :=
  match o with
  | BNot => "~" | BAnd => "&" | BOr => "|" | BXor => "^" | BImplies => "->"
  | BLit true => "true" | BLit false => "false" | BVar s => s
  end.
(* tests/bool.rs:112-114 *)
Definition bool_is_constant (o : bool_op) : bool := match o with BLit _ => true | _ => false end.
Definition bool_lang : lang bool_op bool := {|
  l_eqb := bool_op_eqb; l_from_op := bool_from_op; l_name := bool_name; l_to_var := bool_to_var; l_mk_var := BVar;
  l_is_const := bool_is_constant; l_eval := bool_eval; l_itv := bool_mk_interval; l_allowed := all_allowed_ops;
  l_ceqb := Bool.eqb; l_cleb := bool_leb;
  l_const := fun c => [Node (BLit c) []];                       (* tests/bool.rs:116-118 *)
  l_custom := no_modify;
  l_init := fun vars => no_links (bool_init vars);
  l_validate := fun l r => Val (bool_validate l r) |}.

(* ---- tests/nat.rs ---- *)
Definition nat_op_eqb (a b : nat_op) : bool :=
  match a, b with
  | NZ, NZ | NS, NS | NAdd, NAdd | NMul, NMul => true
  | NVar s, NVar t => String.eqb s t
  | _, _ => false
  end.
(* the nodes of a constant; no nodes (and so a panic) when the recursion does not
   stop within the fuel *)
Definition const_nodes {O} (r : res (term O)) : recexpr O := match r with Val t => to_rec t | Panic => [] end.
Definition nat_lang (depth : nat) (rng : nat -> Z) (check : zint -> zint -> sat_result) : lang nat_op Z := {|
  l_eqb := nat_op_eqb; l_from_op := nat_from_op; l_name := nat_name; l_to_var := nat_to_var; l_mk_var := NVar;
  l_is_const := nat_is_constant; l_eval := nat_eval; l_itv := nat_mk_interval; l_allowed := all_allowed_ops;
  l_ceqb := Z.eqb; l_cleb := Z.leb;
  l_const := fun c => const_nodes (nat_constant depth c);       (* tests/nat.rs:128-134 *)
  l_custom := no_modify;
  l_init := fun vars => no_links (Val (nat_init rng vars));
  l_validate := nat_validate check |}.

(* ---- tests/pos.rs ---- *)
Definition pos_op_eqb (a b : pos_op) : bool :=
  match a, b with
  | PZ, PZ | PS, PS | PXH, PXH | PXO, PXO | PXI, PXI | PAdd, PAdd | PMul, PMul => true
  | PVar s, PVar t => String.eqb s t
  | _, _ => false
  end.
(* tests/pos.rs:94-96 *)
Definition pos_is_constant (o : pos_op) : bool := match o with PZ | PXH => true | _ => false end.
Definition pos_lang (depth : nat) : lang pos_op N := {|
  l_eqb := pos_op_eqb; l_from_op := pos_from_op; l_name := pos_name; l_to_var := pos_to_var; l_mk_var := PVar;
  l_is_const := pos_is_constant; l_eval := no_cvec; l_itv := no_interval; l_allowed := pos_allowed;
  l_ceqb := N.eqb; l_cleb := N.leb;
  l_const := fun c => const_nodes (pos_constant depth c);       (* tests/pos.rs:98-105 *)
  l_custom := no_modify;
  l_init := fun _ => Val (0, []);                                (* tests/pos.rs:80 *)
  l_validate := fun _ _ => Val Valid |}.                         (* tests/pos.rs:107-109 *)

(* ---- tests/bv-bool.rs ---- *)
Definition bb_eqb (a b : bb_op) : bool :=
  match a, b with
  | XNot, XNot | XAnd, XAnd | XOr, XOr | XXor, XXor | XImplies, XImplies
  | XBand, XBand | XBor, XBor | XBxor, XBxor | XBnot, XBnot
  | XMake, XMake | XFirst, XFirst | XSecond, XSecond => true
  | XLit c, XLit d => Bool.eqb c d
  | XNum c, XNum d => N.eqb c d
  | XVar s, XVar t => String.eqb s t
  | _, _ => false
  end.
(* tests/bv-bool.rs:109-111 *)
Definition bb_is_constant (o : bb_op) : bool := match o with XLit _ => true | _ => false end.
Fixpoint clookup (m : list (nat * list (node bb_op))) (k : nat) : list (node bb_op) :=
  match m with [] => [] | (k', v) :: r => if Nat.eqb k k' then v else clookup r k end.
(* tests/bv-bool.rs:117-151 (bb_custom_modify): the classes it looks at *)
Definition bb_custom (g : eg bb_op N) (i : nat) : res (list (recexpr bb_op)) :=
  let* ns := class_nodes g i in
  let* tab := rmapM (fun j => let* m := class_nodes g j in Val (j, m)) (i :: flat_map (@nch bb_op) ns) in
  Val (match bb_custom_modify (clookup tab) i with
       | Some c => [[Node (XNum c) []]]
       | None => []
       end).
(* tests/bv-bool.rs:88-97: (bv (first v) (second v)) *)
Definition bb_split (v : string) : recexpr bb_op :=
  [Node (XVar v) []; Node XFirst [0]; Node XSecond [0]; Node XMake [1; 2]].
Definition bb_lang : lang bb_op N := {|
  l_eqb := bb_eqb; l_from_op := bb_from_op; l_name := bb_name; l_to_var := bb_to_var; l_mk_var := XVar;
  l_is_const := bb_is_constant; l_eval := no_cvec; l_itv := no_interval; l_allowed := bb_allowed;
  l_ceqb := N.eqb; l_cleb := N.leb;
  l_const := fun c => [Node (XNum c) []];                       (* tests/bv-bool.rs:113-115 *)
  l_custom := bb_custom;
  l_init := fun vars => Val (0, map (fun v => (v, [], [bb_split v])) vars);
  l_validate := fun _ _ => Val Valid |}.

(* ---- tests/rational.rs ---- *)
Definition math_eqb (a b : math_op) : bool :=
  match a, b with
  | MAdd, MAdd | MSub, MSub | MMul, MMul | MDiv, MDiv | MNeg, MNeg | MAbs, MAbs | MIf, MIf => true
  | MLit c, MLit d => qeqb c d
  | MVar s, MVar t => String.eqb s t
  | _, _ => false
  end.
Definition math_lang (ov : math_op -> Qc -> Qc -> bool) (check : zbool -> sat_result) : lang math_op Qc := {|
  l_eqb := math_eqb; l_from_op := math_from_op; l_name := math_name; l_to_var := math_to_var; l_mk_var := MVar;
  l_is_const := math_is_constant; l_eval := math_eval ov; l_itv := math_mk_interval ov; l_allowed := all_allowed_ops;
  l_ceqb := qeqb; l_cleb := qleb;
  l_const := fun c => [Node (MLit c) []];                       (* tests/rational.rs:211-213 *)
  l_custom := no_modify;
  l_init := fun vars => no_links (math_init vars);
  l_validate := math_validate check |}.

(* ---- tests/halide.rs ---- *)
Definition hal_eqb (a b : hal_op) : bool :=
  match a, b with
  | HLt, HLt | HLeq, HLeq | HEq, HEq | HNeq, HNeq | HImplies, HImplies | HNot, HNot | HNeg, HNeg | HAnd, HAnd
  | HOr, HOr | HXor, HXor | HAdd, HAdd | HSub, HSub | HMul, HMul | HDiv, HDiv | HMin, HMin | HMax, HMax
  | HSelect, HSelect => true
  | HLit c, HLit d => Z.eqb c d
  | HVar s, HVar t => String.eqb s t
  | _, _ => false
  end.
Definition hal_lang (check : hint -> hint -> sat_result) : lang hal_op Z := {|
  l_eqb := hal_eqb; l_from_op := hal_from_op; l_name := hal_name; l_to_var := hal_to_var; l_mk_var := HVar;
  l_is_const := hal_is_constant; l_eval := hal_eval; l_itv := no_interval; l_allowed := all_allowed_ops;
  l_ceqb := Z.eqb; l_cleb := Z.leb;
  l_const := fun c => [Node (HLit c) []];                       (* tests/halide.rs:143-145 *)
  l_custom := no_modify;
  l_init := fun vars => no_links (hal_init vars);
  l_validate := hal_validate check |}.
