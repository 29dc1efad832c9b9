(* Model of the rational domain, tests/rational.rs.  A Ratio<i64> is a rational
   in lowest terms (Qc).  num-rational's checked operations return the exact
   result or None on overflow; which results overflow is the parameter [ov]. *)
From Coq Require Import NArith ZArith QArith Qcanon.
From Verif Require Import Base Sexp Reader Lang Util Syntax BVText Number.
Open Scope string_scope.
Open Scope list_scope.

Definition qeqb (x y : Qc) : bool := Qeq_bool (this x) (this y).
Definition qleb (x y : Qc) : bool := Qle_bool (this x) (this y).
Definition qzero : Qc := Q2Qc 0.
Definition is_zero (x : Qc) : bool := qeqb x qzero.
Definition is_positive (x : Qc) : bool := negb (qleb x qzero).
Definition is_negative (x : Qc) : bool := negb (qleb qzero x).

(* tests/rational.rs:28-40 *)
Inductive math_op :=
  | MAdd | MSub | MMul | MDiv | MNeg | MAbs | MIf | MLit (q : Qc) | MVar (s : string).
Definition math_arity (o : math_op) : nat :=
  match o with
  | MAdd | MSub | MMul | MDiv => 2 | MNeg | MAbs => 1 | MIf => 3 | MLit _ | MVar _ => 0
  end.
(* define_language!: variants in order *)
Definition math_from_op (s : string) (n : nat) : option math_op :=
  if String.eqb s "+" && Nat.eqb n 2 then Some MAdd
  else if String.eqb s "-" && Nat.eqb n 2 then Some MSub
  else if String.eqb s "*" && Nat.eqb n 2 then Some MMul
  else if String.eqb s "/" && Nat.eqb n 2 then Some MDiv
  else if String.eqb s "~" && Nat.eqb n 1 then Some MNeg
  else if String.eqb s "fabs" && Nat.eqb n 1 then Some MAbs
  else if String.eqb s "if" && Nat.eqb n 3 then Some MIf
  else if Nat.eqb n 0
  then match parse_ratio s with Some q => Some (MLit q) | None => Some (MVar s) end
  else None.
Definition math_name (o : math_op) : string :=
  match o with
  | MAdd => "+" | MSub => "-" | MMul => "*" | MDiv => "/" | MNeg => "~" | MAbs => "fabs"
  | MIf => "if" | MLit q => show_ratio q | MVar s => s
  end.
(* tests/rational.rs:148-157 *)
Definition math_to_var (o : math_op) : option string :=
  match o with MVar s => Some s | _ => None end.
(* tests/rational.rs:207-209 *)
Definition math_is_constant (o : math_op) : bool := match o with MLit _ => true | _ => false end.

Section Checked.
  (* does the operation overflow on these operands? *)
  Variable ov : math_op -> Qc -> Qc -> bool.
  Definition checked_add (x y : Qc) : option Qc := if ov MAdd x y then None else Some (x + y)%Qc.
  Definition checked_sub (x y : Qc) : option Qc := if ov MSub x y then None else Some (x - y)%Qc.
  Definition checked_mul (x y : Qc) : option Qc := if ov MMul x y then None else Some (x * y)%Qc.
  Definition checked_div (x y : Qc) : option Qc :=
    if is_zero y then None else if ov MDiv x y then None else Some (x / y)%Qc.
  (* negation of the numerator panics on i64::MIN *)
  Definition neg_rat (x : Qc) : res Qc :=
    if (Qnum (this x) =? i64_min)%Z then Panic else Val (- x)%Qc.
  Definition abs_rat (x : Qc) : res Qc := if is_negative x then neg_rat x else Val x.

  (* map! with one vector and an operation that may panic *)
  Definition map1_res (f : Qc -> res Qc) (a : cvec Qc) : res (cvec Qc) :=
    rmapM (fun x => match x with
                    | Some x => let* y := f x in Val (Some y)
                    | None => Val None
                    end) a.
  (* tests/rational.rs:60-76 *)
  Definition if_row (x y z : option Qc) : option Qc :=
    match x with Some c => if negb (is_zero c) then y else z | None => None end.
  (* tests/rational.rs:45-78 *)
  Definition math_eval (cvec_len : nat) (o : math_op) (args : list (cvec Qc)) : res (cvec Qc) :=
    match o, args with
    | MAdd, [x; y] => Val (map2 checked_add x y)
    | MSub, [x; y] => Val (map2 checked_sub x y)
    | MMul, [x; y] => Val (map2 checked_mul x y)
    | MDiv, [x; y] => Val (map2 checked_div x y)
    | MNeg, [x] => map1_res neg_rat x
    | MAbs, [x] => map1_res abs_rat x
    | MLit c, [] => Val (repeat (Some c) cvec_len)
    | MVar _, [] => Val []
    | MIf, [x; y; z] =>
        Val (map (fun t => if_row (fst (fst t)) (snd (fst t)) (snd t)) (combine (combine x y) z))
    | _, _ => Panic
    end.

  (* tests/rational.rs:84-91 *)
  Definition get_const (i : interval Qc) : option Qc :=
    match low i, high i with
    | Some a, Some b => if qeqb a b then Some a else None
    | _, _ => None
    end.
  Definition fold2 (f : Qc -> Qc -> option Qc) (x y : interval Qc) : option Qc :=
    match get_const x, get_const y with Some a, Some b => f a b | _, _ => None end.
  Definition fold1 (f : Qc -> res Qc) (x : interval Qc) : res (option Qc) :=
    match get_const x with Some a => let* b := f a in Val (Some b) | None => Val None end.
  (* tests/rational.rs:92-124 *)
  Definition fold_node (o : math_op) (args : list (interval Qc)) : res (option Qc) :=
    match o, args with
    | MLit n, [] => Val (Some n)
    | MVar _, [] => Val None
    | MNeg, [x] => fold1 neg_rat x
    | MAbs, [x] => fold1 abs_rat x
    | MAdd, [x; y] => Val (fold2 checked_add x y)
    | MSub, [x; y] => Val (fold2 checked_sub x y)
    | MMul, [x; y] => Val (fold2 checked_mul x y)
    | MDiv, [x; y] => Val (fold2 checked_div x y)
    | MIf, [x; y; z] =>
        Val (match get_const x with
             | Some c => if negb (is_zero c) then get_const y else get_const z
             | None => None
             end)
    | _, _ => Panic
    end.
  (* tests/rational.rs:80-127 *)
  Definition math_mk_interval (o : math_op) (args : list (interval Qc)) : res (interval Qc) :=
    let* c := fold_node o args in
    match c with
    | Some c => mk_itv qleb (Some c) (Some c)
    | None => Val full
    end.
End Checked.

(* tests/rational.rs:21-26 *)
Definition mk_rat (n d : Z) : res Qc := unwrap (mk_ratio n d).
(* tests/rational.rs:129-146 *)
Definition math_samples : list Qc :=
  map (fun z => Q2Qc (inject_Z z)) [-1; 0; 1; 2; -3]%Z.
Definition math_init (vars : list string) : res (nat * list (string * cvec Qc)) :=
  init_product (map Some math_samples) vars.

(* ---- the solver's terms ---- *)
(* z3::ast::Real and z3::ast::Bool values built by the code *)
Inductive zreal :=
  | RVar (s : string) | RNum (q : Qc) | RAdd (a b : zreal) | RSub (a b : zreal)
  | RMul (a b : zreal) | RDiv (a b : zreal) | RNeg (a : zreal) | RIte (c : zbool) (a b : zreal)
with zbool :=
  | FBool (b : bool) | FEq (a b : zreal) | FLe (a b : zreal) | FNot (a : zbool)
  | FAnd (a b : zbool) | FOr (a b : zbool) | FImplies (a b : zbool) | FIff (a b : zbool).
(* z3::ast::Bool::or of a list, as nested disjunctions *)
Definition f_or (l : list zbool) : zbool := fold_right FOr (FBool false) l.

Definition rzero : zreal := RNum qzero.
(* tests/rational.rs:440-488; to_i32().unwrap() *)
Definition math_to_z3 (o : math_op) (args : list zreal) : res zreal :=
  match o, args with
  | MAdd, [x; y] => Val (RAdd x y)
  | MSub, [x; y] => Val (RSub x y)
  | MMul, [x; y] => Val (RMul x y)
  | MDiv, [x; y] => Val (RDiv x y)
  | MNeg, [x] => Val (RNeg x)
  | MAbs, [x] => Val (RIte (FLe x rzero) (RNeg x) x)
  | MLit c, [] =>
      if in_i32 (Qnum (this c)) && in_i32 (Zpos (Qden (this c))) then Val (RNum c) else Panic
  | MVar v, [] => Val (RVar v)
  | MIf, [x; y; z] => Val (RIte (FNot (FEq x rzero)) y z)
  | _, _ => Panic
  end.

(* egg_to_z3(instantiate(text.parse().unwrap())) *)
Definition sexp_to_z3 (s : sexp) : res zreal :=
  let* p := unwrap (parse_pat math_from_op (display s)) in
  fold_rec math_to_z3 (instantiate MVar p).

(* tests/rational.rs:326-371; list[i] panics when the list is too short *)
Fixpoint error_conditions (s : sexp) (path : zbool) : res (list zbool) :=
  match s with
  | Atom _ => Val []
  | Lst [] => Panic
  | Lst (h :: l) =>
      let all l := let* r := rmapM (fun x => error_conditions x path) l in Val (concat r) in
      match h with
      | Atom w =>
          if String.eqb w "/" then
            match l with
            | _ :: d :: _ =>
                let* e := sexp_to_z3 d in
                let* r := all l in
                Val (FAnd (FEq e rzero) path :: r)
            | _ => Panic
            end
          else if String.eqb w "if" then
            match l with
            | c :: y :: z :: _ =>
                let* e := sexp_to_z3 c in
                let* a := error_conditions y (FAnd path (FNot (FEq e rzero))) in
                let* b := error_conditions z (FAnd path (FEq e rzero)) in
                Val (a ++ b)
            | _ => Panic
            end
          else all l
      | Lst _ =>
          let* a := error_conditions h path in
          let* b := all l in
          Val (a ++ b)
      end
  end.

(* tests/rational.rs:236-238 *)
Definition pat_to_sexp (p : pat math_op) : res sexp :=
  let* s := show_pat math_name p in unwrap (parse_str s).

(* tests/rational.rs:184-195: the formula whose negation is given to the solver *)
Definition math_assertion (lexpr rexpr : zreal) (ld rd : list zbool) : zbool :=
  let eq := fold_left (fun a c => FImplies (FNot c) a) (ld ++ rd) (FEq lexpr rexpr) in
  FAnd eq (FIff (f_or rd) (f_or ld)).

(* tests/rational.rs:159-205.  [check f] is the answer of the solver to the
   query f. *)
Definition math_validate (check : zbool -> sat_result) (lhs rhs : pat math_op) : res validation :=
  let* lexpr := fold_rec math_to_z3 (instantiate MVar lhs) in
  let* rexpr := fold_rec math_to_z3 (instantiate MVar rhs) in
  let* ls := pat_to_sexp lhs in
  let* ld := error_conditions ls (FBool true) in
  let* rs := pat_to_sexp rhs in
  let* rd := error_conditions rs (FBool true) in
  Val (match check (FNot (math_assertion lexpr rexpr ld rd)) with
       | Unsat => Valid | Sat => Invalid | SUnknown => Unknown
       end).

(* ---- interval helpers (used only by the unit tests of the file) ---- *)
(* Overflow of the unchecked i64 arithmetic is not modelled. *)
Inductive sign := Positive | ContainsZero | Negative.
(* tests/rational.rs:498-524 *)
Definition sign_of (i : interval Qc) : sign :=
  match low i, high i with
  | None, None => ContainsZero
  | Some x, None => if is_positive x then Positive else ContainsZero
  | None, Some y => if is_negative y then Negative else ContainsZero
  | Some x, Some y =>
      if is_positive x && is_positive y then Positive
      else if is_negative x && is_negative y then Negative
      else ContainsZero
  end.
Definition opt2 (f : Qc -> Qc -> Qc) (a b : option Qc) : option Qc :=
  match a, b with Some x, Some y => Some (f x y) | _, _ => None end.
Definition qmin (x y : Qc) : Qc := if qleb x y then x else y.
Definition qmax (x y : Qc) : Qc := if qleb x y then y else x.
(* tests/rational.rs:526-530 *)
Definition itv_neg (i : interval Qc) : res (interval Qc) :=
  mk_itv qleb (option_map Qcopp (high i)) (option_map Qcopp (low i)).
(* tests/rational.rs:532-568 *)
Definition itv_abs (i : interval Qc) : res (interval Qc) :=
  match low i, high i with
  | None, None => mk_itv qleb None None
  | Some x, None =>
      if is_negative x then mk_itv qleb (Some (- x)%Qc) None else mk_itv qleb (Some x) None
  | None, Some y =>
      if is_negative y then mk_itv qleb None (Some (- y)%Qc) else mk_itv qleb None (Some y)
  | Some x, Some y =>
      if is_negative x
      then if is_negative y then mk_itv qleb (Some (- x)%Qc) (Some (- y)%Qc)
           else mk_itv qleb (Some (- x)%Qc) (Some y)
      else if is_negative y then mk_itv qleb (Some x) (Some (- y)%Qc)
           else mk_itv qleb (Some x) (Some y)
  end.
(* tests/rational.rs:570-575 *)
Definition itv_add (a b : interval Qc) : res (interval Qc) :=
  mk_itv qleb (opt2 Qcplus (low a) (low b)) (opt2 Qcplus (high a) (high b)).
(* tests/rational.rs:577-621 *)
Definition itv_mul (a b : interval Qc) : res (interval Qc) :=
  let m := opt2 Qcmult in
  match sign_of a, sign_of b with
  | Negative, Negative => mk_itv qleb (m (high a) (high b)) (m (low a) (low b))
  | Positive, Positive => mk_itv qleb (m (low a) (low b)) (m (high a) (high b))
  | Positive, Negative => mk_itv qleb (m (high a) (low b)) (m (low a) (high b))
  | Negative, Positive => mk_itv qleb (m (low a) (high b)) (m (high a) (low b))
  | Positive, ContainsZero => mk_itv qleb (m (high a) (low b)) (m (high a) (high b))
  | ContainsZero, Positive => mk_itv qleb (m (low a) (high b)) (m (high a) (high b))
  | Negative, ContainsZero => mk_itv qleb (m (low a) (high b)) (m (low a) (low b))
  | ContainsZero, Negative => mk_itv qleb (m (high a) (low b)) (m (low a) (low b))
  | ContainsZero, ContainsZero =>
      mk_itv qleb (opt2 qmin (m (low a) (high b)) (m (high a) (low b)))
                  (opt2 qmax (m (high a) (high b)) (m (low a) (low b)))
  end.
(* tests/rational.rs:623-634 *)
Definition itv_recip (i : interval Qc) : res (interval Qc) :=
  match low i, high i with
  | Some x, Some y =>
      match sign_of i with
      | ContainsZero => Val full
      | _ => mk_itv qleb (Some (/ y)%Qc) (Some (/ x)%Qc)
      end
  | _, _ => Val full
  end.
