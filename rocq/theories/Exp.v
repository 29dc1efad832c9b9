(* Model of the exponential domain, tests/exponential.rs. *)
From Coq Require Import NArith ZArith QArith Qcanon.
From Verif Require Import Base Lang Syntax Rule Ruleset BVText Number Rational Analysis Egraph Synth Domains Trig.
Open Scope string_scope.
Open Scope list_scope.

(* ---- BigInt::from_str and Ratio<BigInt>::from_str (num-bigint, num-rational): a
   plus sign may come first, underscores may come between digits ---- *)
Definition strip_plus (s : string) : string :=
  match s with
  | String "+" (String "+" _) => s
  | String "+" r => r
  | _ => s
  end.
Fixpoint drop_underscores (s : string) : string :=
  match s with
  | "" => ""
  | String c r => if Ascii.eqb c "_" then drop_underscores r else String c (drop_underscores r)
  end.
Definition parse_biguint (s : string) : option N :=
  match strip_plus s with
  | String "_" _ => None
  | r => parse_nat (drop_underscores r)
  end.
Definition parse_bigint (s : string) : option Z :=
  match s with
  | String "-" (String "+" _) => None
  | String "-" r => option_map (fun n => (- Z.of_N n)%Z) (parse_biguint r)
  | _ => option_map Z.of_N (parse_biguint s)
  end.
Definition parse_fraction (s : string) : option Qc :=
  let '(a, b) := split_slash s in
  match parse_bigint a, parse_bigint (match b with Some d => d | None => "1" end) with
  | Some n, Some d => mk_ratio n d
  | _, _ => None
  end.

(* tests/exponential.rs:17-41 *)
Inductive exp_op :=
  | EExp | ELog | EPow | ESqrt | ECbrt | ENeg | EAdd | ESub | EMul | EDiv | EIf | EAbs | ENum (q : Qc) | EVar (s : string).
Definition exp_arity (o : exp_op) : nat :=
  match o with
  | EExp | ELog | ESqrt | ECbrt | ENeg | EAbs => 1
  | EPow | EAdd | ESub | EMul | EDiv => 2
  | EIf => 3
  | ENum _ | EVar _ => 0
  end.
Definition exp_eqb (a b : exp_op) : bool :=
  match a, b with
  | EExp, EExp | ELog, ELog | EPow, EPow | ESqrt, ESqrt | ECbrt, ECbrt | ENeg, ENeg | EAdd, EAdd | ESub, ESub
  | EMul, EMul | EDiv, EDiv | EIf, EIf | EAbs, EAbs => true
  | ENum p, ENum q => qeqb p q
  | EVar s, EVar t => String.eqb s t
  | _, _ => false
  end.
(* define_language!: variants in order *)
Definition exp_from_op (s : string) (n : nat) : option exp_op :=
  if String.eqb s "exp" && Nat.eqb n 1 then Some EExp
  else if String.eqb s "log" && Nat.eqb n 1 then Some ELog
  else if String.eqb s "pow" && Nat.eqb n 2 then Some EPow
  else if String.eqb s "sqrt" && Nat.eqb n 1 then Some ESqrt
  else if String.eqb s "cbrt" && Nat.eqb n 1 then Some ECbrt
  else if String.eqb s "~" && Nat.eqb n 1 then Some ENeg
  else if String.eqb s "+" && Nat.eqb n 2 then Some EAdd
  else if String.eqb s "-" && Nat.eqb n 2 then Some ESub
  else if String.eqb s "*" && Nat.eqb n 2 then Some EMul
  else if String.eqb s "/" && Nat.eqb n 2 then Some EDiv
  else if String.eqb s "if" && Nat.eqb n 3 then Some EIf
  else if String.eqb s "fabs" && Nat.eqb n 1 then Some EAbs
  else if Nat.eqb n 0
  then match parse_fraction s with Some q => Some (ENum q) | None => Some (EVar s) end
  else None.
Definition exp_name (o : exp_op) : string :=
  match o with
  | EExp => "exp" | ELog => "log" | EPow => "pow" | ESqrt => "sqrt" | ECbrt => "cbrt" | ENeg => "~" | EAdd => "+" | ESub => "-"
  | EMul => "*" | EDiv => "/" | EIf => "if" | EAbs => "fabs" | ENum q => show_bigratio q | EVar s => s
  end.
(* tests/exponential.rs:68-82 *)
Definition exp_to_var (o : exp_op) : option string := match o with EVar s => Some s | _ => None end.
Definition exp_is_constant (o : exp_op) : bool := match o with ENum _ => true | _ => false end.
(* tests/exponential.rs:52-66: (exp (log v)) and (log (exp v)), which are made equal to v *)
Definition exp_links (v : string) : list (recexpr exp_op) :=
  [[Node (EVar v) []; Node ELog [0]; Node EExp [1]]; [Node (EVar v) []; Node EExp [0]; Node ELog [1]]].

Definition exp_lang : lang exp_op Qc := {|
  l_eqb := exp_eqb; l_from_op := exp_from_op; l_name := exp_name; l_to_var := exp_to_var; l_mk_var := EVar;
  l_is_const := exp_is_constant; l_eval := no_cvec; l_itv := no_interval;
  l_allowed := fun _ => true;                                      (* tests/exponential.rs:110-112 *)
  l_ceqb := qeqb; l_cleb := qleb;
  l_const := fun c => [Node (ENum c) []];                          (* tests/exponential.rs:84-86 *)
  l_custom := fun _ _ => Val [];
  l_init := fun vars => Val (0, map (fun v => (v, [], exp_links v)) vars);
  l_validate := fun _ _ => Val Valid |}.                           (* tests/exponential.rs:88-91 *)

(* tests/exponential.rs:97-108 *)
Definition exp_exploratory_lines : list string :=
  ["(pow ?a ?b) ==> (exp (* ?b (log ?a)))";
   "(sqrt ?a) ==> (pow ?a 1/2)";
   "(cbrt ?a) ==> (pow ?a 1/3)";
   "(exp (* ?b (log ?a))) ==> (pow ?a ?b)";
   "(pow ?a 1/2) ==> (sqrt ?a)";
   "(pow ?a 1/3) ==> (cbrt ?a)"].
Definition exp_exploratory : res (ruleset exp_op) := rs_new exp_from_op exp_name exp_exploratory_lines.
(* tests/exponential.rs:123-136 *)
Definition exp_starting_lines : list string :=
  ["(exp (+ ?a ?b)) ==> (* (exp ?a) (exp ?b))";
   "(exp (~ ?a)) ==> (/ 1 (exp ?a))";
   "(* (exp ?a) (exp ?b)) ==> (exp (+ ?a ?b))";
   "(/ 1 (exp ?a)) ==> (exp (~ ?a))";
   "(exp 0) ==> 1";
   "(log (exp ?a)) ==> ?a";
   "(exp (log ?a)) ==> ?a"].
Definition exp_starting : res (ruleset exp_op) := rs_new exp_from_op exp_name exp_starting_lines.
(* tests/exponential.rs:138-282 *)
Definition exp_rational_lines : list string :=
  ["(+ ?b ?a) ==> (+ ?a ?b)";
   "(* ?b ?a) ==> (* ?a ?b)";
   "(- ?a ?a) ==> 0";
   "(+ ?a 0) ==> ?a";
   "?a ==> (+ ?a 0)";
   "(* ?a 1) ==> ?a";
   "?a ==> (* ?a 1)";
   "(- ?a 0) ==> ?a";
   "?a ==> (- ?a 0)";
   "(/ ?a 1) ==> ?a";
   "?a ==> (/ ?a 1)";
   "(/ ?a -1) ==> (~ ?a)";
   "(~ ?a) ==> (/ ?a -1)";
   "(- 0 ?a) ==> (~ ?a)";
   "(~ ?a) ==> (- 0 ?a)";
   "(* ?a -1) ==> (~ ?a)";
   "(~ ?a) ==> (* ?a -1)";
   "(- ?a ?a) ==> (* ?a 0)";
   "(* ?a 0) ==> (- ?a ?a)";
   "(+ ?a 1) ==> (- ?a -1)";
   "(- ?a -1) ==> (+ ?a 1)";
   "(+ ?a -1) ==> (- ?a 1)";
   "(- ?a 1) ==> (+ ?a -1)";
   "(* (+ ?a 1) (/ -1 ?a)) ==> (/ (- -1 ?a) ?a)";
   "(/ (- -1 ?a) ?a) ==> (* (+ ?a 1) (/ -1 ?a))";
   "(* (/ -1 ?a) (- 1 ?a)) ==> (/ (- ?a 1) ?a)";
   "(/ (- ?a 1) ?a) ==> (* (/ -1 ?a) (- 1 ?a))";
   "(- (/ ?a ?a) (/ 0 ?a)) ==> (* (~ ?a) (/ -1 ?a))";
   "(* (~ ?a) (/ -1 ?a)) ==> (- (/ ?a ?a) (/ 0 ?a))";
   "(* (- 1 ?a) (/ 1 ?a)) ==> (/ (- 1 ?a) ?a)";
   "(/ (- 1 ?a) ?a) ==> (* (- 1 ?a) (/ 1 ?a))";
   "(* ?a (/ 1 ?a)) ==> (- (/ ?a ?a) (/ 0 ?a))";
   "(- (/ ?a ?a) (/ 0 ?a)) ==> (* ?a (/ 1 ?a))";
   "(* (+ ?a 1) (/ 1 ?a)) ==> (/ (+ ?a 1) ?a)";
   "(/ (+ ?a 1) ?a) ==> (* (+ ?a 1) (/ 1 ?a))";
   "(* ?a (/ -1 ?a)) ==> (- (/ 0 ?a) (/ ?a ?a))";
   "(- (/ 0 ?a) (/ ?a ?a)) ==> (* ?a (/ -1 ?a))";
   "(/ (/ 0 ?a) ?a) ==> (/ (/ 0 ?a) (+ ?a ?a))";
   "(/ (/ 0 ?a) (+ ?a ?a)) ==> (/ (/ 0 ?a) ?a)";
   "(/ (/ 0 ?a) ?a) ==> (/ (/ 0 ?a) (* ?a ?a))";
   "(/ (/ 0 ?a) (* ?a ?a)) ==> (/ (/ 0 ?a) ?a)";
   "(/ (/ 0 ?a) ?a) ==> (/ (/ 0 ?a) (fabs ?a))";
   "(/ (/ 0 ?a) (fabs ?a)) ==> (/ (/ 0 ?a) ?a)";
   "(/ 0 (* ?a ?a)) ==> (/ 0 ?a)";
   "(/ 0 ?a) ==> (/ 0 (* ?a ?a))";
   "(/ 0 (+ ?a ?a)) ==> (/ 0 ?a)";
   "(+ ?c (+ ?b ?a)) ==> (+ ?a (+ ?b ?c))";
   "(* ?c (* ?b ?a)) ==> (* ?b (* ?c ?a))";
   "(- ?c (- ?b ?a)) ==> (- ?a (- ?b ?c))";
   "(- ?c (- ?b ?a)) ==> (+ ?a (- ?c ?b))";
   "(+ (* ?b ?c) (* ?b ?a)) ==> (* ?b (+ ?a ?c))";
   "(- (* ?a ?c) (* ?b ?a)) ==> (* ?a (- ?c ?b))";
   "(* (/ ?c ?a) (* ?b ?a)) ==> (* (* ?c ?a) (/ ?b ?a))";
   "(* (* ?c ?a) (/ ?b ?a)) ==> (* (/ ?c ?a) (* ?b ?a))";
   "(- (+ ?c ?c) (+ ?b ?a)) ==> (- (- ?c ?b) (- ?a ?c))";
   "(- (+ ?b ?c) (+ ?b ?a)) ==> (- (+ ?c ?c) (+ ?a ?c))";
   "(fabs (- ?b ?a)) ==> (fabs (- ?a ?b))";
   "(* (fabs ?b) (fabs ?a)) ==> (fabs (* ?a ?b))";
   "(/ (- ?a ?b) (- ?b ?a)) ==> (/ (- ?b ?a) (- ?a ?b))";
   "(/ (- ?b ?a) (- ?b ?a)) ==> (/ (- ?a ?b) (- ?a ?b))";
   "(/ (* ?a ?b) (/ ?a ?a)) ==> (* (/ ?b ?a) (* ?a ?a))";
   "(* (/ ?b ?a) (* ?a ?a)) ==> (/ (* ?a ?b) (/ ?a ?a))";
   "(- (* ?b ?b) (* ?a ?a)) ==> (* (- ?b ?a) (+ ?a ?b))";
   "(- ?a (+ ?b ?a)) ==> (/ (+ ?b ?b) -2)";
   "(- (+ ?a ?b) ?a) ==> (/ (+ ?b ?b) 2)";
   "(* (- ?b ?a) -2) ==> (- (+ ?a ?a) (+ ?b ?b))";
   "(- (+ ?b ?b) (+ ?a ?a)) ==> (* (- ?b ?a) 2)";
   "(* (- ?b ?a) 2) ==> (- (+ ?b ?b) (+ ?a ?a))";
   "(/ (- ?b ?a) -2) ==> (/ (- ?a ?b) 2)";
   "(/ 0 (- ?b ?a)) ==> (/ 0 (- ?a ?b))";
   "(* (+ ?a ?b) (/ 0 ?a)) ==> (* ?b (/ 0 ?a))";
   "(* ?b (/ 0 ?a)) ==> (* (+ ?a ?b) (/ 0 ?a))";
   "(* (* ?a ?b) (/ 0 ?a)) ==> (* (fabs ?a) (/ 0 ?a))";
   "(* (/ 0 ?b) (/ 0 ?a)) ==> (* (/ ?b ?a) (/ 0 ?b))";
   "(fabs (fabs ?a)) ==> (fabs ?a)";
   "(fabs ?a) ==> (fabs (fabs ?a))";
   "(fabs (* ?a ?a)) ==> (* ?a ?a)";
   "(* ?a ?a) ==> (fabs (* ?a ?a))";
   "(/ ?a (fabs ?a)) ==> (/ (fabs ?a) ?a)";
   "(/ (fabs ?a) ?a) ==> (/ ?a (fabs ?a))";
   "(/ ?a ?a) ==> (/ (fabs ?a) (fabs ?a))";
   "(/ (fabs ?a) (fabs ?a)) ==> (/ ?a ?a)";
   "(fabs (+ ?a ?a)) ==> (+ (fabs ?a) (fabs ?a))";
   "(+ (fabs ?a) (fabs ?a)) ==> (fabs (+ ?a ?a))";
   "(/ (* ?a ?a) (* ?a ?a)) ==> (/ ?a ?a)";
   "(/ ?a ?a) ==> (/ (* ?a ?a) (* ?a ?a))";
   "(/ ?a ?a) ==> (/ (+ ?a ?a) (+ ?a ?a))";
   "(/ (+ ?a ?a) (+ ?a ?a)) ==> (/ ?a ?a)";
   "(+ ?a (/ 0 ?a)) ==> (/ (* ?a ?a) ?a)";
   "(/ (* ?a ?a) ?a) ==> (+ ?a (/ 0 ?a))";
   "(/ (* ?a ?a) (fabs ?a)) ==> (+ (fabs ?a) (/ 0 ?a))";
   "(+ (fabs ?a) (/ 0 ?a)) ==> (/ (* ?a ?a) (fabs ?a))";
   "(- (/ ?a ?a) ?a) ==> (* (/ ?a ?a) (- 1 ?a))";
   "(* (/ ?a ?a) (- 1 ?a)) ==> (- (/ ?a ?a) ?a)";
   "(* (/ ?a ?a) (- ?a 1)) ==> (- ?a (/ ?a ?a))";
   "(- ?a (/ ?a ?a)) ==> (* (/ ?a ?a) (- ?a 1))";
   "(/ 0 ?a) ==> (/ 0 (fabs ?a))";
   "(/ 0 (fabs ?a)) ==> (/ 0 ?a)";
   "(/ 0 ?a) ==> (/ 0 (+ ?a ?a))";
   "?a ==> (/ ?a (/ ?a ?a))";
   "(/ ?a (/ ?a ?a)) ==> ?a";
   "(- (/ ?a 2) 1) ==> (/ (- ?a 2) 2)";
   "(/ (- ?a 2) 2) ==> (- (/ ?a 2) 1)";
   "(- 1 (/ ?a 2)) ==> (/ (- 2 ?a) 2)";
   "(/ (- 2 ?a) 2) ==> (- 1 (/ ?a 2))";
   "(/ (+ 2 ?a) 2) ==> (+ 1 (/ ?a 2))";
   "(+ 1 (/ ?a 2)) ==> (/ (+ 2 ?a) 2)";
   "(fabs (- (fabs ?a) (/ ?a 2))) ==> (- (fabs ?a) (/ ?a 2))";
   "(- (fabs ?a) (/ ?a 2)) ==> (fabs (- (fabs ?a) (/ ?a 2)))";
   "(+ (fabs ?a) (- 1 ?a)) ==> (fabs (+ (fabs ?a) (- 1 ?a)))";
   "(fabs (+ (fabs ?a) (- 1 ?a))) ==> (+ (fabs ?a) (- 1 ?a))";
   "(fabs (+ (fabs ?a) (/ ?a 2))) ==> (+ (fabs ?a) (/ ?a 2))";
   "(+ (fabs ?a) (/ ?a 2)) ==> (fabs (+ (fabs ?a) (/ ?a 2)))";
   "(* (fabs ?a) (/ 0 ?a)) ==> (/ 0 (/ ?a ?a))";
   "(/ 0 (/ ?a ?a)) ==> (* (fabs ?a) (/ 0 ?a))";
   "(/ 0 (/ ?a ?a)) ==> (fabs (/ 0 (/ ?a ?a)))";
   "(fabs (/ 0 (/ ?a ?a))) ==> (/ 0 (/ ?a ?a))";
   "(/ (fabs ?a) 4) ==> (fabs (/ (/ ?a 2) 2))";
   "(fabs (/ (/ ?a 2) 2)) ==> (/ (fabs ?a) 4)";
   "(/ (fabs ?a) 4) ==> (fabs (/ (fabs ?a) 4))";
   "(fabs (/ (fabs ?a) 4)) ==> (/ (fabs ?a) 4)";
   "(/ (fabs ?a) 3) ==> (fabs (/ (fabs ?a) 3))";
   "(fabs (/ (fabs ?a) 3)) ==> (/ (fabs ?a) 3)";
   "(fabs (- (fabs ?a) (/ 0 ?a))) ==> (fabs (/ (* ?a ?a) (fabs ?a)))";
   "(fabs (/ (* ?a ?a) (fabs ?a))) ==> (fabs (- (fabs ?a) (/ 0 ?a)))";
   "(/ (+ ?a ?a) (fabs ?a)) ==> (/ (fabs ?a) (/ ?a 2))";
   "(/ (fabs ?a) (/ ?a 2)) ==> (/ (+ ?a ?a) (fabs ?a))";
   "(/ (fabs ?a) (+ ?a ?a)) ==> (/ (/ ?a 2) (fabs ?a))";
   "(/ (/ ?a 2) (fabs ?a)) ==> (/ (fabs ?a) (+ ?a ?a))";
   "(- (fabs ?a) ?a) ==> (fabs (- (fabs ?a) ?a))";
   "(fabs (- (fabs ?a) ?a)) ==> (- (fabs ?a) ?a)";
   "(fabs (+ ?a (fabs ?a))) ==> (+ ?a (fabs ?a))";
   "(+ ?a (fabs ?a)) ==> (fabs (+ ?a (fabs ?a)))";
   "(fabs (* (fabs ?b) (/ ?a 2))) ==> (fabs (/ (* ?a ?b) 2))";
   "(+ (fabs ?b) (fabs ?a)) ==> (fabs (+ (fabs ?b) (fabs ?a)))";
   "(fabs (+ (fabs ?b) (fabs ?a))) ==> (+ (fabs ?b) (fabs ?a))";
   "(fabs (/ ?b (fabs ?a))) ==> (fabs (/ ?b ?a))";
   "(fabs (/ ?b ?a)) ==> (fabs (/ ?b (fabs ?a)))";
   "(fabs (/ (fabs ?c) (- ?b ?a))) ==> (fabs (/ (fabs ?c) (- ?a ?b)))";
   "(fabs (* (fabs ?c) (* ?b ?a))) ==> (fabs (* (fabs ?a) (* ?b ?c)))";
   "(- (fabs ?c) (- ?b ?a)) ==> (+ (fabs ?c) (- ?a ?b))"].
Definition exp_rational : res (ruleset exp_op) := rs_new exp_from_op exp_name exp_rational_lines.
