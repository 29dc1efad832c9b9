(* Model of the trigonometric domain, tests/trig.rs, and of the rules it starts from
   (scripts/oopsla21/trig/complex.rules). *)
From Coq Require Import NArith ZArith QArith Qcanon.
From Verif Require Import Base Lines Lang Syntax Rule Ruleset BVText Number Rational Analysis Egraph Synth Domains.
Open Scope string_scope.
Open Scope list_scope.

(* ---- Ratio<BigInt> (num-rational, num-bigint): text without bounds ---- *)
(* BigInt::from_str.  A plus sign and underscores are accepted there; no text of this
   domain has them (is_real below). *)
Definition parse_big (s : string) : option Z :=
  match s with
  | String "-" r => option_map (fun n => (- Z.of_N n)%Z) (parse_nat r)
  | _ => option_map Z.of_N (parse_nat s)
  end.
Definition parse_bigratio (s : string) : option Qc :=
  let '(a, b) := split_slash s in
  match parse_big a, parse_big (match b with Some d => d | None => "1" end) with
  | Some n, Some d => mk_ratio n d
  | _, _ => None
  end.
(* Display; a number has at most as many decimal digits as binary ones *)
Definition show_bigN (n : N) : string := show_digits (S (N.to_nat (N.size n))) n "".
Definition show_big (z : Z) : string :=
  if (z <? 0)%Z then String "-" (show_bigN (Z.to_N (- z))) else show_bigN (Z.to_N z).
Definition show_bigratio (q : Qc) : string :=
  let n := Qnum (this q) in
  let d := Zpos (Qden (this q)) in
  if (d =? 1)%Z then show_big n else (show_big n ++ String "/" (show_big d))%string.

(* ---- tests/trig.rs:37-46: the text of a constant.  Simplified: numeric characters
   outside ASCII are not modelled. ---- *)
Definition real_char (c : ascii) : bool :=
  match digit 10 c with Some _ => true | None => Ascii.eqb c "-" || Ascii.eqb c "/" end.
Fixpoint real_chars (s : string) : bool := match s with "" => true | String c r => real_char c && real_chars r end.
Definition is_real (s : string) : bool := match s with "" => false | _ => real_chars s end.
(* tests/trig.rs:82-93 *)
Definition alphabetic (c : ascii) : bool :=
  let n := N_of_ascii c in ((N.leb 97 n && N.leb n 122) || (N.leb 65 n && N.leb n 90))%N.
Definition parse_variable (s : string) : option string :=
  match s with
  | String c "" => if alphabetic c then Some s else None
  | String "?" (String c "") => if alphabetic c then Some (String c "") else None
  | _ => None
  end.

(* tests/trig.rs:119-146 *)
Inductive trig_op :=
  | TSin | TCos | TTan | TCis | TNeg | TAdd | TSub | TMul | TDiv | TSqr | TI | TPi
  | TConst (s : string) | TVar (s : string).
Definition trig_arity (o : trig_op) : nat :=
  match o with
  | TSin | TCos | TTan | TCis | TNeg | TSqr => 1
  | TAdd | TSub | TMul | TDiv => 2
  | TI | TPi | TConst _ | TVar _ => 0
  end.
Definition trig_eqb (a b : trig_op) : bool :=
  match a, b with
  | TSin, TSin | TCos, TCos | TTan, TTan | TCis, TCis | TNeg, TNeg | TAdd, TAdd | TSub, TSub | TMul, TMul
  | TDiv, TDiv | TSqr, TSqr | TI, TI | TPi, TPi => true
  | TConst s, TConst t | TVar s, TVar t => String.eqb s t
  | _, _ => false
  end.
Definition trig_from_op (s : string) (n : nat) : option trig_op :=
  if String.eqb s "sin" && Nat.eqb n 1 then Some TSin
  else if String.eqb s "cos" && Nat.eqb n 1 then Some TCos
  else if String.eqb s "tan" && Nat.eqb n 1 then Some TTan
  else if String.eqb s "cis" && Nat.eqb n 1 then Some TCis
  else if String.eqb s "~" && Nat.eqb n 1 then Some TNeg
  else if String.eqb s "+" && Nat.eqb n 2 then Some TAdd
  else if String.eqb s "-" && Nat.eqb n 2 then Some TSub
  else if String.eqb s "*" && Nat.eqb n 2 then Some TMul
  else if String.eqb s "/" && Nat.eqb n 2 then Some TDiv
  else if String.eqb s "sqr" && Nat.eqb n 1 then Some TSqr
  else if String.eqb s "I" && Nat.eqb n 0 then Some TI
  else if String.eqb s "PI" && Nat.eqb n 0 then Some TPi
  else if Nat.eqb n 0
  then if is_real s then Some (TConst s) else option_map TVar (parse_variable s)
  else None.
Definition trig_name (o : trig_op) : string :=
  match o with
  | TSin => "sin" | TCos => "cos" | TTan => "tan" | TCis => "cis" | TNeg => "~" | TAdd => "+" | TSub => "-"
  | TMul => "*" | TDiv => "/" | TSqr => "sqr" | TI => "I" | TPi => "PI" | TConst s => s | TVar s => s
  end.
(* tests/trig.rs:209-223 *)
Definition trig_to_var (o : trig_op) : option string := match o with TVar s => Some s | _ => None end.
Definition trig_is_constant (o : trig_op) : bool := match o with TConst _ => true | _ => false end.
(* tests/trig.rs:194-196 *)
Definition trig_allowed (o : trig_op) : bool := match o with TI | TCis | TSqr => false | _ => true end.

(* tests/trig.rs:107-117 *)
Fixpoint extract_constant (ns : list (node trig_op)) : option Qc :=
  match ns with
  | [] => None
  | n :: r =>
      match nop n with
      | TConst v => match parse_bigratio v with Some q => Some q | None => extract_constant r end
      | _ => extract_constant r
      end
  end.

(* tests/trig.rs:229-308.  The order in which the nodes of a class are listed is a
   parameter. *)
Section Custom.
  Variable order : list (node trig_op) -> list (node trig_op).
  Definition fold_node (look : nat -> option Qc) (n : node trig_op) : option Qc :=
    match nop n, nch n with
    | TNeg, [i] => option_map Qcopp (look i)
    | TAdd, [i; j] => match look i, look j with Some x, Some y => Some (x + y)%Qc | _, _ => None end
    | TSub, [i; j] => match look i, look j with Some x, Some y => Some (x - y)%Qc | _, _ => None end
    | TMul, [i; j] => match look i, look j with Some x, Some y => Some (x * y)%Qc | _, _ => None end
    | TDiv, [i; j] =>
        match look i, look j with
        | Some x, Some y => if qeqb y qzero then None else Some (x / y)%Qc
        | _, _ => None
        end
    | _, _ => None
    end.
  Fixpoint fold_nodes (look : nat -> option Qc) (ns : list (node trig_op)) : option Qc :=
    match ns with
    | [] => None
    | n :: r => match fold_node look n with Some q => Some q | None => fold_nodes look r end
    end.
  (* the terms that are joined with the class *)
  Definition folded (q : Qc) : list (recexpr trig_op) :=
    let s := show_bigratio q in
    match parse_bigratio s with
    | Some x => if qleb x qzero then [[Node (TConst (show_bigratio (- x)%Qc)) []; Node TNeg [0]]] else []
    | None => []
    end ++ [[Node (TConst s) []]].
  Fixpoint nodes_of (m : list (nat * list (node trig_op))) (k : nat) : list (node trig_op) :=
    match m with [] => [] | (k', v) :: r => if Nat.eqb k k' then v else nodes_of r k end.
  Definition trig_custom (g : eg trig_op string) (i : nat) : res (list (recexpr trig_op)) :=
    let* ns := class_nodes g i in
    if existsb (fun n => trig_is_constant (nop n)) ns then Val []
    else
      let* tab := rmapM (fun j => let* m := class_nodes g j in Val (j, order m)) (flat_map (@nch trig_op) ns) in
      Val (match fold_nodes (fun j => extract_constant (nodes_of tab j)) (order ns) with
           | Some q => folded q
           | None => []
           end).
  Definition trig_lang : lang trig_op string := {|
    l_eqb := trig_eqb; l_from_op := trig_from_op; l_name := trig_name; l_to_var := trig_to_var; l_mk_var := TVar;
    l_is_const := trig_is_constant; l_eval := no_cvec; l_itv := no_interval; l_allowed := trig_allowed;
    (* simplified: symbols are compared by when they were first used; only the ends of
       intervals are compared, and here intervals have none *)
    l_ceqb := String.eqb; l_cleb := String.leb;
    l_const := fun c => [Node (TConst c) []];                     (* tests/trig.rs:225-227 *)
    l_custom := trig_custom;
    l_init := fun _ => Val (0, []);                                (* tests/trig.rs:207 *)
    l_validate := fun _ _ => Val Valid |}.                         (* tests/trig.rs:310-312 *)
End Custom.

(* tests/trig.rs:155-192; the eighth has a short arrow *)
Definition trig_exploratory_lines : list string :=
  ["(sin ?a) ==> (/ (- (cis ?a) (cis (~ ?a))) (* 2 I))";
   "(/ (- (cis ?a) (cis (~ ?a))) (* 2 I)) ==> (sin ?a)";
   "(cos ?a) ==> (/ (+ (cis ?a) (cis (~ ?a))) 2)";
   "(/ (+ (cis ?a) (cis (~ ?a))) 2) ==> (cos ?a)";
   "(tan ?a) ==> (* I (/ (- (cis (~ ?a)) (cis ?a)) (+ (cis (~ ?a)) (cis ?a))))";
   "(* I (/ (- (cis (~ ?a)) (cis ?a)) (+ (cis (~ ?a)) (cis ?a)))) ==> (tan ?a)";
   "(sin ?a) ==> (/ (- (* I (cis (~ ?a))) (* I (cis ?a))) 2)";
   "(/ (- (* I (cis (~ ?a))) (* I (cis ?a))) 2) => (sin ?a)";
   "(cos ?a) ==> (/ (+ (* I (cis ?a)) (* I (cis (~ ?a)))) (* 2 I))";
   "(/ (+ (* I (cis ?a)) (* I (cis (~ ?a)))) (* 2 I)) ==> (cos ?a)";
   "(tan ?a) ==> (/ (sin ?a) (cos ?a))";
   "(/ (sin ?a) (cos ?a)) ==> (tan ?a)";
   "(* (cos ?a) (cos ?b)) ==> (/ (+ (+ (cis (- ?a ?b)) (cis (~ (- ?a ?b)))) (+ (cis (+ ?a ?b)) (cis (~ (+ ?a ?b))))) 4)";
   "(* (sin ?a) (sin ?b)) ==> (/ (- (+ (cis (- ?a ?b)) (cis (~ (- ?a ?b)))) (+ (cis (+ ?a ?b)) (cis (~ (+ ?a ?b))))) 4)";
   "(* (cos ?a) (sin ?b)) ==> (/ (+ (- (cis (+ ?a ?b)) (cis (~ (+ ?a ?b)))) (- (cis (- ?b ?a)) (cis (~ (- ?b ?a))))) (* 4 I))";
   "(* (sin ?a) (cos ?b)) ==> (/ (+ (- (cis (+ ?a ?b)) (cis (~ (+ ?a ?b)))) (- (cis (- ?a ?b)) (cis (~ (- ?a ?b))))) (* 4 I))";
   "(sqr ?a) ==> (* ?a ?a)";
   "(* ?a ?a) ==> (sqr ?a)"].
Definition trig_exploratory : res (ruleset trig_op) := rs_new trig_from_op trig_name trig_exploratory_lines.
(* tests/trig.rs:328-350 (prior_rules) *)
Definition trig_prior_lines : list string :=
  ["(+ PI PI) ==> (* 2 PI)";
   "(* 2 PI) ==> (+ PI PI)";
   "(cis 0) ==> 1";
   "(cis (/ PI 2)) ==> I";
   "(cis (~ (/ PI 2))) ==> (~ I)";
   "(cis PI) ==> -1";
   "(cis (+ ?a ?b)) ==> (* (cis ?a) (cis ?b))";
   "(* (cis ?a) (cis ?b)) ==> (cis (+ ?a ?b))";
   "(cis (- ?a ?b)) ==> (* (cis ?a) (cis (~ ?b)))";
   "(* (cis ?a) (cis (~ ?b))) ==> (cis (- ?a ?b))";
   "(cis (~ ?a)) ==> (/ 1 (cis ?a))";
   "(/ 1 (cis ?a)) ==> (cis (~ ?a))";
   "(* (cis ?a) (cis (~ ?a))) ==> 1";
   "(/ 1 I) ==> (~ I)";
   "(* I I) ==> -1"].
Definition trig_prior : res (ruleset trig_op) := rs_new trig_from_op trig_name trig_prior_lines.
(* scripts/oopsla21/trig/complex.rules, its lines *)
Definition complex_lines : list string :=
  ["(- ?a (- ?b ?c)) ==> (- ?c (- ?b ?a))";
   "(* ?a (* ?b ?c)) ==> (* ?b (* ?a ?c))";
   "(- (- ?a ?b) ?c) ==> (- (- ?a ?c) ?b)";
   "(+ ?a (+ ?b ?c)) ==> (+ ?c (+ ?a ?b))";
   "(+ ?c (+ ?a ?b)) ==> (+ ?a (+ ?b ?c))";
   "(- (+ ?a ?b) ?c) ==> (+ ?a (- ?b ?c))";
   "(+ ?a (- ?b ?c)) ==> (- (+ ?a ?b) ?c)";
   "(- ?a (- ?b ?c)) ==> (+ ?a (- ?c ?b))";
   "(+ ?a (- ?c ?b)) ==> (- ?a (- ?b ?c))";
   "(/ ?a (* ?b ?c)) ==> (/ (/ ?a ?b) ?c)";
   "(/ (/ ?a ?b) ?c) ==> (/ ?a (* ?b ?c))";
   "(- ?a (+ ?b ?c)) ==> (- (- ?a ?b) ?c)";
   "(- (- ?a ?b) ?c) ==> (- ?a (+ ?b ?c))";
   "(/ (- ?a ?b) ?c) ==> (- (/ ?a ?c) (/ ?b ?c))";
   "(- (/ ?a ?c) (/ ?b ?c)) ==> (/ (- ?a ?b) ?c)";
   "(- (* ?a ?b) (* ?a ?c)) ==> (* ?a (- ?b ?c))";
   "(* ?a (- ?b ?c)) ==> (- (* ?a ?b) (* ?a ?c))";
   "(/ (+ ?a ?b) ?c) ==> (+ (/ ?b ?c) (/ ?a ?c))";
   "(+ (/ ?b ?c) (/ ?a ?c)) ==> (/ (+ ?a ?b) ?c)";
   "(+ (* ?a ?b) (* ?b ?c)) ==> (* ?b (+ ?a ?c))";
   "(* ?b (+ ?a ?c)) ==> (+ (* ?a ?b) (* ?b ?c))";
   "(/ (- (* ?a ?b) ?c) ?b) ==> (- ?a (/ ?c ?b))";
   "(- ?a (/ ?c ?b)) ==> (/ (- (* ?a ?b) ?c) ?b)";
   "(/ ?a (- (/ ?b ?c) ?a)) ==> (/ ?c (- (/ ?b ?a) ?c))";
   "(* ?a ?b) ==> (* ?b ?a)";
   "(+ ?a ?b) ==> (+ ?b ?a)";
   "(* ?a (+ ?b ?b)) ==> (* ?b (+ ?a ?a))";
   "(+ ?a ?a) ==> (* 2 ?a)";
   "(* 2 ?a) ==> (+ ?a ?a)";
   "(/ ?a ?b) ==> (/ (+ ?a ?a) (+ ?b ?b))";
   "(/ (+ ?a ?a) (+ ?b ?b)) ==> (/ ?a ?b)";
   "(- (* ?a ?a) (* ?b ?b)) ==> (* (- ?a ?b) (+ ?a ?b))";
   "(* (- ?a ?b) (+ ?a ?b)) ==> (- (* ?a ?a) (* ?b ?b))";
   "(~ (~ ?a)) ==> ?a";
   "?a ==> (~ (~ ?a))";
   "?a ==> (* ?a 1)";
   "(* ?a 1) ==> ?a";
   "?a ==> (+ ?a 0)";
   "(+ ?a 0) ==> ?a";
   "?a ==> (/ ?a 1)";
   "(/ ?a 1) ==> ?a";
   "?a ==> (- ?a 0)";
   "(- ?a 0) ==> ?a";
   "(- ?a ?a) ==> 0";
   "(/ ?a ?a) ==> 1";
   "(~ ?a) ==> (/ ?a -1)";
   "(/ ?a -1) ==> (~ ?a)";
   "(~ ?a) ==> (* ?a -1)";
   "(* ?a -1) ==> (~ ?a)";
   "(~ ?a) ==> (- 0 ?a)";
   "(- 0 ?a) ==> (~ ?a)";
   "(/ 0 ?a) ==> 0";
   "(* ?a 0) ==> 0";
   "(- ?a -1) ==> (+ ?a 1)";
   "(+ ?a 1) ==> (- ?a -1)";
   "(- ?a 1) ==> (+ ?a -1)";
   "(+ ?a -1) ==> (- ?a 1)"].
Definition complex_rules : res (ruleset trig_op) := rs_from_file trig_from_op trig_name (unlines complex_lines).
