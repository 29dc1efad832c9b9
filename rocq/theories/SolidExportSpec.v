(* Reference notions for C80: terms about solids in the notation of the other tool. *)
From Coq Require Import ZArith.
From Verif Require Import Base Sexp Lang Syntax Rule Util Number Recipe Solid.
Open Scope string_scope.
Open Scope list_scope.

(* lists with a space between two elements *)
Fixpoint spaced (s : sexp) : string :=
  match s with
  | Atom w => w
  | Lst [] => "()"
  | Lst (x :: l) => "(" ++ spaced x ++ fold_right (fun t acc => " " ++ spaced t ++ acc) ")" l
  end%string.
(* transformations are affine, operations are written with their operator in front, and
   the literals 0 and 1 as numbers *)
Fixpoint exported (t : term (eov cf_op)) : sexp :=
  match t with T o ts =>
    let w := Atom (pat_name cf_name o) in let l := map exported ts in
    match o, ts with
    | EN CLit, [T (EN (CLiteral z)) []] => if Z.eqb z 0 then Atom "0" else if Z.eqb z 1 then Atom "1" else Lst (w :: l)
    | EN CScale, _ => Lst (Atom "Affine" :: w :: l)
    | EN CTrans, _ => Lst (Atom "Affine" :: w :: l)
    | EN COp, _ => Lst l
    | _, [] => w
    | _, _ => Lst (w :: l)
    end
  end.
(* Operators have as many arguments as they take, literals are machine integers, pattern
   variables are the letters that learned rules have, and no variable of the language
   occurs. *)
Fixpoint lettered (t : term (eov cf_op)) : Prop :=
  match t with T o ts =>
    match o with
    | PV v => ts = [] /\ exists i, letter i = Val v
    | EN (CVar _) => False
    | EN (CLiteral z) => ts = [] /\ in_i64 z = true
    | EN o => length ts = cf_arity o
    end /\ fold_right (fun t acc => lettered t /\ acc) True ts
  end.
(* a rule in the notation of the other tool *)
Definition exported_line (n : nat) (l r : sexp) : string :=
  ("rw!(""ruler" ++ show_nat n ++ """; """ ++ spaced l ++ """ => """ ++ spaced r ++ """),")%string.
(* both sides of a rule *)
Definition sides (r : rule cf_op) (tl tr : term (eov cf_op)) : Prop := tree (rlhs r) = Val tl /\ tree (rrhs r) = Val tr /\ lettered tl /\ lettered tr.
