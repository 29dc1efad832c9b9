(* Model of the binary positive domain, tests/pos.rs.  Constants are usize. *)
From Coq Require Import NArith.
From Verif Require Import Base Lang Syntax Rule Ruleset.
Open Scope string_scope.
Open Scope list_scope.

(* tests/pos.rs:11-26 *)
Inductive pos_op := PZ | PS | PXH | PXO | PXI | PAdd | PMul | PVar (s : string).

Definition pos_arity (o : pos_op) : nat :=
  match o with PZ | PXH | PVar _ => 0 | PS | PXO | PXI => 1 | PAdd | PMul => 2 end.

Definition pos_from_op (s : string) (n : nat) : option pos_op :=
  if String.eqb s "Z" && Nat.eqb n 0 then Some PZ
  else if String.eqb s "S" && Nat.eqb n 1 then Some PS
  else if String.eqb s "XH" && Nat.eqb n 0 then Some PXH
  else if String.eqb s "XO" && Nat.eqb n 1 then Some PXO
  else if String.eqb s "XI" && Nat.eqb n 1 then Some PXI
  else if String.eqb s "+" && Nat.eqb n 2 then Some PAdd
  else if String.eqb s "*" && Nat.eqb n 2 then Some PMul
  else if Nat.eqb n 0 then Some (PVar s) else None.
Definition pos_name (o : pos_op) : string :=
  match o with
  | PZ => "Z" | PS => "S" | PXH => "XH" | PXO => "XO" | PXI => "XI"
  | PAdd => "+" | PMul => "*" | PVar s => s
  end.

(* tests/pos.rs:82-88 *)
Definition pos_to_var (o : pos_op) : option string :=
  match o with PVar s => Some s | _ => None end.

(* tests/pos.rs:64-69 *)
Definition pos_allowed (o : pos_op) : bool :=
  match o with PXH | PXO | PXI | PAdd | PMul | PVar _ => true | PZ | PS => false end.

(* tests/pos.rs:29-44: the nodes added, as a term; Panic stands for "did not stop
   within the fuel" *)
Fixpoint pos_constant_id (fuel : nat) (c : N) : res (term pos_op) :=
  match fuel with
  | 0 => Panic
  | S k =>
      match c with
      | 0%N => Val (T PZ [])
      | 1%N => Val (T PXH [])
      | _ =>
          if N.eqb (N.modulo c 2) 0
          then let* t := pos_constant_id k (N.div c 2) in Val (T PXO [t])
          else let* t := pos_constant_id k (N.div (c - 1) 2) in Val (T PXI [t])
      end
  end.
(* tests/pos.rs:98-105 *)
Definition pos_constant (fuel : nat) (c : N) : res (term pos_op) :=
  match c with
  | 0%N => Val (T PZ [])
  | 1%N => Val (T PXH [])
  | _ =>
      if N.eqb (N.modulo c 2) 0
      then let* t := pos_constant_id fuel (N.div c 2) in Val (T PXO [t])
      else let* t := pos_constant_id fuel (N.div (c - 1) 2) in Val (T PXI [t])
  end.

(* tests/pos.rs:53-62 *)
Definition pos_exploratory : res (ruleset pos_op) :=
  rs_new pos_from_op pos_name
    ["XH ==> (S Z)";
     "(S Z) ==> XH";
     "(XO ?a) ==> (+ ?a ?a)";
     "(+ ?a ?a) ==> (XO ?a)";
     "(XI ?a) ==> (+ ?a (+ ?a (S Z)))";
     "(+ ?a (+ ?a (S Z))) ==> (XI ?a)"].

(* tests/pos.rs:132-145: the rules of naturals that are lifted *)
Definition pos_nat_rules : res (ruleset pos_op) :=
  rs_new pos_from_op pos_name
    ["(+ ?b ?a) ==> (+ ?a ?b)";
     "(* ?b ?a) ==> (* ?a ?b)";
     "(+ Z ?a) ==> ?a";
     "(* ?a Z) ==> Z";
     "(S (+ ?b ?a)) ==> (+ ?b (S ?a))";
     "(* ?a (S Z)) ==> ?a";
     "(+ ?a (S Z)) ==> (S ?a)";
     "(+ ?c (+ ?b ?a)) ==> (+ ?a (+ ?b ?c))";
     "(* (* ?c ?b) ?a) ==> (* ?b (* ?c ?a))";
     "(+ ?b (* ?b ?a)) ==> (* ?b (S ?a))";
     "(* (+ ?b ?b) ?a) ==> (* ?b (+ ?a ?a))";
     "(+ ?a ?a) ==> (* ?a (S (S Z)))"].
