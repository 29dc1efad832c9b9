(* Model of src/util.rs *)
From Verif Require Import Base Lang.
Open Scope string_scope.
Open Scope list_scope.

(* src/util.rs:7-10.  Slicing out of bounds panics. *)
Definition letter (i : nat) : res string :=
  match get i "abcdefghijklmnopqrstuvwxyz" with
  | Some c => Val (String c "")
  | None => Panic
  end.

(* src/util.rs:21-24: one pass of the body of the while loop *)
Definition one_pass {A} (ts : list A) (reps : nat) (entry : list A) : list A :=
  entry ++ flat_map (fun c => repeat c reps) ts.

(* src/util.rs:20-26: while entry.len() < num_rows; Panic stands for "did not
   stop within the fuel". *)
Fixpoint fill_entry {A} (fuel : nat) (ts : list A) (reps rows : nat) (entry : list A)
  : res (list A) :=
  if Nat.ltb (length entry) rows then
    match fuel with
    | 0 => Panic
    | S k => fill_entry k ts reps rows (one_pass ts reps entry)
    end
  else Val entry.

(* src/util.rs:13-29.  usize powers are unbounded here. *)
Definition self_product {A} (ts : list A) (n : nat) : res (list (list A)) :=
  let k := length ts in
  let rows := k ^ n in
  rmapM (fun i => fill_entry rows ts (k ^ i) rows []) (seq 0 n).

(* src/bv.rs:232-239 and tests/bool.rs:84-95: cvecs = self_product(consts, n),
   cvec_len = cvecs[0].len(), then one vector per variable.  Returns cvec_len
   and the vectors by variable. *)
Definition init_product {C} (consts : list (option C)) (vars : list string)
  : res (nat * list (string * cvec C)) :=
  let* cvecs := self_product consts (length vars) in
  let* c0 := index cvecs 0 in
  let* cs := rmapM (index cvecs) (seq 0 (length vars)) in
  Val (length c0, combine vars cs).

(* the vector of a variable; Var nodes that were not initialised keep the empty
   vector their eval returns *)
Definition var_cvec {C} (vcs : list (string * cvec C)) (s : string) : cvec C :=
  match lookup vcs s with Some c => c | None => [] end.
