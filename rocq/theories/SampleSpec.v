(* What the sample inputs of a rule-inference run should be. *)
From Coq Require Import NArith ZArith.
From Verif Require Import Base Lang.
Open Scope list_scope.

(* Each variable has a vector of [n] known values, and the rows of the vectors
   are exactly the assignments of values to the variables, each of them once. *)
Definition covers {C} (vals : list C) (vars : list string) (n : nat) (vcs : list (string * cvec C)) : Prop :=
  map fst vcs = vars /\ n = length vals ^ length vars /\
  (forall s c, In (s, c) vcs -> length c = n) /\
  (forall a : list C, length a = length vars -> incl a vals ->
    exists r, r < n /\ map (fun e => nth_error (snd e) r) vcs = map (fun v => Some (Some v)) a /\
      forall r', r' < n -> map (fun e => nth_error (snd e) r') vcs = map (fun v => Some (Some v)) a -> r' = r) /\
  (forall r, r < n -> exists a : list C, length a = length vars /\ incl a vals /\
    map (fun e => nth_error (snd e) r) vcs = map (fun v => Some (Some v)) a).

(* the sample values of a w-bit vector: around the smallest and the largest
   signed value and around zero *)
Definition bv_sample_values (w : N) : list Z :=
  let h := (2 ^ (Z.of_N w - 1))%Z in [h; h + 1; h - 1; h - 2; 0; 1; -1]%Z.
