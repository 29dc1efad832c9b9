(* Model of the workload part of src/recipe_utils.rs *)
From Verif Require Import Base Sexp Reader Pattern Filter Workload.
Open Scope string_scope.
Open Scope list_scope.

(* src/recipe_utils.rs:9-18: the loop for i in 1..(n+1) *)
Fixpoint iter_loop (wkld : workload) (atom : string) (met : metric)
         (i : nat) (steps : nat) (pegs : workload) : res workload :=
  match steps with
  | 0 => Val pegs
  | S k =>
      let* p := wplug wkld atom pegs in
      iter_loop wkld atom met (i + 1) k (wfilter p (MetricLt met (i + 1)))
  end.
Definition iter_metric (wkld : workload) (atom : string) (met : metric) (n : nat)
  : res workload := iter_loop wkld atom met 1 n wkld.

(* src/recipe_utils.rs:20-27 *)
Definition substitute (w sub : workload) (atom : string) : res workload :=
  let* subs := force sub in
  fold_left (fun acc s =>
               let* pegs := acc in
               let* p := wplug w atom (WSet [s]) in
               Val (wappend pegs p))
            subs (Val (WSet [])).

(* decimal rendering of a number, as produced by format!("{}", i) *)
Definition digit (n : nat) : string :=
  String (ascii_of_nat (48 + n)) "".
Fixpoint show_aux (fuel n : nat) (acc : string) : string :=
  match fuel with
  | 0 => acc
  | S k => let acc' := (digit (n mod 10) ++ acc)%string in
           if Nat.eqb (n / 10) 0 then acc' else show_aux k (n / 10) acc'
  end.
Definition show_nat (n : nat) : string := show_aux (S n) n "".

(* str::repeat *)
Fixpoint repeat_str (s : string) (n : nat) : string :=
  match n with 0 => "" | S k => s ++ repeat_str s k end%string.

(* src/recipe_utils.rs:206-213 *)
Definition base_lang (n : nat) : res workload :=
  wnew (["VAR"; "VAL"] ++
        map (fun i => "(OP" ++ show_nat i ++ repeat_str " EXPR" i ++ ")")%string
            (seq 1 n)).
