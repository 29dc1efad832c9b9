(* tests/szalinski.rs: export_print, which prints rules about solids for another tool. *)
From Verif Require Import Base Syntax Rule Ruleset Recipe Solid.
Open Scope string_scope.
Open Scope list_scope.

(* str::replace (std) for a pattern that is not empty: matches from left to right that do
   not overlap.  [skip] counts the characters that are still part of the last match. *)
Fixpoint replace_from (p r : string) (skip : nat) (s : string) : string :=
  match s with
  | "" => ""
  | String c s' =>
      match skip with
      | S k => replace_from p r k s'
      | 0 => if String.prefix p s then (r ++ replace_from p r (String.length p - 1) s')%string else String c (replace_from p r 0 s')
      end
  end.
Definition replace (s p r : string) : string := replace_from p r 0 s.
(* tests/szalinski.rs:208-214 *)
Definition fix_ (s : string) : string :=
  replace (replace (replace (replace (replace s "Scale" "Affine Scale") "Trans" "Affine Trans") "op " "") "(Lit 0)" "0") "(Lit 1)" "1".
(* 216-225 *)
Fixpoint export_rules (i : nat) (rs : ruleset cf_op) : res (list string) :=
  match rs with
  | [] => Val []
  | (_, r) :: rest =>
      let* l := show_pat cf_name (rlhs r) in
      let* t := show_pat cf_name (rrhs r) in
      let* lines := export_rules (i + 1) rest in
      Val (("rw!(""ruler" ++ show_nat i ++ """; """ ++ fix_ l ++ """ => """ ++ fix_ t ++ """),")%string :: lines)
  end.
(* 206-228: the lines that are printed; the last println prints two line ends *)
Definition export_print (rs : ruleset cf_op) : res (list string) :=
  let* lines := export_rules 1 rs in
  Val (["RULER RULES START"] ++ lines ++ ["RULER RULES END"; ""; ""]).
