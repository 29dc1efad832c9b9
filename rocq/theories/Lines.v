(* Text files as used by Workload::to_file/from_file, Ruleset::to_file/from_file
   and the loggers: writeln! and BufRead::lines of the Rust standard library. *)
From Verif Require Import Base.
Open Scope string_scope.
Open Scope list_scope.

Definition newline : ascii := "010".
Definition carriage : ascii := "013".

(* one writeln!(file, "{}", line) per line *)
Fixpoint unlines (ls : list string) : string :=
  match ls with
  | [] => ""
  | l :: r => (l ++ String newline (unlines r))%string
  end.

(* BufRead::lines removes the newline and one carriage return before it *)
Fixpoint strip_cr (s : string) : string :=
  match s with
  | "" => ""
  | String c "" => if Ascii.eqb c carriage then "" else s
  | String c r => String c (strip_cr r)
  end.

(* BufRead::lines; [cur] is the line read so far.  A last line without a
   newline is yielded when it is not empty. *)
Fixpoint lines_from (s cur : string) : list string :=
  match s with
  | "" => match cur with "" => [] | _ => [cur] end
  | String c r => if Ascii.eqb c newline then strip_cr cur :: lines_from r ""
                  else lines_from r (cur ++ String c "")%string
  end.
Definition lines (s : string) : list string := lines_from s "".
