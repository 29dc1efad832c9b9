(* Reference notions for C53. *)
From Verif Require Import Base Logger.
Open Scope list_scope.

(* the log holds these rows; no file, or an empty one, is a log without rows *)
Inductive holds_rows {J} (print : list J -> list ascii) : file -> list J -> Prop :=
  | HR_missing : holds_rows print None []
  | HR_empty : holds_rows print (Some []) []
  | HR_rows rows : holds_rows print (Some (print rows)) rows.
(* what is assumed of serde_json: an array of rows is read back as it was written and
   is never written as nothing *)
Definition json_right {J} (print : list J -> list ascii) (parse : list ascii -> option (list J)) : Prop :=
  (forall rows, parse (print rows) = Some rows) /\ forall rows, print rows <> [].
