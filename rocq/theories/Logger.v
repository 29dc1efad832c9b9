(* Model of the log file nightly/data/output.json (src/logger.rs:10-39) as steps of
   one or several processes on one file. *)
From Verif Require Import Base.
Open Scope list_scope.

(* the bytes of the file; None when it does not exist.  (The directory always
   exists after create_dir_all; errors of the file system are not modelled.) *)
Definition file : Type := option (list ascii).
Definition bytes (f : file) : list ascii := match f with Some c => c | None => [] end.
(* write(2) at an offset of a file that was not opened for appending *)
Definition write_at (c : list ascii) (off : nat) (chunk : list ascii) : list ascii :=
  firstn off c ++ repeat zero (off - length c) ++ chunk ++ skipn (off + length chunk) c.

Section Logger.
  (* rows, serde_json::to_string_pretty and serde_json::from_str of an array of rows *)
  Context {J : Type}.
  Variable print : list J -> list ascii.
  Variable parse : list ascii -> option (list J).

  (* where a call of add_json_to_file is *)
  Inductive call : Type :=
    | Start (row : J)                               (* line 17 *)
    | Reading (row : J) (got : list ascii)          (* in read_to_string, line 27 *)
    | Read (row : J) (text : list ascii)            (* line 29 *)
    | Writing (todo : list ascii) (off : nat)       (* in fs::write, after the file was truncated *)
    | Done
    | Panicked.

  (* lines 29-33 *)
  Definition rows_of (text : list ascii) : option (list J) :=
    match text with [] => Some [] | _ => parse text end.

  Inductive step : file -> call -> file -> call -> Prop :=
    (* lines 20-25: opened with create, without truncate, and closed again *)
    | S_open f r : step f (Start r) (Some (bytes f)) (Reading r [])
    (* one read(2): some of the bytes after the current offset, or the end *)
    | S_read f r got n : firstn n (skipn (length got) (bytes f)) <> [] ->
        step f (Reading r got) f (Reading r (got ++ firstn n (skipn (length got) (bytes f))))
    | S_eof f r got : skipn (length got) (bytes f) = [] -> step f (Reading r got) f (Read r got)
    (* lines 29-37: File::create inside fs::write truncates *)
    | S_truncate f r text rows : rows_of text = Some rows -> step f (Read r text) (Some []) (Writing (print (rows ++ [r])) 0)
    | S_panic f r text : rows_of text = None -> step f (Read r text) f Panicked
    (* one write(2) of some of the remaining bytes *)
    | S_write f todo off n : firstn n todo <> [] ->
        step f (Writing todo off) (Some (write_at (bytes f) off (firstn n todo))) (Writing (skipn n todo) (off + length (firstn n todo)))
    | S_done f off : step f (Writing [] off) f Done.

  Inductive steps : file -> call -> file -> call -> Prop :=
    | Steps_refl f p : steps f p f p
    | Steps_more f p f1 p1 f2 p2 : step f p f1 p1 -> steps f1 p1 f2 p2 -> steps f p f2 p2.

  (* calls one after the other *)
  Inductive calls : file -> list J -> file -> Prop :=
    | Calls_nil f : calls f [] f
    | Calls_cons f r f1 rs f2 : steps f (Start r) f1 Done -> calls f1 rs f2 -> calls f (r :: rs) f2.

  (* two calls at the same time *)
  Inductive steps2 : file -> call -> call -> file -> call -> call -> Prop :=
    | Steps2_refl f p q : steps2 f p q f p q
    | Steps2_left f p q f1 p1 f2 p2 q2 : step f p f1 p1 -> steps2 f1 p1 q f2 p2 q2 -> steps2 f p q f2 p2 q2
    | Steps2_right f p q f1 q1 f2 p2 q2 : step f q f1 q1 -> steps2 f1 p q1 f2 p2 q2 -> steps2 f p q f2 p2 q2.
End Logger.
Arguments call : clear implicits.
