(* Model of src/enumo/ruleset.rs: the operations that do not need an e-graph.
   A ruleset is an IndexMap: an association list in iteration order. *)
From Verif Require Import Base Lines Sexp Reader Lang Syntax Rule.
Open Scope string_scope.
Open Scope list_scope.

Section IndexMap.
  Context {V : Type}.
  Definition imap := list (string * V).

  (* contains_key *)
  Definition has (m : imap) (k : string) : bool :=
    match lookup m k with Some _ => true | None => false end.
  (* insert: an existing key keeps its position and gets the new value *)
  Fixpoint insert (m : imap) (k : string) (v : V) : imap :=
    match m with
    | [] => [(k, v)]
    | (k', v') :: r => if String.eqb k k' then (k', v) :: r else (k', v') :: insert r k v
    end.
  (* Extend::extend *)
  Definition extend (m other : imap) : imap :=
    fold_left (fun m kv => insert m (fst kv) (snd kv)) other m.
  (* pop *)
  Definition pop (m : imap) : option (string * V * imap) :=
    match rev m with [] => None | (k, v) :: r => Some (k, v, rev r) end.
  (* indexmap 1: remove is swap_remove, the last entry takes the free place *)
  Fixpoint swap_remove (m : imap) (k : string) : imap :=
    match m with
    | [] => []
    | (k', v') :: r =>
        if String.eqb k k'
        then match rev r with [] => [] | e :: r' => e :: rev r' end
        else (k', v') :: swap_remove r k
    end.
End IndexMap.
Arguments imap V : clear implicits.

Definition ruleset (O : Type) : Type := imap (rule O).

Section Ruleset.
  Context {O : Type}.
  Variable from_op : string -> nat -> option O.
  Variable name : O -> string.

  (* src/enumo/ruleset.rs:17-29: same number of rules and the same names in the
     same order *)
  Definition rs_eqb (a b : ruleset O) : bool :=
    Nat.eqb (length a) (length b) &&
    forallb (fun t => String.eqb (fst (fst t)) (fst (snd t))) (combine a b).

  (* src/enumo/ruleset.rs:128-130 *)
  Definition rs_add (m : ruleset O) (r : rule O) : ruleset O := insert m (rname r) r.

  (* body of the loop of src/enumo/ruleset.rs:71-78 and 194-202 *)
  Definition add_line (m : ruleset O) (s : string) : res (ruleset O) :=
    let* o := rule_from_string from_op name s in
    Val (match o with
         | Some (fw, bw) =>
             let m := rs_add m fw in
             match bw with Some bw => rs_add m bw | None => m end
         | None => m
         end).
  Fixpoint add_lines (m : ruleset O) (ls : list string) : res (ruleset O) :=
    match ls with
    | [] => Val m
    | s :: r => let* m' := add_line m s in add_lines m' r
    end.
  (* src/enumo/ruleset.rs:65-80 *)
  Definition rs_new (ls : list string) : res (ruleset O) := add_lines [] ls.

  (* src/enumo/ruleset.rs:82-86 *)
  Definition rs_union (a b : ruleset O) : ruleset O := extend a b.
  (* src/enumo/ruleset.rs:96-100 *)
  Definition to_str_vec (m : ruleset O) : list string := map fst m.
  (* src/enumo/ruleset.rs:124-126 *)
  Definition rs_contains (m : ruleset O) (r : rule O) : bool := has m (rname r).
  (* src/enumo/ruleset.rs:152-156 *)
  Definition add_all (m : ruleset O) (rs : list (rule O)) : ruleset O := fold_left rs_add rs m.
  (* src/enumo/ruleset.rs:158-162 *)
  Definition remove_all (m other : ruleset O) : ruleset O :=
    fold_left (fun m kv => swap_remove m (fst kv)) other m.
  (* src/enumo/ruleset.rs:169-180.  The parallel partition keeps the order.
     [f] may panic. *)
  Definition partition (f : rule O -> res bool) (m : ruleset O) : res (ruleset O * ruleset O) :=
    let* bs := rmapM f (map snd m) in
    let tagged := combine bs (map snd m) in
    Val (add_all [] (map snd (List.filter fst tagged)),
         add_all [] (map snd (List.filter (fun t => negb (fst t)) tagged))).

  (* the reverse of a rule: src/enumo/ruleset.rs:114, 209, 375 *)
  Definition reverse (r : rule O) : res (option (rule O)) := rule_new name (rrhs r) (rlhs r).
  Definition reverse_in (m : ruleset O) (r : rule O) : res bool :=
    let* o := reverse r in
    Val (match o with Some r' => rs_contains m r' | None => false end).
  (* src/enumo/ruleset.rs:110-122 *)
  Definition bidir_len (m : ruleset O) : res nat :=
    let* bs := rmapM (reverse_in m) (map snd m) in
    let bidir := length (List.filter (fun b => b) bs) in
    let unidir := length (List.filter negb bs) in
    Val (unidir + bidir / 2).

  (* src/enumo/ruleset.rs:206-223: the lines printed *)
  Definition pp_step (m : ruleset O) (strs : list string) (e : string * rule O)
    : res (list string) :=
    let '(n, r) := e in
    let* b := reverse_in m r in
    if b then
      let* l := show_pat name (rlhs r) in
      let* rr := show_pat name (rrhs r) in
      if mem (rr ++ " <=> " ++ l)%string strs then Val strs
      else Val (strs ++ [(l ++ " <=> " ++ rr)%string])
    else Val (strs ++ [n]).
  Fixpoint pp_loop (m : ruleset O) (es : list (string * rule O)) (strs : list string)
    : res (list string) :=
    match es with
    | [] => Val strs
    | e :: r => let* s := pp_step m strs e in pp_loop m r s
    end.
  Definition pretty_print (m : ruleset O) : res (list string) := pp_loop m m [].

  (* src/enumo/ruleset.rs:182-188: the contents of the file *)
  Definition rs_to_file (m : ruleset O) : string := unlines (to_str_vec m).
  (* src/enumo/ruleset.rs:190-204 *)
  Definition rs_from_file (text : string) : res (ruleset O) := add_lines [] (lines text).
End Ruleset.
