(* Model of src/language.rs:254-274 (generalize), egg's Language::build_recexpr,
   and src/enumo/ruleset.rs:138-150 (add_from_recexprs). *)
From Verif Require Import Base Lang Util Analysis Rule Ruleset.
Open Scope string_scope.
Open Scope list_scope.

Section Gen.
  Context {O : Type}.
  Variable op_eqb : O -> O -> bool.             (* Eq of the language *)
  Variable to_var : O -> option string.
  Variable mk_var : string -> O.

  (* src/language.rs:255-265: the map from symbols to pattern variables (without
     the leading ?); a variable node has no children *)
  Definition vmap : Type := list (string * string).
  Definition rename_node (m : vmap) (n : node O) : res (node O * vmap) :=
    match to_var (nop n) with
    | Some s =>
        match lookup m s with
        | Some v => Val (Node (mk_var v) [], m)
        | None => let* v := letter (length m) in Val (Node (mk_var v) [], m ++ [(s, v)])
        end
    | None => Val (n, m)
    end.

  Definition node_eqb (a b : node O) : bool :=
    op_eqb (nop a) (nop b) && Nat.eqb (length (nch a)) (length (nch b)) &&
    forallb (fun t => Nat.eqb (fst t) (snd t)) (combine (nch a) (nch b)).
  (* IndexSet::insert_full: index of the node, added at the end when new *)
  Fixpoint find_node (set : list (node O)) (n : node O) (i : nat) : option nat :=
    match set with
    | [] => None
    | a :: r => if node_eqb a n then Some i else find_node r n (S i)
    end.
  Definition insert_full (set : list (node O)) (n : node O) : list (node O) * nat :=
    match find_node set n 0 with
    | Some i => (set, i)
    | None => (set ++ [n], length set)
    end.

  (* egg try_build_recexpr: the work list (top first), the ids done, the nodes
     built and the renaming.  Panic also stands for "did not stop within the
     fuel". *)
  Record bstate : Type := BS { bs_ids : list (nat * nat); bs_set : list (node O); bs_map : vmap }.
  Fixpoint build_loop (fuel : nat) (expr : recexpr O) (todo : list nat) (st : bstate) : res bstate :=
    match todo with
    | [] => Val st
    | id :: rest =>
        match fuel with
        | 0 => Panic
        | S k =>
            match nlookup (bs_ids st) id with
            | Some _ => build_loop k expr rest st
            | None =>
                let* n := index expr id in
                let* (n', m') := rename_node (bs_map st) n in
                let missing := List.filter (fun c => match nlookup (bs_ids st) c with Some _ => false | None => true end) (nch n') in
                match missing with
                | [] =>
                    let* ch := rmapM (fun c => unwrap (nlookup (bs_ids st) c)) (nch n') in
                    let '(set', i) := insert_full (bs_set st) (Node (nop n') ch) in
                    build_loop k expr rest (BS ((id, i) :: bs_ids st) set' m')
                | _ => build_loop k expr (rev missing ++ todo) (BS (bs_ids st) (bs_set st) m')
                end
            end
        end
    end.
  (* enough steps: at most two visits per entry and one per edge *)
  Definition build_fuel (expr : recexpr O) : nat := S (sum (map (fun n => 2 + length (nch n)) expr)).

  (* src/language.rs:254-274; to_enode_or_var is src/language.rs:210-215 *)
  Definition to_enode_or_var (o : O) : eov O :=
    match to_var o with Some v => PV v | None => EN o end.
  Definition generalize (m : vmap) (expr : recexpr O) : res (pat O * vmap) :=
    let* root := match rev expr with [] => Panic | n :: _ => Val n end in
    let* (root', m1) := rename_node m root in
    let* st := build_loop (build_fuel expr) expr (rev (nch root')) (BS [] [] m1) in
    let* ch := rmapM (fun c => unwrap (nlookup (bs_ids st) c)) (nch root') in
    let nodes := bs_set st ++ [Node (nop root') ch] in
    Val (map (fun n => Node (to_enode_or_var (nop n)) (nch n)) nodes, bs_map st).

  Variable name : O -> string.
  (* src/enumo/ruleset.rs:138-150 *)
  Definition candidate_pair (e1 e2 : recexpr O) : res (option (rule O) * option (rule O)) :=
    let* (l, m1) := generalize [] e1 in
    let* (r, _) := generalize m1 e2 in
    let* fw := rule_new name l r in
    let* bw := rule_new name r l in
    Val (fw, bw).
  Definition add_from_recexprs (rs : ruleset O) (e1 e2 : recexpr O) : res (ruleset O) :=
    let* (fw, bw) := candidate_pair e1 e2 in
    let rs := match fw with Some r => rs_add rs r | None => rs end in
    Val (match bw with Some r => rs_add rs r | None => rs end).
End Gen.
