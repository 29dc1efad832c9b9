(* Model of egg 0.9's Extractor (external crate) with the cost functions ruler uses:
   ExtractableAstSize (src/lib.rs:54-67) and AstSize, the same with every operator
   allowed. *)
From Coq Require Import NArith.
From Verif Require Import Base Lang Analysis Generalize Egraph.
Open Scope list_scope.

Section Extract.
  Context {O D A : Type}.
  Variable op_eqb : O -> O -> bool.
  Variable allowed : O -> bool.
  (* the order of the nodes of a class in memory *)
  Variable arrange : list (node O) -> list (node O).
  Variable g : egraph O D A.

  (* src/lib.rs:56-66 *)
  Definition cost_of (o : O) (costs : list N) : N :=
    if allowed o then fold_left sat_add costs 1%N else usize_max.

  (* Extractor::costs *)
  Definition table : Type := list (nat * (N * node O)).
  Fixpoint tlookup (t : table) (k : nat) : option (N * node O) :=
    match t with [] => None | (k', v) :: r => if Nat.eqb k k' then Some v else tlookup r k end.
  (* HashMap::insert; a new key goes to the end *)
  Fixpoint tinsert (t : table) (k : nat) (v : N * node O) : table :=
    match t with
    | [] => [(k, v)]
    | (k', v') :: r => if Nat.eqb k k' then (k', v) :: r else (k', v') :: tinsert r k v
    end.
  Fixpoint all_some {X} (l : list (option X)) : option (list X) :=
    match l with
    | [] => Some []
    | None :: _ => None
    | Some x :: r => match all_some r with Some r' => Some (x :: r') | None => None end
    end.
  (* Extractor::node_total_cost *)
  Definition node_cost (t : table) (n : node O) : res (option N) :=
    let* ids := rmapM (find g) (nch n) in
    Val (match all_some (map (fun i => option_map fst (tlookup t i)) ids) with
         | Some costs => Some (cost_of (nop n) costs)
         | None => None
         end).
  (* Iterator::min_by with "None is high": the first of the smallest *)
  Fixpoint min_by (best : option N * node O) (l : list (option N * node O)) : option N * node O :=
    match l with
    | [] => best
    | x :: r =>
        min_by (match fst best, fst x with
                | None, Some _ => x
                | Some a, Some b => if N.ltb b a then x else best
                | _, None => best
                end) r
    end.
  (* Extractor::make_pass *)
  Definition make_pass (t : table) (c : nat) : res (option (N * node O)) :=
    let* ns := class_nodes g c in
    let* costs := rmapM (node_cost t) (arrange ns) in
    match combine costs (arrange ns) with
    | [] => Panic
    | x :: r => Val (match min_by x r with (Some k, n) => Some (k, n) | (None, _) => None end)
    end.
  (* Extractor::find_costs *)
  Fixpoint one_pass (t : table) (cs : list nat) (did : bool) : res (table * bool) :=
    match cs with
    | [] => Val (t, did)
    | c :: r =>
        let* p := make_pass t c in
        match tlookup t c, p with
        | None, Some new => one_pass (tinsert t c new) r true
        | Some old, Some new => if N.ltb (fst new) (fst old) then one_pass (tinsert t c new) r true else one_pass t r did
        | _, None => one_pass t r did
        end
    end.
  (* Running out of [fuel] is Panic (in Rust: no termination). *)
  Fixpoint find_costs (fuel : nat) (order : list nat) (t : table) : res table :=
    match fuel with
    | 0 => Panic
    | S k => let* (t', did) := one_pass t order false in if did then find_costs k order t' else Val t'
    end.
  (* Extractor::new; [order] is the order of EGraph::classes *)
  Definition extractor (fuel : nat) (order : list nat) : res table := find_costs fuel order [].

  (* Extractor::find_best_node *)
  Definition best_node (t : table) (i : nat) : res (N * node O) :=
    let* r := find g i in unwrap (tlookup t r).
  (* Language::build_recexpr: the work list (top first), the ids done and the nodes
     built *)
  Fixpoint build (fuel : nat) (t : table) (todo : list nat) (ids : list (nat * nat)) (set : list (node O)) : res (list (nat * nat) * list (node O)) :=
    match todo with
    | [] => Val (ids, set)
    | i :: rest =>
        match fuel with
        | 0 => Panic
        | S k =>
            match nlookup ids i with
            | Some _ => build k t rest ids set
            | None =>
                let* (_, n) := best_node t i in
                match List.filter (fun c => match nlookup ids c with Some _ => false | None => true end) (nch n) with
                | [] =>
                    let* ch := rmapM (fun c => unwrap (nlookup ids c)) (nch n) in
                    let '(set', j) := insert_full op_eqb set (Node (nop n) ch) in
                    build k t rest ((i, j) :: ids) set'
                | missing => build k t (rev missing ++ todo) ids set
                end
            end
        end
    end.
  (* Extractor::find_best *)
  Definition find_best (fuel : nat) (t : table) (i : nat) : res (N * recexpr O) :=
    let* (k, root) := best_node t i in
    let* (ids, set) := build fuel t (rev (nch root)) [] [] in
    let* ch := rmapM (fun c => unwrap (nlookup ids c)) (nch root) in
    Val (k, set ++ [Node (nop root) ch]).
End Extract.
