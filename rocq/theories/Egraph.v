(* Model of the part of egg 0.9 (external crate) that ruler uses: e-graphs with an
   analysis.  The union-find is kept flat: [g_reps] holds the canonical id of every
   id.  [g_nodes] is the hash-consing table: the e-nodes with the id of their
   class; keys with children that are no longer canonical stay as they are until
   the next rebuild.  The choice of the surviving id of a union (egg looks at the
   number of parents) is the parameter [keep]. *)
From Verif Require Import Base Lang Generalize.
Open Scope list_scope.

Record egraph (O D A : Type) : Type := EG {
  g_reps : list nat; g_nodes : list (node O * nat); g_data : list D; g_an : A }.
Arguments EG {O D A} g_reps g_nodes g_data g_an.
Arguments g_reps {O D A} e.
Arguments g_nodes {O D A} e.
Arguments g_data {O D A} e.
Arguments g_an {O D A} e.

Section EGraph.
  Context {O D A : Type}.
  Variable op_eqb : O -> O -> bool.                         (* Eq of the language *)
  Variable a_make : A -> node O -> list D -> res D.          (* Analysis::make, given the data of the children *)
  Variable a_merge : D -> D -> res (D * (bool * bool)).      (* Analysis::merge *)
  Variable keep : egraph O D A -> nat -> nat -> bool.
  Local Notation egraph := (egraph O D A).

  (* EGraph::default() *)
  Definition empty (a : A) : egraph := EG [] [] [] a.
  Definition size (g : egraph) : nat := length (g_reps g).   (* ids ever made *)
  (* EGraph::find *)
  Definition find (g : egraph) (i : nat) : res nat := index (g_reps g) i.
  (* Language::map_children(find) *)
  Definition canon (g : egraph) (n : node O) : res (node O) :=
    let* ch := rmapM (find g) (nch n) in Val (Node (nop n) ch).
  Fixpoint get_node (m : list (node O * nat)) (n : node O) : option nat :=
    match m with
    | [] => None
    | (n', i) :: r => if node_eqb op_eqb n n' then Some i else get_node r n
    end.
  (* EGraph::lookup *)
  Definition lookup_node (g : egraph) (n : node O) : res (option nat) :=
    let* n' := canon g n in
    match get_node (g_nodes g) n' with
    | Some i => let* i := find g i in Val (Some i)
    | None => Val None
    end.
  (* egraph[id].data *)
  Definition class_data (g : egraph) (i : nat) : res D :=
    let* r := find g i in index (g_data g) r.
  (* egraph[id].nodes *)
  Definition class_nodes (g : egraph) (i : nat) : res (list (node O)) :=
    let* r := find g i in
    let* ids := rmapM (fun e => find g (snd e)) (g_nodes g) in
    rmapM (canon g) (map (fun t => fst (snd t)) (List.filter (fun t => Nat.eqb (fst t) r) (combine ids (g_nodes g)))).
  (* ids of EGraph::classes (a hash map: the order is not specified) *)
  Definition class_ids (g : egraph) : list nat :=
    List.filter (fun i => match find g i with Val r => Nat.eqb r i | Panic => false end) (seq 0 (size g)).
  (* EGraph::number_of_classes *)
  Definition number_of_classes (g : egraph) : nat := length (class_ids g).

  (* EGraph::make_new_eclass for a canonical node *)
  Definition new_class (g : egraph) (n : node O) : res (egraph * nat) :=
    let* ds := rmapM (class_data g) (nch n) in
    let* d := a_make (g_an g) n ds in
    let i := size g in
    Val (EG (g_reps g ++ [i]) (g_nodes g ++ [(n, i)]) (g_data g ++ [d]) (g_an g), i).

  Definition set_nth {X} (l : list X) (i : nat) (x : X) : list X :=
    firstn i l ++ match skipn i l with [] => [] | _ :: r => x :: r end.

  Section Modify.
    (* Analysis::modify *)
    Variable md : egraph -> nat -> res egraph.
    (* EGraph::add *)
    Definition add (g : egraph) (n : node O) : res (egraph * nat) :=
      let* o := lookup_node g n in
      match o with
      | Some i => Val (g, i)
      | None =>
          let* n' := canon g n in
          let* (g1, i) := new_class g n' in
          let* g2 := md g1 i in
          Val (g2, i)
      end.
    (* EGraph::union (perform_union): was anything merged? *)
    Definition union (g : egraph) (a b : nat) : res (egraph * bool) :=
      let* a := find g a in
      let* b := find g b in
      if Nat.eqb a b then Val (g, false)
      else
        let '(k, d) := if keep g a b then (a, b) else (b, a) in
        let* dk := index (g_data g) k in
        let* dd := index (g_data g) d in
        let* (dm, _) := a_merge dk dd in
        let g1 := EG (map (fun r => if Nat.eqb r d then k else r) (g_reps g)) (g_nodes g)
                     (set_nth (g_data g) k dm) (g_an g) in
        let* g2 := md g1 k in
        Val (g2, true).

    (* EGraph::add_expr: the id of every entry *)
    Fixpoint add_nodes (g : egraph) (ids : list nat) (r : recexpr O) : res (egraph * list nat) :=
      match r with
      | [] => Val (g, ids)
      | n :: r' =>
          let* ch := rmapM (index ids) (nch n) in
          let* (g1, i) := add g (Node (nop n) ch) in
          add_nodes g1 (ids ++ [i]) r'
      end.
    Definition add_expr (g : egraph) (r : recexpr O) : res (egraph * nat) :=
      let* (g', ids) := add_nodes g [] r in
      let* i := pop_unwrap ids in
      Val (g', i).
  End Modify.

  (* EGraph::lookup_expr *)
  Fixpoint lookup_nodes (g : egraph) (ids : list nat) (r : recexpr O) : res (option (list nat)) :=
    match r with
    | [] => Val (Some ids)
    | n :: r' =>
        let* ch := rmapM (index ids) (nch n) in
        let* o := lookup_node g (Node (nop n) ch) in
        match o with Some i => lookup_nodes g (ids ++ [i]) r' | None => Val None end
    end.
  Definition lookup_expr (g : egraph) (r : recexpr O) : res (option nat) :=
    let* o := lookup_nodes g [] r in
    match o with
    | Some ids => match rev ids with [] => Val None | i :: _ => Val (Some i) end
    | None => Val None
    end.

  (* The analyses of ruler add terms to the class they modify: [todo] lists them
     (stage by stage, each computed on the e-graph at that time).  The recursion
     through add and union is cut by [fuel]; running out is Panic (in Rust: a stack
     overflow). *)
  Variable todo : list (egraph -> nat -> res (list (recexpr O))).
  Fixpoint join_all (ad : egraph -> recexpr O -> res (egraph * nat))
      (un : egraph -> nat -> nat -> res (egraph * bool)) (g : egraph) (i : nat) (ts : list (recexpr O)) : res egraph :=
    match ts with
    | [] => Val g
    | t :: r => let* (g1, j) := ad g t in let* (g2, _) := un g1 i j in join_all ad un g2 i r
    end.
  Fixpoint stages (ad : egraph -> recexpr O -> res (egraph * nat))
      (un : egraph -> nat -> nat -> res (egraph * bool)) (g : egraph) (i : nat)
      (ss : list (egraph -> nat -> res (list (recexpr O)))) : res egraph :=
    match ss with
    | [] => Val g
    | s :: r => let* ts := s g i in let* g1 := join_all ad un g i ts in stages ad un g1 i r
    end.
  Fixpoint modify (fuel : nat) (g : egraph) (i : nat) : res egraph :=
    match fuel with
    | 0 => Panic
    | S k => stages (add_expr (modify k)) (union (modify k)) g i todo
    end.

  (* ---- EGraph::rebuild ---- *)
  (* the keys of the table made canonical *)
  Definition canon_nodes (g : egraph) : res egraph :=
    let* ns := rmapM (fun e => let* n := canon g (fst e) in Val (n, snd e)) (g_nodes g) in
    Val (EG (g_reps g) ns (g_data g) (g_an g)).
  (* two entries with the same key in different classes *)
  Fixpoint clash (g : egraph) (ns : list (node O * nat)) : res (option (nat * nat)) :=
    match ns with
    | [] => Val None
    | (n, i) :: r =>
        match get_node r n with
        | Some j =>
            let* a := find g i in
            let* b := find g j in
            if Nat.eqb a b then clash g r else Val (Some (i, j))
        | None => clash g r
        end
    end.
  (* an entry whose data are not yet part of the data of its class *)
  Fixpoint stale (g : egraph) (ns : list (node O * nat)) : res (option (nat * D)) :=
    match ns with
    | [] => Val None
    | (n, i) :: r =>
        let* c := find g i in
        let* ds := rmapM (class_data g) (nch n) in
        let* d := a_make (g_an g) n ds in
        let* dc := index (g_data g) c in
        let* (dm, ch) := a_merge dc d in
        if fst ch then Val (Some (c, dm)) else stale g r
    end.
  (* process_unions: merge congruent nodes, then bring data up to date, until
     nothing is left to do.  egg keeps lists of the nodes to look at; here all nodes
     are looked at.  Running out of [fuel] is Panic (in Rust: no termination). *)
  Fixpoint rebuild (md : egraph -> nat -> res egraph) (fuel : nat) (g : egraph) : res egraph :=
    match fuel with
    | 0 => Panic
    | S k =>
        let* g1 := canon_nodes g in
        let* c := clash g1 (g_nodes g1) in
        match c with
        | Some (i, j) => let* (g2, _) := union md g1 i j in rebuild md k g2
        | None =>
            let* s := stale g1 (g_nodes g1) in
            match s with
            | Some (c, d) =>
                let* g2 := md (EG (g_reps g1) (g_nodes g1) (set_nth (g_data g1) c d) (g_an g1)) c in
                rebuild md k g2
            | None => Val g1
            end
        end
    end.
End EGraph.
