(* Model of the three ways of proposing candidates (src/enumo/ruleset.rs:225-356). *)
From Coq Require Import NArith.
From Verif Require Import Base Lang Syntax Rule Ruleset Analysis Generalize Egraph Synth Extract.
Open Scope list_scope.

Section Group.
  Context {K : Type}.
  Variable keqb : K -> K -> bool.
  (* map.entry(k).or_insert_with(Vec::new).push(i); a new key goes to the end *)
  Fixpoint push (m : list (K * list nat)) (k : K) (i : nat) : list (K * list nat) :=
    match m with
    | [] => [(k, [i])]
    | (k', l) :: r => if keqb k k' then (k', l ++ [i]) :: r else (k', l) :: push r k i
    end.
  Definition group (l : list (K * nat)) : list (K * list nat) :=
    fold_left (fun m p => push m (fst p) (snd p)) l [].
  Fixpoint get (m : list (K * list nat)) (k : K) : option (list nat) :=
    match m with [] => None | (k', l) :: r => if keqb k k' then Some l else get r k end.
End Group.

(* for i in 0..len { for j in i + 1..len *)
Fixpoint pairs {X} (l : list X) : list (X * X) :=
  match l with [] => [] | x :: r => map (fun y => (x, y)) r ++ pairs r end.
(* for a in l { for b in l *)
Definition square {X} (l : list X) : list (X * X) := flat_map (fun x => map (fun y => (x, y)) l) l.

Section Match.
  Context {O C : Type}.
  Variable L : lang O C.
  Variable fuel : nat.
  (* the order of the nodes of a class and of the classes in memory *)
  Variable arrange : list (node O) -> list (node O).
  Variable order : list nat.

  Definition oeqb (a b : option C) : bool :=
    match a, b with Some x, Some y => l_ceqb L x y | None, None => true | _, _ => false end.
  Fixpoint veqb (a b : cvec C) : bool :=
    match a, b with [], [] => true | x :: a, y :: b => oeqb x y && veqb a b | _, _ => false end.

  (* the loops that generalize pairs of terms *)
  Fixpoint propose (m : ruleset O) (l : list (recexpr O * recexpr O)) : res (ruleset O) :=
    match l with
    | [] => Val m
    | (e1, e2) :: r =>
        let* m' := add_from_recexprs (l_eqb L) (l_to_var L) (l_mk_var L) (l_name L) m e1 e2 in
        propose m' r
    end.
  (* extract.find_best of both *)
  Definition best_pair (g : eg O C) (t : table) (p : nat * nat) : res ((N * recexpr O) * (N * recexpr O)) :=
    let* a := find_best (l_eqb L) g fuel t (fst p) in
    let* b := find_best (l_eqb L) g fuel t (snd p) in
    Val (a, b).

  (* ruleset.rs:279-282 *)
  Definition not_all_none (v : cvec C) : bool := existsb (fun x => match x with Some _ => true | None => false end) v.
  (* ruleset.rs:284-292 *)
  Fixpoint compare (a b : cvec C) : bool :=
    match a, b with
    | Some x :: a, Some y :: b => l_ceqb L x y && compare a b
    | _ :: a, _ :: b => compare a b
    | _, _ => true
    end.
  (* egraph[id].data.cvec *)
  Definition cvec_of (g : eg O C) (i : nat) : res (cvec C) := let* d := class_data g i in Val (sg_cvec d).
  Definition with_cvec (g : eg O C) (ids : list nat) : res (list (nat * cvec C)) :=
    rmapM (fun i => let* v := cvec_of g i in Val (i, v)) ids.
  (* ruleset.rs:309-318 for one entry of by_first *)
  Definition bucket_pairs (g : eg O C) (first_none : list nat) (b : option C * list nat) : res (list (nat * nat)) :=
    let all := match fst b with Some _ => snd b ++ first_none | None => snd b end in
    let* cs := with_cvec g all in
    Val (map (fun p => (fst (fst p), fst (snd p))) (List.filter (fun p => compare (snd (fst p)) (snd (snd p))) (pairs cs))).
  (* the pairs of classes of cvec_match *)
  Definition cvec_pairs (g : eg O C) : res (list (nat * nat)) :=
    let* cs := with_cvec g order in
    let* firsts := rmapM (fun c => let* x := index (snd c) 0 in Val (x, fst c)) (List.filter (fun c => not_all_none (snd c)) cs) in
    let by_first := group oeqb firsts in
    let first_none := match get oeqb by_first None with Some l => l | None => [] end in
    let* ps := rmapM (bucket_pairs g first_none) by_first in
    Val (concat ps).
  (* ruleset.rs:267-329 *)
  Definition cvec_match (g : eg O C) : res (ruleset O) :=
    let* t := extractor (fun _ => true) arrange g fuel order in
    let* ps := cvec_pairs g in
    let* es := rmapM (best_pair g t) ps in
    propose [] (map (fun p => (snd (fst p), snd (snd p))) es).

  (* the pairs of classes of fast_cvec_match *)
  Definition fast_pairs (g : eg O C) : res (list (nat * nat)) :=
    let* cs := rmapM (fun i => let* d := class_data g i in Val (i, d)) order in
    let by_cvec := group veqb (map (fun c => (sg_cvec (snd c), fst c)) (List.filter (fun c => is_defined (snd c)) cs)) in
    Val (flat_map (fun b => pairs (snd b)) by_cvec).
  (* ruleset.rs:334-356.  (The terms of a bucket are extracted before its pairs are
     formed; extraction depends on the class only.) *)
  Definition fast_cvec_match (g : eg O C) : res (ruleset O) :=
    let* t := extractor (fun _ => true) arrange g fuel order in
    let* ps := fast_pairs g in
    let* es := rmapM (best_pair g t) ps in
    propose [] (map (fun p => (snd (fst p), snd (snd p))) es).

  (* the order of a hash map's values *)
  Variable uorder : list (list nat) -> list (list nat).
  Definition rec_eqb (a b : recexpr O) : bool :=
    Nat.eqb (length a) (length b) && forallb (fun p => node_eqb (l_eqb L) (fst p) (snd p)) (combine a b).
  (* ruleset.rs:233-263 *)
  Definition merged_pairs (g2 : eg O C) : res (list (nat * nat)) :=
    let* new_ids := rmapM (fun i => let* r := find g2 i in Val (r, i)) order in
    Val (flat_map square (uorder (map snd (group Nat.eqb new_ids)))).
  Definition wanted (p : (N * recexpr O) * (N * recexpr O)) : bool :=
    negb (N.eqb (fst (fst p)) usize_max || N.eqb (fst (snd p)) usize_max) && negb (rec_eqb (snd (fst p)) (snd (snd p))).
  Definition extract_candidates (g1 g2 : eg O C) : res (ruleset O) :=
    let* t := extractor (l_allowed L) arrange g1 fuel order in
    let* ps := merged_pairs g2 in
    let* es := rmapM (best_pair g1 t) ps in
    propose [] (map (fun p => (snd (fst p), snd (snd p))) (List.filter wanted es)).
End Match.
