(* Model of src/language.rs:26-147 (e-class data) and the cost function of
   src/lib.rs:52-67. *)
From Coq Require Import NArith.
From Verif Require Import Base Lang.

(* usize::max_value() and saturating_add, on a 64-bit machine *)
Definition usize_max : N := 2 ^ 64 - 1.
Definition sat_add (a b : N) : N := N.min usize_max (a + b).

Section Cost.
  Context {O : Type}.
  Variable allowed : O -> bool.
  (* src/lib.rs:57-66 *)
  Definition ext_cost (o : O) (costs : list N) : res N :=
    Val (if allowed o then fold_left sat_add costs 1%N else usize_max).
  (* egg CostFunction::cost_rec: costs of the entries in order; the cost of the
     last.  (The children of a disallowed node are not looked up there; here an
     ill-formed array panics.) *)
  Definition cost_rec (r : recexpr O) : res N := fold_rec ext_cost r.
End Cost.

(* src/language.rs:26-31 *)
Record sig (O C : Type) : Type :=
  Sig { sg_cvec : cvec C; sg_simplest : recexpr O; sg_itv : interval C }.
Arguments Sig {O C} sg_cvec sg_simplest sg_itv.
Arguments sg_cvec {O C} s.
Arguments sg_simplest {O C} s.
Arguments sg_itv {O C} s.

(* src/language.rs:33-37 *)
Definition is_defined {O C} (s : sig O C) : bool :=
  match sg_cvec s with
  | [] => true
  | v => existsb (fun x => match x with Some _ => true | None => false end) v
  end.

Section Make.
  Context {O : Type}.
  Variable is_leaf_op : O -> bool.            (* is_var() || is_constant() *)

  (* n.map_children(|id| id + i) *)
  Definition shift (i : nat) (n : node O) : node O := Node (nop n) (map (fun c => c + i) (nch n)).
  Fixpoint nlookup (m : list (nat * nat)) (k : nat) : option nat :=
    match m with
    | [] => None
    | (k', v) :: r => if Nat.eqb k k' then Some v else nlookup r k
    end.
  (* src/language.rs:53-63; nodes.len() - 1 underflows (panics) when nothing was
     pushed *)
  Fixpoint add_children (simplest : nat -> recexpr O) (ids : list nat)
      (nodes : recexpr O) (m : list (nat * nat)) : res (recexpr O * list (nat * nat)) :=
    match ids with
    | [] => Val (nodes, m)
    | id :: r =>
        match nlookup m id with
        | Some _ => add_children simplest r nodes m
        | None =>
            let nodes' := nodes ++ map (shift (length nodes)) (simplest id) in
            match length nodes' with
            | 0 => Panic
            | S k => add_children simplest r nodes' ((id, k) :: m)
            end
        end
    end.
  (* src/language.rs:46-67 *)
  Definition make_simplest (simplest : nat -> recexpr O) (n : node O) : res (recexpr O) :=
    if is_leaf_op (nop n) then Val [n]
    else
      let* (nodes, m) := add_children simplest (nch n) [] [] in
      let* ch := rmapM (fun id => unwrap (nlookup m id)) (nch n) in
      Val (nodes ++ [Node (nop n) ch]).
End Make.

Section MakeSig.
  Context {O C : Type}.
  Variable is_leaf_op : O -> bool.
  Variable eval : nat -> O -> list (cvec C) -> res (cvec C).
  Variable mk_interval : O -> list (interval C) -> res (interval C).
  (* src/language.rs:41-75 *)
  Definition make (cvec_len : nat) (data : nat -> sig O C) (n : node O) : res (sig O C) :=
    let* s := make_simplest is_leaf_op (fun i => sg_simplest (data i)) n in
    let* c := eval cvec_len (nop n) (map (fun i => sg_cvec (data i)) (nch n)) in
    let* i := mk_interval (nop n) (map (fun i => sg_itv (data i)) (nch n)) in
    Val (Sig c s i).
End MakeSig.

Section Merge.
  Context {O C : Type}.
  Variable allowed : O -> bool.
  Variable ceqb : C -> C -> bool.
  Variable cleb : C -> C -> bool.
  Variable receqb : recexpr O -> recexpr O -> bool.

  (* src/language.rs:83-95: to.cvec afterwards, merge_a, merge_b *)
  Fixpoint merge_cvec (to from : cvec C) : res (cvec C * bool * bool) :=
    match to, from with
    | [], _ => Val ([], false, false)
    | _ :: _, [] => Panic
    | x :: to', y :: from' =>
        match x, y with
        | Some a, Some b =>
            if ceqb a b then
              let* (r, ma, mb) := merge_cvec to' from' in Val (x :: r, ma, mb)
            else Panic
        | None, Some _ => let* (r, ma, mb) := merge_cvec to' from' in Val (y :: r, true, mb)
        | Some _, None => let* (r, ma, mb) := merge_cvec to' from' in Val (x :: r, ma, true)
        | None, None => let* (r, ma, mb) := merge_cvec to' from' in Val (x :: r, ma, mb)
        end
    end.

  Definition merge_cvecs (to from : cvec C) : res (cvec C * bool * bool) :=
    match to, from with
    | _ :: _, _ :: _ => merge_cvec to from
    | _, _ => Val (to, false, false)
    end.

  Definition omax (a b : option C) : option C :=
    match a, b with
    | None, None => None
    | None, Some y => Some y
    | Some x, None => Some x
    | Some x, Some y => Some (if cleb x y then y else x)
    end.
  Definition omin (a b : option C) : option C :=
    match a, b with
    | None, None => None
    | None, Some y => Some y
    | Some x, None => Some x
    | Some x, Some y => Some (if cleb x y then x else y)
    end.
  Definition oeqb (a b : option C) : bool :=
    match a, b with Some x, Some y => ceqb x y | None, None => true | _, _ => false end.
  Definition ieqb (i j : interval C) : bool := oeqb (low i) (low j) && oeqb (high i) (high j).

  (* src/language.rs:77-130: the data of [to] afterwards and DidMerge *)
  Definition merge (to from : sig O C) : res (sig O C * (bool * bool)) :=
    let* (cv, a1, b1) := merge_cvecs (sg_cvec to) (sg_cvec from) in
    let* itv := mk_itv cleb (omax (low (sg_itv to)) (low (sg_itv from)))
                            (omin (high (sg_itv to)) (high (sg_itv from))) in
    let* cf := cost_rec allowed (sg_simplest from) in
    let* ct := cost_rec allowed (sg_simplest to) in
    let '(s, a2, b2) :=
      if N.ltb cf ct then (sg_simplest from, true, false)
      else (sg_simplest to, false, negb (receqb (sg_simplest to) (sg_simplest from))) in
    let a3 := negb (ieqb (sg_itv to) itv) in
    let b3 := negb (ieqb itv (sg_itv from)) in
    Val (Sig cv s itv, (a1 || a2 || a3, b1 || b2 || b3)).
End Merge.
