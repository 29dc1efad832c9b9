(* Model of the e-graph part of src/enumo/rule.rs: applying rules, and the test
   for saturating rules. *)
From Verif Require Import Base Lang Rule Analysis Egraph Synth.
Open Scope list_scope.

Section Apply.
  Context {O C : Type}.
  Variable L : lang O C.
  Variable keep : eg O C -> nat -> nat -> bool.
  Variable fuel : nat.

  (* egg::Subst: subst[v] panics when v is not bound *)
  Definition subst : Type := list (string * nat).
  (* src/enumo/rule.rs:142-161 *)
  Fixpoint apply_nodes (g : eg O C) (s : subst) (ids : list nat) (p : pat O) : res (eg O C * list nat) :=
    match p with
    | [] => Val (g, ids)
    | n :: r =>
        match nop n with
        | PV v => let* i := unwrap (lookup s v) in apply_nodes g s (ids ++ [i]) r
        | EN o =>
            let* ch := rmapM (index ids) (nch n) in
            let* (g1, i) := s_add L keep fuel g (Node o ch) in
            apply_nodes g1 s (ids ++ [i]) r
        end
    end.
  Definition apply_pat (g : eg O C) (s : subst) (p : pat O) : res (eg O C * nat) :=
    let* (g', ids) := apply_nodes g s [] p in
    let* i := pop_unwrap ids in
    Val (g', i).

  (* src/enumo/rule.rs:76-99: the e-graph afterwards and the ids reported as
     changed *)
  Definition apply_rhs (p : pat O) (g : eg O C) (matched : nat) (s : subst) : res (eg O C * list nat) :=
    let* d := class_data g matched in
    if negb (is_defined d) then Val (g, [])
    else
      let* (g1, i) := apply_pat g s p in
      if Nat.eqb i matched then Val (g1, [])
      else
        let* d := class_data g1 i in
        if negb (is_defined d) then Val (g1, [])
        else let* (g2, _) := s_union L keep fuel g1 i matched in Val (g2, [i]).
  (* egg's applier for patterns (external) *)
  Definition apply_plain (p : pat O) (g : eg O C) (matched : nat) (s : subst) : res (eg O C * list nat) :=
    let* (g1, i) := apply_pat g s p in
    let* (g2, b) := s_union L keep fuel g1 i matched in
    Val (g2, if b then [i] else []).
  (* tests/bv-bool.rs:33-36: the class bound to v has a node with an allowed
     operator *)
  Definition guard (v : string) (g : eg O C) (s : subst) : res bool :=
    let* i := unwrap (lookup s v) in
    let* ns := class_nodes g i in
    Val (existsb (fun n => l_allowed L (nop n)) ns).
  Definition apply_one (r : rule O) (g : eg O C) (matched : nat) (s : subst) : res (eg O C * list nat) :=
    match rkind r with
    | KRhs => apply_rhs (rrhs r) g matched s
    | KPat => apply_plain (rrhs r) g matched s
    | KGuard v =>
        let* b := guard v g s in
        if b then apply_plain (rrhs r) g matched s else Val (g, [])
    end.

  (* src/enumo/rule.rs:118-130 *)
  Definition is_saturating (r : rule O) : res bool :=
    let* (g1, l) := s_add_expr L keep fuel eg_default (instantiate (l_mk_var L) (rlhs r)) in
    let initial := number_of_classes g1 in
    let* (g2, i) := s_add_expr L keep fuel g1 (instantiate (l_mk_var L) (rrhs r)) in
    let* (g3, _) := s_union L keep fuel g2 l i in
    let* g4 := s_rebuild L keep fuel g3 in
    Val (Nat.leb (number_of_classes g4) initial).
End Apply.
