(* Model of rule selection: the score of a rule (src/language.rs:294-326) and
   select, shrink and minimize (src/enumo/ruleset.rs:358-439). *)
From Coq Require Import ZArith.
From Verif Require Import Base Lang Syntax Rule Ruleset Analysis Egraph Synth Apply Sched.
Open Scope list_scope.

Section Score.
  Context {O : Type}.
  Variable name : O -> string.
  Variable is_const : O -> bool.

  (* egg AstSize.cost_rec: the size of the tree *)
  Definition ast_size (p : pat O) : res Z :=
    fold_rec (fun _ cs => Val (fold_left Z.add cs 1%Z)) p.
  (* HashSet::len after inserting everything *)
  Definition distinct (l : list string) : Z := Z.of_nat (length (nodup string_dec l)).
  Definition is_pconst (n : node (eov O)) : bool :=
    match nop n with EN o => is_const o | PV _ => false end.
  Definition is_inner (n : node (eov O)) : bool :=
    match nch n with [] => false | _ => true end.
  (* src/language.rs:294-326.  The numbers are i32 there; here they are unbounded
     (sizes below 2^30). *)
  Definition score (l r : pat O) : res (list Z) :=
    let* ls := ast_size l in
    let* rs := ast_size r in
    let vars := pvars l ++ pvars r in
    let ops := map (fun n => pat_name name (nop n)) (List.filter is_inner (l ++ r)) in
    let consts := Z.of_nat (length (List.filter is_pconst (l ++ r))) in
    Val [distinct vars; - consts; - Z.max ls rs; - (ls + rs); - distinct ops]%Z.
End Score.

(* Ord of arrays: lexicographic *)
Fixpoint lex_leb (a b : list Z) : bool :=
  match a, b with
  | [], _ => true
  | _ :: _, [] => false
  | x :: a, y :: b => Z.ltb x y || (Z.eqb x y && lex_leb a b)
  end.

Section Sort.
  Context {A : Type}.
  Variable key : A -> list Z.
  (* IndexMap::sort_by is a stable sort in ascending order *)
  Fixpoint insert_sorted (x : A) (l : list A) : list A :=
    match l with
    | [] => [x]
    | y :: r => if lex_leb (key x) (key y) then x :: l else y :: insert_sorted x r
    end.
  Fixpoint sort_by (l : list A) : list A :=
    match l with [] => [] | x :: r => insert_sorted x (sort_by r) end.
End Sort.

Section Minimize.
  Context {O C : Type}.
  Variable L : lang O C.
  Variable keep : eg O C -> nat -> nat -> bool.
  Variable fuel : nat.
  Local Notation name := (l_name L).

  (* src/enumo/rule.rs:132-134 *)
  Definition rule_score (r : rule O) : res (list Z) := score name (l_is_const L) (rlhs r) (rrhs r).
  (* src/enumo/rule.rs:137-139 *)
  Definition is_valid (r : rule O) : res bool :=
    let* v := l_validate L (rlhs r) (rrhs r) in
    Val (match v with Valid => true | _ => false end).

  (* self.0.sort_by(score).  (Rust scores pairs while sorting, so the only rule of
     a one-element map is not scored.) *)
  Definition sort_candidates (m : ruleset O) : res (ruleset O) :=
    let* scored := rmapM (fun e => let* s := rule_score (snd e) in Val (s, e)) m in
    Val (map snd (sort_by fst scored)).
  (* src/enumo/ruleset.rs:365-384; the candidates last first (pop takes the last) *)
  Fixpoint select_loop (step : nat) (m selected invalid : ruleset O) : res (ruleset O * ruleset O * ruleset O) :=
    if Nat.ltb (length selected) step then
      match m with
      | [] => Val ([], selected, invalid)
      | (_, r) :: rest =>
          let* b := is_valid r in
          let '(sel1, inv1) := if b then (rs_add selected r, invalid) else (selected, rs_add invalid r) in
          let* o := reverse name r in
          match o with
          | None => select_loop step rest sel1 inv1
          | Some r' =>
              let* b' := if rs_contains rest r' then is_valid r' else Val false in
              if b' then select_loop step rest (rs_add sel1 r') inv1
              else select_loop step rest sel1 (rs_add inv1 r')
          end
      end
    else Val (m, selected, invalid).
  (* src/enumo/ruleset.rs:358-391: the candidates left, the chosen and the invalid
     rules *)
  Definition select (step : nat) (m invalid : ruleset O) : res (ruleset O * ruleset O * ruleset O) :=
    let* sorted := sort_candidates m in
    let* (rest, selected, invalid) := select_loop step (rev sorted) [] invalid in
    Val (rev rest, extend [] selected, invalid).

  (* src/enumo/ruleset.rs:398-404 *)
  Fixpoint add_sides (g : eg O C) (rs : list (rule O)) (acc : list (nat * nat * rule O)) : res (eg O C * list (nat * nat * rule O)) :=
    match rs with
    | [] => Val (g, acc)
    | r :: rs' =>
        let* (g1, l) := s_add_expr L keep fuel g (instantiate (l_mk_var L) (rlhs r)) in
        let* (g2, i) := s_add_expr L keep fuel g1 (instantiate (l_mk_var L) (rrhs r)) in
        add_sides g2 rs' (acc ++ [(l, i, r)])
    end.
  (* src/enumo/ruleset.rs:411-419 *)
  Fixpoint keep_apart (out : eg O C) (initial : list (nat * nat * rule O)) (m : ruleset O) : res (ruleset O) :=
    match initial with
    | [] => Val m
    | (l, i, r) :: rest =>
        let* a := find out l in
        let* b := find out i in
        keep_apart out rest (if Nat.eqb a b then m else rs_add m r)
    end.
  (* src/enumo/ruleset.rs:393-420 *)
  Definition shrinks (st : strategy) (chosen m m' : ruleset O) : Prop :=
    exists g initial out, add_sides eg_default (map snd m) [] = Val (g, initial) /\
      scheduled L keep fuel st chosen g out /\ keep_apart out initial [] = Val m'.

  (* src/enumo/ruleset.rs:426-439.  The state of the loop: candidates, chosen,
     invalid. *)
  Definition mstate : Type := ruleset O * ruleset O * ruleset O.
  Inductive round (st : strategy) : mstate -> mstate -> Prop :=
    | Round m chosen invalid rest selected invalid' m' : m <> [] ->
        select 1 m invalid = Val (rest, selected, invalid') ->
        shrinks st (extend chosen selected) rest m' ->
        round st (m, chosen, invalid) (m', extend chosen selected, invalid').
  Inductive rounds (st : strategy) : mstate -> mstate -> Prop :=
    | Rs_done x : rounds st x x
    | Rs_more x y z : round st x y -> rounds st y z -> rounds st x z.
  Definition minimize (st : strategy) (m prior new invalid : ruleset O) : Prop :=
    exists chosen, rounds st (m, prior, []) ([], chosen, invalid) /\ new = remove_all chosen prior.
End Minimize.
