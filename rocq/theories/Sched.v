(* Model of src/enumo/scheduler.rs and of Ruleset::can_derive
   (src/enumo/ruleset.rs:447-479).  egg's Runner (external) is a transition
   relation: it may search any rule, apply any match found so far, rebuild, and
   stop at any time; so every scheduler, match limit, node limit, iteration limit,
   time limit and hook is covered. *)
From Verif Require Import Base Lang Rule Ruleset Analysis Egraph EgraphSpec Synth Apply.
Open Scope list_scope.

Section Sched.
  Context {O C : Type}.
  Variable L : lang O C.
  Variable keep : eg O C -> nat -> nat -> bool.
  Variable fuel : nat.

  (* the pattern matches class [c] under the substitution, which binds classes of
     the e-graph *)
  Inductive pmatch (g : eg O C) (s : subst) : term (eov O) -> nat -> Prop :=
    | PM_var v ts i c : lookup s v = Some i -> eqv g i c -> pmatch g s (T (PV v) ts) c
    | PM_node o ts ch c : Forall2 (pmatch g s) ts ch -> has g o ch c -> pmatch g s (T (EN o) ts) c.
  Definition matches (g : eg O C) (r : rule O) (c : nat) (s : subst) : Prop :=
    (exists t, tree (rlhs r) = Val t /\ pmatch g s t c) /\ Forall (fun e => snd e < size g) s.

  (* the e-graph and the matches found so far *)
  Definition rstate : Type := eg O C * list (rule O * nat * subst).
  Inductive rstep (rules : list (rule O)) : rstate -> rstate -> Prop :=
    | RSearch g ms r c s : In r rules -> matches g r c s -> rstep rules (g, ms) (g, (r, c, s) :: ms)
    | RApply g ms r c s g' ids : In (r, c, s) ms -> apply_one L keep fuel r g c s = Val (g', ids) ->
        rstep rules (g, ms) (g', ms)
    | RRebuild g ms g' : s_rebuild L keep fuel g = Val g' -> rstep rules (g, ms) (g', ms).
  Inductive rsteps (rules : list (rule O)) : rstate -> rstate -> Prop :=
    | RS_refl x : rsteps rules x x
    | RS_step x y z : rstep rules x y -> rsteps rules y z -> rsteps rules x z.
  (* Runner::run *)
  Definition runs (rules : list (rule O)) (g g' : eg O C) : Prop :=
    exists ms, rsteps rules (g, []) (g', ms).

  (* src/enumo/scheduler.rs:75-83 *)
  Definition simple (rs : ruleset O) (g g' : eg O C) : Prop :=
    exists g1, runs (map snd rs) g g1 /\ s_rebuild L keep fuel g1 = Val g'.

  (* src/enumo/scheduler.rs:104-117 *)
  Inductive sat_rounds (sat other : list (rule O)) : nat -> eg O C -> eg O C -> Prop :=
    | SR_done g : sat_rounds sat other 0 g g
    | SR_round n g g1 g2 g' : runs sat g g1 -> runs other g1 g2 -> sat_rounds sat other n g2 g' ->
        sat_rounds sat other (S n) g g'.
  (* src/enumo/scheduler.rs:84-121 *)
  Definition saturating (iter : nat) (rs : ruleset O) (g g' : eg O C) : Prop :=
    exists sat other g1 g2, partition (is_saturating L keep fuel) rs = Val (sat, other) /\
      sat_rounds (map snd sat) (map snd other) iter g g1 /\ runs (map snd sat) g1 g2 /\
      s_rebuild L keep fuel g2 = Val g'.

  (* src/enumo/scheduler.rs:128-133 and src/enumo/ruleset.rs:243-248: the ids of
     [g] grouped by their class in [out], in order of first occurrence *)
  Fixpoint group_in (k i : nat) (m : list (nat * list nat)) : list (nat * list nat) :=
    match m with
    | [] => [(k, [i])]
    | (k', is) :: r => if Nat.eqb k k' then (k', is ++ [i]) :: r else (k', is) :: group_in k i r
    end.
  Fixpoint group_by (out : eg O C) (ids : list nat) (m : list (nat * list nat)) : res (list (nat * list nat)) :=
    match ids with
    | [] => Val m
    | i :: r => let* k := find out i in group_by out r (group_in k i m)
    end.
  (* src/enumo/scheduler.rs:135-142 *)
  Fixpoint union_first (g : eg O C) (first : nat) (ids : list nat) : res (eg O C) :=
    match ids with
    | [] => Val g
    | i :: r => let* (g1, _) := s_union L keep fuel g first i in union_first g1 first r
    end.
  Fixpoint union_groups (g : eg O C) (gs : list (list nat)) : res (eg O C) :=
    match gs with
    | [] => Val g
    | [] :: r => union_groups g r
    | (i :: is) :: r => let* g1 := union_first g i is in union_groups g1 r
    end.
  (* [order] is the order in which the hash map hands out its entries *)
  Definition compress_with (order : list (list nat) -> list (list nat)) (g out : eg O C) : res (eg O C) :=
    let* m := group_by out (class_ids g) [] in
    let* g1 := union_groups g (order (map snd m)) in
    s_rebuild L keep fuel g1.
  (* src/enumo/scheduler.rs:122-145 *)
  Definition compress (order : list (list nat) -> list (list nat)) (rs : ruleset O) (g g' : eg O C) : Prop :=
    exists out, simple rs g out /\ compress_with order g out = Val g'.

  (* src/enumo/scheduler.rs:11-21, 37-147 (without the limits, see [runs]; only
     Saturating looks at them itself) *)
  Inductive strategy : Type := Simple | Saturating (iter : nat) | Compress (order : list (list nat) -> list (list nat)).
  Definition scheduled (st : strategy) (rs : ruleset O) (g g' : eg O C) : Prop :=
    match st with
    | Simple => simple rs g g'
    | Saturating iter => saturating iter rs g g'
    | Compress order => compress order rs g g'
    end.

  (* src/enumo/ruleset.rs:447-474.  [out] is the e-graph the scheduler returns. *)
  Definition derive_start (lhs_only : bool) (r : rule O) : res (eg O C) :=
    let* (g1, _) := s_add_expr L keep fuel eg_default (instantiate (l_mk_var L) (rlhs r)) in
    if lhs_only then Val g1
    else let* (g2, _) := s_add_expr L keep fuel g1 (instantiate (l_mk_var L) (rrhs r)) in Val g2.
  Definition derive_answer (r : rule O) (out : eg O C) : res bool :=
    let* ol := lookup_expr (l_eqb L) out (instantiate (l_mk_var L) (rlhs r)) in
    let* l := unwrap ol in
    let* or := lookup_expr (l_eqb L) out (instantiate (l_mk_var L) (rrhs r)) in
    Val (match or with Some i => Nat.eqb l i | None => false end).
  Definition can_derive (lhs_only : bool) (iter : nat) (rs : ruleset O) (r : rule O) (b : bool) : Prop :=
    exists g out, derive_start lhs_only r = Val g /\ saturating iter rs g out /\ derive_answer r out = Val b.
End Sched.
