(* Model of rule inference (src/recipe_utils.rs:29-203): run_workload,
   run_fast_forwarding and recursive_rules. *)
From Coq Require Import Permutation.
From Verif Require Import Base Sexp Reader Pattern Filter Workload Recipe Lang Syntax Rule Ruleset Analysis Generalize
  Egraph Synth Apply Sched Extract Match Minimize.
Open Scope string_scope.
Open Scope list_scope.

(* src/recipe_utils.rs:145-162 *)
Record wlang : Type := WLang { w_vals : list string; w_vars : list string; w_ops : list (list string) }.

(* src/recipe_utils.rs:185-187: for (i, ops) in lang.ops.iter().enumerate() *)
Fixpoint plug_ops (w : workload) (i : nat) (ops : list (list string)) : res workload :=
  match ops with
  | [] => Val w
  | o :: r =>
      let* pegs := wnew o in
      let* w1 := wplug w ("OP" ++ show_nat (i + 1)) pegs in
      plug_ops w1 (i + 1) r
  end.
(* src/recipe_utils.rs:175-187 *)
Definition sized_workload (met : metric) (n : nat) (l : wlang) : res workload :=
  let* base := base_lang (if Nat.eqb (length (w_ops l)) 2 then 2 else 3) in
  let* w := iter_metric base "EXPR" met n in
  let* p := pattern_from_str "VAR" in
  let w := wfilter w (Contains p) in
  let* vars := wnew (w_vars l) in
  let* w := wplug w "VAR" vars in
  let* vals := wnew (w_vals l) in
  let* w := wplug w "VAL" vals in
  plug_ops w 0 (w_ops l).

Section Infer.
  Context {O C : Type}.
  Variable L : lang O C.
  Variable keep : eg O C -> nat -> nat -> bool.
  Variable fuel : nat.

  (* src/language.rs:244-252 *)
  Definition pat_allowed (p : pat O) : bool :=
    forallb (fun n => match nop n with EN o => l_allowed L o | PV _ => true end) p.
  Definition is_allowed_rewrite (l r : pat O) : bool := pat_allowed l && pat_allowed r.

  (* some order of the classes and of the nodes of a class, some order of the
     values of a hash map *)
  Definition layout (g : eg O C) (order : list nat) (arrange : list (node O) -> list (node O)) : Prop :=
    Permutation (class_ids g) order /\ forall l, Permutation l (arrange l).
  Definition anyorder {X} (f : list X -> list X) : Prop := forall l, Permutation l (f l).
  (* Scheduler::Compress(limits).run *)
  Definition compressed (rs : ruleset O) (g g' : eg O C) : Prop :=
    exists order, anyorder order /\ compress L keep fuel order rs g g'.
  (* Ruleset::minimize(prior, Scheduler::Compress(limits)) *)
  Definition minimized (cands prior new : ruleset O) : Prop :=
    exists order invalid, anyorder order /\ minimize L keep fuel (Compress order) cands prior new invalid.
  (* Ruleset::fast_cvec_match, Ruleset::cvec_match, Ruleset::extract_candidates *)
  Definition proposed (fast : bool) (g : eg O C) (cands : ruleset O) : Prop :=
    exists order arrange, layout g order arrange /\
      (if fast then fast_cvec_match L fuel arrange order g else cvec_match L fuel arrange order g) = Val cands.
  Definition extracted (g1 g2 : eg O C) (cands : ruleset O) : Prop :=
    exists order arrange uorder, layout g1 order arrange /\ anyorder uorder /\
      extract_candidates L fuel arrange order uorder g1 g2 = Val cands.

  (* src/recipe_utils.rs:29-67: the result when the function returns.  (What is
     printed is not modelled, except that it is computed without a panic.) *)
  Definition run_workload_internal (w : workload) (prior : ruleset O) (fast allow_empty : bool) (chosen : ruleset O) : Prop :=
    exists g c cands, to_egraph L keep fuel w = Val g /\ compressed prior g c /\ proposed fast c cands /\
      minimized cands prior chosen /\ (allow_empty = false -> chosen <> []).
  (* src/recipe_utils.rs:74-89 *)
  Definition run_workload (w : workload) (prior : ruleset O) (fast : bool) (chosen : ruleset O) : Prop :=
    run_workload_internal w prior fast false chosen.

  (* get_exploratory_rules *)
  Variable exploratory : ruleset O.
  (* src/recipe_utils.rs:100-142 *)
  Definition run_fast_forwarding (w : workload) (prior : ruleset O) (chosen : ruleset O) : Prop :=
    exists g0 allowed other g1 g2 g3 c1 c2, to_egraph L keep fuel w = Val g0 /\
      partition (fun r => Val (is_allowed_rewrite (rlhs r) (rrhs r))) prior = Val (allowed, other) /\
      compressed allowed g0 g1 /\ simple L keep fuel exploratory g1 g2 /\ extracted g1 g2 c1 /\
      compressed (extend prior exploratory) g2 g3 /\ extracted g2 g3 c2 /\
      minimized (extend c1 c2) prior chosen.

  (* src/recipe_utils.rs:166-203 *)
  Inductive recursive_rules (met : metric) (l : wlang) (prior : ruleset O) : nat -> ruleset O -> Prop :=
    | RR_zero : recursive_rules met l prior 0 []
    | RR_more n rec w new : recursive_rules met l prior n rec ->
        sized_workload met (S n) l = Val w ->
        run_workload_internal w (extend rec prior) true (Nat.ltb (S n) 3) new ->
        recursive_rules met l prior (S n) (extend new (extend rec prior)).
End Infer.
