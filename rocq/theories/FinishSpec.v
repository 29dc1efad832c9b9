(* Reference notions for C74: a run of inference can be finished from every state it
   gets into. *)
From Verif Require Import Base Sexp Lang Rule Ruleset Workload Egraph Synth Apply Sched SynthSpec Extract Match Minimize Infer LiveSpec.
Open Scope list_scope.

(* The rounds of rebuilding and of extraction are bounded by fuel in the model; what
   happens for all larger fuel is what happens in the program. *)
Definition matching {O C} (L : lang O C) (fast : bool) f arrange order (c : eg O C) : res (ruleset O) :=
  if fast then fast_cvec_match L f arrange order c else cvec_match L f arrange order c.

(* The next round of minimization, from a state that has candidates left: *)
Definition next_round {O C} (L : lang O C) (keep : eg O C -> nat -> nat -> bool) st (m chosen invalid : ruleset O) : Prop :=
  exists rest selected invalid' g initial, let rules := extend chosen selected in
  (* rules are scored, validated and turned around without a panic, and at least one
     candidate is taken *)
  select L 1 m invalid = Val (rest, selected, invalid') /\ length rest < length m /\
  (* the others are added to a new e-graph *)
  (forall f, 2 <= f -> add_sides L keep f eg_default (map snd rest) [] = Val (g, initial)) /\ reached L keep rules g /\
  (* nothing that is done with the rules chosen so far panics or hangs *)
  (forall g', reached L keep rules g' -> goes_on L keep rules g') /\
  (* whatever comes out, the candidates that are still apart are collected *)
  (forall f out, scheduled L keep f st rules g out -> exists m', keep_apart out initial [] = Val m' /\ length m' <= length rest).

Record finishes {O C} (L : lang O C) (keep : eg O C -> nat -> nat -> bool) (w : workload) (prior : ruleset O) (fast : bool) : Prop := {
  (* the e-graph of the workload is built *)
  fi_start : exists g, forall f, 2 <= f -> to_egraph L keep f w = Val g;
  (* the prior rules can be run on it *)
  fi_compress : forall fuel g order, 2 <= fuel -> to_egraph L keep fuel w = Val g -> anyorder order ->
    goes_on L keep prior g /\ exists f0 c, forall f, f0 <= f -> compress L keep f order prior g c;
  (* candidates are found in whatever they make of it, however it is laid out *)
  fi_propose : forall fuel g c order arrange, 2 <= fuel -> to_egraph L keep fuel w = Val g -> compressed L keep fuel prior g c -> layout c order arrange ->
    exists f0 cands, forall f, f0 <= f -> matching L fast f arrange order c = Val cands;
  (* whatever rounds of minimization were made, the next can be made, and the last *)
  fi_minimize : forall fuel g c cands st m chosen invalid, 2 <= fuel -> to_egraph L keep fuel w = Val g -> compressed L keep fuel prior g c ->
    proposed L fuel fast c cands -> fair st -> rounds L keep fuel st (cands, prior, []) (m, chosen, invalid) ->
    (m <> [] -> next_round L keep st m chosen invalid) /\
    exists f0 chosen' invalid', forall f, f0 <= f -> rounds L keep f st (m, chosen, invalid) ([], chosen', invalid');
  (* a whole run *)
  fi_run : exists f0 new, forall f, f0 <= f -> run_workload_internal L keep f w prior fast true new }.

(* Fast-forwarding: what is done before the first and the second extraction. *)
Definition explored {O C} (L : lang O C) keep fuel (exploratory : ruleset O) w (prior : ruleset O) (g1 g2 : eg O C) : Prop :=
  exists g0 allowed other, to_egraph L keep fuel w = Val g0 /\
    partition (fun r => Val (is_allowed_rewrite L (rlhs r) (rrhs r))) prior = Val (allowed, other) /\
    compressed L keep fuel allowed g0 g1 /\ simple L keep fuel exploratory g1 g2.
(* the candidates of the two extractions *)
Definition forwarded {O C} (L : lang O C) keep fuel (exploratory : ruleset O) w (prior : ruleset O) (c1 c2 : ruleset O) : Prop :=
  exists g1 g2 g3, explored L keep fuel exploratory w prior g1 g2 /\ extracted L fuel g1 g2 c1 /\
    compressed L keep fuel (extend prior exploratory) g2 g3 /\ extracted L fuel g2 g3 c2.
Definition extracting {O C} (L : lang O C) (g1 g2 : eg O C) : Prop :=
  forall order arrange uorder, layout g1 order arrange -> anyorder uorder ->
    exists f0 cands, forall f, f0 <= f -> extract_candidates L f arrange order uorder g1 g2 = Val cands.
Record forwards {O C} (L : lang O C) (keep : eg O C -> nat -> nat -> bool) (exploratory : ruleset O) (w : workload) (prior : ruleset O) : Prop := {
  fo_start : exists g, forall f, 2 <= f -> to_egraph L keep f w = Val g;
  (* the allowed ones of the prior rules are sorted out and run *)
  fo_allowed : exists allowed other, partition (fun r => Val (is_allowed_rewrite L (rlhs r) (rrhs r))) prior = Val (allowed, other) /\
    forall fuel g order, 2 <= fuel -> to_egraph L keep fuel w = Val g -> anyorder order ->
      goes_on L keep allowed g /\ exists f0 g1, forall f, f0 <= f -> compress L keep f order allowed g g1;
  (* then the exploratory rules *)
  fo_explore : forall fuel g allowed other g1, 2 <= fuel -> to_egraph L keep fuel w = Val g ->
    partition (fun r => Val (is_allowed_rewrite L (rlhs r) (rrhs r))) prior = Val (allowed, other) -> compressed L keep fuel allowed g g1 ->
    goes_on L keep exploratory g1 /\ exists f0 g2, forall f, f0 <= f -> simple L keep f exploratory g1 g2;
  (* candidates are extracted; then all rules are run *)
  fo_extract : forall fuel g1 g2 order, 2 <= fuel -> explored L keep fuel exploratory w prior g1 g2 -> anyorder order ->
    extracting L g1 g2 /\ goes_on L keep (extend prior exploratory) g2 /\
    exists f0 g3, forall f, f0 <= f -> compress L keep f order (extend prior exploratory) g2 g3;
  (* and candidates are extracted again *)
  fo_again : forall fuel g1 g2 g3, 2 <= fuel -> explored L keep fuel exploratory w prior g1 g2 ->
    compressed L keep fuel (extend prior exploratory) g2 g3 -> extracting L g2 g3;
  fo_minimize : forall fuel c1 c2 st m chosen invalid, 2 <= fuel -> forwarded L keep fuel exploratory w prior c1 c2 ->
    fair st -> rounds L keep fuel st (extend c1 c2, prior, []) (m, chosen, invalid) ->
    (m <> [] -> next_round L keep st m chosen invalid) /\
    exists f0 chosen' invalid', forall f, f0 <= f -> rounds L keep f st (m, chosen, invalid) ([], chosen', invalid');
  fo_run : exists f0 new, forall f, f0 <= f -> run_fast_forwarding L keep f exploratory w prior new }.
(* Both, for any exploratory rules of the kind of the prior ones; and what a run
   returns can be given to the next run with the prior rules. *)
Definition all_finish {O C} (L : lang O C) (keep : eg O C -> nat -> nat -> bool) (kind : rule O -> Prop) (w : workload) (prior : ruleset O) (fast : bool) : Prop :=
  finishes L keep w prior fast /\
  (forall exploratory, Forall (fun e => kind (snd e)) exploratory -> forwards L keep exploratory w prior) /\
  (forall fuel ae new, NoDup (map fst prior) -> run_workload_internal L keep fuel w prior fast ae new ->
     NoDup (map fst (extend new prior)) /\ Forall (fun e => kind (snd e)) (extend new prior)) /\
  (forall fuel exploratory new, NoDup (map fst prior) -> Forall (fun e => kind (snd e)) exploratory ->
     run_fast_forwarding L keep fuel exploratory w prior new ->
     NoDup (map fst (extend new prior)) /\ Forall (fun e => kind (snd e)) (extend new prior)).

(* recursive_rules: the names of its language are names of variables, constants and
   operators with the numbers of arguments that their places say *)
Definition names_known {O C} (L : lang O C) (l : wlang) : Prop :=
  (forall v, In v (w_vars l) -> exists o, l_from_op L v 0 = Some o /\ l_to_var L o = Some v) /\
  (forall v, In v (w_vals l) -> exists o, l_from_op L v 0 = Some o /\ l_to_var L o = None) /\
  (forall i ops o, nth_error (w_ops l) i = Some ops -> i < 3 -> In o ops -> exists p, l_from_op L o (S i) = Some p /\ l_to_var L p = None).
(* Whatever was learned from the smaller terms, the next step can be finished.  So
   there is a result for every size, unless the step for some size from 3 on learns
   nothing (then the program stops with a panic). *)
Definition recursion_finishes {O C} (L : lang O C) (keep : eg O C -> nat -> nat -> bool) (met : metric) (l : wlang) (prior : ruleset O) : Prop :=
  (forall fuel n rec, recursive_rules L keep fuel met l prior n rec ->
     exists w, sized_workload met (S n) l = Val w /\ finishes L keep w (extend rec prior) true) /\
  (forall n, (exists f0 all, forall f, f0 <= f -> recursive_rules L keep f met l prior n all) \/
     exists m f0 rec w, 2 <= m < n /\ sized_workload met (S m) l = Val w /\
       forall f, f0 <= f -> recursive_rules L keep f met l prior m rec /\ run_workload_internal L keep f w (extend rec prior) true true []).
