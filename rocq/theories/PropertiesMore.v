(* C59, C62, C73 and C74 for the languages whose variables and constants are treated in
   their own ways: exponentials, trigonometry, solids, maxima and minima. *)
From Coq Require Import NArith ZArith QArith Qcanon.
From Verif Require Import EnumSpec.
From Verif Require Import Base Sexp Reader Lang Number Syntax Rule Ruleset DomainSpec Workload Analysis Egraph EgraphSpec Synth Apply Sched SynthSpec Domains Infer
  DomainSound TotalSpec InferSpec OpsSpec OpsDomains LearnSpec LearntSpec LearntProofs LiveSpec FinishSpec FinishDomains FinishRecursive
  Trig TrigProofs Exp ExpProofs Solid SolidProofs MaxMin MaxMinProofs Recipes FinishLinks FinishExpSpec FinishExp SizedFinish PropertiesSat PropertiesLive PropertiesFinish.
Open Scope string_scope.
Open Scope list_scope.

(* ---- C59: over the solids and over maxima and minima nothing is added; every variable of
   the exponentials is linked with (exp (log v)) and (log (exp v)); in trigonometry the
   analysis adds numbers and negated numbers ---- *)
Theorem C59_more :
  (forall A, learns_only cf_lang cf_arity A A) /\ (forall A, learns_only mm_lang mm_arity A A) /\
  (forall A, learns_only exp_lang exp_arity A (fun o => A o \/ o = EExp \/ o = ELog)) /\
  (forall order A, learns_only (trig_lang order) trig_arity A (fun o => A o \/ o = TNeg \/ exists q, o = TConst (show_bigratio q))).
Proof.
  split; [|split; [|split]].
  - intros A. refine (admits_learns _ _ cf_lang _ _ _ _ cf_eqb_eq _ _ (cf_admits A)); [reflexivity|auto].
  - intros A. refine (admits_learns _ _ mm_lang _ _ _ _ mm_eqb_eq _ _ (mm_admits A)); [reflexivity|auto].
  - intros A. refine (admits_learns _ _ exp_lang _ _ _ _ exp_eqb_eq _ _ (exp_admits _ _ _)); [reflexivity|auto..].
  - intros order A. refine (admits_learns _ _ (trig_lang order) _ _ _ _ trig_eqb_eq _ _ (trig_admits order _ _ _)); [reflexivity|eauto..].
Qed.
Print Assumptions C59_more.

(* ---- C62: what was learned can be saved, loaded and used again ---- *)
Theorem C62_more : ready cf_lang /\ ready mm_lang /\ ready exp_lang /\ forall order, ready (trig_lang order).
Proof.
  split; [exact (readable_ready _ _ _ _ _ cf_readable)|]. split; [exact (readable_ready _ _ _ _ _ mm_readable)|].
  split; [exact (readable_ready _ _ _ _ _ (ex_intro _ _ exp_readable))|]. intros order. exact (readable_ready _ _ _ _ _ (ex_intro _ _ (trig_readable order))).
Qed.
Print Assumptions C62_more.

(* ---- C73: any rules over exponentials ---- *)
Theorem C73_exponentials : forall keep rs, Forall (fun e => rewrite_rule exp_lang (snd e)) rs ->
  (forall part g, incl part rs -> reached exp_lang keep rs g -> goes_on exp_lang keep part g) /\ answers exp_lang keep rs /\ steady exp_lang keep.
Proof. exact exp_goes. Qed.
Print Assumptions C73_exponentials.

(* ---- C74: exponentials, with any prior rules ---- *)
Theorem C74_exponentials :
  let kind r := rewrite_rule exp_lang r /\ general exp_lang (rrhs r) in
  (forall keep w ss ts prior fast, force w = Val ss -> Forall2 (reads exp_lang) ss ts -> length (wvars exp_lang ts) <= 26 ->
    Forall (fun e => kind (snd e)) prior -> all_finish exp_lang keep kind w prior fast) /\
  (forall keep l met prior, plain_names l -> 2 <= length (w_ops l) -> w_vars l <> [] -> length (w_vars l) <= 26 -> names_known exp_lang l ->
    Forall (fun e => kind (snd e)) prior -> recursion_finishes exp_lang keep met l prior).
Proof. exact (conj exp_finishes exp_recursive). Qed.
Print Assumptions C74_exponentials.
(* ---- the recipe for exponentials: whatever was learned from some of its layers, the next
   one can be finished; and there is a result ---- *)
Theorem C74_exponential_recipe :
  (forall rational starting ex, exp_rational = Val rational -> exp_starting = Val starting -> exp_exploratory = Val ex ->
     forall done next rest s, exp_recipe = done ++ next :: rest -> after_layers ex done (extend rational starting, extend [] starting) s ->
     exists w, next = Val w /\ forall keep, forwards exp_lang keep ex w (fst s)) /\
  (forall new, exponential_rules new <-> exists rational starting ex s, exp_rational = Val rational /\ exp_starting = Val starting /\ exp_exploratory = Val ex /\
     after_layers ex exp_recipe (extend rational starting, extend [] starting) s /\ new = snd s) /\
  exists new, exponential_rules new.
Proof. exact (conj exp_recipe_goes_on (conj exp_recipe_same exp_recipe_runs)). Qed.
Print Assumptions C74_exponential_recipe.

(* ---- a rule, a workload and names that meet the hypotheses; in the e-graph of the workload
   a variable is in one class with (exp (log a)) and (log (exp a)) ---- *)
Ltac leaf_tac := apply Rp with []; [apply Forall2_nil|]; exists (Node (EVar "a") []), 0; split; [cbn; tauto|]; split; [reflexivity|]; split; [apply Forall2_nil|eqv_tac].
Ltac node_tac n i := apply Rp with (nch n); [constructor; [|apply Forall2_nil]|exists n, i; split; [cbn; tauto|]; split; [reflexivity|]; split; [repeat constructor; eqv_tac|eqv_tac]].
Definition ex_sum : workload := WSet [Lst [Atom "+"; Atom "a"; Atom "b"]].
Example C73_exp_hyp : Forall (fun e => rewrite_rule exp_lang (snd e) /\ general exp_lang (rrhs (snd e))) [comm EAdd "+"] /\
  (exists ts, force ex_sum = Val [Lst [Atom "+"; Atom "a"; Atom "b"]] /\ Forall2 (reads exp_lang) [Lst [Atom "+"; Atom "a"; Atom "b"]] ts /\ length (wvars exp_lang ts) = 2) /\
  exists g c, to_egraph exp_lang PropertiesSat.ex_keep 5 ex_sum = Val g /\ length (g_nodes g) = 11 /\
    repr g (T (EVar "a") []) c /\ repr g (T EExp [T ELog [T (EVar "a") []]]) c /\ repr g (T ELog [T EExp [T (EVar "a") []]]) c.
Proof.
  split; [|split].
  - constructor; [|constructor]. split; [apply comm_rewrite; exists "+"; reflexivity|apply comm_general; reflexivity].
  - eexists. split; [reflexivity|]. split; [repeat constructor; reflexivity|vm_compute; reflexivity].
  - eexists _, 0. split; [vm_compute; reflexivity|]. split; [reflexivity|].
    split; [leaf_tac|]. split.
    + node_tac (Node EExp [1]) 2. node_tac (Node ELog [0]) 1. leaf_tac.
    + node_tac (Node ELog [3]) 4. node_tac (Node EExp [0]) 3. leaf_tac.
Qed.
Example C74_exp_names : let l := WLang ["1"] ["a"; "b"] [["exp"; "log"]; ["+"; "pow"]] in
  plain_names l /\ 2 <= length (w_ops l) /\ w_vars l <> [] /\ length (w_vars l) <= 26 /\ names_known exp_lang l.
Proof.
  cbv zeta. split; [apply RecipesProofs.plain_namesb_ok; vm_compute; reflexivity|]. split; [cbn; lia|]. split; [discriminate|]. split; [cbn; lia|]. SizedFinish.known_names.
Qed.
(* a workload over +; that a layer of the exponential recipe can be run and learns rules
   is in C72_hyp *)
Example C59_more_hyp : workload_fits exp_lang (over exp_lang exp_arity (fun o => o = EAdd)) ex_sum.
Proof.
  intros ss ts E F. vm_compute in E. injection E as <-. inversion F as [|x1 t1 l1 l2 R1 F1]; subst. inversion F1; subst. constructor; [|constructor].
  assert (t1 = T EAdd [T (EVar "a") []; T (EVar "b") []]) as ->.
  { unfold reads in R1. cbn [l_from_op exp_lang] in R1. assert (X : tree (to_rec (T EAdd [T (EVar "a") []; T (EVar "b") []])) = tree (to_rec t1)).
    { assert (Y : parse_rec exp_from_op (display (Lst [Atom "+"; Atom "a"; Atom "b"])) = Some (to_rec (T EAdd [T (EVar "a") []; T (EVar "b") []]))) by reflexivity. rewrite Y in R1. injection R1 as R1. now rewrite <- R1. }
    rewrite !SyntaxProofs.tree_to_rec in X. now injection X as ->. }
  constructor; [split; [reflexivity|now right]|]. assert (V : forall s, fits (over exp_lang exp_arity (fun o => o = EAdd)) (T (EVar s) [])) by (intros s; constructor; [split; [reflexivity|left; discriminate]|apply Forall_nil]).
  constructor; [apply V|]. constructor; [apply V|apply Forall_nil].
Qed.
