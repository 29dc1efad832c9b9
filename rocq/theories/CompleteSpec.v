(* Reference notions for the completeness of run_workload. *)
From Coq Require Import NArith.
From Verif Require Import Base Lang Syntax Rule Ruleset RuleSpec Util Analysis AnalysisSpec Egraph EgraphSpec Synth SynthSpec Minimize Workload Infer MatchSpec OpsSpec LearnSpec ForwardSpec.
Open Scope list_scope.

(* prior rulesets: no name twice, rules that can be written, without variables of the
   language in them, and without guards *)
Record fit_prior {O C} (L : lang O C) (ar : O -> nat) (prior : ruleset O) : Prop := {
  fp_names : NoDup (map fst prior);
  fp_read : read_rules L prior;
  fp_plain : plain_rules L ar prior;
  fp_text : Forall (entry_ok (l_from_op L) (l_name L) ar) prior;
  fp_kind : Forall (fun e => rkind (snd e) = KRhs) prior }.

(* every sample gives both terms a value, and the same one; and there are samples *)
Definition indistinct {O C} (L : lang O C) (n : nat) (vs : list (string * cvec C)) (t1 t2 : term O) : Prop :=
  exists v, cvec_term (l_eval L) (l_to_var L) n (var_cvec vs) t1 = Val v /\ cvec_term (l_eval L) (l_to_var L) n (var_cvec vs) t2 = Val v /\
    everywhere v /\ v <> [].
(* in every algebra in which the rules hold, whatever the variables of the language
   are, the two terms have the same value, whatever the variables are *)
Definition entailed {O C} (L : lang O C) (given : rule O -> Prop) (t1 t2 : term O) : Prop :=
  forall V (A : algebra O C V), (exists v, a_dom A v) ->
    (forall env, (forall x, a_dom A (env x)) -> interprets L (set_vars L A env) /\ forall q, given q -> holds L (set_vars L A env) q) ->
    forall env, (forall x, a_dom A (env x)) -> aval (a_sem (set_vars L A env)) t1 = aval (a_sem (set_vars L A env)) t2.
(* each term has a variable that the other has not: neither can be the right side of a
   rule with the other on the left *)
Definition unwritable {O C} (L : lang O C) (u1 u2 : term O) : Prop :=
  ~ incl (tvars (l_to_var L) u1) (tvars (l_to_var L) u2) /\ ~ incl (tvars (l_to_var L) u2) (tvars (l_to_var L) u1).
(* every operator of the rule prints as text that reads back *)
Definition spelt {O C} (L : lang O C) (ar : O -> nat) (r : rule O) : Prop :=
  forall n o, In n (rlhs r ++ rrhs r) -> nop n = EN o -> eov_ok (l_from_op L) (l_name L) ar (EN o).
(* the validator does not accept the rule between the two terms, in one direction *)
Definition rejected {O C} (L : lang O C) (ar : O -> nat) (u1 u2 : term O) : Prop :=
  exists r, from_terms L ar (fun a b => (a = u1 /\ b = u2) \/ (a = u2 /\ b = u1)) r /\ spelt L ar r /\ is_valid L r = Val false.
(* number of nodes, counted up to 2^64 - 1 *)
Definition usize {O} (t : term O) : N := tcost (fun _ => true) t.
(* Either the rules known after the run say that the terms are equal; or the rules
   known before say that they are equal to two terms that are no larger, that no
   sample tells apart, and that are no rule: neither can be written as the right side
   of a rule with the other on the left, or the validator does not accept it. *)
Definition settles {O C} (L : lang O C) (ar : O -> nat) (bad : term O -> term O -> Prop) (before after : rule O -> Prop) (vars : list string) n vs (t1 t2 : term O) : Prop :=
  entailed L after t1 t2 \/
  exists u1 u2, equal_under L before t1 u1 /\ equal_under L before t2 u2 /\ (usize u1 <= usize t1)%N /\ (usize u2 <= usize t2)%N /\
    untold L ar vars n vs u1 u2 /\ bad u1 u2.
Definition no_rule {O C} (L : lang O C) (ar : O -> nat) (u1 u2 : term O) : Prop := unwritable L u1 u2 \/ rejected L ar u1 u2.
Definition covers {O C} (L : lang O C) (ar : O -> nat) (w : workload) (before after : rule O -> Prop) : Prop :=
  exists ts n vs, samples_of L w ts n vs /\
    forall t1 t2, In t1 ts -> In t2 ts -> indistinct L n vs t1 t2 -> settles L ar (no_rule L ar) before after (wvars L ts) n vs t1 t2.
(* run_workload leaves no such pair of terms of the workload behind; and the rules it
   learns can be given to another run *)
Definition complete {O C} (L : lang O C) (ar : O -> nat) : Prop :=
  forall keep fuel w prior fast allow_empty new, fit_prior L ar prior -> run_workload_internal L keep fuel w prior fast allow_empty new ->
    covers L ar w (rule_of prior) (fun r => rule_of prior r \/ rule_of new r) /\ fit_prior L ar (extend new prior).
