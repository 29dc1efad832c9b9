(* C74: a run of inference, or of fast-forwarding, can always be finished. *)
From Coq Require Import NArith ZArith QArith Qcanon Permutation.
From Verif Require Import Base Sexp Reader Lang Syntax Rule Ruleset DomainSpec BV BVSpec BVText BoolDom PosDom Solid Workload Analysis Egraph EgraphSpec Synth Apply Sched SynthSpec Domains Infer
  DomainSound TotalSpec InferSpec OpsSpec LearnSpec LearntSpec LiveSpec FinishSpec FinishDomains FinishRecursive PropertiesInfer PropertiesSat PropertiesLive.
Open Scope string_scope.
Open Scope list_scope.

(* ---- booleans: prior rules that are identities ---- *)
Theorem C74_booleans : forall keep w ss ts prior fast,
  force w = Val ss -> Forall2 (reads bool_lang) ss ts -> mentions_var bool_to_var ts -> length (wvars bool_lang ts) <= 26 ->
  let kind r := rewrite_rule bool_lang r /\ true_rule bool_lang BVar (fun _ => True) bool_den r in
  Forall (fun e => kind (snd e)) prior ->
  all_finish bool_lang keep kind w prior fast.
Proof. exact bool_finishes. Qed.
Print Assumptions C74_booleans.
(* ---- bitvectors: the same, with a solver that says unsat only of identities ---- *)
Theorem C74_bitvectors : forall w check, (1 <= w <= 64)%N -> unsat_right w check -> forall keep wl ss ts prior fast,
  force wl = Val ss -> Forall2 (reads (bv_lang w check)) ss ts -> mentions_var bv_to_var ts -> length (wvars (bv_lang w check) ts) <= 26 ->
  let kind r := rewrite_rule (bv_lang w check) r /\ true_rule (bv_lang w check) VVar (inr w) (bv_den w) r in
  Forall (fun e => kind (snd e)) prior ->
  all_finish (bv_lang w check) keep kind wl prior fast.
Proof. exact bv_finishes. Qed.
Print Assumptions C74_bitvectors.
(* ---- binary positives and solids: any prior rules ---- *)
Theorem C74_any_rules :
  (forall depth keep w ss ts prior fast, force w = Val ss -> Forall2 (reads (pos_lang depth)) ss ts -> length (wvars (pos_lang depth) ts) <= 26 ->
    let kind r := rewrite_rule (pos_lang depth) r /\ general (pos_lang depth) (rrhs r) in
    Forall (fun e => kind (snd e)) prior -> all_finish (pos_lang depth) keep kind w prior fast) /\
  (forall keep w ss ts prior fast, force w = Val ss -> Forall2 (reads cf_lang) ss ts -> length (wvars cf_lang ts) <= 26 ->
    let kind r := rewrite_rule cf_lang r /\ general cf_lang (rrhs r) in
    Forall (fun e => kind (snd e)) prior -> all_finish cf_lang keep kind w prior fast).
Proof. exact (conj pos_finishes cf_finishes). Qed.
Print Assumptions C74_any_rules.

(* ---- recursive_rules over a language of known names ---- *)
Theorem C74_recursive :
  let named O C (L : lang O C) l := plain_names l /\ 2 <= length (w_ops l) /\ w_vars l <> [] /\ length (w_vars l) <= 26 /\ names_known L l in
  let all O (kind : rule O -> Prop) (prior : ruleset O) := Forall (fun e => kind (snd e)) prior in
  (forall keep l met prior, named _ _ bool_lang l ->
    all _ (fun r => rewrite_rule bool_lang r /\ true_rule bool_lang BVar (fun _ => True) bool_den r) prior -> recursion_finishes bool_lang keep met l prior) /\
  (forall w check, (1 <= w <= 64)%N -> unsat_right w check -> forall keep l met prior, named _ _ (bv_lang w check) l ->
    all _ (fun r => rewrite_rule (bv_lang w check) r /\ true_rule (bv_lang w check) VVar (inr w) (bv_den w) r) prior -> recursion_finishes (bv_lang w check) keep met l prior) /\
  (forall depth keep l met prior, named _ _ (pos_lang depth) l ->
    all _ (fun r => rewrite_rule (pos_lang depth) r /\ general (pos_lang depth) (rrhs r)) prior -> recursion_finishes (pos_lang depth) keep met l prior) /\
  (forall keep l met prior, named _ _ cf_lang l ->
    all _ (fun r => rewrite_rule cf_lang r /\ general cf_lang (rrhs r)) prior -> recursion_finishes cf_lang keep met l prior).
Proof.
  split; [|split; [|split]].
  - intros keep l met prior (P & T & S & Le & K). exact (bool_recursive keep l met prior P T S Le K).
  - intros w check W U keep l met prior (P & T & S & Le & K). exact (bv_recursive w check W U keep l met prior P T S Le K).
  - intros depth keep l met prior (P & T & S & Le & K). exact (pos_recursive depth keep l met prior P T S Le K).
  - intros keep l met prior (P & T & S & Le & K). exact (cf_recursive keep l met prior P T S Le K).
Qed.
Print Assumptions C74_recursive.

(* ---- a workload and rules that meet the hypotheses ---- *)
Lemma comm_general {O C} (L : lang O C) o s : l_to_var L o = None -> general L (rlhs (snd (comm o s))) /\ general L (rrhs (snd (comm o s))).
Proof. intros H. split; intros n o' I E; cbn in I; destruct I as [<-|[<-|[<-|[]]]]; try discriminate E; injection E as <-; exact H. Qed.
Example C74_hyp :
  (exists ts, force ex_and = Val [Lst [Atom "&"; Atom "a"; Atom "b"]] /\ Forall2 (reads bool_lang) [Lst [Atom "&"; Atom "a"; Atom "b"]] ts /\ mentions_var bool_to_var ts /\ length (wvars bool_lang ts) = 2) /\
  Forall (fun e => rewrite_rule bool_lang (snd e) /\ true_rule bool_lang BVar (fun _ => True) bool_den (snd e)) [comm BAnd "&"] /\
  (forall check, Forall (fun e => rewrite_rule (bv_lang 4 check) (snd e) /\ true_rule (bv_lang 4 check) VVar (inr 4) (bv_den 4) (snd e)) [comm VAdd "+"]) /\
  Forall (fun e => rewrite_rule (pos_lang 9) (snd e) /\ general (pos_lang 9) (rrhs (snd e))) [comm PAdd "+"] /\
  Forall (fun e => rewrite_rule cf_lang (snd e) /\ general cf_lang (rrhs (snd e))) [comm CUnion "Union"].
Proof.
  destruct C73_hyp as ((_ & Hb & _) & Hv & Hp & Hc & _). split; [|split; [exact Hb|split; [exact Hv|split]]].
  - eexists. split; [reflexivity|]. split; [repeat constructor; reflexivity|]. split; [|vm_compute; reflexivity]. vm_compute. eauto 10.
  - inversion Hp; subst. constructor; [|constructor]. split; [assumption|]. apply comm_general. reflexivity.
  - inversion Hc; subst. constructor; [|constructor]. split; [assumption|]. apply comm_general. reflexivity.
Qed.
Example C74_names : let l := PropertiesInfer.ex_lang in
  plain_names l /\ 2 <= length (w_ops l) /\ w_vars l <> [] /\ length (w_vars l) <= 26 /\ names_known bool_lang l.
Proof.
  cbv zeta. split; [exact (proj1 PropertiesInfer.C52_hyp)|]. split; [cbn; lia|]. split; [discriminate|]. split; [cbn; lia|]. split; [|split].
  - intros v [<-|[]]. eexists. split; reflexivity.
  - intros v [].
  - intros [|[|i]] ops o E Hi Io; cbn in E; try (injection E as <-; destruct Io as [<-|[]]; eexists; split; reflexivity). destruct i; discriminate E.
Qed.
