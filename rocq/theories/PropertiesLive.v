(* C73: inference neither panics nor hangs. *)
From Coq Require Import NArith ZArith QArith Qcanon Permutation.
From Verif Require Import Base Sexp Reader Lang Syntax Rule Ruleset DomainSpec BV BVSpec BVText BoolDom PosDom Halide Exp Solid Workload Analysis Egraph EgraphSpec Synth Apply Sched SynthSpec Domains
  OpsSpec LearntSpec LiveSpec LiveDomains PropertiesSat.
Open Scope string_scope.
Open Scope list_scope.

(* ---- booleans and bitvectors: true rules ---- *)
Theorem C73_booleans : forall keep rs,
  Forall (fun e => rewrite_rule bool_lang (snd e) /\ true_rule bool_lang BVar (fun _ => True) bool_den (snd e)) rs ->
  (forall part g, incl part rs -> reached bool_lang keep rs g -> goes_on bool_lang keep part g) /\ answers bool_lang keep rs /\ steady bool_lang keep.
Proof. exact bool_live. Qed.
Print Assumptions C73_booleans.
Theorem C73_bitvectors : forall w check keep rs, (1 <= w <= 128)%N ->
  Forall (fun e => rewrite_rule (bv_lang w check) (snd e) /\ true_rule (bv_lang w check) VVar (inr w) (bv_den w) (snd e)) rs ->
  (forall part g, incl part rs -> reached (bv_lang w check) keep rs g -> goes_on (bv_lang w check) keep part g) /\ answers (bv_lang w check) keep rs /\ steady (bv_lang w check) keep.
Proof. exact bv_live. Qed.
Print Assumptions C73_bitvectors.
(* ---- binary positives and solids: any rules ---- *)
Theorem C73_any_rules :
  (forall depth keep rs, Forall (fun e => rewrite_rule (pos_lang depth) (snd e)) rs ->
    (forall part g, incl part rs -> reached (pos_lang depth) keep rs g -> goes_on (pos_lang depth) keep part g) /\ answers (pos_lang depth) keep rs /\ steady (pos_lang depth) keep) /\
  (forall keep rs, Forall (fun e => rewrite_rule cf_lang (snd e)) rs ->
    (forall part g, incl part rs -> reached cf_lang keep rs g -> goes_on cf_lang keep part g) /\ answers cf_lang keep rs /\ steady cf_lang keep).
Proof. exact (conj pos_live cf_live). Qed.
Print Assumptions C73_any_rules.
(* ---- derivability by any rules over Halide and exponentials ---- *)
Theorem C73_derivability :
  (forall check keep rs, Forall (fun e => rewrite_rule (hal_lang check) (snd e)) rs -> answers (hal_lang check) keep rs) /\
  (forall keep rs, Forall (fun e => rewrite_rule exp_lang (snd e)) rs -> answers exp_lang keep rs).
Proof. exact (conj hal_live exp_live). Qed.
Print Assumptions C73_derivability.

(* ---- rules that meet the hypotheses, and an e-graph after a step of a run ---- *)
Definition comm {O} (o : O) (s : string) : string * rule O :=
  let k := ("(" ++ s ++ " ?a ?b) ==> (" ++ s ++ " ?b ?a)")%string in
  (k, Rule.Rule k [Node (PV "a") []; Node (PV "b") []; Node (EN o) [0; 1]] [Node (PV "b") []; Node (PV "a") []; Node (EN o) [0; 1]] KRhs).
Lemma comm_rewrite {O C} (L : lang O C) o s : (exists s', l_from_op L s' 2 = Some o) -> rewrite_rule L (snd (comm o s)).
Proof.
  intros H. assert (R : read_op L o 2) by exact H. split; [|split; [|split]].
  - split; [repeat constructor; exact R|eexists; reflexivity].
  - split; [repeat constructor; exact R|eexists; reflexivity].
  - intros v t I E. cbn in E. injection E as <-. cbn in I |- *. destruct I as [<-|[<-|[]]]; auto.
  - discriminate.
Qed.
Definition ex_and : workload := WSet [Lst [Atom "&"; Atom "a"; Atom "b"]].
Example C73_hyp :
  (rs_new bool_from_op bool_name ["(& ?a ?b) ==> (& ?b ?a)"] = Val [comm BAnd "&"] /\
   Forall (fun e => rewrite_rule bool_lang (snd e) /\ true_rule bool_lang BVar (fun _ => True) bool_den (snd e)) [comm BAnd "&"] /\
   exists g g', to_egraph bool_lang ex_keep 5 ex_and = Val g /\ runs bool_lang ex_keep 5 [snd (comm BAnd "&")] g g' /\
     length (g_nodes g) = 3 /\ length (g_nodes g') = 4 /\ reached bool_lang ex_keep [comm BAnd "&"] g') /\
  (forall check, Forall (fun e => rewrite_rule (bv_lang 4 check) (snd e) /\ true_rule (bv_lang 4 check) VVar (inr 4) (bv_den 4) (snd e)) [comm VAdd "+"]) /\
  Forall (fun e => rewrite_rule (pos_lang 9) (snd e)) [comm PAdd "+"] /\ Forall (fun e => rewrite_rule cf_lang (snd e)) [comm CUnion "Union"] /\
  (forall check, Forall (fun e => rewrite_rule (hal_lang check) (snd e)) [comm HSub "-"]) /\ Forall (fun e => rewrite_rule exp_lang (snd e)) [comm ESub "-"].
Proof.
  assert (G : forall O C (L : lang O C) o s, l_to_var L o = None -> (forall n o', In n (rlhs (snd (comm o s))) -> nop n = EN o' -> l_to_var L o' = None) /\
    (forall n o', In n (rrhs (snd (comm o s))) -> nop n = EN o' -> l_to_var L o' = None)).
  { intros O C L o s H. split; intros n o' I E; cbn in I; destruct I as [<-|[<-|[<-|[]]]]; try discriminate E; injection E as <-; exact H. }
  split; [|split; [|split; [|split; [|split]]]].
  - assert (F : Forall (fun e => rewrite_rule bool_lang (snd e) /\ true_rule bool_lang BVar (fun _ => True) bool_den (snd e)) [comm BAnd "&"]).
    { constructor; [|constructor]. split; [apply comm_rewrite; exists "&"; reflexivity|]. destruct (G _ _ bool_lang BAnd "&" eq_refl) as [G1 G2]. split; [exact G1|]. split; [exact G2|].
      eexists _, _. split; [reflexivity|]. split; [reflexivity|]. intros env _. exists (env "a" && env "b")%bool. split; cbn; destruct (env "a"), (env "b"); reflexivity. }
    split; [vm_compute; reflexivity|]. split; [exact F|].
    assert (X : exists g g', to_egraph bool_lang ex_keep 5 ex_and = Val g /\ runs bool_lang ex_keep 5 [snd (comm BAnd "&")] g g' /\ length (g_nodes g) = 3 /\ length (g_nodes g') = 4).
    { eexists _, _. split; [vm_compute; reflexivity|]. split; [|split].
      - eexists. eapply RS_step.
        + eapply (RSearch _ _ _ _ _ _ _ 2 [("a", 0); ("b", 1)]); [left; reflexivity|]. split.
          { eexists. split; [reflexivity|]. apply PM_node with [0; 1].
            - repeat constructor; (eapply PM_var; [reflexivity|eqv_tac]).
            - exists (Node BAnd [0; 1]), 2. split; [cbn; tauto|]. split; [reflexivity|]. split; [repeat constructor; eqv_tac|eqv_tac]. }
          { repeat constructor. }
        + eapply RS_step; [|apply RS_refl]. eapply RApply; [left; reflexivity|]. vm_compute. reflexivity.
      - reflexivity.
      - reflexivity. }
    destruct X as (g & g' & H1 & H2 & H3 & H4). exists g, g'. repeat (split; [assumption|]).
    apply (R_runs _ _ _ 5 [snd (comm BAnd "&")] g g'); [repeat constructor| |apply incl_refl|exact H2]. apply (R_workload _ _ _ 5 ex_and g); [repeat constructor|exact H1].
  - intros check. constructor; [|constructor]. split; [apply comm_rewrite; exists "+"; reflexivity|]. destruct (G _ _ (bv_lang 4 check) VAdd "+" eq_refl) as [G1 G2]. split; [exact G1|]. split; [exact G2|].
    eexists _, _. split; [reflexivity|]. split; [reflexivity|]. intros env _. exists (smt_add 4 (env "a") (env "b")). split; [reflexivity|]. cbn. unfold smt_add. now rewrite N.add_comm.
  - constructor; [|constructor]. apply comm_rewrite. exists "+". reflexivity.
  - constructor; [|constructor]. apply comm_rewrite. exists "Union". reflexivity.
  - intros check. constructor; [|constructor]. apply comm_rewrite. exists "-". reflexivity.
  - constructor; [|constructor]. apply comm_rewrite. exists "-". reflexivity.
Qed.

(* ---- with a rule that is not true, inference can panic: (~ ?a) ==> ?a over (~ true)
   merges the classes of true and false, whose intervals have nothing in common ---- *)
Definition ex_drop : string * rule bool_op :=
  ("(~ ?a) ==> ?a", Rule.Rule "(~ ?a) ==> ?a" [Node (PV "a") []; Node (EN BNot) [0]] [Node (PV "a") []] KRhs).
Theorem C73_false_rule_refuted : rs_new bool_from_op bool_name ["(~ ?a) ==> ?a"] = Val [ex_drop] /\ rewrite_rule bool_lang (snd ex_drop) /\
  exists g, reached bool_lang ex_keep [ex_drop] g /\ ~ goes_on bool_lang ex_keep [ex_drop] g.
Proof.
  split; [vm_compute; reflexivity|]. split.
  { split; [|split; [|split]].
    - split; [repeat constructor; exists "~"; reflexivity|eexists; reflexivity].
    - split; [repeat constructor|eexists; reflexivity].
    - intros v t I E. cbn in E. injection E as <-. cbn in I |- *. destruct I as [<-|[]]; auto.
    - discriminate. }
  assert (X : exists g, to_egraph bool_lang ex_keep 5 (WSet [Atom "a"; Lst [Atom "~"; Atom "true"]]) = Val g /\ matches g (snd ex_drop) 2 [("a", 1)] /\ apply_one bool_lang ex_keep 5 (snd ex_drop) g 2 [("a", 1)] = Panic).
  { eexists. split; [vm_compute; reflexivity|]. split.
    - split; [|repeat constructor]. eexists. split; [reflexivity|]. apply PM_node with [1].
      + repeat constructor. eapply PM_var; [reflexivity|eqv_tac].
      + exists (Node BNot [1]), 2. split; [cbn; tauto|]. split; [reflexivity|]. split; [repeat constructor; eqv_tac|eqv_tac].
    - vm_compute. reflexivity. }
  destruct X as (g & E & M & P). exists g. split; [apply (R_workload _ _ _ 5 _ g (le_n_S _ _ (le_n_S _ _ (Nat.le_0_l _))) E)|]. intros [_ Go _ _].
  destruct (Go 5 [snd ex_drop] g [(snd ex_drop, 2, [("a", 1)])]) as [A _].
  - repeat constructor.
  - apply incl_refl.
  - eapply RS_step; [|apply RS_refl]. apply RSearch; [left; reflexivity|exact M].
  - destruct (A (snd ex_drop) 2 [("a", 1)] (or_introl eq_refl)) as (g2 & ids & H). specialize (H 5 (le_n_S _ _ (le_n_S _ _ (Nat.le_0_l _)))). rewrite P in H. discriminate H.
Qed.
Print Assumptions C73_false_rule_refuted.
