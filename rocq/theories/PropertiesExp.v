(* C67: the exponential domain. *)
From Coq Require Import Reals QArith Qcanon Qreals Permutation Lra.
From Verif Require Import Base Sexp Lang Syntax SyntaxProofs Rule RuleSpec Ruleset Workload Analysis AnalysisSpec Generalize Egraph EgraphSpec Synth Apply Sched SynthSpec SafeSpec PartialSpec PartialProofs
  Infer LearnSpec OpsSpec SaveProofs SaveDomains DomainSound Extract Match Minimize ForwardDomains ForwardSpec Domains Script Exp ExpSpec ExpRules ExpProofs PropertiesSat.
Open Scope string_scope.
Open Scope list_scope.

(* constants are read back as they are written *)
Theorem C67_constants : forall q, parse_fraction (exp_name (ENum q)) = Some q /\ exp_from_op (exp_name (ENum q)) 0 = Some (ENum q).
Proof. intros q. split; [exact (parse_show_fraction q)|]. exact (proj1 (proj2 (proj2 (exp_reads (ENum q) eq_refl)))). Qed.
Print Assumptions C67_constants.
(* the root of the meaning is the third root *)
Theorem C67_root : forall x, (0 < x)%R -> exists y, exp_sem ECbrt [x] = Val y /\ (0 < y)%R /\ (y * y * y = x)%R.
Proof. intros x P. exists (rcbrt x). split; [exact (positive_is x _ P)|exact (rcbrt_spec x P)]. Qed.
Print Assumptions C67_root.
(* the 154 rules of the domain are safe *)
Theorem C67_rules : forall e, given_rule e -> safe_rule exp_lang exp_sem (snd e).
Proof. exact given_safe. Qed.
Print Assumptions C67_rules.

Lemma exp_ok : forall env, positive_vars env -> steady exp_lang (at_env exp_lang exp_sem exp_says env) /\ starts exp_lang (at_env exp_lang exp_sem exp_says env).
Proof. intros env P. split; [exact (exp_steady env)|exact (exp_starts env P)]. Qed.
Theorem C67_rewriting : forall keep rs g env, positive_vars env -> Forall given_rule rs ->
  made_of exp_lang keep (rec_defined exp_lang exp_sem env) rs g ->
  forall t u c, repr g t c -> repr g u c -> exists v, value exp_lang exp_sem env t = Val v /\ value exp_lang exp_sem env u = Val v.
Proof.
  intros keep rs g env P Hr M. refine (rewriting_safe exp_lang exp_sem exp_says exp_eqb_eq positive_vars exp_ok keep rs g env P _ M).
  revert Hr. apply Forall_impl. exact given_safe.
Qed.
Print Assumptions C67_rewriting.
Theorem C67_forwarding : forall keep fuel ex w prior new, exp_exploratory = Val ex -> NoDup (map fst prior) -> read_rules exp_lang prior ->
  (forall e, In e prior -> given_rule e \/ safe_rule exp_lang exp_sem (snd e)) ->
  run_fast_forwarding exp_lang keep fuel ex w prior new ->
  forall k r, In (k, r) new -> exists t1 t2, generalizes exp_lang r t1 t2 /\
    forall env, positive_vars env -> workload_defined exp_lang exp_sem w env -> exists v, value exp_lang exp_sem env t1 = Val v /\ value exp_lang exp_sem env t2 = Val v.
Proof.
  intros keep fuel ex w prior new Ex Nd Hp Hs R k r J.
  assert (Sp : Forall (fun e => safe_rule exp_lang exp_sem (snd e)) prior). { apply Forall_forall. intros e He. destruct (Hs e He) as [G|G]; [exact (given_safe e G)|exact G]. }
  assert (Se : Forall (fun e => safe_rule exp_lang exp_sem (snd e)) ex). { apply Forall_forall. intros e He. apply given_safe. exists ex. split; [left; exact Ex|exact He]. }
  destruct (forwarding_safe exp_lang exp_sem exp_says exp_eqb_eq (fun v => eq_refl) exp_arity exp_plain _ exp_readable positive_vars exp_ok
    keep fuel ex w prior new Nd Hp (rules_read _ _ exp_lang _ _ Ex) Sp Se R k r J) as (t1 & t2 & G & _ & _ & V).
  exists t1, t2. split; [exact G|exact V].
Qed.
Print Assumptions C67_forwarding.
Theorem C67_deriving : derives_safely exp_lang exp_sem.
Proof. exact (deriving_safe exp_lang exp_sem exp_says exp_eqb_eq (fun v => eq_refl) exp_steady). Qed.
Print Assumptions C67_deriving.

(* If a quotient by zero has no value, one of the rules is not safe. *)
Definition strict_sem (o : exp_op) (args : list R) : res R :=
  match o, args with EDiv, [x; y] => if Req_EM_T y 0 then Panic else Val (x / y)%R | _, _ => exp_sem o args end.
Definition the {A} (r : res (list A)) : list A := match r with Val m => m | Panic => [] end.
Definition graph (r : res (eg exp_op Qc)) : eg exp_op Qc := match r with Val g => g | Panic => eg_default end.
Definition ex_quotient : rule exp_op := Rule "?a ==> (/ ?a (/ ?a ?a))" [Node (PV "a") []] [Node (PV "a") []; Node (PV "a") []; Node (PV "a") []; Node (EN EDiv) [1; 2]; Node (EN EDiv) [0; 3]] KRhs.
Theorem C67_division_refuted : exists m r, exp_rational = Val m /\ In ("?a ==> (/ ?a (/ ?a ?a))", r) m /\ ~ safe_rule exp_lang strict_sem r.
Proof.
  exists (the exp_rational), ex_quotient. split; [vm_compute; reflexivity|]. split.
  - assert (E : existsb (fun e => String.eqb (fst e) "?a ==> (/ ?a (/ ?a ?a))") (the exp_rational) = true) by (vm_compute; reflexivity).
    assert (F : List.find (fun e => String.eqb (fst e) "?a ==> (/ ?a (/ ?a ?a))") (the exp_rational) = Some ("?a ==> (/ ?a (/ ?a ?a))", ex_quotient)) by (vm_compute; reflexivity).
    exact (proj1 (List.find_some _ _ F)).
  - intros (tl & tr & E1 & E2 & S). injection E1 as <-. specialize (S (fun _ => 0%R) (fun _ => 0%R) 0%R eq_refl).
    unfold pden, fold_rec in S. cbn -[Req_EM_T] in S. destruct (Req_EM_T 0 0) as [_|N]; [discriminate S|elim (N eq_refl)].
Qed.
Print Assumptions C67_division_refuted.

(* ---- learned rules are not safe, and rewriting with them is not sound ---- *)
Definition ex_prior : ruleset exp_op := extend (the exp_rational) (the exp_starting).
Definition ex_explore : ruleset exp_op := the exp_exploratory.
(* the workload of constant_rules, tests/recipes/exponential.rs:22-31 *)
Definition ex_constants : workload := WSet [Lst [Atom "exp"; Atom "0"]; Lst [Atom "exp"; Atom "1"]; Lst [Atom "log"; Atom "1"]; Lst [Atom "sqrt"; Atom "1"]; Lst [Atom "cbrt"; Atom "1"]; Lst [Atom "pow"; Atom "a"; Atom "1"]; Lst [Atom "pow"; Atom "1"; Atom "a"]].
Definition ex_pow : list step := [("(pow ?a ?b) ==> (exp (* ?b (log ?a)))", "(pow a 1)", [("a", "a"); ("b", "1")])].
Definition ex_back : list step := [("(* ?b ?a) ==> (* ?a ?b)", "(* 1 (log a))", [("b", "1"); ("a", "(log a)")]); ("(* ?a 1) ==> ?a", "(* (log a) 1)", [("a", "(log a)")])].
Definition ex_g0 := graph (to_egraph exp_lang ex_keep 30 ex_constants).
Definition ex_g1 := graph (run_script exp_lang ex_keep 30 ex_explore ex_pow ex_g0).
Definition ex_g2 := graph (s_rebuild exp_lang ex_keep 30 ex_g1).
Definition ex_g3 := graph (run_script exp_lang ex_keep 30 (extend ex_prior ex_explore) ex_back ex_g2).
Definition ex_g4 := graph (s_rebuild exp_lang ex_keep 30 ex_g3).
Definition ex_g5 := graph (compress_with exp_lang ex_keep 30 (fun l => l) ex_g2 ex_g4).
Definition ex_cands : ruleset exp_op := the (extract_candidates exp_lang 30 (fun l => l) (class_ids ex_g2) (fun l => l) ex_g2 ex_g5).
Definition ex_new : ruleset exp_op := [nth 0 ex_cands ("", ex_quotient); nth 1 ex_cands ("", ex_quotient)].
Definition ex_chosen : ruleset exp_op := extend ex_prior (rev ex_new).
Definition ex_shrink : list step := ("?a ==> (pow ?a 1)", "a", [("a", "a")]) :: ex_back.
Definition ex_rest : ruleset exp_op := [nth 2 ex_cands ("", ex_quotient); nth 3 ex_cands ("", ex_quotient); nth 0 ex_cands ("", ex_quotient)].
Definition ex_added := match add_sides exp_lang ex_keep 30 eg_default (map snd ex_rest) [] with Val p => p | Panic => (eg_default, []) end.
Definition ex_s1 := graph (run_script exp_lang ex_keep 30 ex_chosen ex_shrink (fst ex_added)).
Definition ex_s2 := graph (s_rebuild exp_lang ex_keep 30 ex_s1).
Definition ex_s3 := graph (compress_with exp_lang ex_keep 30 (fun l => l) (fst ex_added) ex_s2).
Lemma ex_some : extend [] ex_cands <> [].
Proof. intros E. assert (F : length (extend [] ex_cands) = 4) by (vm_compute; reflexivity). rewrite E in F. discriminate F. Qed.

Lemma ex_run : run_fast_forwarding exp_lang ex_keep 30 ex_explore ex_constants ex_prior ex_new.
Proof.
  exists ex_g0, ex_prior, [], ex_g0, ex_g2, ex_g5, [], ex_cands. split; [vm_compute; reflexivity|]. split; [vm_compute; reflexivity|]. split; [|split; [|split; [|split; [|split]]]].
  - exists (fun l => l). split; [intros X; apply Permutation_refl|]. exists ex_g0. split; [exists ex_g0; split; [exists []; apply RS_refl|vm_compute; reflexivity]|vm_compute; reflexivity].
  - apply (script_simple exp_lang exp_eqb_eq ex_keep 30 ex_explore ex_pow ex_g0 ex_g1 ex_g2); vm_compute; reflexivity.
  - exists (class_ids ex_g0), (fun l => l), (fun l => l). split; [split; [apply Permutation_refl|intros X; apply Permutation_refl]|]. split; [intros X; apply Permutation_refl|]. vm_compute. reflexivity.
  - exists (fun l => l). split; [intros X; apply Permutation_refl|]. exists ex_g4. split; [|vm_compute; reflexivity].
    apply (script_simple exp_lang exp_eqb_eq ex_keep 30 (extend ex_prior ex_explore) ex_back ex_g2 ex_g3 ex_g4); vm_compute; reflexivity.
  - exists (class_ids ex_g2), (fun l => l), (fun l => l). split; [split; [apply Permutation_refl|intros X; apply Permutation_refl]|]. split; [intros X; apply Permutation_refl|]. vm_compute. reflexivity.
  - exists (fun l => l), []. split; [intros X; apply Permutation_refl|].
    exists ex_chosen. split; [|vm_compute; reflexivity].
    refine (Rs_more _ _ _ _ _ ([], extend ex_prior (rev ex_new), []) _ _ (Rs_done _ _ _ _ _)).
    apply (Round exp_lang ex_keep 30 _ _ ex_prior [] ex_rest (rev ex_new) [] []); [apply ex_some|vm_compute; reflexivity|].
    exists (fst ex_added), (snd ex_added), ex_s3. split; [vm_compute; reflexivity|]. split; [|vm_compute; reflexivity].
    exists ex_s2. split; [|vm_compute; reflexivity]. exists ex_s1. split; [|vm_compute; reflexivity].
    apply (run_script_ok exp_lang exp_eqb_eq ex_keep 30 ex_chosen ex_shrink). vm_compute. reflexivity.
Qed.
Lemma reads_is : forall O C (L : lang O C) s t r u, TotalSpec.reads L s t -> parse_rec (l_from_op L) (display s) = Some r -> tree r = Val u -> t = u.
Proof. intros O C L s t r u R E U. unfold TotalSpec.reads in R. rewrite E in R. injection R as ->. rewrite tree_to_rec in U. now injection U. Qed.
Lemma positive_defined : forall x y, (0 < x)%R -> defined (positive x y).
Proof. intros x y P. exists y. exact (positive_is x y P). Qed.
(* all terms of the workload have values when the variable is positive *)
Lemma constants_defined : forall env, positive_vars env -> workload_defined exp_lang exp_sem ex_constants env.
Proof.
  intros env P ss ts F R. injection F as <-.
  repeat match goal with R : Forall2 _ (_ :: _) _ |- _ => inversion R as [|? ? ? ? ? ?]; subst; clear R | R : Forall2 _ [] _ |- _ => inversion R; subst; clear R end.
  repeat match goal with R : TotalSpec.reads _ _ ?t |- _ =>
    let u := fresh "u" in
    let E := fresh "E" in
    evar (u : term exp_op); assert (E : t = u); [unfold u; eapply reads_is; [exact R|vm_compute; reflexivity|vm_compute; reflexivity]|]; unfold u in E; clear u; subst t; clear R end.
  repeat (apply Forall_cons || apply Forall_nil); unfold defined; cbn -[positive Q2R exp ln Rpower sqrt rcbrt];
  (eexists; reflexivity) || (apply positive_defined; apply P) || (apply positive_defined; unfold Q2R; cbn; lra).
Qed.
Definition ex_learned : rule exp_op := snd (nth 0 ex_new ("", ex_quotient)).
Definition ex_w2 : workload := WSet [Lst [Atom "*"; Atom "-1"; Atom "-1"]; Lst [Atom "exp"; Atom "0"]; Lst [Atom "log"; Atom "1"]].
Definition ex_chain : list step :=
 [("?a ==> (pow ?a 1)", "-1", [("a", "-1")]);
  ("(pow ?a ?b) ==> (exp (* ?b (log ?a)))", "(pow -1 1)", [("a", "-1"); ("b", "1")]);
  ("(* ?b ?a) ==> (* ?a ?b)", "(* 1 (log -1))", [("b", "1"); ("a", "(log -1)")]);
  ("(* ?a 1) ==> ?a", "(* (log -1) 1)", [("a", "(log -1)")]);
  ("(* (exp ?a) (exp ?b)) ==> (exp (+ ?a ?b))", "(* -1 -1)", [("a", "(log -1)"); ("b", "(log -1)")]);
  ("(* ?a -1) ==> (~ ?a)", "(* -1 -1)", [("a", "-1")]);
  ("(~ ?a) ==> (- 0 ?a)", "(~ -1)", [("a", "-1")]);
  ("(- ?a -1) ==> (+ ?a 1)", "(- 0 -1)", [("a", "0")]);
  ("(+ ?b ?a) ==> (+ ?a ?b)", "(+ 0 1)", [("b", "0"); ("a", "1")]);
  ("(+ ?a 0) ==> ?a", "(+ 1 0)", [("a", "1")]);
  ("(exp 0) ==> 1", "(exp 0)", []);
  ("(log (exp ?a)) ==> ?a", "(log 1)", [("a", "0")]);
  ("(log (exp ?a)) ==> ?a", "(log 1)", [("a", "(+ (log -1) (log -1))")]);
  ("?a ==> (- ?a 0)", "(log -1)", [("a", "(log -1)")]);
  ("(- ?a (+ ?b ?a)) ==> (/ (+ ?b ?b) -2)", "(- (log -1) 0)", [("a", "(log -1)"); ("b", "(log -1)")])].
Definition ex_rules : ruleset exp_op := extend (extend ex_prior ex_explore) ex_new.
Definition ex_h0 := graph (to_egraph exp_lang ex_keep 30 ex_w2).
Definition ex_h1 := graph (run_script exp_lang ex_keep 30 ex_rules ex_chain ex_h0).
Definition ex_h2 := graph (s_rebuild exp_lang ex_keep 30 ex_h1).
Definition ex_num (z : Z) : exp_op := ENum (Q2Qc (inject_Z z)).
(* -1 and the exponential of 0/-2 *)
Definition ex_left : recexpr exp_op := [Node (ex_num (-1)) []].
Definition ex_right : recexpr exp_op := [Node (ex_num 0) []; Node (ex_num (-2)) []; Node EDiv [0; 1]; Node EExp [2]].
Theorem C67_chaining_refuted : exp_exploratory = Val ex_explore /\ (exists m1 m2, exp_rational = Val m1 /\ exp_starting = Val m2 /\ ex_prior = extend m1 m2) /\
  run_fast_forwarding exp_lang ex_keep 30 ex_explore ex_constants ex_prior ex_new /\
  (forall env, positive_vars env -> workload_defined exp_lang exp_sem ex_constants env) /\
  (exists r, In ("?a ==> (pow ?a 1)", r) ex_new /\ ~ safe_rule exp_lang exp_sem r) /\
  forall env, exists g c t u, made_of exp_lang ex_keep (rec_defined exp_lang exp_sem env) ex_rules g /\
    lookup_expr exp_eqb g ex_left = Val (Some c) /\ lookup_expr exp_eqb g ex_right = Val (Some c) /\
    tree ex_left = Val t /\ tree ex_right = Val u /\
    value exp_lang exp_sem env t = Val (-1)%R /\ value exp_lang exp_sem env u = Val 1%R.
Proof.
  split; [vm_compute; reflexivity|]. split; [exists (the exp_rational), (the exp_starting); split; [vm_compute; reflexivity|split; [vm_compute; reflexivity|reflexivity]]|].
  split; [exact ex_run|]. split; [exact constants_defined|]. split.
  - exists ex_learned. split; [left; vm_compute; reflexivity|]. intros (tl & tr & E1 & E2 & S).
    assert (E3 : tree (rlhs ex_learned) = Val (T (PV "a") [])) by (vm_compute; reflexivity). rewrite E3 in E1. injection E1 as <-.
    specialize (S (fun _ => 0%R) (fun _ => 0%R) 0%R eq_refl).
    assert (E4 : rrhs ex_learned = [Node (EN (ex_num 1)) []; Node (PV "a") []; Node (EN EPow) [1; 0]]) by (vm_compute; reflexivity). rewrite E4 in S.
    unfold pden, fold_rec in S. cbn -[positive Rpower Q2R] in S. unfold positive in S. destruct (Rlt_dec 0 0) as [N|_]; [exact (Rlt_irrefl _ N)|discriminate S].
  - intros env. exists ex_h2, 9, (T (ex_num (-1)) []), (T EExp [T EDiv [T (ex_num 0) []; T (ex_num (-2)) []]]). split.
    + apply (Mo_run _ _ _ _ 30 Simple ex_h0); [|exact I|].
      * apply (Mo_workload _ _ _ _ 30 ex_w2 [Lst [Atom "*"; Atom "-1"; Atom "-1"]; Lst [Atom "exp"; Atom "0"]; Lst [Atom "log"; Atom "1"]]
          [[Node (ex_num (-1)) []; Node (ex_num (-1)) []; Node EMul [0; 1]]; [Node (ex_num 0) []; Node EExp [0]]; [Node (ex_num 1) []; Node ELog [0]]]); [vm_compute; reflexivity|vm_compute; reflexivity| |vm_compute; reflexivity].
        constructor; [|constructor; [|constructor; [|constructor]]]; unfold rec_defined, fold_rec; cbn -[positive Q2R exp ln];
          [eexists; reflexivity|eexists; reflexivity|].
        unfold positive. destruct (Rlt_dec 0 (Q2R 1)) as [_|N]; [eexists; reflexivity|]. elim N. unfold Q2R. cbn. lra.
      * apply (script_simple exp_lang exp_eqb_eq ex_keep 30 ex_rules ex_chain ex_h0 ex_h1 ex_h2); vm_compute; reflexivity.
    + split; [vm_compute; reflexivity|]. split; [vm_compute; reflexivity|]. split; [reflexivity|]. split; [reflexivity|]. split.
      * cbn -[Q2R]. apply (f_equal Val). unfold Q2R. cbn. lra.
      * cbn -[Q2R exp rdiv]. apply (f_equal Val). unfold rdiv. destruct (Req_EM_T (Q2R (-2)) 0) as [_|_]; [exact exp_0|].
        replace (Q2R 0 / Q2R (-2))%R with 0%R; [exact exp_0|]. unfold Q2R. cbn. lra.
Qed.
Print Assumptions C67_chaining_refuted.

(* the hypotheses of C67_forwarding and C67_rewriting are met by this run; a positive
   environment *)
Example C67_hyp : exp_exploratory = Val ex_explore /\ NoDup (map fst ex_prior) /\ read_rules exp_lang ex_prior /\ Forall given_rule ex_prior /\
  run_fast_forwarding exp_lang ex_keep 30 ex_explore ex_constants ex_prior ex_new /\
  map fst ex_new = ["?a ==> (pow ?a 1)"; "(pow ?a 1) ==> ?a"] /\
  positive_vars (fun _ => 1%R) /\ workload_defined exp_lang exp_sem ex_constants (fun _ => 1%R) /\
  made_of exp_lang ex_keep (rec_defined exp_lang exp_sem (fun _ => 1%R)) ex_explore ex_g2.
Proof.
  assert (Pos : positive_vars (fun _ => 1%R)) by (intros v; exact Rlt_0_1).
  split; [vm_compute; reflexivity|]. split.
  { assert (E : nodup string_dec (map fst ex_prior) = map fst ex_prior) by (vm_compute; reflexivity). rewrite <- E. apply NoDup_nodup. }
  split. { apply (rules_read _ _ exp_lang (exp_rational_lines ++ exp_starting_lines)). vm_compute. reflexivity. }
  split.
  { assert (E : ex_prior = the exp_rational ++ the exp_starting) by (vm_compute; reflexivity). rewrite E. apply Forall_forall. intros e J. apply in_app_or in J as [J|J].
    - exists (the exp_rational). split; [right; right; vm_compute; reflexivity|exact J].
    - exists (the exp_starting). split; [right; left; vm_compute; reflexivity|exact J]. }
  split; [exact ex_run|]. split; [vm_compute; reflexivity|]. split; [exact Pos|]. split; [exact (constants_defined _ Pos)|].
  apply (Mo_run _ _ _ _ 30 Simple ex_g0); [|exact I|].
  - eapply (Mo_workload _ _ _ _ 30 ex_constants); [reflexivity|vm_compute; reflexivity| |vm_compute; reflexivity].
    repeat (apply Forall_cons || apply Forall_nil); unfold rec_defined, fold_rec; cbn -[positive Q2R exp ln sqrt Rpower rcbrt];
      (eexists; reflexivity) || (unfold positive; match goal with |- context [Rlt_dec 0 ?x] => destruct (Rlt_dec 0 x) as [_|N]; [eexists; reflexivity|elim N; unfold Q2R; cbn; lra] end).
  - apply (script_simple exp_lang exp_eqb_eq ex_keep 30 ex_explore ex_pow ex_g0 ex_g1 ex_g2); vm_compute; reflexivity.
Qed.
