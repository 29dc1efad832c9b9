(* C75: the domain of maxima and minima. *)
From Coq Require Import QArith Qcanon Permutation.
From Verif Require Import Base Sexp Lang LangProofs Syntax Rule RuleSpec Ruleset Workload Analysis Generalize Egraph EgraphSpec Synth Apply Sched SynthSpec DomainSound
  Infer OpsSpec SaveDomains LearntProofs Extract Match Minimize ForwardSpec ForwardDomains Domains Script TotalSpec InferSpec SaveProofs LearnSpec LiveSpec FinishSpec MaxMin MaxMinSpec MaxMinProofs PropertiesSat.
Open Scope string_scope.
Open Scope list_scope.

(* lowering max and min to conditionals is right; so are some of the rules about
   conditionals *)
Theorem C75_lowering : exists ex some, mm_exploratory = Val ex /\ rs_new mm_from_op mm_name mm_equations = Val some /\
  Forall (fun e => equation (snd e)) ex /\ Forall (fun e => equation (snd e)) some.
Proof. destruct exploratory_equations as (ex & E1 & F1). destruct prior_equations as (some & E2 & F2). eauto 7. Qed.
Print Assumptions C75_lowering.
(* from rules that are right, true rules about max and min are learned, which can be
   saved and read back *)
Theorem C75_forwarding : forall keep fuel ex w prior new, mm_exploratory = Val ex -> NoDup (map fst prior) -> read_rules mm_lang prior ->
  (forall k q, In (k, q) prior -> equation q) -> run_fast_forwarding mm_lang keep fuel ex w prior new ->
  reloads mm_lang new /\ forall k r, In (k, r) new -> equation r /\ true_of_numbers r /\ ForwardSpec.without lowered (rlhs r) /\ ForwardSpec.without lowered (rrhs r).
Proof. exact layer_equation. Qed.
Print Assumptions C75_forwarding.
(* whatever the rules: what is learned follows from what is given *)
Theorem C75_consequences : lifts mm_lang /\ finds mm_lang.
Proof. split; [exact (readable_lifts _ _ _ _ _ mm_readable)|exact (readable_finds _ _ _ _ _ mm_readable)]. Qed.
Print Assumptions C75_consequences.
(* nothing panics, and runs can be finished *)
Theorem C75_goes_on : forall keep,
  (forall rs, Forall (fun e => rewrite_rule mm_lang (snd e)) rs ->
    (forall part g, incl part rs -> reached mm_lang keep rs g -> goes_on mm_lang keep part g) /\ answers mm_lang keep rs) /\
  let kind r := rewrite_rule mm_lang r /\ general mm_lang (rrhs r) in
  (forall w ss ts prior fast, force w = Val ss -> Forall2 (reads mm_lang) ss ts -> length (wvars mm_lang ts) <= 26 ->
    Forall (fun e => kind (snd e)) prior -> all_finish mm_lang keep kind w prior fast) /\
  (forall l met prior, plain_names l -> 2 <= length (w_ops l) -> w_vars l <> [] -> length (w_vars l) <= 26 -> names_known mm_lang l ->
    Forall (fun e => kind (snd e)) prior -> recursion_finishes mm_lang keep met l prior).
Proof.
  intros keep. split; [|split].
  - intros rs F. destruct (mm_live keep rs F) as (A & B & _). auto.
  - exact (mm_finishes keep).
  - exact (mm_recursive keep).
Qed.
Print Assumptions C75_goes_on.
(* The rules that the test starts from leave only one value, whatever the operators
   mean, and do so in four ways; so every rule follows from them. *)
Theorem C75_rules_refuted :
  Forall (fun lines => incl lines mm_lines /\ exists rs, rs_new mm_from_op mm_name lines = Val rs /\ length rs = length lines /\ collapses rs) collapsing /\
  exists prior, mm_prior = Val prior /\ length prior = 50 /\ collapses prior /\
    forall r, (exists tl tr, tree (rlhs r) = Val tl /\ tree (rrhs r) = Val tr) -> general mm_lang (rlhs r) -> general mm_lang (rrhs r) -> consequence mm_lang (rule_of prior) r.
Proof.
  split; [exact all_collapse|]. destruct prior_collapses as (prior & E & Len & Cl). exists prior. split; [exact E|]. split; [exact Len|]. split; [exact Cl|].
  intros r T G1 G2. exact (collapse_consequence prior r Cl T G1 G2).
Qed.
Print Assumptions C75_rules_refuted.

(* ---- runs ---- *)
Definition get {A} (r : res (list A)) : list A := match r with Val m => m | Panic => [] end.
Definition graph (r : res (eg mm_op Qc)) : eg mm_op Qc := match r with Val g => g | Panic => eg_default end.
Definition ex_prior : ruleset mm_op := Eval vm_compute in get mm_prior.
Definition ex_explore : ruleset mm_op := Eval vm_compute in get mm_exploratory.
Definition ex_work : workload := match mm_work 3 with Val w => w | Panic => wempty end.
Definition lower (x : string) : list step :=
  let p := ("(< " ++ x ++ " " ++ x ++ ")")%string in
  [("(max ?a ?b) ==> (ite (< ?a ?b) ?b ?a)", "(max " ++ x ++ " " ++ x ++ ")", [("a", x); ("b", x)]);
   ("(ite ?c ?t ?e) ==> (case ?c ?t (case (! ?c) ?e endcase))", "(ite " ++ p ++ " " ++ x ++ " " ++ x ++ ")", [("c", p); ("t", x); ("e", x)])]%string.
(* in the order: (max x x) is x; x is a conditional under false, so it is true *)
Definition simplify (x : string) : list step :=
  let p := ("(< " ++ x ++ " " ++ x ++ ")")%string in
  let q := ("(! " ++ p ++ ")")%string in
  let n := ("(case " ++ q ++ " " ++ x ++ " endcase)")%string in
  let n2 := ("(case " ++ p ++ " " ++ x ++ " endcase)")%string in
  [("(case ?c1 ?t (case ?c2 ?t ?rest)) ==> (case (| ?c1 ?c2) ?t ?rest)", "(max " ++ x ++ " " ++ x ++ ")", [("c1", p); ("t", x); ("c2", q); ("rest", "endcase")]);
   ("(| ?a (! ?a)) ==> true", "(| " ++ p ++ " " ++ q ++ ")", [("a", p)]);
   ("(case true ?t ?rest) ==> ?t", "(max " ++ x ++ " " ++ x ++ ")", [("t", x); ("rest", "endcase")]);
   ("(case ?c1 ?t1 (case ?c2 ?t2 ?rest)) ==> (case ?c2 ?t2 (case ?c1 ?t1 ?rest))", x, [("c1", p); ("t1", x); ("c2", q); ("t2", x); ("rest", "endcase")]);
   ("(case ?x (case ?c ?t ?rest) ?outer) ==> (case (& ?x ?c) ?t (case (& ?x (! ?c)) ?rest ?outer))", x, [("x", p); ("c", q); ("t", x); ("rest", n2); ("outer", n)]);
   ("(& ?a (! ?a)) ==> false", "(& " ++ p ++ " " ++ q ++ ")", [("a", p)]);
   ("(case ?c ?t ?rest) ==> (case ?c (know ?c ?t) ?rest)", x, [("c", "false"); ("t", x); ("rest", "(case (& " ++ p ++ " (! " ++ q ++ ")) " ++ n2 ++ " " ++ n ++ ")")]);
   ("?a ==> (! (! ?a))", x, [("a", x)]);
   ("(! ?a) ==> (bool (dummy2 ! ?a))", x, [("a", "(! " ++ x ++ ")")]);
   ("(know ?k (bool ?a)) ==> (know ?k (| (! ?k) (bool ?a)))", "(know false " ++ x ++ ")", [("k", "false"); ("a", "(dummy2 ! (! " ++ x ++ "))")]);
   ("(! false) ==> true", "(! false)", []);
   ("(| true ?a) ==> true", "(| (! false) " ++ x ++ ")", [("a", x)]);
   ("(know ?k ?e) ==> ?e", "(know false " ++ x ++ ")", [("k", "false"); ("e", x)]);
   ("(know ?k ?e) ==> ?e", "(know false " ++ x ++ ")", [("k", "false"); ("e", "true")])]%string.
Definition ex_g0 : eg mm_op Qc := Eval vm_compute in graph (to_egraph mm_lang ex_keep 30 ex_work).
Definition ex_g1 : eg mm_op Qc := Eval vm_compute in graph (run_script mm_lang ex_keep 30 ex_explore (lower "a" ++ lower "b") ex_g0).
Definition ex_g2 : eg mm_op Qc := Eval vm_compute in graph (s_rebuild mm_lang ex_keep 30 ex_g1).
Definition ex_all : ruleset mm_op := Eval vm_compute in extend ex_prior ex_explore.
Definition ex_g3 : eg mm_op Qc := Eval vm_compute in graph (run_script mm_lang ex_keep 30 ex_all (simplify "a" ++ simplify "b") ex_g2).
Definition ex_g4 : eg mm_op Qc := Eval vm_compute in graph (s_rebuild mm_lang ex_keep 30 ex_g3).
Definition ex_g5 : eg mm_op Qc := Eval vm_compute in graph (compress_with mm_lang ex_keep 30 (fun l => l) ex_g2 ex_g4).
Definition ex_c1 : ruleset mm_op := Eval vm_compute in get (extract_candidates mm_lang 30 (fun l => l) (class_ids ex_g0) (fun l => l) ex_g0 ex_g2).
Definition ex_c2 : ruleset mm_op := Eval vm_compute in get (extract_candidates mm_lang 30 (fun l => l) (class_ids ex_g2) (fun l => l) ex_g2 ex_g5).
Definition ex_cands : ruleset mm_op := Eval vm_compute in extend ex_c1 ex_c2.
(* what select takes, and what is left *)
Definition sel (m : ruleset mm_op) : ruleset mm_op * ruleset mm_op * ruleset mm_op := match select mm_lang 1 m [] with Val x => x | Panic => ([], [], []) end.
Definition sides (m : ruleset mm_op) : eg mm_op Qc * list (nat * nat * rule mm_op) := match add_sides mm_lang ex_keep 30 eg_default (map snd m) [] with Val p => p | Panic => (eg_default, []) end.
Definition ex_rest1 : ruleset mm_op := Eval vm_compute in fst (fst (sel ex_cands)).
Definition ex_sel1 : ruleset mm_op := Eval vm_compute in snd (fst (sel ex_cands)).
Definition ex_chosen1 : ruleset mm_op := Eval vm_compute in extend ex_prior ex_sel1.
Definition ex_sides1 := Eval vm_compute in sides ex_rest1.
Definition ex_out1 : eg mm_op Qc := Eval vm_compute in graph (s_rebuild mm_lang ex_keep 30 (fst ex_sides1)).
Definition ex_out1' : eg mm_op Qc := Eval vm_compute in graph (compress_with mm_lang ex_keep 30 (fun l => l) (fst ex_sides1) ex_out1).
Definition ex_m1 : ruleset mm_op := Eval vm_compute in get (keep_apart ex_out1' (snd ex_sides1) []).
Definition ex_rest2 : ruleset mm_op := Eval vm_compute in fst (fst (sel ex_m1)).
Definition ex_sel2 : ruleset mm_op := Eval vm_compute in snd (fst (sel ex_m1)).
Definition ex_chosen2 : ruleset mm_op := Eval vm_compute in extend ex_chosen1 ex_sel2.
Definition ex_shrink : list step :=
  [("(max ?b ?a) ==> ?b", "(max b a)", [("b", "b"); ("a", "a")]); ("(max ?b ?a) ==> ?a", "(max b a)", [("b", "b"); ("a", "a")])].
Definition ex_sides2 := Eval vm_compute in sides ex_rest2.
Definition ex_script2 : eg mm_op Qc := Eval vm_compute in graph (run_script mm_lang ex_keep 30 ex_chosen2 ex_shrink (fst ex_sides2)).
Definition ex_out2 : eg mm_op Qc := Eval vm_compute in graph (s_rebuild mm_lang ex_keep 30 ex_script2).
Definition ex_out2' : eg mm_op Qc := Eval vm_compute in graph (compress_with mm_lang ex_keep 30 (fun l => l) (fst ex_sides2) ex_out2).
Definition ex_m2 : ruleset mm_op := Eval vm_compute in get (keep_apart ex_out2' (snd ex_sides2) []).
Definition ex_new : ruleset mm_op := Eval vm_compute in remove_all ex_chosen2 ex_prior.
Lemma same_order : forall A (l : list A), Permutation l ((fun l => l) l).
Proof. intros A l. apply Permutation_refl. Qed.
Lemma ex_run : run_fast_forwarding mm_lang ex_keep 30 ex_explore ex_work ex_prior ex_new.
Proof.
  exists ex_g0, [], ex_prior, ex_g0, ex_g2, ex_g5, ex_c1, ex_c2. split; [vm_compute; reflexivity|]. split; [vm_compute; reflexivity|]. split; [|split; [|split; [|split; [|split]]]].
  - exists (fun l => l). split; [intros X; apply same_order|]. exists ex_g0. split; [exists ex_g0; split; [exists []; apply RS_refl|vm_compute; reflexivity]|vm_compute; reflexivity].
  - apply (script_simple mm_lang mm_eqb_eq ex_keep 30 ex_explore (lower "a" ++ lower "b") ex_g0 ex_g1 ex_g2); vm_compute; reflexivity.
  - exists (class_ids ex_g0), (fun l => l), (fun l => l). split; [split; [apply same_order|intros X; apply same_order]|]. split; [intros X; apply same_order|]. vm_compute. reflexivity.
  - exists (fun l => l). split; [intros X; apply same_order|]. exists ex_g4. split; [|vm_compute; reflexivity].
    assert (E : extend ex_prior ex_explore = ex_all) by (vm_compute; reflexivity). rewrite E.
    apply (script_simple mm_lang mm_eqb_eq ex_keep 30 ex_all (simplify "a" ++ simplify "b") ex_g2 ex_g3 ex_g4); vm_compute; reflexivity.
  - exists (class_ids ex_g2), (fun l => l), (fun l => l). split; [split; [apply same_order|intros X; apply same_order]|]. split; [intros X; apply same_order|]. vm_compute. reflexivity.
  - exists (fun l => l), []. split; [intros X; apply same_order|].
    assert (Ec : extend ex_c1 ex_c2 = ex_cands) by (vm_compute; reflexivity). rewrite Ec. clear Ec.
    exists ex_chosen2. split; [|vm_compute; reflexivity].
    assert (E1 : extend ex_prior ex_sel1 = ex_chosen1) by (vm_compute; reflexivity). assert (E2 : extend ex_chosen1 ex_sel2 = ex_chosen2) by (vm_compute; reflexivity).
    refine (Rs_more _ _ _ _ _ (ex_m1, ex_chosen1, []) _ _ (Rs_more _ _ _ _ _ ([], ex_chosen2, []) _ _ (Rs_done _ _ _ _ _))).
    + rewrite <- E1. apply (Round mm_lang ex_keep 30 _ _ ex_prior [] ex_rest1 ex_sel1 [] ex_m1); [discriminate|vm_compute; reflexivity|]. rewrite E1.
      exists (fst ex_sides1), (snd ex_sides1), ex_out1'. split; [vm_compute; reflexivity|]. split; [|vm_compute; reflexivity].
      exists ex_out1. split; [|vm_compute; reflexivity]. exists (fst ex_sides1). split; [|vm_compute; reflexivity].
      apply (run_script_ok mm_lang mm_eqb_eq ex_keep 30 ex_chosen1 []). reflexivity.
    + rewrite <- E2. apply (Round mm_lang ex_keep 30 _ _ ex_chosen1 [] ex_rest2 ex_sel2 [] []); [discriminate|vm_compute; reflexivity|]. rewrite E2.
      exists (fst ex_sides2), (snd ex_sides2), ex_out2'. split; [vm_compute; reflexivity|]. split; [|vm_compute; reflexivity].
      exists ex_out2. split; [|vm_compute; reflexivity]. exists ex_script2. split; [|vm_compute; reflexivity].
      apply (run_script_ok mm_lang mm_eqb_eq ex_keep 30 ex_chosen2 ex_shrink). vm_compute. reflexivity.
Qed.
(* From its own rules, on the workload of its first test, the domain can learn that the
   maximum of two numbers is the second, and that it is the first. *)
Theorem C75_test_refuted : exists keep fuel w prior ex new, mm_work 3 = Val w /\ mm_prior = Val prior /\ mm_exploratory = Val ex /\
  run_fast_forwarding mm_lang keep fuel ex w prior new /\ map fst new = ["(max ?b ?a) ==> ?a"; "(max ?b ?a) ==> ?b"] /\
  forall k r, In (k, r) new -> ~ true_of_numbers r.
Proof.
  exists ex_keep, 30, ex_work, ex_prior, ex_explore, ex_new. split; [vm_compute; reflexivity|]. split; [vm_compute; reflexivity|]. split; [vm_compute; reflexivity|].
  split; [exact ex_run|]. split; [reflexivity|]. intros k r J (tl & tr & E1 & E2 & H).
  destruct J as [J|[J|[]]]; injection J as <- <-; vm_compute in E1, E2; injection E1 as <-; injection E2 as <-.
  - destruct (H (fun x _ => x) (fun v => if String.eqb v "a" then 0%Qc else 1%Qc)) as (x & X1 & X2). vm_compute in X1, X2. congruence.
  - destruct (H (fun x _ => x) (fun v => if String.eqb v "a" then 1%Qc else 0%Qc)) as (x & X1 & X2). vm_compute in X1, X2. congruence.
Qed.
Print Assumptions C75_test_refuted.

(* ---- with the rules that are right ---- *)
Definition good_prior : ruleset mm_op := Eval vm_compute in get (rs_new mm_from_op mm_name mm_equations).
Definition good_g1 : eg mm_op Qc := Eval vm_compute in graph (run_script mm_lang ex_keep 30 ex_explore (lower "a") ex_g0).
Definition good_g2 : eg mm_op Qc := Eval vm_compute in graph (s_rebuild mm_lang ex_keep 30 good_g1).
Definition good_all : ruleset mm_op := Eval vm_compute in extend good_prior ex_explore.
Definition good_g3 : eg mm_op Qc := Eval vm_compute in graph (run_script mm_lang ex_keep 30 good_all (firstn 3 (simplify "a")) good_g2).
Definition good_g4 : eg mm_op Qc := Eval vm_compute in graph (s_rebuild mm_lang ex_keep 30 good_g3).
Definition good_g5 : eg mm_op Qc := Eval vm_compute in graph (compress_with mm_lang ex_keep 30 (fun l => l) good_g2 good_g4).
Definition good_cands : ruleset mm_op := Eval vm_compute in get (extract_candidates mm_lang 30 (fun l => l) (class_ids good_g2) (fun l => l) good_g2 good_g5).
Definition good_rest : ruleset mm_op := Eval vm_compute in fst (fst (sel good_cands)).
Definition good_sel : ruleset mm_op := Eval vm_compute in snd (fst (sel good_cands)).
Definition good_chosen : ruleset mm_op := Eval vm_compute in extend good_prior good_sel.
Definition good_shrink : list step := [("(max ?a ?a) ==> ?a", "(max a a)", [("a", "a")])].
Definition good_sides := Eval vm_compute in sides good_rest.
Definition good_script : eg mm_op Qc := Eval vm_compute in graph (run_script mm_lang ex_keep 30 good_chosen good_shrink (fst good_sides)).
Definition good_out : eg mm_op Qc := Eval vm_compute in graph (s_rebuild mm_lang ex_keep 30 good_script).
Definition good_out' : eg mm_op Qc := Eval vm_compute in graph (compress_with mm_lang ex_keep 30 (fun l => l) (fst good_sides) good_out).
Definition good_new : ruleset mm_op := Eval vm_compute in remove_all good_chosen good_prior.
Lemma good_run : run_fast_forwarding mm_lang ex_keep 30 ex_explore ex_work good_prior good_new.
Proof.
  exists ex_g0, [], good_prior, ex_g0, good_g2, good_g5, [], good_cands. split; [vm_compute; reflexivity|]. split; [vm_compute; reflexivity|]. split; [|split; [|split; [|split; [|split]]]].
  - exists (fun l => l). split; [intros X; apply same_order|]. exists ex_g0. split; [exists ex_g0; split; [exists []; apply RS_refl|vm_compute; reflexivity]|vm_compute; reflexivity].
  - apply (script_simple mm_lang mm_eqb_eq ex_keep 30 ex_explore (lower "a") ex_g0 good_g1 good_g2); vm_compute; reflexivity.
  - exists (class_ids ex_g0), (fun l => l), (fun l => l). split; [split; [apply same_order|intros X; apply same_order]|]. split; [intros X; apply same_order|]. vm_compute. reflexivity.
  - exists (fun l => l). split; [intros X; apply same_order|]. exists good_g4. split; [|vm_compute; reflexivity].
    assert (E : extend good_prior ex_explore = good_all) by (vm_compute; reflexivity). rewrite E.
    apply (script_simple mm_lang mm_eqb_eq ex_keep 30 good_all (firstn 3 (simplify "a")) good_g2 good_g3 good_g4); vm_compute; reflexivity.
  - exists (class_ids good_g2), (fun l => l), (fun l => l). split; [split; [apply same_order|intros X; apply same_order]|]. split; [intros X; apply same_order|]. vm_compute. reflexivity.
  - exists (fun l => l), []. split; [intros X; apply same_order|]. assert (Ec : extend [] good_cands = good_cands) by (vm_compute; reflexivity). rewrite Ec. clear Ec.
    exists good_chosen. split; [|vm_compute; reflexivity]. assert (E1 : extend good_prior good_sel = good_chosen) by (vm_compute; reflexivity).
    refine (Rs_more _ _ _ _ _ ([], good_chosen, []) _ _ (Rs_done _ _ _ _ _)).
    rewrite <- E1. apply (Round mm_lang ex_keep 30 _ _ good_prior [] good_rest good_sel [] []); [discriminate|vm_compute; reflexivity|]. rewrite E1.
    exists (fst good_sides), (snd good_sides), good_out'. split; [vm_compute; reflexivity|]. split; [|vm_compute; reflexivity].
    exists good_out. split; [|vm_compute; reflexivity]. exists good_script. split; [|vm_compute; reflexivity].
    apply (run_script_ok mm_lang mm_eqb_eq ex_keep 30 good_chosen good_shrink). vm_compute. reflexivity.
Qed.
(* The hypotheses of C75_forwarding and C75_goes_on are met: from the rules of
   mm_equations it is learned that the maximum of a number and itself is the number. *)
Ltac read_tac := split; [repeat apply Forall_cons; [..|apply Forall_nil]; cbn [nop]; first [reflexivity|match goal with |- read_op _ ?o _ => exists (mm_name o); vm_compute; reflexivity end]|eexists; reflexivity].
Ltac rewrites_tac := split; [read_tac|split; [read_tac|split; [|discriminate]]]; intros v t J E; vm_compute in E; injection E as <-; cbn in J |- *; intuition auto.
Example C75_hyp : mm_work 3 = Val ex_work /\ mm_exploratory = Val ex_explore /\ NoDup (map fst good_prior) /\ read_rules mm_lang good_prior /\
  (forall k q, In (k, q) good_prior -> equation q) /\ run_fast_forwarding mm_lang ex_keep 30 ex_explore ex_work good_prior good_new /\
  map fst good_new = ["?a ==> (max ?a ?a)"; "(max ?a ?a) ==> ?a"] /\
  Forall (fun e => rewrite_rule mm_lang (snd e) /\ general mm_lang (rrhs (snd e))) good_prior /\ Forall (fun e => rewrite_rule mm_lang (snd e)) ex_prior.
Proof.
  assert (Eg : rs_new mm_from_op mm_name mm_equations = Val good_prior) by (vm_compute; reflexivity).
  split; [vm_compute; reflexivity|]. split; [vm_compute; reflexivity|]. split; [|split; [|split; [|split; [exact good_run|split; [reflexivity|]]]]].
  - assert (E : nodup string_dec (map fst good_prior) = map fst good_prior) by (vm_compute; reflexivity). rewrite <- E. apply NoDup_nodup.
  - exact (rules_read _ _ mm_lang _ _ Eg).
  - intros k q J. destruct prior_equations as (m & E & F). rewrite Eg in E. injection E as <-. rewrite Forall_forall in F. exact (F _ J).
  - split; (repeat apply Forall_cons; [..|apply Forall_nil]).
    1-21: split; [rewrites_tac|]. 22-71: rewrites_tac.
    all: intros n o Hn En; cbn in Hn; repeat (destruct Hn as [<-|Hn]; [cbn in En; try discriminate En; injection En as <-; reflexivity|]); destruct Hn.
Qed.
