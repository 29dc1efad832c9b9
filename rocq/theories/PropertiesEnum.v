(* Properties C01-C15: terms, patterns, filters, workloads, enumeration.
   The specification vocabulary (sat, fill, gen, alpha, ...) is in EnumSpec.v. *)
From Coq Require Import Permutation.
From Verif Require Import Base Lines Sexp Reader Pattern Filter Workload Recipe EnumSpec.
From Verif Require Import SexpProofs CanonProofs PatternProofs FilterProofs WorkloadProofs ReaderProofs RecipeProofs.
Open Scope string_scope.
Open Scope list_scope.

(* A small workload used to show that hypotheses are met. *)
Definition ex_x := Atom "x".
Definition ex_plus := Lst [Atom "+"; Atom "e"; Atom "e"].
Definition ex_grammar := WSet [ex_x; Atom "y"; ex_plus].
Definition ex_w := WFilter (MetricLt Atoms 6) (WPlug ex_grammar "e" ex_grammar).

(* ---------------- C01 ---------------- *)

(* For every workload built from terms without empty lists and every filter,
   forcing the filtered workload gives exactly the satisfying terms, in order
   and with multiplicity. *)
Theorem C01_filter_workload : forall w f, wproper w -> syms_ok f ->
  exists ts us, force w = Val ts /\ force (wfilter w f) = Val us /\ keeps (sat f) ts us.
Proof. exact wfilter_keeps. Qed.
Print Assumptions C01_filter_workload.
Example C01_hyp : wproper ex_w /\ syms_ok (MetricLt Depth 3) /\
  exists us, force (wfilter ex_w (MetricLt Depth 3)) = Val us /\ length us = 6.
Proof. split; [repeat constructor|]. split; [exact I|]. vm_compute. eauto. Qed.

(* The same against the code's own predicate, for every filter (also with
   repeated symbols in Canon). *)
Theorem C01_filter_pushdown : forall w f, wproper w ->
  exists ts us, force w = Val ts /\ force (wfilter w f) = Val us /\
    us = List.filter (fun t => match test f t with Val b => b | Panic => false end) ts /\
    (forall t, In t ts -> exists b, test f t = Val b).
Proof. exact wfilter_test. Qed.
Print Assumptions C01_filter_pushdown.

(* Without the assumption on empty lists: whenever both the rewritten and the
   naive workload can be forced they agree. *)
Theorem C01_filter_agrees_when_both_return : forall w f us ts,
  force (wfilter w f) = Val us -> force (WFilter f w) = Val ts -> us = ts.
Proof. intros w f us ts H1 H2. exact (wfilter_agrees w f ts us H1 H2). Qed.
Print Assumptions C01_filter_agrees_when_both_return.
Example C01_both_hyp : exists us,
  force (wfilter (WPlug (WSet [Lst []; ex_x]) "x" (WSet [ex_plus])) (MetricLt Atoms 9)) = Val us /\
  force (WFilter (MetricLt Atoms 9) (WPlug (WSet [Lst []; ex_x]) "x" (WSet [ex_plus]))) = Val us /\ us <> [].
Proof. vm_compute. eexists. repeat split. discriminate. Qed.

(* Pushing a filter into the pegs can make a workload panic that does not
   panic otherwise: Depth of the peg () is undefined although no produced term
   contains it. *)
Theorem C01_pushdown_introduces_panic_refuted :
  exists w f ts, force (WFilter f w) = Val ts /\ force (wfilter w f) = Panic.
Proof.
  exists (WPlug (WSet [ex_x]) "e" (WSet [Lst []])), (MetricLt Depth 3), [ex_x].
  split; reflexivity.
Qed.
Print Assumptions C01_pushdown_introduces_panic_refuted.

(* ---------------- C02 ---------------- *)

Theorem C02_monotonic_filters : forall f s t,
  is_monotonic f = true -> subterm s t -> test f t = Val true -> test f s = Val true.
Proof. exact is_monotonic_test. Qed.
Print Assumptions C02_monotonic_filters.

Theorem C02_monotonic_sat : forall f s t, syms_ok f ->
  is_monotonic f = true -> subterm s t -> sat f t -> sat f s.
Proof.
  intros f s t Hok Hm Hs Ht. apply ptest_sat in Ht; [|assumption].
  apply ptest_sat; [assumption|]. exact (is_monotonic_ptest f s t Hm Hs Ht).
Qed.
Print Assumptions C02_monotonic_sat.
Example C02_hyp :
  let f := FAnd [MetricLt Atoms 4; Excludes (PLit "y")] in
  is_monotonic f = true /\ subterm ex_x (Lst [Atom "+"; ex_x; Atom "z"]) /\
  test f (Lst [Atom "+"; ex_x; Atom "z"]) = Val true.
Proof. repeat split. eapply sub_in; [right; left; reflexivity|constructor]. Qed.
(* the classification is not trivial: Contains is not monotonic and is not
   classified so *)
Example C02_contrast : is_monotonic (Contains (PLit "y")) = false /\
  test (Contains (PLit "y")) (Lst [ex_x; Atom "y"]) = Val true /\
  test (Contains (PLit "y")) ex_x = Val false.
Proof. repeat split. Qed.

(* ---------------- C03 ---------------- *)

Theorem C03_and_is_conjunction : forall f g t,
  test (fand f g) t = Val true <-> test f t = Val true /\ test g t = Val true.
Proof. exact fand_true. Qed.
Print Assumptions C03_and_is_conjunction.

Theorem C03_and_rejects : forall f g t, proper t = true ->
  (test (fand f g) t = Val false <-> test f t = Val false \/ test g t = Val false).
Proof.
  intros f g t Hp. rewrite !test_proper, fand_ptest by assumption.
  destruct (ptest f t), (ptest g t); simpl; intuition congruence.
Qed.
Print Assumptions C03_and_rejects.
Example C03_hyp :
  fand (MetricLt Atoms 3) (FAnd [MetricLt Atoms 5; Excludes (PLit "y")]) =
    FAnd [MetricLt Atoms 5; Excludes (PLit "y"); MetricLt Atoms 3] /\
  fand (FAnd [MetricLt Atoms 3]) (MetricLt Atoms 5) = FAnd [MetricLt Atoms 3].
Proof. split; reflexivity. Qed.

(* ---------------- C04 ---------------- *)

(* The results of plugging are exactly the independent replacements ... *)
Theorem C04_plug_exact : forall name pegs t u, proper t = true ->
  (In u (plug name pegs t) <-> fill (fun p => In p pegs) name t u).
Proof. exact plug_exact. Qed.
Print Assumptions C04_plug_exact.

(* ... there are |pegs|^occurrences of them ... *)
Theorem C04_plug_count : forall name pegs t, proper t = true ->
  length (plug name pegs t) = length pegs ^ occurrences name t.
Proof. exact plug_length. Qed.
Print Assumptions C04_plug_count.

(* ... and none twice when the pegs are distinct. *)
Theorem C04_plug_distinct : forall name pegs t,
  NoDup pegs -> NoDup (plug name pegs t).
Proof. exact plug_NoDup. Qed.
Print Assumptions C04_plug_distinct.
Example C04_hyp : proper ex_plus = true /\ NoDup [ex_x; Atom "y"; Lst [Atom "-"; ex_x]] /\
  occurrences "e" ex_plus = 2 /\
  length (plug "e" [ex_x; Atom "y"; Lst [Atom "-"; ex_x]] ex_plus) = 9.
Proof.
  repeat split. repeat constructor; simpl; intuition discriminate.
Qed.

(* At the level of workloads. *)
Theorem C04_plug_workload : forall w name pegs w' ts ps,
  wproper w -> wproper pegs -> force w = Val ts -> force pegs = Val ps -> pegs <> WSet [] ->
  wplug w name pegs = Val w' ->
  exists us, force w' = Val us /\
    forall u, In u us <-> exists t, In t ts /\ fill (fun p => In p ps) name t u.
Proof.
  intros w name pegs w' ts ps Hw Hp Hfw Hfp Hne E.
  exists (flat_map (plug name ps) ts). split.
  - apply (wplug_exact w name pegs w' ts ps Hw Hp Hfw Hfp); [intros; contradiction|exact E].
  - intros u. rewrite in_flat_map. apply force_pforce in Hfw. subst ts.
    destruct (force_proper w Hw) as [_ F]. rewrite Forall_forall in F. split.
    + intros [t [Ht Hu]]. exists t. split; [assumption|]. now apply plug_sound.
    + intros [t [Ht Hu]]. exists t. split; [assumption|]. apply plug_complete; auto.
Qed.
Print Assumptions C04_plug_workload.
Example C04_workload_hyp : exists w', wplug ex_grammar "e" ex_w = Val w' /\
  exists us, force w' = Val us /\ length us = 102.
Proof. eexists. split; [reflexivity|]. vm_compute. eauto. Qed.

(* A term containing () is dropped by plug even when the name does not occur. *)
Theorem C04_empty_list_refuted : exists name pegs t,
  fill (fun p => In p pegs) name t t /\ ~ In t (plug name pegs t).
Proof.
  exists "e", [ex_x], (Lst []). split; [repeat constructor|]. intros [].
Qed.
Print Assumptions C04_empty_list_refuted.

(* ---------------- C05 ---------------- *)

Theorem C05_empty_plug : forall w name,
  wproper w -> word name -> name <> "*" -> starts_q name = false ->
  exists w' ts us, wplug w name (WSet []) = Val w' /\ force w = Val ts /\ force w' = Val us /\
    keeps (fun t => ~ occurs name t) ts us.
Proof.
  intros w name Hw Hn Hs Hq.
  exists (wfilter w (Excludes (PLit name))), (pforce w), (pforce (wfilter w (Excludes (PLit name)))).
  split; [unfold wplug; now rewrite pattern_from_word|].
  split; [now apply force_proper|]. split; [now apply force_proper, wproper_wfilter|].
  rewrite pforce_wfilter. apply keeps_filter. intros t _. cbn [ptest].
  rewrite negb_true_iff, <- contains_lit. destruct (contains (PLit name) t); intuition congruence.
Qed.
Print Assumptions C05_empty_plug.
Example C05_hyp : wproper ex_grammar /\ word "e" /\ "e" <> "*" /\ starts_q "e" = false /\
  exists w', wplug ex_grammar "e" (WSet []) = Val w' /\ force w' = Val [ex_x; Atom "y"].
Proof.
  repeat split; try discriminate; try (repeat constructor; fail).
  eexists. split; reflexivity.
Qed.

(* The name is parsed as a pattern: plugging nothing for "*" drops every term,
   and so does a name starting with a question mark. *)
Theorem C05_pattern_names_refuted : exists w name w' ts,
  word name /\ wplug w name (WSet []) = Val w' /\ force w = Val ts /\
  (forall t, In t ts -> ~ occurs name t) /\ ts <> [] /\ force w' = Val [].
Proof.
  exists (WSet [Lst [Atom "+"; ex_x; ex_x]]), "*".
  eexists. eexists. split; [split; [discriminate|reflexivity]|].
  split; [reflexivity|]. split; [reflexivity|]. split.
  - intros t [<-|[]] H. unfold occurs in H; simpl in H; intuition discriminate.
  - split; [discriminate|reflexivity].
Qed.
Print Assumptions C05_pattern_names_refuted.

(* Unlike a general plug, the empty plug keeps terms containing (). *)
Theorem C05_empty_list_differs_refuted : exists w name w',
  wplug w name (WSet []) = Val w' /\ force w' <> force (WPlug w name (WSet [])).
Proof.
  exists (WSet [Lst []]), "e". eexists. split; [reflexivity|]. vm_compute. discriminate.
Qed.
Print Assumptions C05_empty_list_differs_refuted.

(* ---------------- C06 ---------------- *)

Theorem C06_append_union : forall a b xs ys,
  force a = Val xs -> force b = Val ys ->
  exists zs, force (wappend a b) = Val zs /\ Permutation zs (xs ++ ys) /\
    (not_append a = false \/ not_append b = true -> zs = xs ++ ys).
Proof. exact force_wappend. Qed.
Print Assumptions C06_append_union.

Theorem C06_append_panics_only_from_parts : forall a b zs,
  force (wappend a b) = Val zs -> (exists xs, force a = Val xs) /\ (exists ys, force b = Val ys).
Proof. exact force_wappend_val. Qed.
Print Assumptions C06_append_panics_only_from_parts.
Example C06_hyp : exists xs ys, force ex_w = Val xs /\ force ex_grammar = Val ys /\
  xs <> [] /\ ys <> [] /\ force (wappend ex_w ex_grammar) = Val (xs ++ ys).
Proof. vm_compute. eexists. eexists. repeat split; discriminate. Qed.

(* Prepending a non-append to an append puts its terms last. *)
Theorem C06_order_refuted : exists a b xs ys zs,
  force a = Val xs /\ force b = Val ys /\ force (wappend a b) = Val zs /\ zs <> xs ++ ys.
Proof.
  exists (WSet [ex_x]), (WAppend [WSet [Atom "y"]]).
  do 3 eexists. repeat split. discriminate.
Qed.
Print Assumptions C06_order_refuted.

(* ---------------- C07 ---------------- *)

Theorem C07_substitute : forall w sub atom ts subs,
  force w = Val ts -> Forall (fun t => proper t = true) ts -> force sub = Val subs ->
  exists w', substitute w sub atom = Val w' /\
             force w' = Val (flat_map (fun s => map (subst_atom atom s) ts) subs).
Proof. exact substitute_exact. Qed.
Print Assumptions C07_substitute.
Example C07_hyp : exists w', substitute (WSet [ex_plus]) (WSet [ex_x; Lst [Atom "-"; ex_x]]) "e" = Val w' /\
  force w' = Val [Lst [Atom "+"; ex_x; ex_x];
                  Lst [Atom "+"; Lst [Atom "-"; ex_x]; Lst [Atom "-"; ex_x]]].
Proof. eexists. split; reflexivity. Qed.

(* ---------------- C08, C09 ---------------- *)

Theorem C08_iter_metric_sound : forall wkld G a m n,
  wproper wkld -> force wkld = Val G -> word a -> Forall (productive m a) G -> 1 <= n ->
  exists w ts, iter_metric wkld a m n = Val w /\ force w = Val ts /\
    forall t, In t ts -> gen G a t /\ size m t <= n /\ ~ occurs a t.
Proof.
  intros wkld G a m [|n] Hw HG Ha Hp Hn; [lia|]. apply force_pforce in HG. subst G.
  destruct (iter_metric_exact wkld a m n Hw) as [w [ts [E1 [E2 H]]]]; [|assumption|].
  - intros _. unfold pattern_from_str. rewrite parse_word by assumption. eauto.
  - exists w, ts. split; [assumption|]. split; [assumption|]. intros t Ht. apply H in Ht as [Hg Hs].
    split; [assumption|]. split; [assumption|]. destruct Hg as [k Hg]. exact (gen_at_no_hole _ _ _ _ Hg).
Qed.
Print Assumptions C08_iter_metric_sound.

Theorem C09_iter_metric_complete : forall wkld G a m n,
  wproper wkld -> force wkld = Val G -> word a -> Forall (productive m a) G -> 1 <= n ->
  exists w ts, iter_metric wkld a m n = Val w /\ force w = Val ts /\
    forall t, gen G a t -> size m t <= n -> In t ts.
Proof.
  intros wkld G a m [|n] Hw HG Ha Hp Hn; [lia|]. apply force_pforce in HG. subst G.
  destruct (iter_metric_exact wkld a m n Hw) as [w [ts [E1 [E2 H]]]]; [|assumption|].
  - intros _. unfold pattern_from_str. rewrite parse_word by assumption. eauto.
  - exists w, ts. split; [assumption|]. split; [assumption|]. intros t Hg Hs. apply H. auto.
Qed.
Print Assumptions C09_iter_metric_complete.
Example C08_hyp : wproper ex_grammar /\ force ex_grammar = Val [ex_x; Atom "y"; ex_plus] /\ word "e" /\
  (forall m, Forall (productive m "e") [ex_x; Atom "y"; ex_plus]) /\
  exists w, iter_metric ex_grammar "e" Depth 3 = Val w /\ exists ts, force w = Val ts /\ length ts = 38.
Proof.
  split; [repeat constructor|]. split; [reflexivity|]. split; [split; [discriminate|reflexivity]|]. split.
  - intros m. constructor; [|constructor; [|constructor; [|constructor]]]; intros H.
    + unfold occurs in H; simpl in H; intuition discriminate.
    + unfold occurs in H; simpl in H; intuition discriminate.
    + split; [discriminate|]. destruct m; simpl; auto.
  - eexists. split; [reflexivity|]. vm_compute. eauto.
Qed.

(* Grammars with a production that does not grow the metric break both
   directions: with productions x and (E), counting atoms, the term ((x)) has
   one atom and is missing, and the term ((E)) with a placeholder is produced. *)
Theorem C08_unproductive_refuted : exists wkld G a m n w ts t,
  wproper wkld /\ force wkld = Val G /\ 1 <= n /\
  iter_metric wkld a m n = Val w /\ force w = Val ts /\ In t ts /\ occurs a t.
Proof.
  exists (WSet [ex_x; Lst [Atom "e"]]). do 1 eexists. exists "e", Atoms, 1.
  do 2 eexists. exists (Lst [Lst [Atom "e"]]).
  split; [repeat constructor|]. split; [reflexivity|]. split; [lia|].
  split; [reflexivity|]. split; [vm_compute; reflexivity|]. split; [simpl; auto|]. now left.
Qed.
Print Assumptions C08_unproductive_refuted.

Theorem C09_unproductive_refuted : exists wkld G a m n w ts t,
  wproper wkld /\ force wkld = Val G /\ 1 <= n /\
  iter_metric wkld a m n = Val w /\ force w = Val ts /\
  gen G a t /\ size m t <= n /\ ~ In t ts.
Proof.
  exists (WSet [ex_x; Lst [Atom "e"]]). do 1 eexists. exists "e", Atoms, 1.
  do 2 eexists. exists (Lst [Lst [Lst [ex_x]]]).
  split; [repeat constructor|]. split; [reflexivity|]. split; [lia|].
  split; [reflexivity|]. split; [vm_compute; reflexivity|]. split.
  - assert (H0 : gen [ex_x; Lst [Atom "e"]] "e" ex_x).
    { exists 1, ex_x. split; [now left|]. constructor. discriminate. }
    assert (Hs : forall t, gen [ex_x; Lst [Atom "e"]] "e" t -> gen [ex_x; Lst [Atom "e"]] "e" (Lst [t])).
    { intros t Ht. apply (gen_fill _ _ (Lst [Atom "e"])); [simpl; auto|].
      constructor. constructor; [now constructor|constructor]. }
    auto.
  - split; [simpl; lia|]. simpl. intuition discriminate.
Qed.
Print Assumptions C09_unproductive_refuted.

(* ---------------- C10 ---------------- *)

(* base_grammar is the list VAR, VAL, (OP1 EXPR), ..., (OPk EXPR ... EXPR). *)
Theorem C10_base_lang_exactly_once : forall k m n,
  exists w w' ts, base_lang k = Val w /\ iter_metric w "EXPR" m (S n) = Val w' /\
    force w' = Val ts /\ NoDup ts /\
    (forall t, In t ts <-> gen (base_grammar k) "EXPR" t /\ size m t <= S n).
Proof. exact base_lang_exactly_once. Qed.
Print Assumptions C10_base_lang_exactly_once.

Theorem C10_base_lang_grammar : forall k, base_lang k = Val (WSet (base_grammar k)).
Proof. exact base_lang_val. Qed.
Print Assumptions C10_base_lang_grammar.
Example C10_hyp : base_grammar 2 = [Atom "VAR"; Atom "VAL"; Lst [Atom "OP1"; Atom "EXPR"];
                                    Lst [Atom "OP2"; Atom "EXPR"; Atom "EXPR"]].
Proof. reflexivity. Qed.

(* For any grammar whose productions cannot produce a common term. *)
Theorem C10_unambiguous_no_duplicates : forall wkld G a m n,
  wproper wkld -> force wkld = Val G -> word a -> unambiguous a G ->
  exists w ts, iter_metric wkld a m n = Val w /\ force w = Val ts /\ NoDup ts.
Proof.
  intros wkld G a m n Hw HG Ha Hu. apply force_pforce in HG. subst G.
  destruct (iter_metric_stage wkld a m n Hw) as [w [E [Hp Hf]]].
  - intros _. unfold pattern_from_str. rewrite parse_word by assumption. eauto.
  - exists w, (pforce w). split; [assumption|]. split; [now apply force_proper|].
    rewrite Hf. now apply stage_NoDup.
Qed.
Print Assumptions C10_unambiguous_no_duplicates.
Example C10_unamb_hyp : unambiguous "EXPR" (base_grammar 3).
Proof. apply base_grammar_unambiguous. Qed.

(* ---------------- C11, C12 ---------------- *)

Theorem C11_pattern_match : forall p t, matches p t = true <-> exists sigma, pinst sigma p t.
Proof. exact matches_iff. Qed.
Print Assumptions C11_pattern_match.
Example C11_hyp :
  let p := PList [PLit "+"; PVar "?x"; PVar "?x"] in
  matches p (Lst [Atom "+"; ex_plus; ex_plus]) = true /\ matches p (Lst [Atom "+"; ex_plus; ex_x]) = false.
Proof. split; reflexivity. Qed.

Theorem C12_contains_excludes : forall p t,
  (test (Contains p) t = Val true <-> exists s sigma, subterm s t /\ pinst sigma p s) /\
  (test (Excludes p) t = Val true <-> ~ exists s sigma, subterm s t /\ pinst sigma p s).
Proof.
  intros p t. cbn [test]. rewrite <- contains_iff.
  destruct (contains p t); simpl; split; split; intros; congruence.
Qed.
Print Assumptions C12_contains_excludes.

Theorem C12_filter_semantics : forall f t, syms_ok f -> proper t = true ->
  (test f t = Val true <-> sat f t) /\ (test f t = Val false <-> ~ sat f t).
Proof. exact test_sat. Qed.
Print Assumptions C12_filter_semantics.
Example C12_hyp :
  let f := FOr [Invert (Contains (PLit "y")); FAnd [Canon ["a"; "b"]; MetricEq Atoms 3]] in
  syms_ok f /\ proper ex_plus = true /\ test f ex_plus = Val true /\ test f (Lst [Atom "y"; ex_x]) = Val false.
Proof. repeat split; try (repeat constructor; simpl; intuition discriminate). Qed.

(* ---------------- C13, C14 ---------------- *)

Theorem C13_canon_total : forall syms t, exists c, canon syms t = Val c.
Proof. intros syms t. rewrite canon_val. eauto. Qed.
Print Assumptions C13_canon_total.

Theorem C13_canon_renames : forall syms t c, NoDup syms -> canon syms t = Val c ->
  alpha syms t c /\ canon syms c = Val c /\ canonical syms c.
Proof.
  intros syms t c Hs Hc. split; [exact (canon_alpha_self syms Hs t c Hc)|].
  split; [exact (canon_idem syms Hs t c Hc)|exact (canon_canonical syms Hs t c Hc)].
Qed.
Print Assumptions C13_canon_renames.

Theorem C13_canon_classes : forall syms a b, NoDup syms ->
  (canon syms a = canon syms b <-> alpha syms a b).
Proof. exact canon_eq_iff_alpha. Qed.
Print Assumptions C13_canon_classes.
Example C13_hyp : NoDup ["a"; "b"; "c"] /\
  canon ["a"; "b"; "c"] (Lst [Atom "+"; Lst [Atom "/"; Atom "c"; Atom "b"]; Atom "a"]) =
    Val (Lst [Atom "+"; Lst [Atom "/"; Atom "a"; Atom "b"]; Atom "c"]).
Proof. split; [repeat constructor; simpl; intuition discriminate|reflexivity]. Qed.

(* With a repeated symbol two different terms are identified. *)
Theorem C13_repeated_symbols_refuted : exists syms a b,
  canon syms a = canon syms b /\ ~ alpha syms a b.
Proof.
  exists ["a"; "a"; "b"], (Lst [Atom "a"; Atom "b"]), (Lst [Atom "a"; Atom "a"]).
  split; [reflexivity|]. intros [rho [_ [Hi E]]]. cbn in E. inversion E as [[E1 E2]].
  assert ("a" = "b"); [|discriminate]. apply Hi; simpl; auto; unfold occurs; simpl; auto. congruence.
Qed.
Print Assumptions C13_repeated_symbols_refuted.

Theorem C14_canon_filter_unique : forall syms t, NoDup syms ->
  exists u, (alpha syms t u /\ test (Canon syms) u = Val true) /\
    forall v, alpha syms t v -> test (Canon syms) v = Val true -> v = u.
Proof.
  intros syms t Hs. destruct (canon syms t) as [c|] eqn:E; [|rewrite canon_val in E; discriminate].
  assert (Ht : forall v, test (Canon syms) v = Val true <-> canonical syms v).
  { intros v. rewrite <- canon_fixed_iff by assumption. cbn [test]. rewrite canon_val. cbn [rbind].
    split; intros H.
    - f_equal. symmetry. apply sexp_eqb_eq. congruence.
    - f_equal. apply sexp_eqb_eq. congruence. }
  exists c. split; [split|].
  - now apply canon_alpha_self.
  - apply Ht. eapply canon_canonical; eauto.
  - intros v Hv Hc. apply Ht in Hc. apply (canonical_unique syms); auto.
    + eapply canon_canonical; eauto.
    + apply (alpha_trans _ _ t); [now apply alpha_sym|now apply canon_alpha_self].
Qed.
Print Assumptions C14_canon_filter_unique.
Example C14_hyp :
  test (Canon ["a"; "b"]) (Lst [Atom "+"; Atom "a"; Atom "b"]) = Val true /\
  test (Canon ["a"; "b"]) (Lst [Atom "+"; Atom "b"; Atom "a"]) = Val false /\
  alpha ["a"; "b"] (Lst [Atom "+"; Atom "a"; Atom "b"]) (Lst [Atom "+"; Atom "b"; Atom "a"]).
Proof.
  split; [reflexivity|]. split; [reflexivity|]. apply canon_eq_iff_alpha; [|reflexivity].
  repeat constructor; simpl; intuition discriminate.
Qed.

(* ---------------- C15 ---------------- *)

Theorem C15_workload_file_roundtrip : forall w ts,
  force w = Val ts -> (forall t, In t ts -> words t) ->
  exists content w', to_file w = Val content /\ from_file content = Val w' /\ force w' = Val ts.
Proof. exact workload_roundtrip. Qed.
Print Assumptions C15_workload_file_roundtrip.
Example C15_hyp : exists ts, force ex_w = Val ts /\ (forall t, In t ts -> words t) /\ length ts = 10.
Proof.
  eexists. split; [vm_compute; reflexivity|]. split; [|reflexivity].
  intros t Ht. simpl in Ht.
  repeat (destruct Ht as [<-|Ht]; [repeat first [exact I|discriminate|reflexivity|split]|]).
  destruct Ht.
Qed.

(* An atom containing a space is not read back. *)
Theorem C15_atoms_with_spaces_refuted : exists w content w' ts,
  force w = Val ts /\ to_file w = Val content /\ from_file content = Val w' /\ force w' <> Val ts.
Proof.
  exists (WSet [Atom "a b"]). do 3 eexists. split; [reflexivity|]. split; [reflexivity|].
  split; [vm_compute; reflexivity|]. discriminate.
Qed.
Print Assumptions C15_atoms_with_spaces_refuted.
