(* Properties C49 and C57: rules classified as saturating, vectors of classes.  Reference notions: SaturateSpec.v,
   VectorSpec.v. *)
From Coq Require Import NArith ZArith Permutation.
From Verif Require Import Base BaseProofs Sexp Workload Lang LangProofs Syntax Rule Ruleset RuleSpec.
From Verif Require Import BV BVProofs BoolDom NatDom PosDom Rational Halide.
From Verif Require Import Analysis Egraph EgraphSpec EgraphProofs EgraphSound Synth Apply Sched SynthSpec SynthProofs DeriveProofs.
From Verif Require Import Domains DomainAlg DomainSound CalmSpec Cover Calm CalmRun CalmDomains CompressProofs PropertiesDomains PropertiesSat.
From Verif Require Import MinimizeSpec MatchSpec ApplySpec ApplyProofs PlainSpec PlainProofs PlainDomains Util Reader RulesetProofs.
From Verif Require Import SaturateSpec SaturateProofs VectorSpec DataProofs VectorProofs PropertiesSched.
Open Scope string_scope.
Open Scope list_scope.

(* ---------------- C49 ---------------- *)

(* What is_saturating answers: every argument of the right-hand side occurs in the
   left-hand side. *)
Theorem C49_classified : forall O C (L : lang O C) ar, literal_only L ar -> plain_vars L ->
  forall keep fuel r tl tr b, neat (rlhs r) tl -> neat (rrhs r) tr ->
  Forall (plain_pnode L ar) (rlhs r) -> Forall (plain_pnode L ar) (rrhs r) ->
  is_saturating L keep fuel r = Val b -> (b = true <-> Forall (fun a => In a (subterms tl)) (args tr)).
Proof. intros O C L ar Lo Pv keep fuel r tl tr b. exact (saturating_iff L ar Lo keep fuel Pv r tl tr b). Qed.
Print Assumptions C49_classified.
(* the rules one writes down are of this form *)
Theorem C49_written : forall O from_op name s (fw : rule O) bw, rule_from_string from_op name s = Val (Some (fw, bw)) ->
  exists tl tr, neat (rlhs fw) tl /\ neat (rrhs fw) tr /\ forall r, bw = Some r -> neat (rlhs r) tr /\ neat (rrhs r) tl.
Proof.
  intros O from_op name s fw bw H. unfold rule_from_string in H. destruct (split_arrow s) as [[l r]|]; [|discriminate H].
  assert (K : forall x (p : pat O), parse_pat from_op x = Some p -> exists t, neat p t).
  { intros x p E. unfold parse_pat, parse_rec in E. destruct (parse_str x); [|discriminate E]. destruct (term_of_sexp _ s0) as [t|]; [|discriminate E]. inversion E; subst. exists t. apply to_rec_neat. }
  destruct (parse_pat from_op l) as [lp|] eqn:El; [|discriminate H]. cbn [rbind unwrap] in H. destruct (parse_pat from_op r) as [rp|] eqn:Er; [|discriminate H]. cbn [rbind unwrap] in H.
  destruct (K _ _ El) as [tl Nl]. destruct (K _ _ Er) as [tr Nr].
  assert (U : forall (a b : pat O) q, rule_unwrap name a b = Val q -> rlhs q = a /\ rrhs q = b).
  { intros a b q E. unfold rule_unwrap, rule_new in E. destruct (rule_name name a b) as [n|]; [|discriminate E]. cbn [rbind] in E.
    destruct (rewrite_ok a b); [|discriminate E]. cbn [unwrap] in E. inversion E; subst. split; reflexivity. }
  destruct (rule_unwrap name lp rp) as [f1|] eqn:E1; [|discriminate H]. cbn [rbind] in H. destruct (U _ _ _ E1) as [A1 A2].
  exists tl, tr. destruct (has_biarrow s).
  - destruct (rule_unwrap name rp lp) as [f2|] eqn:E2; [|discriminate H]. cbn [rbind] in H. inversion H; subst. destruct (U _ _ _ E2) as [B1 B2]. split; [exact Nl|]. split; [exact Nr|].
    intros q Eq. inversion Eq; subst. rewrite B1, B2. split; assumption.
  - inversion H; subst. split; [exact Nl|]. split; [exact Nr|]. discriminate.
Qed.
Print Assumptions C49_written.

(* a rule both sides of which write out a pattern without superfluous entries, in
   which all variables are pattern variables *)
Definition plain_rule {O C} (L : lang O C) (ar : O -> nat) (r : rule O) : Prop :=
  (exists t, neat (rlhs r) t) /\ (exists t, neat (rrhs r) t) /\ Forall (plain_pnode L ar) (rlhs r) /\ Forall (plain_pnode L ar) (rrhs r).

Lemma plain_small : forall O C (L : lang O C) ar (Lo : literal_only L ar), plain_vars L -> forall keep fuel r,
  plain_rule L ar r -> is_saturating L keep fuel r = Val true -> small_rule ar r.
Proof.
  intros O C L ar Lo Pv keep fuel r ((tl & Nl) & (tr & Nr) & Pl & Pr) H. exists tl, tr. split; [exact Nl|]. split; [exact Nr|].
  split; [|split; [|exact (proj1 (saturating_iff L ar Lo keep fuel Pv r tl tr true Nl Nr Pl Pr H) eq_refl)]].
  - split; eapply Forall_impl; try eassumption; intros n; unfold plain_pnode, typed_pnode; destruct (nop n); tauto.
  - eapply Forall_impl; [|exact Pl]. intros n; unfold plain_pnode; destruct (nop n); tauto.
Qed.

(* Running saturating rules, however long and in whatever order, adds no class when
   everything has a value. *)
Theorem C49_no_growth : forall O C (L : lang O C) ar, literal_only L ar -> plain_vars L ->
  forall keep fuel rs rules (g h h' : eg O C), built L ar keep rs g -> Forall (fun e => typed_rule ar (snd e)) rs ->
  Forall (fun r => plain_rule L ar r /\ is_saturating L keep fuel r = Val true) rules ->
  (forall k, runs L keep fuel rules g k -> forall i d, class_data k i = Val d -> is_defined d = true) ->
  runs L keep fuel rules g h -> s_rebuild L keep fuel h = Val h' -> number_of_classes h' <= number_of_classes g.
Proof.
  intros O C L ar Lo Pv keep fuel rs rules g h h' B Ht Hs Df R Rb.
  refine (runs_no_growth L ar Lo keep fuel rules g h h' _ (built_calm L ar Lo keep rs g Ht B) Df R Rb).
  eapply Forall_impl; [|exact Hs]. intros r [P S1]. exact (plain_small O C L ar Lo Pv keep fuel r P S1).
Qed.
Print Assumptions C49_no_growth.
(* everything has a value in languages with a total interpreter *)
Theorem C49_total : forall O C (L : lang O C) ar, literal_only L ar -> plain_vars L -> vectors L true ->
  forall keep fuel rs rules (g h h' : eg O C), built L ar keep rs g -> Forall (fun e => typed_rule ar (snd e)) rs ->
  Forall (fun r => plain_rule L ar r /\ is_saturating L keep fuel r = Val true) rules ->
  runs L keep fuel rules g h -> s_rebuild L keep fuel h = Val h' -> number_of_classes h' <= number_of_classes g.
Proof.
  intros O C L ar Lo Pv Ve keep fuel rs rules g h h' B Ht Hs R Rb. refine (C49_no_growth O C L ar Lo Pv keep fuel rs rules g h h' B Ht Hs _ R Rb).
  intros k Rk i d Hd. exact (shaped_defined _ _ _ d (runs_shaped L true Ve keep fuel rules rs g k (built_made _ _ L ar keep rs g B) Rk i d Hd)).
Qed.
Print Assumptions C49_total.
Theorem C49_domains :
  (forall w check, literal_only (bv_lang w check) bv_arity /\ plain_vars (bv_lang w check) /\ vectors (bv_lang w check) true) /\
  (forall depth, literal_only (pos_lang depth) pos_arity /\ plain_vars (pos_lang depth) /\ vectors (pos_lang depth) true).
Proof.
  split; [intros w check|intros depth]; (split; [|split]);
    [exact (bv_literal_only w check)|exact (bv_plain_vars w check)|exact (bv_vectors w check)|exact (pos_literal_only depth)|exact (pos_plain_vars depth)|exact (pos_vectors depth)].
Qed.
Print Assumptions C49_domains.
(* the case of the scheduler: the rules [partition] puts on the saturating side, up to
   the rebuild after each run *)
Theorem C49_scheduler : forall O C (L : lang O C) ar, literal_only L ar -> plain_vars L -> vectors L true ->
  forall keep fuel rs (g h h' : eg O C) sat other, built L ar keep rs g -> Forall (fun e => typed_rule ar (snd e)) rs -> Forall (fun e => plain_rule L ar (snd e)) rs ->
  partition (is_saturating L keep fuel) rs = Val (sat, other) ->
  runs L keep fuel (map snd sat) g h -> s_rebuild L keep fuel h = Val h' -> number_of_classes h' <= number_of_classes g.
Proof.
  intros O C L ar Lo Pv Ve keep fuel rs g h h' sat other B Ht Hp Ep R Rb. refine (C49_total O C L ar Lo Pv Ve keep fuel rs (map snd sat) g h h' B Ht _ R Rb).
  unfold partition in Ep. destruct (rmapM (is_saturating L keep fuel) (map snd rs)) as [bs|] eqn:Eb; [|discriminate Ep]. cbn [rbind] in Ep. inversion Ep; subst sat other. clear Ep.
  apply Forall_forall. intros r I. apply in_map_iff in I as (e & <- & I). apply add_all_vals in I as [[]|I]. apply in_map_iff in I as ([b q] & E & I). cbn in E. subst q.
  apply filter_In in I as [I Tb]. cbn in Tb. subst b. apply rmapM_F2 in Eb. clear - Hp Eb I.
  assert (K : forall l, Forall2 (fun r b => is_saturating L keep fuel r = Val b) l bs -> In (true, snd e) (combine bs l) -> In (snd e) l /\ is_saturating L keep fuel (snd e) = Val true).
  { clear. intros l F. induction F as [|r b l bs E F IH]; intros I; [destruct I|]. destruct I as [I|I]; [inversion I; subst; split; [now left|exact E]|]. destruct (IH I). split; [now right|assumption]. }
  destruct (K _ Eb I) as [I1 I2]. split; [|exact I2]. apply in_map_iff in I1 as (e' & E' & I1). rewrite <- E'. rewrite Forall_forall in Hp. exact (Hp _ I1).
Qed.
Print Assumptions C49_scheduler.

(* Halide: (+ ?a ?b) is added for a match of (- ?a ?b); where the sum overflows on
   every sample it is not merged, and there is a class more *)
Definition ex_max : sexp := Atom "9223372036854775807".
Definition ex_hcheck (a b : hint) : sat_result := Unsat.
Theorem C49_undefined_refuted : exists r g0 g1,
  rs_new hal_from_op hal_name ["(- ?a ?b) ==> (+ ?a ?b)"] = Val [("(- ?a ?b) ==> (+ ?a ?b)", r)] /\
  is_saturating (hal_lang ex_hcheck) ex_keep 5 r = Val true /\
  to_egraph (hal_lang ex_hcheck) ex_keep 5 (WSet [Lst [Atom "-"; ex_max; ex_max]; Atom "x"]) = Val g0 /\
  runs (hal_lang ex_hcheck) ex_keep 5 [r] g0 g1 /\ s_rebuild (hal_lang ex_hcheck) ex_keep 5 g1 = Val g1 /\
  number_of_classes g0 = 3 /\ number_of_classes g1 = 4.
Proof.
  do 3 eexists. split; [vm_compute; reflexivity|]. split; [vm_compute; reflexivity|]. split; [vm_compute; reflexivity|]. split.
  - eexists. eapply RS_step.
    + eapply (RSearch _ _ _ _ _ _ _ 2 [("a", 1); ("b", 1)]); [left; reflexivity|]. split.
      * eexists. split; [reflexivity|]. apply PM_node with [1; 1].
        -- repeat constructor; (eapply PM_var; [reflexivity|eqv_tac]).
        -- exists (Node HSub [1; 1]), 2. split; [cbn; tauto|]. split; [reflexivity|]. split; [repeat constructor; eqv_tac|eqv_tac].
      * repeat constructor.
    + eapply RS_step; [|apply RS_refl]. eapply RApply; [left; reflexivity|]. vm_compute. reflexivity.
  - split; [vm_compute; reflexivity|]. split; vm_compute; reflexivity.
Qed.
Print Assumptions C49_undefined_refuted.

(* A variable of the language next to a pattern variable of the same name: in
   is_saturating both become x, so (+ x y) seems to occur on the left *)
Theorem C49_variable_refuted : exists r g0 g1,
  rs_new (bv_from_op 4) bv_name ["(+ ?x y) ==> (* (+ x y) ?x)"] = Val [("(+ ?x y) ==> (* (+ x y) ?x)", r)] /\
  is_saturating (bv_lang 4 ex_check) ex_keep 5 r = Val true /\
  to_egraph (bv_lang 4 ex_check) ex_keep 5 (WSet [Lst [Atom "+"; Atom "a"; Atom "y"]]) = Val g0 /\
  runs (bv_lang 4 ex_check) ex_keep 5 [r] g0 g1 /\ s_rebuild (bv_lang 4 ex_check) ex_keep 5 g1 = Val g1 /\
  number_of_classes g0 = 3 /\ number_of_classes g1 = 5.
Proof.
  do 3 eexists. split; [vm_compute; reflexivity|]. split; [vm_compute; reflexivity|]. split; [vm_compute; reflexivity|]. split.
  - eexists. eapply RS_step.
    + eapply (RSearch _ _ _ _ _ _ _ 2 [("x", 0)]); [left; reflexivity|]. split.
      * eexists. split; [reflexivity|]. apply PM_node with [0; 1].
        -- constructor; [eapply PM_var; [reflexivity|eqv_tac]|]. constructor; [|constructor]. apply PM_node with []; [constructor|].
           exists (Node (VVar "y") []), 1. split; [cbn; tauto|]. split; [reflexivity|]. split; [constructor|eqv_tac].
        -- exists (Node VAdd [0; 1]), 2. split; [cbn; tauto|]. split; [reflexivity|]. split; [repeat constructor; eqv_tac|eqv_tac].
      * repeat constructor.
    + eapply RS_step; [|apply RS_refl]. eapply RApply; [left; reflexivity|]. vm_compute. reflexivity.
  - split; [vm_compute; reflexivity|]. split; vm_compute; reflexivity.
Qed.
Print Assumptions C49_variable_refuted.

(* naturals: merging a product by 0 with 0 spells out constants, as in C48_growth_refuted *)
Theorem C49_folding_refuted : exists r g0 g1 g2,
  rs_new nat_from_op nat_name ["(* ?a Z) ==> Z"] = Val [("(* ?a Z) ==> Z", r)] /\
  is_saturating ex_nat ex_keep 12 r = Val true /\
  to_egraph ex_nat ex_keep 12 (WSet [Lst [Atom "*"; ex_three; ex_three]]) = Val g0 /\
  runs ex_nat ex_keep 12 [r] g0 g1 /\ s_rebuild ex_nat ex_keep 12 g1 = Val g2 /\
  number_of_classes g0 = 7 /\ number_of_classes g2 = 11.
Proof.
  do 4 eexists. split; [vm_compute; reflexivity|]. split; [vm_compute; reflexivity|]. split; [vm_compute; reflexivity|]. split.
  - eexists. eapply RS_step.
    { eapply (RSearch _ _ _ _ _ _ _ 2 [("a", 0)]); [left; reflexivity|]. split.
      - eexists. split; [reflexivity|]. apply PM_node with [0; 1].
        + constructor; [eapply PM_var; [reflexivity|eqv_tac]|]. constructor; [|constructor]. apply PM_node with []; [constructor|].
          exists (Node NZ []), 1. split; [cbn; tauto|]. split; [reflexivity|]. split; [constructor|eqv_tac].
        + exists (Node NMul [0; 1]), 2. split; [cbn; tauto|]. split; [reflexivity|]. split; [repeat constructor; eqv_tac|eqv_tac].
      - repeat constructor. }
    { eapply RS_step; [|apply RS_refl]. eapply RApply; [left; reflexivity|]. vm_compute. reflexivity. }
  - split; [vm_compute; reflexivity|]. split; vm_compute; reflexivity.
Qed.
Print Assumptions C49_folding_refuted.

(* commutativity and idempotence are plain and saturating; distribution is not *)
Example C49_hyp : exists r1 r2 r3 k1 k2 k3 g h h',
  rs_new (bv_from_op 4) bv_name ["(+ ?a ?b) ==> (+ ?b ?a)"; "(& ?a ?a) ==> ?a"; "(* ?a (+ ?b ?c)) ==> (+ (* ?a ?b) (* ?a ?c))"] = Val [(k1, r1); (k2, r2); (k3, r3)] /\
  Forall (fun r => plain_rule (bv_lang 4 ex_check) bv_arity r) [r1; r2; r3] /\
  map (is_saturating (bv_lang 4 ex_check) ex_keep 9) [r1; r2; r3] = [Val true; Val true; Val false] /\
  built (bv_lang 4 ex_check) bv_arity ex_keep [(k1, r1)] g /\ typed_rule bv_arity r1 /\
  runs (bv_lang 4 ex_check) ex_keep 9 [r1; r2] g h /\ s_rebuild (bv_lang 4 ex_check) ex_keep 9 h = Val h' /\
  number_of_classes g = 4 /\ number_of_classes h' = 3.
Proof.
  do 9 eexists. split; [vm_compute; reflexivity|]. split.
  { apply Forall_cons; [|apply Forall_cons; [|apply Forall_cons; [|apply Forall_nil]]];
      (split; [|split; [|split; [repeat constructor|repeat constructor]]]); eexists;
      match goal with |- neat ?p _ => match eval vm_compute in (tree p) with Val ?t => replace p with (to_rec t) by reflexivity; apply to_rec_neat end end. }
  split; [vm_compute; reflexivity|]. split; [apply (B_workload _ _ _ _ 5 ex_w); vm_compute; reflexivity|]. split; [repeat constructor|]. split.
  - eexists. eapply RS_step.
    + eapply (RSearch _ _ _ _ _ _ _ 2 [("a", 0); ("b", 1)]); [left; reflexivity|]. split.
      * eexists. split; [reflexivity|]. apply PM_node with [0; 1].
        -- repeat constructor; (eapply PM_var; [reflexivity|eqv_tac]).
        -- exists (Node VAdd [0; 1]), 2. split; [cbn; tauto|]. split; [reflexivity|]. split; [repeat constructor; eqv_tac|eqv_tac].
      * repeat constructor.
    + eapply RS_step; [|apply RS_refl]. eapply RApply; [left; reflexivity|]. vm_compute. reflexivity.
  - split; [vm_compute; reflexivity|]. split; vm_compute; reflexivity.
Qed.

(* ---------------- C57 ---------------- *)

(* In every e-graph a user can get at, a class has no vector at all or one entry per
   sample; in bitvectors, booleans, naturals, positives and bv-bool no entry is missing. *)
Theorem C57_vectors : forall O C (L : lang O C) e, vectors L e -> forall keep rs g, made L keep rs g ->
  forall i v, vec g i v -> (v = [] \/ length v = g_an g) /\ (e = true -> everywhere v).
Proof. intros O C L e Ve keep rs g M i v (d & Hd & <-). exact (made_shaped L e Ve keep rs g M i d Hd). Qed.
Print Assumptions C57_vectors.
Theorem C57_domains : (forall w check, vectors (bv_lang w check) true) /\ vectors bool_lang true /\
  (forall depth rng check, vectors (nat_lang depth rng check) true) /\ (forall depth, vectors (pos_lang depth) true) /\ vectors bb_lang true /\
  (forall ov check, vectors (math_lang ov check) false) /\ (forall check, vectors (hal_lang check) false).
Proof. exact (conj bv_vectors (conj bool_vectors (conj nat_vectors (conj pos_vectors (conj bb_vectors (conj math_vectors hal_vectors)))))). Qed.
Print Assumptions C57_domains.
(* so comparing two vectors on a merge fails in no other way than by two different
   values on one sample *)
Theorem C57_merge : forall O C (L : lang O C) e, vectors L e -> (forall a b, l_ceqb L a b = true <-> a = b) -> forall keep rs g, made L keep rs g ->
  forall i j u v, vec g i u -> vec g j v ->
  (merge_cvecs (l_ceqb L) u v = Panic <-> exists k a b, nth_error u k = Some (Some a) /\ nth_error v k = Some (Some b) /\ a <> b).
Proof.
  intros O C L e Ve Eq keep rs g M i j u v Hu Hv. destruct (C57_vectors O C L e Ve keep rs g M i u Hu) as [Su _]. destruct (C57_vectors O C L e Ve keep rs g M j v Hv) as [Sv _].
  assert (K : forall u v, length u = length v -> (merge_cvec (l_ceqb L) u v = Panic <-> exists k a b, nth_error u k = Some (Some a) /\ nth_error v k = Some (Some b) /\ a <> b)).
  { clear - Eq. induction u as [|x u IH]; intros [|y v] Ln; try discriminate Ln.
    - split; [discriminate|]. intros ([|k] & a & b & H & _); discriminate H.
    - cbn in Ln. injection Ln as Ln. specialize (IH v Ln).
      assert (T : forall f : cvec C * bool * bool -> res (cvec C * bool * bool), (forall r, f r <> Panic) -> (rbind (merge_cvec (l_ceqb L) u v) f = Panic <-> merge_cvec (l_ceqb L) u v = Panic)).
      { intros f Hf. destruct (merge_cvec (l_ceqb L) u v) as [r|]; cbn; split; intros H; try discriminate H; try reflexivity. destruct (Hf _ H). }
      assert (Sh : (exists k a b, nth_error u k = Some (Some a) /\ nth_error v k = Some (Some b) /\ a <> b) ->
                   exists k a b, nth_error (x :: u) k = Some (Some a) /\ nth_error (y :: v) k = Some (Some b) /\ a <> b) by (intros (k & H); now exists (S k)).
      assert (Un : (forall a b, x = Some a -> y = Some b -> a = b) -> (exists k a b, nth_error (x :: u) k = Some (Some a) /\ nth_error (y :: v) k = Some (Some b) /\ a <> b) ->
                   exists k a b, nth_error u k = Some (Some a) /\ nth_error v k = Some (Some b) /\ a <> b).
      { intros Hd ([|k] & a & b & H1 & H2 & H3); [|now exists k, a, b]. cbn in H1, H2. inversion H1; inversion H2; subst. destruct H3. now apply Hd. }
      assert (Go : forall f : cvec C * bool * bool -> res (cvec C * bool * bool), (forall r, f r <> Panic) -> (forall a b, x = Some a -> y = Some b -> a = b) -> (rbind (merge_cvec (l_ceqb L) u v) f = Panic <->
                   exists k a b, nth_error (x :: u) k = Some (Some a) /\ nth_error (y :: v) k = Some (Some b) /\ a <> b)).
      { intros f Hf Hd. rewrite (T f Hf), IH. split; [exact Sh|exact (Un Hd)]. }
      cbn [merge_cvec]. destruct x as [a|], y as [b|].
      + destruct (l_ceqb L a b) eqn:E.
        * apply Eq in E. subst b. apply Go; [intros [[? ?] ?]; discriminate|congruence].
        * split; [intros _|reflexivity]. exists 0, a, b. split; [reflexivity|]. split; [reflexivity|]. intros ->. assert (l_ceqb L b b = true) by now apply Eq. congruence.
      + apply Go; [intros [[? ?] ?]; discriminate|congruence].
      + apply Go; [intros [[? ?] ?]; discriminate|congruence].
      + apply Go; [intros [[? ?] ?]; discriminate|congruence]. }
  unfold merge_cvecs. destruct u as [|x u]; [|destruct v as [|y v]].
  - split; [discriminate|]. intros ([|k] & a & b & H & _); discriminate H.
  - split; [discriminate|]. intros ([|k] & a & b & _ & H & _); discriminate H.
  - apply K. destruct Su as [Su|Su]; [discriminate Su|]. destruct Sv as [Sv|Sv]; [discriminate Sv|]. congruence.
Qed.
Print Assumptions C57_merge.
(* a sum of two variables: one entry per pair of samples *)
Example C57_hyp : exists g v, to_egraph (bv_lang 4 ex_check) ex_keep 5 (WSet [Lst [Atom "+"; Atom "a"; Atom "b"]]) = Val g /\
  g_an g = length v /\ vec g 2 v /\ v <> [] /\ nth_error v 0 = Some (Some 0%N).
Proof.
  do 2 eexists. split; [vm_compute; reflexivity|]. split; [|split; [eexists; split; vm_compute; reflexivity|split; [discriminate|vm_compute; reflexivity]]].
  vm_compute. reflexivity.
Qed.
