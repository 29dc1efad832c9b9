(* The variations of fast-forwarding learn consequences of the rules they run. *)
From Coq Require Import NArith Permutation.
From Verif Require Import Base BaseProofs Lang LangProofs Syntax Rule Ruleset RuleSpec AnalysisSpec Util Analysis Generalize GeneralizeProofs Egraph EgraphSpec EgraphProofs Synth Apply Sched SynthSpec SynthProofs DeriveProofs
  Workload Extract ExtractProofs Match MatchSpec MatchProofs MinimizeSpec Minimize Infer InferProofs TotalSpec CalmSpec PlainSpec LearnSpec LearnProofs OpsSpec OpsProofs SyntaxProofs PlainProofs SaveProofs SaveDomains ForwardSpec ForwardProofs
  SafeSpec PartialSpec PartialProofs Phases PhasesSpec.
From Verif Require RulesetProofs SafeProofs.
Open Scope list_scope.

Section Vary.
  Context {O C : Type}.
  Variable L : lang O C.
  Variable ar : O -> nat.
  Variable P : O -> Prop.
  Variable K : C -> Prop.
  Hypothesis Rd : SaveDomains.readable L ar P K.
  Local Notation eqb_eq := (re_eqb _ _ _ _ Rd).
  Local Notation var_ok := (re_var _ _ _ _ Rd).
  Local Notation leaf := (re_leaf _ _ _ _ Rd).
  Local Notation Q := (over L ar P).
  Variable keep : eg O C -> nat -> nat -> bool.
  Variable fuel : nat.

  Definition three w (p1 p2 p3 : phase O) (g0 g1 g2 g3 : eg O C) : Prop := to_egraph L keep fuel w = Val g0 /\
    scheduled L keep fuel (p_sched p1) (p_rules p1) g0 g1 /\ scheduled L keep fuel (p_sched p2) (p_rules p2) g1 g2 /\ scheduled L keep fuel (p_sched p3) (p_rules p3) g2 g3.
  Section Run.
    Variables (w : workload) (p1 p2 p3 : phase O) (g0 g1 g2 g3 : eg O C).
    Hypothesis Th : three w p1 p2 p3 g0 g1 g2 g3.
    Hypothesis Fp : fair_phases p1 p2 p3.
    Lemma holds_rules : forall V (A : algebra O C V) (rs : ruleset O), (forall q, rule_of rs q -> holds L A q) -> all_hold L A rs.
    Proof. intros V A rs H. apply Forall_forall. intros [k r] I. apply H. exists k. exact I. Qed.
    Lemma moves_1 : forall V (A : algebra O C V), interprets L A -> (forall q, rule_of (p_rules p1) q -> holds L A q) -> moves A eg_default g1.
    Proof.
      intros V A Ia Hq. destruct Th as (E & S1 & _). pose proof (to_egraph_moves L eqb_eq keep fuel A Ia w g0 E) as M0.
      exact (moves_trans A _ _ _ M0 (proj1 (scheduled_moves L eqb_eq keep fuel A Ia _ _ g0 g1 (proj1 Fp) (holds_rules V A _ Hq) (proj1 M0) S1))).
    Qed.
    Lemma moves_2 : forall V (A : algebra O C V), interprets L A -> (forall q, rule_of (p_rules p1) q \/ rule_of (p_rules p2) q -> holds L A q) -> moves A eg_default g2.
    Proof.
      intros V A Ia Hq. pose proof (moves_1 V A Ia (fun q h => Hq q (or_introl h))) as M1. destruct Th as (_ & _ & S2 & _).
      exact (moves_trans A _ _ _ M1 (proj1 (scheduled_moves L eqb_eq keep fuel A Ia _ _ g1 g2 (proj1 (proj2 Fp)) (holds_rules V A _ (fun q h => Hq q (or_intror h))) (proj1 M1) S2))).
    Qed.
    Lemma moves_3 : forall V (A : algebra O C V), interprets L A -> (forall q, run_rule p1 p2 p3 q -> holds L A q) -> moves A eg_default g3.
    Proof.
      intros V A Ia Hq. assert (M2 : moves A eg_default g2). { apply moves_2; [exact Ia|]. intros q [h|h]; apply Hq; [left|right; left]; exact h. } destruct Th as (_ & _ & _ & S3).
      exact (moves_trans A _ _ _ M2 (proj1 (scheduled_moves L eqb_eq keep fuel A Ia _ _ g2 g3 (proj2 (proj2 Fp)) (holds_rules V A _ (fun q h => Hq q (or_intror (or_intror h)))) (proj1 M2) S3))).
    Qed.
    Hypothesis H1 : read_rules L (p_rules p1).
    Hypothesis H2 : read_rules L (p_rules p2).
    Hypothesis H3 : read_rules L (p_rules p3).
    Lemma three_structure : wf g1 /\ wf g2 /\ congruent g1 /\ congruent g2 /\ ext g0 g1 /\ ext g1 g2 /\ ext g2 g3 /\
      (forall e, Forall (from_g g1) e -> wf_rec ar e) /\ (forall e, Forall (from_g g2) e -> wf_rec ar e).
    Proof.
      destruct Th as (E & S1 & S2 & S3). pose proof (re_admits _ _ _ _ Rd) as Ad. pose proof (read_over L ar P K Rd) as Ro.
      pose proof (read_kind L ar P Ro _ H1) as K1. pose proof (read_kind L ar P Ro _ H2) as K2. pose proof (read_kind L ar P Ro _ H3) as K3.
      destruct (start_ops L eqb_eq keep Q K Ad fuel w g0 (read_workload L ar P Ro w) E) as [W0 I0].
      destruct (grown_step L eqb_eq keep Q K Ad fuel _ _ g0 g1 K1 W0 I0 S1) as (W1 & I1 & E01 & Cg1).
      destruct (grown_step L eqb_eq keep Q K Ad fuel _ _ g1 g2 K2 W1 I1 S2) as (W2 & I2 & E12 & Cg2).
      destruct (grown_step L eqb_eq keep Q K Ad fuel _ _ g2 g3 K3 W2 I2 S3) as (W3 & I3 & E23 & _).
      split; [exact W1|]. split; [exact W2|]. split; [exact Cg1|]. split; [exact Cg2|]. split; [exact E01|]. split; [exact E12|]. split; [exact E23|].
      split; intros e F; eapply Forall_impl; try exact F; intros n (m & j & Hm & Eo & El); cbn; rewrite Eo, El; [exact (proj1 (proj1 I1 m j Hm))|exact (proj1 (proj1 I2 m j Hm))].
    Qed.
    (* whatever relates the terms of one class of the last e-graph relates what the
       candidates generalize *)
    Lemma candidates_from : forall (R : term O -> term O -> Prop), (forall a b, R a b -> R b a) ->
      (forall t1 t2 j, repr g3 t1 j -> repr g3 t2 j -> all_allowed (l_allowed L) t1 = true -> all_allowed (l_allowed L) t2 = true -> wf_term ar t1 -> wf_term ar t2 -> R t1 t2) ->
      forall c1 c2, extracted L fuel g1 g2 c1 -> extracted L fuel g2 g3 c2 -> Forall (fun e => from_terms L ar R (snd e)) (extend c1 c2).
    Proof.
      intros R Sy HR c1 c2 X1 X2. destruct three_structure as (W1 & W2 & _ & _ & E01 & E12 & E23 & F1 & F2).
      assert (Go : forall (g g' : eg O C) c, ext g g' -> ext g' g3 -> wf g -> (forall e, Forall (from_g g) e -> wf_rec ar e) -> extracted L fuel g g' c -> Forall (fun e => from_terms L ar R (snd e)) c).
      { intros g g' c Eg Eg3 W F X. refine (extracted_from L ar eqb_eq var_ok leaf R fuel g g' c Sy W (proj1 Eg) F _ X).
        intros t1 t2 i j E R1 R2 A1 A2 Wt1 Wt2. apply (repr_ext g g' Eg) in R1, R2. pose proof (repr_eqv g' t1 i j R1 E) as R1'. clear R1. apply (repr_ext g' g3 Eg3) in R1', R2.
        exact (HR t1 t2 j R1' R2 A1 A2 Wt1 Wt2). }
      pose proof (Go g1 g2 c1 E12 E23 W1 F1 X1) as G1. pose proof (Go g2 g3 c2 E23 (ext_refl g3) W2 F2 X2) as G2.
      apply Forall_forall. intros e J. rewrite Forall_forall in G1, G2. apply extend_in' in J as [J|J]; auto.
    Qed.
  End Run.

  Lemma variation_three : forall w p1 p2 p3 m new row, lifting_variation L keep fuel w p1 p2 p3 m new row ->
    exists g0 g1 g2 g3 c1 c2 invalid, three w p1 p2 p3 g0 g1 g2 g3 /\ extracted L fuel g1 g2 c1 /\ extracted L fuel g2 g3 c2 /\ minimize L keep fuel (p_sched m) (extend c1 c2) (p_rules m) new invalid /\ row = ff_phase p1 p2 p3 new.
  Proof. intros w p1 p2 p3 m new row (g0 & g1 & g2 & g3 & c1 & c2 & inv & E & S1 & S2 & X1 & S3 & X2 & M & R). exists g0, g1, g2, g3, c1, c2, inv. repeat split; assumption. Qed.
  Lemma variation_same : forall w p1 p2 p3 m new row, fair_phases p1 p2 p3 -> read_rules L (p_rules p1) -> read_rules L (p_rules p2) -> read_rules L (p_rules p3) -> NoDup (map fst (p_rules m)) ->
    lifting_variation L keep fuel w p1 p2 p3 m new row ->
    forall V (A : algebra O C V) (ok : (string -> V) -> Prop),
      (forall env, ok env -> interprets L (set_vars L A env) /\ forall q, run_rule p1 p2 p3 q -> holds L (set_vars L A env) q) ->
    forall k r, In (k, r) new -> from_terms L ar (same L ar A ok) r.
  Proof.
    intros w p1 p2 p3 m new row Fp H1 H2 H3 N Rn V A ok H k r I. destruct (variation_three _ _ _ _ _ _ _ Rn) as (g0 & g1 & g2 & g3 & c1 & c2 & inv & Th & X1 & X2 & M & _).
    assert (F : Forall (fun e => from_terms L ar (same L ar A ok) (snd e)) (extend c1 c2)).
    { refine (candidates_from w p1 p2 p3 g0 g1 g2 g3 Th H1 H2 H3 (same L ar A ok) (same_sym L ar V A ok) _ c1 c2 X1 X2).
      intros t1 t2 j R1 R2 A1 A2 W1 W2. split; [exact W1|]. split; [exact W2|]. split; [exact A1|]. split; [exact A2|]. intros env D. destruct (H env D) as [Ia Hq].
      exact (sound_moves L (run_rule p1 p2 p3) g3 (fun V' A' I' H' => moves_3 w p1 p2 p3 g0 g1 g2 g3 Th Fp V' A' I' H') V _ Ia Hq t1 t2 j R1 R2). }
    pose proof (minimize_origin L keep fuel _ (same_reverse L ar V A ok) _ _ _ _ _ N M F) as G. rewrite Forall_forall in G. exact (G _ I).
  Qed.
  Lemma variation_safe : forall V (sem : O -> list V -> res V) says (ok : (string -> V) -> Prop), (forall env, ok env -> SafeSpec.steady L (at_env L sem says env) /\ starts L (at_env L sem says env)) ->
    forall w p1 p2 p3 m new row, fair_phases p1 p2 p3 -> read_rules L (p_rules p1) -> read_rules L (p_rules p2) -> read_rules L (p_rules p3) -> NoDup (map fst (p_rules m)) ->
      (forall q, run_rule p1 p2 p3 q -> safe_rule L sem q) -> lifting_variation L keep fuel w p1 p2 p3 m new row ->
      forall k r, In (k, r) new -> exists t1 t2, generalizes L r t1 t2 /\
        all_allowed (l_allowed L) t1 = true /\ all_allowed (l_allowed L) t2 = true /\
        forall env, ok env -> workload_defined L sem w env -> exists v, value L sem env t1 = Val v /\ value L sem env t2 = Val v.
  Proof.
    intros V sem says ok Hs w p1 p2 p3 m new row Fp H1 H2 H3 N Sf Rn k r J. destruct (variation_three _ _ _ _ _ _ _ Rn) as (g0 & g1 & g2 & g3 & c1 & c2 & inv & Th & X1 & X2 & M & _).
    assert (Mv : forall env, ok env -> workload_defined L sem w env -> moves (at_env L sem says env) eg_default g3).
    { intros env Ok Wd. destruct Th as (E & S1 & S2 & S3). destruct (Hs env Ok) as [St Si].
      assert (M0 : moves (at_env L sem says env) eg_default g0).
      { apply (SafeProofs.to_egraph_moves L eqb_eq keep fuel (at_env L sem says env) St Si w g0); [|exact E]. intros ss es Fw Pw.
        assert (X : exists ts, Forall2 (reads L) ss ts /\ es = map to_rec ts).
        { apply rmapM_F2 in Pw. clear - Pw. induction Pw as [|s r ss es H F IH]; [exists []; auto|]. destruct IH as (ts & F' & ->).
          destruct (parse_rec (l_from_op L) (Sexp.display s)) as [r'|] eqn:Ep; [|discriminate H]. injection H as ->.
          assert (exists t, r = to_rec t) as (t & ->). { unfold parse_rec in Ep. destruct (Reader.parse_str (Sexp.display s)); [|discriminate Ep]. destruct (term_of_sexp (l_from_op L) s0); [|discriminate Ep]. injection Ep as <-. eauto. }
          exists (t :: ts). split; [constructor; auto|reflexivity]. }
        destruct X as (ts & Fr & ->). pose proof (Wd ss ts Fw Fr) as Fd. pose proof (read_terms_wf L ar P K Rd w ss ts Fw Fr) as Fwf.
        apply Forall_map. rewrite Forall_forall in *. intros t It. apply rec_defined_ok. destruct (Fd t It) as (v & Ev). exists v. rewrite fold_to_rec. exact (value_fold L sem ar env t v leaf (Fwf t It) Ev). }
      pose proof (SafeProofs.scheduled_moves L eqb_eq keep fuel (at_env L sem says env) St (safe_rule L sem) (safe_rule_safe L sem says env)) as Sc.
      assert (Sr : forall (p : phase O), (forall q, rule_of (p_rules p) q -> run_rule p1 p2 p3 q) -> Forall (fun e => safe_rule L sem (snd e)) (p_rules p)).
      { intros p Hp. apply Forall_forall. intros [k' r'] J'. apply Sf, Hp. exists k'. exact J'. }
      pose proof (proj1 (Sc _ _ g0 g1 (proj1 Fp) (Sr p1 (fun q h => or_introl h)) (proj1 M0) S1)) as M1.
      pose proof (proj1 (Sc _ _ g1 g2 (proj1 (proj2 Fp)) (Sr p2 (fun q h => or_intror (or_introl h))) (proj1 M1) S2)) as M2.
      pose proof (proj1 (Sc _ _ g2 g3 (proj2 (proj2 Fp)) (Sr p3 (fun q h => or_intror (or_intror h))) (proj1 M2) S3)) as M3.
      exact (moves_trans _ _ _ _ M0 (moves_trans _ _ _ _ M1 (moves_trans _ _ _ _ M2 M3))). }
    assert (G : Forall (fun e => from_terms L ar (joined L sem ok w) (snd e)) (extend c1 c2)).
    { refine (candidates_from w p1 p2 p3 g0 g1 g2 g3 Th H1 H2 H3 (joined L sem ok w) (joined_sym L sem ok w) _ c1 c2 X1 X2).
      intros t1 t2 j R1 R2 A1 A2 _ _. split; [exact A1|]. split; [exact A2|]. intros env Ok Wd.
      exact (moves_value L sem says env g3 (Mv env Ok Wd) t1 t2 j R1 R2). }
    pose proof (minimize_origin L keep fuel _ (fun a b H => from_terms_reverse L ar (joined L sem ok w) a b (joined_sym L sem ok w) H) _ _ _ _ _ N M G) as Gn. rewrite Forall_forall in Gn.
    destruct (Gn _ J) as (_ & _ & _ & t1 & t2 & (A1 & A2 & H) & Ge). exists t1, t2. auto.
  Qed.
End Vary.

Lemma readable_varies : forall O C (L : lang O C) ar P, (exists K, SaveDomains.readable L ar P K) -> varies L.
Proof.
  intros O C L ar P (K & Rd) keep fuel w p1 p2 p3 m new row Fp H1 H2 H3 N Rn.
  destruct (variation_three L keep fuel _ _ _ _ _ _ _ Rn) as (g0 & g1 & g2 & g3 & c1 & c2 & inv & _ & _ & _ & (chosen & R & ->) & ->). split; [reflexivity|].
  pose proof (rounds_valid L keep fuel (p_sched m) (p_rules m) _ _ R (conj N (fun e I => or_introl I))) as (Nc & _). cbn [fst snd] in Nc.
  destruct (RulesetProofs.remove_all_spec (p_rules m) chosen Nc) as [Nn Lk]. split; [exact Nn|]. intros k r I.
  pose proof (fun V A ok H => variation_same L ar P K Rd keep fuel w p1 p2 p3 m _ _ Fp H1 H2 H3 N Rn V A ok H k r I) as Go.
  split; [intros V A ok Cl H; exact (proj1 (same_holds L ar (re_leaf _ _ _ _ Rd) V A ok r Cl (Go V A ok H)))|].
  assert (F : from_terms L ar (same L ar (Alg (V := unit) (fun (_ : O) _ => tt) (fun _ => True) (fun (_ : interval C) _ => True)) (fun _ => False)) r).
  { apply Go. intros env []. }
  destruct (proj2 (same_holds L ar (re_leaf _ _ _ _ Rd) _ _ (fun _ => False) r ltac:(intros env rho []) F)) as [A1 A2]. split; [exact A1|]. split; [exact A2|].
  intros J. specialize (Lk k). rewrite (lookup_in_nodup _ _ _ Nn I) in Lk. apply in_map_iff in J as ([k' q] & E & J). cbn in E. subst k'.
  rewrite (lookup_in_nodup _ _ _ N J) in Lk. discriminate Lk.
Qed.
Lemma readable_varies_finds : forall O C (L : lang O C) ar P, (exists K, SaveDomains.readable L ar P K) -> varies_finds L.
Proof.
  intros O C L ar P (K & Rd) keep fuel w p1 p2 p3 m new row Fp H1 H2 H3 Rn first second.
  destruct (variation_three L keep fuel _ _ _ _ _ _ _ Rn) as (g0 & g1 & g2 & g3 & c1 & c2 & inv & Th & X1 & X2 & M & _).
  destruct (three_structure L ar P K Rd keep fuel w p1 p2 p3 g0 g1 g2 g3 Th H1 H2 H3) as (W1 & W2 & Cg1 & Cg2 & E01 & E12 & E23 & _).
  pose proof (sound_moves L first g1 (moves_1 L ar P K Rd keep fuel w p1 p2 p3 g0 g1 g2 g3 Th Fp)) as S1.
  pose proof (sound_moves L second g2 (moves_2 L ar P K Rd keep fuel w p1 p2 p3 g0 g1 g2 g3 Th Fp)) as S2.
  exists g1, g2, g3, c1, c2, inv. split; [exact S1|]. split; [exact S2|]. split; [exact (sound_moves L _ g3 (moves_3 L ar P K Rd keep fuel w p1 p2 p3 g0 g1 g2 g3 Th Fp))|].
  split. { intros ss ts Fw Fr. destruct Th as (E & _). destruct (to_egraph_present L (re_eqb _ _ _ _ Rd) keep fuel w g0 E) as (ss' & rs & Fw' & Fp' & Fx).
    rewrite Fw in Fw'. injection Fw' as <-. clear - Fr Fp' Fx E01. revert rs Fp' Fx. induction Fr as [|s t ss ts Hr Fr IH]; intros rs Fp' Fx; [constructor|].
    inversion Fp' as [|s' r ss' rs' Hr' Fp'']; subst. inversion Fx as [|r' rs'' Hx Fx']; subst. constructor; [|exact (IH _ Fp'' Fx')].
    destruct Hx as (u & c & Tu & Ru). unfold reads in Hr. rewrite Hr in Hr'. injection Hr' as <-. rewrite tree_to_rec in Tu. injection Tu as <-. exists c. exact (repr_ext _ _ E01 _ _ Ru). }
  split; [intros t c; exact (repr_ext _ _ E12 t c)|]. split; [intros t c; exact (repr_ext _ _ E23 t c)|].
  pose proof (extracted_proposes L (re_eqb _ _ _ _ Rd) fuel g1 g2 c1 W1 Cg1 (proj1 E12) X1) as P1. pose proof (extracted_proposes L (re_eqb _ _ _ _ Rd) fuel g2 g3 c2 W2 Cg2 (proj1 E23) X2) as P2.
  split; [exact P1|]. split; [exact P2|]. split; [exact M|]. intros t1 t2 i j R1 R2 E3 A1 A2 Z1 Z2 Ne.
  exact (found_pair O C L g1 g2 g3 first second c1 c2 S1 S2 (fun q h => or_introl h) (fun t c => repr_ext _ _ E12 t c) P1 P2 W1 W2 t1 t2 i j R1 R2 E3 A1 A2 Z1 Z2 E12 E23 Ne).
Qed.
(* fast-forwarding is the variation with the allowed rules, the exploratory ones and all *)
Lemma forwarding_variation : forall O C (L : lang O C) keep fuel ex w prior new, run_fast_forwarding L keep fuel ex w prior new <->
  exists allowed other o1 o3 om row, partition (fun r => Val (is_allowed_rewrite L (rlhs r) (rrhs r))) prior = Val (allowed, other) /\
    fair (Compress o1) /\ fair (Compress o3) /\ fair (Compress om) /\
    lifting_variation L keep fuel w (Phase allowed "A" (Compress o1)) (Phase ex "E" Simple) (Phase (extend prior ex) "R" (Compress o3)) (Phase prior "P" (Compress om)) new row.
Proof.
  intros O C L keep fuel ex w prior new. split.
  - intros (g0 & al & ot & g1 & g2 & g3 & c1 & c2 & E & Pt & (o1 & F1 & S1) & S2 & X1 & (o3 & F3 & S3) & X2 & (om & inv & Fm & M)).
    exists al, ot, o1, o3, om. eexists. split; [exact Pt|]. split; [exact F1|]. split; [exact F3|]. split; [exact Fm|].
    exists g0, g1, g2, g3, c1, c2, inv. repeat split; assumption.
  - intros (al & ot & o1 & o3 & om & row & Pt & F1 & F3 & Fm & (g0 & g1 & g2 & g3 & c1 & c2 & inv & E & S1 & S2 & X1 & S3 & X2 & M & _)).
    exists g0, al, ot, g1, g2, g3, c1, c2. split; [exact E|]. split; [exact Pt|]. split; [exists o1; auto|]. split; [exact S2|]. split; [exact X1|]. split; [exists o3; auto|]. split; [exact X2|]. exists om, inv. auto.
Qed.
