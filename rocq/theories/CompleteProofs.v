(* Completeness of run_workload. *)
From Coq Require Import Permutation NArith.
From Verif Require Import Base BaseProofs Lang LangProofs Util UtilProofs Sexp Reader Syntax SyntaxProofs Rule Ruleset RuleSpec RuleTextProofs Workload DomainSpec
  Analysis AnalysisSpec Generalize GeneralizeProofs Egraph EgraphSpec EgraphProofs Synth SynthSpec SynthProofs Apply Sched Extract ExtractProofs Match MatchSpec MatchProofs
  Minimize MinimizeSpec MinimizeProofs MinimizeLoop MinimizeSem Infer InferProofs TotalSpec PlainSpec PlainProofs LearnSpec SettleProofs LearnProofs LearnDomains DomainSound
  OpsSpec OpsProofs SaveProofs SaveDomains ForwardSpec ForwardProofs ProposedProofs CompleteSpec.
From Verif Require LearntSpec LearntProofs.
Open Scope list_scope.

(* generalizing a pair of terms succeeds with at most 26 variables only *)
Lemma pair_few : forall O C (L : lang O C) ar, regular L ar -> forall e1 t1 e2 t2 o, wf_rec ar e1 -> wf_rec ar e2 -> tree e1 = Val t1 -> tree e2 = Val t2 ->
  candidate_pair (l_eqb L) (l_to_var L) (l_mk_var L) (l_name L) e1 e2 = Val o -> at_most 26 (tvars (l_to_var L) t1 ++ tvars (l_to_var L) t2).
Proof.
  intros O C L ar Rg e1 t1 e2 t2 o W1 W2 T1 T2 H. unfold candidate_pair in H.
  destruct (generalize (l_eqb L) (l_to_var L) (l_mk_var L) [] e1) as [[l m1]|] eqn:G1; [|discriminate H]. cbn [rbind] in H.
  destruct (generalize (l_eqb L) (l_to_var L) (l_mk_var L) m1 e2) as [[r m2]|] eqn:G2; [|discriminate H].
  pose proof (fun a b => proj1 (rg_eqb L ar Rg a b)) as Eq.
  destruct (generalize_spec (l_eqb L) (l_to_var L) (l_mk_var L) Eq (rg_var L ar Rg) [] e1 t1 good_nil T1 (fun n => wf_leaf (l_to_var L) ar (rg_leaf L ar Rg) e1 n W1)) as
    [(l' & m1' & L1 & L2 & L3 & L4 & _)|(X & _)]; [|rewrite X in G1; discriminate G1]. rewrite L1 in G1. injection G1 as -> ->.
  destruct (generalize_spec (l_eqb L) (l_to_var L) (l_mk_var L) Eq (rg_var L ar Rg) m1 e2 t2 L2 T2 (fun n => wf_leaf (l_to_var L) ar (rg_leaf L ar Rg) e2 n W2)) as
    [(r' & m2' & R1 & R2 & R3 & R4 & _)|(X & _)]; [|rewrite X in G2; discriminate G2].
  intros ws N I. apply (nodup_le26 m2' R2 ws N). intros y Hy. apply I in Hy. apply R4. rewrite in_app_iff in Hy. destruct Hy; [left; apply L4; auto|auto].
Qed.

(* values for pattern variables that give the variables of the terms their values *)
Lemma unrename : forall V (vars : list string) (rho : string -> string) (env : string -> V), (forall x y, In x vars -> In y vars -> rho x = rho y -> x = y) ->
  exists s : string -> V, (forall x, In x vars -> s (rho x) = env x) /\ forall y, exists x, s y = env x.
Proof.
  intros V vars rho env. induction vars as [|a vars IH]; intros Inj.
  - exists env. split; [intros x []|]. intros y. now exists y.
  - destruct IH as (s & H1 & H2). { intros x y Hx Hy. apply Inj; now right. }
    exists (fun y => if String.eqb y (rho a) then env a else s y). split.
    + intros x [<-|Hx]; [now rewrite String.eqb_refl|]. destruct (String.eqb (rho x) (rho a)) eqn:E; [|now apply H1].
      apply String.eqb_eq in E. apply Inj in E; [now subst|now right|now left].
    + intros y. destruct (String.eqb y (rho a)); [now exists a|apply H2].
Qed.
Lemma set_vars_ext : forall O C V (L : lang O C) (A : algebra O C V) e1 e2 t, (forall x, In x (tvars (l_to_var L) t) -> e1 x = e2 x) ->
  aval (a_sem (set_vars L A e1)) t = aval (a_sem (set_vars L A e2)) t.
Proof.
  intros O C V L A e1 e2 t. induction t as [o ts IH] using term_ind'. intros H. cbn [aval].
  assert (map (aval (a_sem (set_vars L A e1))) ts = map (aval (a_sem (set_vars L A e2))) ts) as ->.
  { apply map_ext_in. intros t Ht. rewrite Forall_forall in IH. apply IH; [exact Ht|]. intros x Hx. apply H. cbn [tvars]. apply in_app_iff. right. apply in_flat_map. eauto. }
  cbn [set_vars a_sem]. destruct (l_to_var L o) as [x|] eqn:E; [|reflexivity]. apply H. cbn [tvars]. rewrite E. now left.
Qed.
Lemma below_everywhere : forall C (v u : cvec C), below v u -> everywhere v -> u = v.
Proof.
  intros C v u B. induction B as [|a b v u H B IH]; intros E; [reflexivity|]. inversion E as [|? ? Na Ev]; subst. f_equal; [|now apply IH]. destruct H as [H|H]; [contradiction|now symmetry].
Qed.

Section Matched.
  Context {O C : Type}.
  Variable L : lang O C.
  Variable ar : O -> nat.
  Hypothesis Rg : regular L ar.
  (* two classes with the same vector are matched *)
  Lemma matched : forall fuel fast (g : eg O C) cands, wf g -> proposed L fuel fast g cands ->
    forall i j v, find g i = Val i -> find g j = Val j -> i <> j -> vec g i v -> vec g j v -> somewhere v ->
    exists e1 u1 e2 u2, tree e1 = Val u1 /\ tree e2 = Val u2 /\ repr g u1 i /\ repr g u2 j /\ Forall (from_g g) e1 /\ Forall (from_g g) e2 /\
      (forall t, repr g t i -> (usize u1 <= usize t)%N) /\ (forall t, repr g t j -> (usize u2 <= usize t)%N) /\
      exists a b o, ((a, b) = (e1, e2) \/ (a, b) = (e2, e1)) /\
        candidate_pair (l_eqb L) (l_to_var L) (l_mk_var L) (l_name L) a b = Val o /\ forall k, named L a b k -> In k (map fst cands).
  Proof.
    intros fuel fast g cands W (order & arrange & (Po & Ha) & H) i j v Fi Fj Ne Vi Vj Sv.
    pose proof (order_ids g order Po) as Oi. pose proof (vec_cv g i v Vi) as Ci. pose proof (vec_cv g j v Vj) as Cj.
    pose proof (rg_eqb L ar Rg) as Eq.
    assert (exists ps, (In (i, j) ps \/ In (j, i) ps) /\
        exists t es, extractor (fun _ => true) arrange g fuel order = Val t /\ rmapM (best_pair L fuel g t) ps = Val es /\ propose L [] (map (fun p => (snd (fst p), snd (snd p))) es) = Val cands)
        as (ps & Hps & t & es & Ex & Es & Ep).
    { assert (In (i, j) (pairs order) \/ In (j, i) (pairs order)) as Hp by (apply pairs_total; [now apply Oi|now apply Oi|exact Ne]).
      destruct fast.
      - unfold fast_cvec_match in H. destruct (extractor _ _ _ _ _) as [t|] eqn:Ex; [|discriminate H]. cbn [rbind] in H.
        destruct (fast_pairs_spec L ar Rg g W order Po) as (ps & Eps & Hps). rewrite Eps in H. cbn [rbind] in H. destruct (rmapM _ ps) as [es|] eqn:Es; [|discriminate H]. cbn [rbind] in H.
        exists ps. split; [|exists t, es; auto]. rewrite !Hps, <- Ci, <- Cj. tauto.
      - unfold cvec_match in H. destruct (extractor _ _ _ _ _) as [t|] eqn:Ex; [|discriminate H]. cbn [rbind] in H.
        destruct (cvec_pairs_spec L ar Rg g W order Po) as (ps & Eps & Hps). rewrite Eps in H. cbn [rbind] in H. destruct (rmapM _ ps) as [es|] eqn:Es; [|discriminate H]. cbn [rbind] in H.
        exists ps. split; [|exists t, es; auto].
        assert (agree v v) as Av by (intros k a b [X Y]; congruence).
        assert (first g i = first g j) as Ff by (unfold first; congruence).
        rewrite !Hps, <- Ci, <- Cj. destruct Hp as [Hp|Hp]; pose proof (pairs_in _ _ _ Hp) as [P1 P2]; [left|right]; repeat (split; [assumption|]); left; auto. }
    pose proof (find_some _ _ _ Fi) as Li. pose proof (find_some _ _ _ Fj) as Lj.
    assert (Pair : forall x y, In (x, y) ps -> x < size g -> y < size g -> exists e1 u1 e2 u2, tree e1 = Val u1 /\ tree e2 = Val u2 /\ repr g u1 x /\ repr g u2 y /\ Forall (from_g g) e1 /\ Forall (from_g g) e2 /\
      (forall t, repr g t x -> (usize u1 <= usize t)%N) /\ (forall t, repr g t y -> (usize u2 <= usize t)%N) /\
      exists o, candidate_pair (l_eqb L) (l_to_var L) (l_mk_var L) (l_name L) e1 e2 = Val o /\ forall k, named L e1 e2 k -> In k (map fst cands)).
    { intros x y I Lx Ly. destruct (best_pair_of L _ _ _ _ _ x y Es I) as (k1 & e1 & k2 & e2 & J & B1 & B2).
      pose proof (best_smallest L Eq g _ _ order Ha W Oi _ _ _ _ _ Ex B1 Lx) as (v1 & V1 & _ & M1). pose proof (best_smallest L Eq g _ _ order Ha W Oi _ _ _ _ _ Ex B2 Ly) as (v2 & V2 & _ & M2).
      destruct (best_cost _ _ _ (l_eqb L) _ _ g Eq Ha W order Oi _ _ _ _ _ Ex B1 Lx) as (u1 & T1 & Q1 & F1 & _).
      destruct (best_cost _ _ _ (l_eqb L) _ _ g Eq Ha W order Oi _ _ _ _ _ Ex B2 Ly) as (u2 & T2 & Q2 & F2 & _).
      rewrite T1 in V1. injection V1 as <-. rewrite T2 in V2. injection V2 as <-.
      exists e1, u1, e2, u2. split; [exact T1|]. split; [exact T2|]. split; [exact Q1|]. split; [exact Q2|]. split; [exact F1|]. split; [exact F2|]. split; [exact M1|]. split; [exact M2|].
      assert (Il : In (e1, e2) (map (fun p => (snd (fst p), snd (snd p))) es)) by (apply in_map_iff; exists ((k1, e1), (k2, e2)); auto).
      destruct (propose_val L _ _ _ Ep e1 e2 Il) as (o & Eo). exists o. split; [exact Eo|]. intros k Nm. exact (proj2 (propose_keys L _ _ _ Ep) e1 e2 k Il Nm). }
    destruct Hps as [I|I].
    - destruct (Pair i j I Li Lj) as (e1 & u1 & e2 & u2 & H1 & H2 & H3 & H4 & H5 & H6 & H7 & H8 & o & H9 & H10).
      exists e1, u1, e2, u2. repeat (split; [assumption|]). exists e1, e2, o. auto.
    - destruct (Pair j i I Lj Li) as (e2 & u2 & e1 & u1 & H2 & H1 & H4 & H3 & H6 & H5 & H8 & H7 & o & H9 & H10).
      exists e1, u1, e2, u2. repeat (split; [assumption|]). exists e2, e1, o. auto.
  Qed.
End Matched.

Section Complete.
  Context {O C : Type}.
  Variable L : lang O C.
  Variable ar : O -> nat.
  Variable P : O -> Prop.
  Variable K : C -> Prop.
  Hypothesis Sp : sampled L ar.
  Hypothesis Rg : regular L ar.
  Hypothesis Re : SaveDomains.readable L ar P K.
  Hypothesis Tx : forall o, P o -> eov_ok (l_from_op L) (l_name L) ar (EN o).
  Variable keep : eg O C -> nat -> nat -> bool.
  Variable fuel : nat.
  Local Notation tv := (tvars (l_to_var L)).
  Local Notation entry := (entry_ok (l_from_op L) (l_name L) ar).
  Local Notation Q := (over L ar P).
  Let eqb_eq : forall a b, l_eqb L a b = true <-> a = b := rg_eqb L ar Rg.

  Variable w : workload.
  Variable prior : ruleset O.
  Hypothesis Fp : fit_prior L ar prior.
  Variables (g c : eg O C) (cands new : ruleset O) (fast : bool).
  Hypothesis Eg : to_egraph L keep fuel w = Val g.
  Hypothesis Ec : compressed L keep fuel prior g c.
  Hypothesis Pr : proposed L fuel fast c cands.
  Hypothesis Mn : minimized L keep fuel cands prior new.

  Lemma c_ran : ran L (plain_rhs L ar) keep w c.
  Proof.
    destruct (compressed_run _ _ _ _ _ _ Ec) as (st & S). exists fuel, st, prior, g. split; [exact (Gr_start L _ keep w fuel g Eg)|]. split; [exact (fp_plain _ _ _ Fp)|exact S].
  Qed.
  Lemma c_wf : wf c.
  Proof. exact (grown_wf L ar Sp keep w c (ran_grown L ar keep w c c_ran)). Qed.
  Lemma c_sound : sound_for L (rule_of prior) c.
  Proof.
    apply sound_moves. intros V A Ia Hq. pose proof (to_egraph_moves L eqb_eq keep fuel A Ia w g Eg) as M0. destruct Ec as (order & Po & C1).
    refine (moves_trans A _ _ _ M0 (proj1 (scheduled_moves L eqb_eq keep fuel A Ia (Compress order) prior g c Po _ (proj1 M0) C1))).
    apply Forall_forall. intros [k r] I. apply Hq. now exists k.
  Qed.
  Lemma c_present : forall ss ts, force w = Val ss -> Forall2 (reads L) ss ts -> forall t, In t ts -> exists i, repr c t i.
  Proof.
    intros ss ts Fw Fr. assert (Forall (fun t => exists i, repr c t i) ts) as F; [|rewrite Forall_forall in F; exact F].
    destruct (compressed_run _ _ _ _ _ _ Ec) as (st & S). pose proof (run_ext L ar Sp keep w fuel st prior g c (Gr_start L _ keep w fuel g Eg) (fp_plain _ _ _ Fp) S) as E01.
    destruct (to_egraph_present L eqb_eq keep fuel w g Eg) as (ss' & rs & Fw' & Fp' & Fx). rewrite Fw in Fw'. injection Fw' as <-.
    clear - Fr Fp' Fx E01. revert rs Fp' Fx. induction Fr as [|s t ss ts Hr Fr IH]; intros rs Fp Fx; [constructor|].
    inversion Fp as [|s' r ss' rs' Hr' Fp1]; subst. inversion Fx as [|r' rs'' Hx Fx1]; subst. constructor; [|exact (IH _ Fp1 Fx1)].
    destruct Hx as (u & i & Tu & Ru). unfold reads in Hr. rewrite Hr in Hr'. injection Hr' as <-. rewrite tree_to_rec in Tu. injection Tu as <-. exists i. exact (repr_ext _ _ E01 _ _ Ru).
  Qed.
  Lemma c_rec : forall e, Forall (from_g c) e -> wf_rec ar e.
  Proof. intros e. exact (ran_wf_rec L ar Sp keep w c e c_ran). Qed.

  (* candidates can be written *)
  Lemma c_uses : forall e, Forall (from_g c) e -> uses Q e.
  Proof.
    destruct (compressed_run _ _ _ _ _ _ Ec) as (st & S).
    pose proof (fun o k H => LearntProofs.read_over L ar P K Re o k H) as Ro.
    assert (G : grown L (rhs_uses Q) keep w c) by (refine (Gr_run _ _ _ _ _ _ _ _ _ (Gr_start _ _ _ _ _ g Eg) (read_kind L ar P Ro prior (fp_read _ _ _ Fp)) S)).
    destruct (grown_ops L eqb_eq keep Q K (re_admits _ _ _ _ Re) w c (read_workload L ar P Ro w) G) as [W (I1 & _)].
    intros e F. eapply Forall_impl; [|exact F]. intros n (m & j & Hm & Eo & El). cbn. rewrite Eo, El. exact (I1 m j Hm).
  Qed.
  Lemma spelt_of : forall x, rule_uses L Q x -> spelt L ar x.
  Proof.
    intros x U n o J E. destruct (uses_in _ _ _ _ _ _ _ U J E) as [Hn [_ [X|X]]]; [contradiction|]. exact (Tx o X).
  Qed.
  Lemma entry_of : forall x, rule_uses L Q x /\ formed L ar x -> entry (rname x, x).
  Proof. intros x [U Fm]. apply formed_entry; [reflexivity|exact Fm|exact (spelt_of x U)]. Qed.
  Lemma pair_text : forall e1 t1 e2 t2 fw bw, Forall (from_g c) e1 -> Forall (from_g c) e2 -> tree e1 = Val t1 -> tree e2 = Val t2 ->
    candidate_pair (l_eqb L) (l_to_var L) (l_mk_var L) (l_name L) e1 e2 = Val (fw, bw) -> forall x, fw = Some x \/ bw = Some x -> entry (rname x, x).
  Proof.
    intros e1 t1 e2 t2 fw bw F1 F2 T1 T2 H x Hx. apply entry_of.
    exact (both_pair L ar eqb_eq (re_var _ _ _ _ Re) (re_leaf _ _ _ _ Re) P e1 t1 e2 t2 fw bw (c_uses e1 F1) (c_uses e2 F2) T1 T2 H x Hx).
  Qed.
  Lemma cands_uses : Forall (fun e => rule_uses L Q (snd e) /\ formed L ar (snd e)) cands.
  Proof.
    destruct (compressed_run _ _ _ _ _ _ Ec) as (st & S).
    pose proof (fun o k H => LearntProofs.read_over L ar P K Re o k H) as Ro.
    assert (G : grown L (rhs_uses Q) keep w c) by (refine (Gr_run _ _ _ _ _ _ _ _ _ (Gr_start _ _ _ _ _ g Eg) (read_kind L ar P Ro prior (fp_read _ _ _ Fp)) S)).
    destruct (grown_ops L eqb_eq keep Q K (re_admits _ _ _ _ Re) w c (read_workload L ar P Ro w) G) as [W Iv].
    refine (proposed_uses L eqb_eq Q K (fun r => rule_uses L Q r /\ formed L ar r) _ fuel fast c cands W Iv Pr).
    exact (both_pair L ar eqb_eq (re_var _ _ _ _ Re) (re_leaf _ _ _ _ Re) P).
  Qed.
  Lemma cands_text : ruleset_ok (l_from_op L) (l_name L) ar cands.
  Proof.
    destruct (proposed_good L fuel fast c cands Pr) as [Kc Nc]. split; [exact Nc|]. pose proof cands_uses as F.
    rewrite Forall_forall in *. intros [k r] I. pose proof (F _ I) as X. pose proof (Kc _ I) as Ek. cbn in Ek, X. rewrite Ek. exact (entry_of r X).
  Qed.
  Variables (ts : list (term O)) (n : nat) (vs : list (string * cvec C)).
  Hypothesis Sm : samples_of L w ts n vs.
  Lemma c_settled : forall t i, repr c t i -> exists v u, cvec_term (l_eval L) (l_to_var L) n (var_cvec vs) t = Val v /\ vec c i u /\ LearnSpec.below v u /\ length u = n /\
    wf_term ar t /\ incl (tv t) (wvars L ts).
  Proof.
    destruct (ran_settled L ar Sp keep w c c_ran) as (ts' & n' & vs' & S & H). destruct (samples_fun L w _ _ _ _ _ _ Sm S) as (<- & <- & <-). exact H.
  Qed.
  Lemma cands_from : Forall (fun e => plain_pat L ar (rlhs (snd e)) /\ plain_pat L ar (rrhs (snd e)) /\ rkind (snd e) = KRhs) cands.
  Proof.
    pose proof (proposed_learned L ar Sp Rg keep w c ts n vs c_ran Sm fuel fast cands Pr) as F. eapply Forall_impl; [|exact F]. intros e (H1 & H2 & H3 & _). auto.
  Qed.
  Lemma gen_closed : forall rho t, closed L (gen_term (l_to_var L) rho t).
  Proof.
    intros rho t. induction t as [o us IH] using term_ind'. cbn [gen_term]. destruct (l_to_var L o) eqn:E; [exact I|]. cbn [closed]. split; [exact E|].
    induction IH as [|u us H IH IHl]; cbn; auto.
  Qed.

  Lemma pair_some : forall e1 u1 e2 u2 fw bw, wf_rec ar e1 -> wf_rec ar e2 -> tree e1 = Val u1 -> tree e2 = Val u2 ->
    candidate_pair (l_eqb L) (l_to_var L) (l_mk_var L) (l_name L) e1 e2 = Val (fw, bw) -> incl (tv u2) (tv u1) \/ incl (tv u1) (tv u2) -> exists x, fw = Some x \/ bw = Some x.
  Proof.
    intros e1 u1 e2 u2 fw bw W1 W2 T1 T2 Cp Y. pose proof (pair_few O C L ar Rg e1 u1 e2 u2 _ W1 W2 T1 T2 Cp) as Am.
    destruct (candidate_pair_spec (l_eqb L) (l_to_var L) (l_mk_var L) (fun a b => proj1 (eqb_eq a b)) (rg_var L ar Rg) ar (rg_leaf L ar Rg) (l_name L) e1 u1 e2 u2 W1 W2 T1 T2 Am)
      as (l & r & rho & nf & nb & _ & _ & _ & _ & _ & _ & fw' & bw' & Cp' & F1 & _ & B1 & _). rewrite Cp' in Cp. injection Cp as -> ->.
    destruct Y as [Y|Y]; [rewrite (F1 Y)|rewrite (B1 Y)]; eauto.
  Qed.
  Lemma complete_pair : forall t1 t2, In t1 ts -> In t2 ts -> indistinct L n vs t1 t2 ->
    settles L ar (no_rule L ar) (rule_of prior) (fun r => rule_of prior r \/ rule_of new r) (wvars L ts) n vs t1 t2.
  Proof.
    intros t1 t2 I1 I2 (v & C1 & C2 & Ev & Nv). destruct Sm as (ss & ls & Fw & Fr & _).
    destruct (c_present ss ts Fw Fr t1 I1) as (i0 & R1). destruct (c_present ss ts Fw Fr t2 I2) as (j0 & R2).
    assert (Root : forall t x, repr c t x -> exists r, find c r = Val r /\ repr c t r).
    { intros t x R. assert (exists r, find c x = Val r) as (r & E) by (inversion R as [? ? ch ? F (m & y & Hm & _ & _ & (r & E1 & E2))]; subst; eauto).
      exists r. split; [exact (wf_rep c c_wf _ _ E)|]. exact (repr_eqv _ _ _ _ R (eqv_find _ _ _ c_wf E)). }
    destruct (Root t1 i0 R1) as (i & Fi & Ri). destruct (Root t2 j0 R2) as (j & Fj & Rj). clear i0 j0 R1 R2 Root.
    assert (Vec : forall t x, repr c t x -> cvec_term (l_eval L) (l_to_var L) n (var_cvec vs) t = Val v -> vec c x v).
    { intros t x R E. destruct (c_settled t x R) as (v' & u & E' & V & B & _). assert (v' = v) as -> by congruence. rewrite (below_everywhere _ _ _ B Ev) in V. exact V. }
    pose proof (Vec _ _ Ri C1) as Vi. pose proof (Vec _ _ Rj C2) as Vj.
    assert (Same : forall t u x, repr c t x -> repr c u x -> equal_under L (rule_of prior) t u).
    { intros t u x Rt Ru V A Ia Hq. exact (c_sound V A Ia Hq t u x Rt Ru). }
    destruct (Nat.eq_dec i j) as [<-|Ne].
    { left. intros V A _ H env De. destruct (H env De) as [Ia Hq]. apply (Same _ _ _ Ri Rj V _ Ia). intros q Hr. apply Hq. now left. }
    assert (somewhere v) as Sv. { destruct v as [|[a|] v']; [contradiction| |inversion Ev as [|? ? X]; now elim X]. now exists 0, a. }
    destruct (matched L ar Rg fuel fast c cands c_wf Pr i j v Fi Fj Ne Vi Vj Sv) as (e1 & u1 & e2 & u2 & T1 & T2 & U1 & U2 & G1 & G2 & M1 & M2 & a & b & o & Hab & Cp & Nm).
    pose proof (Same _ _ _ Ri U1) as Q1. pose proof (Same _ _ _ Rj U2) as Q2.
    assert (Un : untold L ar (wvars L ts) n vs u1 u2).
    { exact (ran_untold L ar Sp keep w c ts n vs c_ran Sm u1 u2 i j v v U1 U2 Vi Vj (fun k x y H => ltac:(destruct H; congruence))). }
    destruct Un as (Wu1 & Wu2 & Un).
    (* a rule between the two smallest terms, in some direction *)
    assert (Rule : unwritable L u1 u2 \/ exists x, from_terms L ar (fun p q => (p = u1 /\ q = u2) \/ (p = u2 /\ q = u1)) x /\ entry (rname x, x) /\ In (rname x) (map fst cands)).
    { destruct (incl_dec' (tv u2) (tv u1)) as [Y1|Y1]; [right|destruct (incl_dec' (tv u1) (tv u2)) as [Y2|Y2]; [right|left; split; assumption]].
      all: destruct o as [fw bw].
      all: assert (Dir : exists x, fw = Some x \/ bw = Some x); [|destruct Dir as (x & Hx); exists x;
        destruct Hab as [X|X]; injection X as -> ->;
        (split; [|split; [|apply Nm; exists fw, bw, x; auto]]);
        [eapply (pair_rule L ar eqb_eq (rg_var L ar Rg) (rg_leaf L ar Rg) (fun p q => (p = u1 /\ q = u2) \/ (p = u2 /\ q = u1)));
           [|exact (c_rec _ G1)|exact (c_rec _ G2)|exact T1|exact T2|left; split; reflexivity|exact Cp|exact Hx]; tauto
        |exact (pair_text _ _ _ _ _ _ G1 G2 T1 T2 Cp x Hx)
        |eapply (pair_rule L ar eqb_eq (rg_var L ar Rg) (rg_leaf L ar Rg) (fun p q => (p = u1 /\ q = u2) \/ (p = u2 /\ q = u1)));
           [|exact (c_rec _ G2)|exact (c_rec _ G1)|exact T2|exact T1|right; split; reflexivity|exact Cp|exact Hx]; tauto
        |exact (pair_text _ _ _ _ _ _ G2 G1 T2 T1 Cp x Hx)]].
      - destruct Hab as [X|X]; injection X as -> ->; [exact (pair_some e1 u1 e2 u2 fw bw (c_rec _ G1) (c_rec _ G2) T1 T2 Cp (or_introl Y1))|exact (pair_some e2 u2 e1 u1 fw bw (c_rec _ G2) (c_rec _ G1) T2 T1 Cp (or_intror Y1))].
      - destruct Hab as [X|X]; injection X as -> ->; [exact (pair_some e1 u1 e2 u2 fw bw (c_rec _ G1) (c_rec _ G2) T1 T2 Cp (or_intror Y2))|exact (pair_some e2 u2 e1 u1 fw bw (c_rec _ G2) (c_rec _ G1) T2 T1 Cp (or_introl Y2))]. }
    destruct Rule as [Rule|(x & Fx & Ex & Kx)].
    { right. exists u1, u2. split; [exact Q1|]. split; [exact Q2|]. split; [exact (M1 _ Ri)|]. split; [exact (M2 _ Rj)|]. split; [repeat (split; [assumption|]); assumption|]. now left. }
    apply in_map_iff in Kx as ([k r] & Ek & Ir). cbn [fst] in Ek. subst k.
    pose proof cands_text as Ct. pose proof cands_from as Cf. rewrite Forall_forall in Cf. destruct (Cf _ Ir) as (Pl & Prr & Kr). cbn [snd] in Pl, Prr, Kr.
    pose proof (proj2 Ct) as Ct2. rewrite Forall_forall in Ct2. pose proof (Ct2 _ Ir) as Er.
    destruct Fx as (_ & _ & Kx & p & q & Hpq & (rho & Inj & Tl & Tr)).
    destruct (plain_same L (l_from_op L) ar (rname x, r) (rname x, x)) as [El Err]; [apply entry_plain; assumption|apply entry_plain; assumption|reflexivity|]. cbn [snd] in El, Err. rewrite Tl in El. rewrite Tr in Err.
    assert (Gr : generalizes L r p q) by (exists rho; auto).
    assert (Iv : is_valid L r = Val false \/ is_valid L r <> Val false) by (destruct (is_valid L r) as [[]|]; [right|left|right]; congruence).
    destruct Iv as [Iv|Iv].
    { right. exists u1, u2. split; [exact Q1|]. split; [exact Q2|]. split; [exact (M1 _ Ri)|]. split; [exact (M2 _ Rj)|]. split; [repeat (split; [assumption|]); assumption|]. right.
      exists r. split; [|split; [|exact Iv]]; [split; [exact Pl|]; split; [exact Prr|]; split; [exact Kr|]; exists p, q; auto|].
      pose proof cands_uses as Cu. rewrite Forall_forall in Cu. exact (spelt_of r (proj1 (Cu _ Ir))). }
    left. intros V A Dm H env De. destruct Mn as (order & invalid & Fo & Mi).
    assert (Tru : true_rule L A r).
    { assert (Kc : Forall (fun e => rkind (snd e) = KRhs) cands) by (apply Forall_forall; intros e Ie; exact (proj2 (proj2 (Cf e Ie)))).
      assert (Rp : Forall (fun e => DeriveProofs.readable (snd e)) prior).
      { eapply Forall_impl; [|exact (fp_text _ _ _ Fp)]. intros [k0 r0] (_ & _ & tl & tr & [X _] & [Y _] & _). exists tl, tr. auto. }
      destruct (minimize_true L eqb_eq (rg_var L ar Rg) keep fuel (Compress order) (l_from_op L) ar A cands prior new invalid Fo Dm Ct Kc (fp_names _ _ _ Fp) Rp) with (e := (rname x, r)) as [X|X].
      - intros e Ie _. pose proof (fp_text _ _ _ Fp) as X. pose proof (fp_kind _ _ _ Fp) as Y. rewrite Forall_forall in X, Y. split; [exact (X e Ie)|exact (Y e Ie)].
      - exact Mi.
      - intros env' De'. destruct (H env' De') as [Ia Hq]. split; [exact Ia|]. split; apply Forall_forall; intros [k0 r0] I0; apply Hq; [left|right]; now exists k0.
      - exact Ir.
      - elim (Iv X).
      - exact X. }
    destruct Tru as (tl & tr & Y1 & Y2 & Hc). rewrite El in Y1. injection Y1 as <-. rewrite Err in Y2. injection Y2 as <-.
    destruct (unrename V (tv p ++ tv q) rho env Inj) as (s & Hs & Hd).
    specialize (Hc (gen_closed _ _) (gen_closed _ _) s). assert (Ds : forall y, a_dom A (s y)) by (intros y; destruct (Hd y) as (x0 & ->); apply De). specialize (Hc Ds).
    assert (Wp : wf_term ar p /\ wf_term ar q) by (destruct Hpq as [[-> ->]|[-> ->]]; auto). destruct Wp as [Wp Wq].
    rewrite (gen_val _ _ _ L ar A rho s p (rg_leaf L ar Rg) Wp), (gen_val _ _ _ L ar A rho s q (rg_leaf L ar Rg) Wq) in Hc.
    rewrite (set_vars_ext _ _ _ L A (fun y => s (rho y)) env p) in Hc by (intros y Hy; apply Hs; apply in_app_iff; auto).
    rewrite (set_vars_ext _ _ _ L A (fun y => s (rho y)) env q) in Hc by (intros y Hy; apply Hs; apply in_app_iff; auto).
    destruct (H env De) as [Ia Hq]. pose proof (Q1 V _ Ia (fun q0 X => Hq q0 (or_introl X))) as E1. pose proof (Q2 V _ Ia (fun q0 X => Hq q0 (or_introl X))) as E2.
    rewrite E1, E2. destruct Hpq as [[-> ->]|[-> ->]]; [exact Hc|symmetry; exact Hc].
  Qed.
End Complete.

(* ---- run after run ---- *)
Section Runs.
  Context {O C : Type}.
  Variable L : lang O C.
  Variable ar : O -> nat.
  Variable P : O -> Prop.
  Variable K : C -> Prop.
  Hypothesis Sp : sampled L ar.
  Hypothesis Rg : regular L ar.
  Hypothesis Re : SaveDomains.readable L ar P K.
  Hypothesis Tx : forall o, P o -> eov_ok (l_from_op L) (l_name L) ar (EN o).

  Lemma fit_extend : forall a b : ruleset O, fit_prior L ar a -> fit_prior L ar b -> fit_prior L ar (extend a b).
  Proof.
    intros a b [Na Ra Pa Ta Ka] [Nb Rb Pb Tb Kb]. unfold read_rules, plain_rules in *. constructor; [exact (extend_nodup' a b Na)|..].
    all: apply Forall_forall; intros e I; rewrite Forall_forall in *; apply extend_in' in I as [I|I]; auto.
  Qed.
  Theorem workload_complete : complete L ar.
  Proof.
    intros keep fuel w prior fast ae new Fp R. pose proof R as (g & c & cands & E & Cm & Pr & M & _). split.
    - destruct (ran_settled L ar Sp keep w c (c_ran L ar keep fuel w prior Fp g c E Cm)) as (ts & n & vs & S & _). exists ts, n, vs. split; [exact S|].
      exact (complete_pair L ar P K Sp Rg Re Tx keep fuel w prior Fp g c cands new fast E Cm Pr M ts n vs S).
    - apply fit_extend; [|exact Fp]. pose proof (fp_names _ _ _ Fp) as N.
      destruct (LearntProofs.learnt_good L ar P K Re new (LearntSpec.Lt_workload L _ keep fuel w prior fast ae new N (fp_read _ _ _ Fp) R)) as [Nn Fn].
      destruct (workload_learned L ar Sp Rg keep fuel w prior fast ae new N (fp_plain _ _ _ Fp) R) as (ts & n & vs & S & F). constructor; [exact Nn|..].
      + eapply Forall_impl; [|exact Fn]. exact (LearntProofs.sound_read L ar P K Re).
      + eapply Forall_impl; [|exact F]. intros e (_ & H & _). exact H.
      + eapply Forall_impl; [|exact Fn]. unfold LearntProofs.sound_entry. tauto.
      + eapply Forall_impl; [|exact F]. intros e (_ & _ & H & _). exact H.
  Qed.
End Runs.

Section Recursive.
  Context {O C : Type}.
  Variable L : lang O C.
  Variable ar : O -> nat.
  Hypothesis Cm : complete L ar.
  Lemma entailed_mono : forall (p q : rule O -> Prop) t1 t2, (forall r, p r -> q r) -> entailed L p t1 t2 -> entailed L q t1 t2.
  Proof. intros p q t1 t2 H E V A D X. apply (E V A D). intros env De. destruct (X env De) as [I Y]. split; [exact I|]. intros r Hr. apply Y, H, Hr. Qed.
  Lemma equal_mono : forall (p q : rule O -> Prop) t1 t2, (forall r, p r -> q r) -> equal_under L p t1 t2 -> equal_under L q t1 t2.
  Proof. intros p q t1 t2 H E V A Ia X. apply (E V A Ia). intros r Hr. apply X, H, Hr. Qed.
  Lemma covers_mono : forall w (p q p' q' : rule O -> Prop), (forall r, p r -> p' r) -> (forall r, q r -> q' r) -> covers L ar w p q -> covers L ar w p' q'.
  Proof.
    intros w p q p' q' H1 H2 (ts & n & vs & S & H). exists ts, n, vs. split; [exact S|]. intros t1 t2 I1 I2 D. destruct (H t1 t2 I1 I2 D) as [E|(u1 & u2 & E1 & E2 & X)].
    - left. exact (entailed_mono _ _ _ _ H2 E).
    - right. exists u1, u2. split; [exact (equal_mono _ _ _ _ H1 E1)|]. split; [exact (equal_mono _ _ _ _ H1 E2)|exact X].
  Qed.
  Lemma recursive_fit : forall keep fuel met l prior n all, fit_prior L ar prior -> recursive_rules L keep fuel met l prior n all ->
    fit_prior L ar all /\ (0 < n -> incl prior all).
  Proof.
    intros keep fuel met l prior n all Fp R. induction R as [|n rec w new R [IH I1] Ew Rw].
    - split; [|lia]. constructor; constructor.
    - assert (Fe : fit_prior L ar (extend rec prior)) by (apply fit_extend; assumption). split; [exact (proj2 (Cm keep fuel w _ _ _ new Fe Rw))|].
      intros _ e I. apply extend_has; [exact (proj1 (workload_valid L keep fuel w _ _ _ new (fp_names _ _ _ Fe) Rw))|exact (fp_names _ _ _ Fe)|].
      apply extend_has; [exact (fp_names _ _ _ IH)|exact (fp_names _ _ _ Fp)|exact I].
  Qed.
  Theorem recursive_complete : forall keep fuel met l prior n all, fit_prior L ar prior -> recursive_rules L keep fuel met l prior n all ->
    forall m w, 0 < m <= n -> sized_workload met m l = Val w -> covers L ar w (rule_of all) (rule_of all).
  Proof.
    intros keep fuel met l prior n all Fp R. induction R as [|n rec w0 new R IH Ew Rw]; intros m w Hm Em; [lia|].
    destruct (recursive_fit _ _ _ _ _ _ _ Fp R) as [Fr Ip]. assert (Fe : fit_prior L ar (extend rec prior)) by (apply fit_extend; assumption).
    destruct (workload_valid L keep fuel w0 _ _ _ new (fp_names _ _ _ Fe) Rw) as [Nn Dj].
    assert (S1 : forall r, rule_of (extend rec prior) r -> rule_of (extend new (extend rec prior)) r).
    { intros r (k & I). exists k. apply extend_has; [exact Nn|exact (fp_names _ _ _ Fe)|exact I]. }
    assert (S2 : forall r, rule_of new r -> rule_of (extend new (extend rec prior)) r).
    { intros r (k & I). exists k. apply extend_keeps; [exact Nn|exact (fp_names _ _ _ Fe)|exact I|]. exact (proj2 (Dj _ I)). }
    destruct (Nat.eq_dec m (S n)) as [->|Nm].
    - assert (w = w0) as -> by congruence. refine (covers_mono w0 _ _ _ _ S1 _ (proj1 (Cm keep fuel w0 _ _ _ new Fe Rw))). intros r [X|X]; auto.
    - assert (S3 : forall r, rule_of rec r -> rule_of (extend new (extend rec prior)) r).
      { intros r (k & I). apply S1. exists k. destruct (in_dec string_dec k (map fst prior)) as [J|J].
        - apply in_map_iff in J as ([k' r'] & E & J). cbn in E. subst k'. pose proof (Ip ltac:(lia) _ J) as J'.
          pose proof (lookup_in_nodup _ _ _ (fp_names _ _ _ Fr) I) as X1. pose proof (lookup_in_nodup _ _ _ (fp_names _ _ _ Fr) J') as X2. rewrite X1 in X2. injection X2 as ->.
          apply extend_has; [exact (fp_names _ _ _ Fr)|exact (fp_names _ _ _ Fp)|exact J].
        - apply extend_keeps; [exact (fp_names _ _ _ Fr)|exact (fp_names _ _ _ Fp)|exact I|exact J]. }
      refine (covers_mono w _ _ _ _ S3 S3 (IH m w _ Em)). lia.
  Qed.
End Recursive.
