(* Fast-forwarding learns consequences of the rules it is given. *)
From Coq Require Import NArith Permutation.
From Verif Require Import Base BaseProofs Lang LangProofs Syntax Rule Ruleset RuleSpec AnalysisSpec Util Analysis Generalize GeneralizeProofs Egraph EgraphSpec EgraphProofs Synth Apply Sched SynthSpec SynthProofs DeriveProofs
  Workload Extract ExtractProofs Match MatchSpec MatchProofs MinimizeSpec Minimize Infer InferProofs TotalSpec CalmSpec PlainSpec LearnSpec LearnProofs OpsSpec OpsProofs SyntaxProofs PlainProofs SaveProofs SaveDomains ForwardSpec.
From Verif Require RulesetProofs.
Open Scope list_scope.

(* the cost that comes with an extracted term *)
Lemma best_cost : forall O D A (op_eqb : O -> O -> bool) allowed arrange (g : egraph O D A), (forall a b, op_eqb a b = true <-> a = b) -> (forall l, Permutation l (arrange l)) -> wf g ->
  forall order, (forall c, In c order <-> find g c = Val c) ->
  forall f t i k e, extractor allowed arrange g f order = Val t -> find_best op_eqb g f t i = Val (k, e) -> i < size g ->
  exists u, tree e = Val u /\ repr g u i /\ Forall (from_g g) e /\ k = tcost allowed u.
Proof.
  intros O D A op_eqb allowed arrange g Eq Ha W order Ho f t i k e Ex Fb Hi. destruct (extractor_spec op_eqb Eq allowed arrange Ha g W order Ho) as (f0 & t' & E' & F').
  unfold extractor in *. pose proof (find_costs_mono allowed arrange g f (max f f0) order [] t ltac:(lia) Ex) as E1. rewrite (E' (max f f0) ltac:(lia)) in E1. injection E1 as <-.
  destruct (F' i Hi) as (e' & u & K1 & K2 & K3 & _ & K5). pose proof (find_best_mono op_eqb g f (max f f0) t' i _ ltac:(lia) Fb) as E2. rewrite (K1 (max f f0) ltac:(lia)) in E2.
  injection E2 as <- <-. exists u. auto.
Qed.
(* a generalized term, read in the algebra, is the term under other values of its variables *)
Lemma gen_val : forall O C V (L : lang O C) ar (A : algebra O C V) rho s t, (forall o, l_to_var L o <> None -> ar o = 0) -> wf_term ar t ->
  paval (a_sem A) s (gen_term (l_to_var L) rho t) = aval (a_sem (set_vars L A (fun x => s (rho x)))) t.
Proof.
  intros O C V L ar A rho s t Hl. induction t as [o ts IH] using term_ind'. intros W. assert (length ts = ar o /\ Forall (wf_term ar) ts) as [Lt Wt] by (inversion W; auto).
  cbn [gen_term aval set_vars a_sem]. destruct (l_to_var L o) as [x|] eqn:E; [reflexivity|]. cbn [paval]. f_equal. rewrite map_map.
  clear - IH Wt. induction IH as [|t ts H IH IHl]; [reflexivity|]. inversion Wt; subst. cbn [map]. f_equal; auto.
Qed.
Lemma gen_allowed : forall O C (L : lang O C) rho t, all_allowed (l_allowed L) t = true -> tall (fun e => match e with EN o => l_allowed L o = true | PV _ => True end) (gen_term (l_to_var L) rho t).
Proof.
  intros O C L rho t. induction t as [o ts IH] using term_ind'. intros H. cbn [gen_term]. cbn in H. apply andb_true_iff in H as [H1 H2].
  destruct (l_to_var L o); constructor; auto. apply Forall_map. rewrite Forall_forall in *. intros t It. apply (IH t It). rewrite forallb_forall in H2. exact (H2 t It).
Qed.

(* two terms told apart by the rules of the first phase and equal in the end *)
Lemma found_pair : forall O C (L : lang O C) (g1 g2 g3 : eg O C) (a b : rule O -> Prop) c1 c2,
  sound_for L a g1 -> sound_for L b g2 -> (forall q, a q -> b q) -> (forall t c, repr g1 t c -> repr g2 t c) -> proposes L g1 g2 c1 -> proposes L g2 g3 c2 ->
  wf g1 -> wf g2 ->
  forall t1 t2 i j, repr g1 t1 i -> repr g1 t2 j -> eqv g3 i j ->
  all_allowed (l_allowed L) t1 = true -> all_allowed (l_allowed L) t2 = true -> (tsize t1 < usize_max)%N -> (tsize t2 < usize_max)%N ->
  ext g1 g2 -> ext g2 g3 -> ~ equal_under L a t1 t2 ->
  exists e1 e2 u1 u2, tree e1 = Val u1 /\ tree e2 = Val u2 /\ equal_under L b u1 t1 /\ equal_under L b u2 t2 /\
    (tcost (l_allowed L) u1 <= tsize t1)%N /\ (tcost (l_allowed L) u2 <= tsize t2)%N /\
    forall k, named L e1 e2 k -> In k (map fst c1) \/ In k (map fst c2).
Proof.
  intros O C L g1 g2 g3 a b c1 c2 S1 S2 Ab X12 P1 P2 W1 W2 t1 t2 i j R1 R2 E3 A1 A2 Z1 Z2 E12 E23 Ne.
  assert (Lt : forall (g : eg O C) t c, wf g -> repr g t c -> exists r, find g c = Val r /\ find g r = Val r /\ repr g t r).
  { intros g t c W R. pose proof (repr_lt g t c R) as Lc. destruct (find_val g c Lc) as [r Er]. exists r. split; [exact Er|].
    pose proof (wf_rep g W c r Er) as Ei. split; [exact Ei|]. apply (repr_eqv g t c r R). exists r. auto. }
  assert (Wk : forall t u, equal_under L a t u -> equal_under L b t u). { intros t u H V A Ia Hq. apply H; auto. }
  assert (Cost : forall t, all_allowed (l_allowed L) t = true -> (tcost (l_allowed L) t <= tsize t)%N) by (intros t H; unfold tcost; rewrite H; lia).
  destruct (find g2 i) as [ri|] eqn:Fi; [|destruct (Lt g2 t1 i W2 (X12 _ _ R1)) as (r & Er & _); congruence].
  destruct (find g2 j) as [rj|] eqn:Fj; [|destruct (Lt g2 t2 j W2 (X12 _ _ R2)) as (r & Er & _); congruence].
  destruct (Nat.eq_dec ri rj) as [Eij|Nij].
  - subst rj. destruct (Lt g1 t1 i W1 R1) as (p & Ep & Ip & Rp1). destruct (Lt g1 t2 j W1 R2) as (q & Eq & Iq & Rq1).
    assert (p <> q). { intros ->. apply Ne. intros V A Ia Hq. exact (S1 V A Ia Hq t1 t2 q Rp1 Rq1). }
    assert (eqv g2 p q) as E2.
    { destruct E12 as (_ & E12 & _). apply eqv_trans with i; [apply E12; exists p; auto|]. apply eqv_trans with j; [exists ri; auto|]. apply E12. exists q; auto. }
    destruct (P1 t1 t2 p q Ip Iq H E2 Rp1 Rq1 (conj A1 Z1) (conj A2 Z2)) as (e1 & e2 & (u1 & T1 & Q1 & M1) & (u2 & T2 & Q2 & M2) & N).
    exists e1, e2, u1, u2. split; [exact T1|]. split; [exact T2|]. split; [intros V A Ia Hq; exact (S1 V A Ia (fun x h => Hq x (Ab x h)) u1 t1 p Q1 Rp1)|].
    split; [intros V A Ia Hq; exact (S1 V A Ia (fun x h => Hq x (Ab x h)) u2 t2 q Q2 Rq1)|]. split; [specialize (M1 t1 Rp1); specialize (Cost t1 A1); lia|].
    split; [specialize (M2 t2 Rq1); specialize (Cost t2 A2); lia|]. intros k Hk. left. exact (N k Hk).
  - destruct (Lt g2 t1 i W2 (X12 _ _ R1)) as (p & Ep & Ip & Rp1). destruct (Lt g2 t2 j W2 (X12 _ _ R2)) as (q & Eq & Iq & Rq1). rewrite Fi in Ep. rewrite Fj in Eq. injection Ep as ->. injection Eq as ->.
    assert (eqv g3 p q) as E.
    { destruct E23 as (_ & E23 & _). apply eqv_trans with i; [apply E23; exists p; auto|]. apply eqv_trans with j; [exact E3|]. apply E23. exists q; auto. }
    destruct (P2 t1 t2 p q Ip Iq Nij E Rp1 Rq1 (conj A1 Z1) (conj A2 Z2)) as (e1 & e2 & (u1 & T1 & Q1 & M1) & (u2 & T2 & Q2 & M2) & N).
    exists e1, e2, u1, u2. split; [exact T1|]. split; [exact T2|]. split; [intros V A Ia Hq; exact (S2 V A Ia Hq u1 t1 p Q1 Rp1)|].
    split; [intros V A Ia Hq; exact (S2 V A Ia Hq u2 t2 q Q2 Rq1)|]. split; [specialize (M1 t1 Rp1); specialize (Cost t1 A1); lia|].
    split; [specialize (M2 t2 Rq1); specialize (Cost t2 A2); lia|]. intros k Hk. right. exact (N k Hk).
Qed.

Section Forward.
  Context {O C : Type}.
  Variable L : lang O C.
  Variable ar : O -> nat.
  Hypothesis eqb_eq : forall a b, l_eqb L a b = true <-> a = b.
  Variable keep : eg O C -> nat -> nat -> bool.

  (* ---- what is in one class ---- *)
  Lemma sound_moves : forall (given : rule O -> Prop) g, (forall V (A : algebra O C V), interprets L A -> (forall q, given q -> holds L A q) -> moves A eg_default g) -> sound_for L given g.
  Proof. intros given g H V A Ia Hq t u c. exact (default_moves A g (H V A Ia Hq) t u c). Qed.
  Lemma partition_allowed : forall prior a b, partition (fun r => Val (is_allowed_rewrite L (rlhs r) (rrhs r))) prior = Val (a, b) -> forall e, In e a -> allowed_of L prior (snd e).
  Proof.
    intros prior a b H. unfold partition in H. rewrite (rmapM_pure _ (fun r => is_allowed_rewrite L (rlhs r) (rrhs r))) in H by reflexivity. cbn [rbind] in H. injection H as <- _.
    intros e I. apply RulesetProofs.add_all_vals in I as [[]|I]. rewrite (RulesetProofs.filter_tagged (fun r => is_allowed_rewrite L (rlhs r) (rrhs r)) (fun b => b)) in I.
    apply filter_In in I as [I Al]. unfold is_allowed_rewrite, pat_allowed in Al. apply andb_true_iff in Al as [A1 A2]. rewrite forallb_forall in A1, A2.
    apply in_map_iff in I as ([k r] & Er & I). cbn [snd] in Er. subst r. split; [exists k; exact I|]. split; intros n o J En.
    - specialize (A1 n J). now rewrite En in A1.
    - specialize (A2 n J). now rewrite En in A2.
  Qed.

  (* the three e-graphs *)
  Definition phases fuel expl w prior (g0 g1 g2 g3 : eg O C) : Prop := exists allowed other, to_egraph L keep fuel w = Val g0 /\
    partition (fun r => Val (is_allowed_rewrite L (rlhs r) (rrhs r))) prior = Val (allowed, other) /\
    compressed L keep fuel allowed g0 g1 /\ simple L keep fuel expl g1 g2 /\ compressed L keep fuel (extend prior expl) g2 g3.
  Section Phases.
    Variables (fuel : nat) (expl : ruleset O) (w : workload) (prior : ruleset O) (g0 g1 g2 g3 : eg O C).
    Hypothesis Ph : phases fuel expl w prior g0 g1 g2 g3.
    Lemma all_hold_given : forall V (A : algebra O C V) rs (given : rule O -> Prop), (forall e, In e rs -> given (snd e)) -> (forall q, given q -> holds L A q) -> all_hold L A rs.
    Proof. intros V A rs given H Hq. apply Forall_forall. intros e I. exact (Hq _ (H e I)). Qed.
    Lemma phase_moves1 : forall V (A : algebra O C V), interprets L A -> (forall q, allowed_of L prior q -> holds L A q) -> moves A eg_default g0 /\ moves A g0 g1.
    Proof.
      intros V A Ia Hq. destruct Ph as (al & ot & E & Pt & (order & Po & C1) & _). pose proof (to_egraph_moves L eqb_eq keep fuel A Ia w g0 E) as M0. split; [exact M0|].
      exact (proj1 (scheduled_moves L eqb_eq keep fuel A Ia (Compress order) al g0 g1 Po (all_hold_given V A al _ (partition_allowed _ _ _ Pt) Hq) (proj1 M0) C1)).
    Qed.
    Lemma phase_moves2 : forall V (A : algebra O C V), interprets L A -> (forall q, allowed_of L prior q \/ rule_of expl q -> holds L A q) -> moves A eg_default g0 /\ moves A g0 g1 /\ moves A g1 g2.
    Proof.
      intros V A Ia Hq. destruct (phase_moves1 V A Ia (fun q h => Hq q (or_introl h))) as [M0 M1]. split; [exact M0|]. split; [exact M1|]. destruct Ph as (al & ot & _ & _ & _ & S2 & _).
      refine (proj1 (simple_moves L eqb_eq keep fuel A Ia expl g1 g2 (all_hold_given V A expl (rule_of expl) _ (fun q h => Hq q (or_intror h))) (proj1 M1) S2)).
      intros [k r] I. exists k. exact I.
    Qed.
    Lemma phase_moves3 : forall V (A : algebra O C V), interprets L A -> (forall q, rule_of prior q \/ rule_of expl q -> holds L A q) -> moves A eg_default g0 /\ moves A g0 g1 /\ moves A g1 g2 /\ moves A g2 g3.
    Proof.
      intros V A Ia Hq. destruct (phase_moves2 V A Ia) as (M0 & M1 & M2). { intros q [[H _]|H]; auto. } split; [exact M0|]. split; [exact M1|]. split; [exact M2|].
      destruct Ph as (al & ot & _ & _ & _ & _ & order & Po & C3).
      refine (proj1 (scheduled_moves L eqb_eq keep fuel A Ia (Compress order) _ g2 g3 Po (all_hold_given V A _ (fun q => rule_of prior q \/ rule_of expl q) _ Hq) (proj1 M2) C3)).
      intros [k r] I. apply extend_in' in I as [I|I]; [left|right]; exists k; exact I.
    Qed.
    Lemma phase_sound1 : sound_for L (allowed_of L prior) g1.
    Proof. apply sound_moves. intros V A Ia Hq. destruct (phase_moves1 V A Ia Hq) as [M0 M1]. exact (moves_trans A _ _ _ M0 M1). Qed.
    Lemma phase_sound2 : sound_for L (fun q => allowed_of L prior q \/ rule_of expl q) g2.
    Proof. apply sound_moves. intros V A Ia Hq. destruct (phase_moves2 V A Ia Hq) as (M0 & M1 & M2). exact (moves_trans A _ _ _ M0 (moves_trans A _ _ _ M1 M2)). Qed.
    Lemma phase_sound3 : sound_for L (fun q => rule_of prior q \/ rule_of expl q) g3.
    Proof.
      apply sound_moves. intros V A Ia Hq. destruct (phase_moves3 V A Ia Hq) as (M0 & M1 & M2 & M3). exact (moves_trans A _ _ _ M0 (moves_trans A _ _ _ M1 (moves_trans A _ _ _ M2 M3))).
    Qed.
  End Phases.

  (* ---- what is proposed ---- *)
  Hypothesis var_ok : forall s, l_to_var L (l_mk_var L s) = Some s.
  Hypothesis leaf : forall o, l_to_var L o <> None -> ar o = 0.
  Lemma best_smallest : forall (g : eg O C) allowed arrange order, (forall l, Permutation l (arrange l)) -> wf g -> (forall c, In c order <-> find g c = Val c) ->
    forall f t i k e, extractor allowed arrange g f order = Val t -> find_best (l_eqb L) g f t i = Val (k, e) -> i < size g -> smallest allowed g i e.
  Proof.
    intros g allowed arrange order Ha W Ho f t i k e Ex Fb Hi. destruct (extractor_spec (l_eqb L) eqb_eq allowed arrange Ha g W order Ho) as (f0 & t' & E' & F').
    unfold extractor in *. pose proof (find_costs_mono allowed arrange g f (max f f0) order [] t ltac:(lia) Ex) as E1. rewrite (E' (max f f0) ltac:(lia)) in E1. injection E1 as <-.
    destruct (F' i Hi) as (e' & u & K1 & K2 & K3 & K4 & _). pose proof (find_best_mono (l_eqb L) g f (max f f0) t' i _ ltac:(lia) Fb) as E2. rewrite (K1 (max f f0) ltac:(lia)) in E2.
    injection E2 as _ <-. exists u. auto.
  Qed.
  Lemma best_pair_in : forall f (g : eg O C) t ps es k1 e1 k2 e2, rmapM (best_pair L f g t) ps = Val es -> In ((k1, e1), (k2, e2)) es ->
    exists i j, In (i, j) ps /\ find_best (l_eqb L) g f t i = Val (k1, e1) /\ find_best (l_eqb L) g f t j = Val (k2, e2).
  Proof.
    intros f g t ps es k1 e1 k2 e2 Es J. apply rmapM_F2 in Es. induction Es as [|[i j] e ps es H Es IH]; [destruct J|]. destruct J as [->|J].
    - unfold best_pair in H. cbn [fst snd] in H. destruct (find_best _ _ _ _ i) as [a|] eqn:E1; [|discriminate H]. cbn [rbind] in H.
      destruct (find_best _ _ _ _ j) as [b|] eqn:E2; [|discriminate H]. cbn [rbind] in H. injection H as -> ->. exists i, j. split; [now left|]. auto.
    - destruct (IH J) as (i' & j' & K1 & K2). exists i', j'. split; [now right|exact K2].
  Qed.
  Lemma best_pair_of : forall f (g : eg O C) t ps es i j, rmapM (best_pair L f g t) ps = Val es -> In (i, j) ps ->
    exists k1 e1 k2 e2, In ((k1, e1), (k2, e2)) es /\ find_best (l_eqb L) g f t i = Val (k1, e1) /\ find_best (l_eqb L) g f t j = Val (k2, e2).
  Proof.
    intros f g t ps es i j Es J. apply rmapM_F2 in Es. induction Es as [|[i' j'] e ps es H Es IH]; [destruct J|]. destruct J as [J|J].
    - injection J as -> ->. unfold best_pair in H. cbn [fst snd] in H. destruct (find_best _ _ _ _ i) as [[k1 e1]|] eqn:E1; [|discriminate H]. cbn [rbind] in H.
      destruct (find_best _ _ _ _ j) as [[k2 e2]|] eqn:E2; [|discriminate H]. cbn [rbind] in H. injection H as <-. exists k1, e1, k2, e2. split; [now left|]. auto.
    - destruct (IH J) as (k1 & e1 & k2 & e2 & K1 & K2). exists k1, e1, k2, e2. split; [now right|exact K2].
  Qed.
  Lemma propose_keys : forall l m m', propose L m l = Val m' -> (forall k, In k (map fst m) -> In k (map fst m')) /\ forall e1 e2 k, In (e1, e2) l -> named L e1 e2 k -> In k (map fst m').
  Proof.
    induction l as [|[e1 e2] l IH]; intros m m' H; cbn [propose] in H; [injection H as <-; split; [auto|intros e1 e2 k []]|].
    unfold add_from_recexprs in H. destruct (candidate_pair _ _ _ _ e1 e2) as [[fw bw]|] eqn:E; [|discriminate H]. cbn [rbind] in H. apply IH in H as [H1 H2].
    split.
    - intros k J. apply H1. destruct bw; [apply rs_add_keys; left|]; (destruct fw; [apply rs_add_keys; left|]); exact J.
    - intros a b k [J|J] Nm; [|exact (H2 a b k J Nm)]. injection J as <- <-. destruct Nm as (fw' & bw' & x & E' & Hx & ->). rewrite E in E'. injection E' as <- <-. apply H1.
      destruct Hx as [-> | ->]; [|apply rs_add_keys; now right]. destruct bw; [apply rs_add_keys; left|]; apply rs_add_keys; now right.
  Qed.
  Lemma rec_same : forall a b : recexpr O, rec_eqb L a b = true -> a = b.
  Proof.
    intros a b H. unfold rec_eqb in H. apply andb_true_iff in H as [El H]. apply Nat.eqb_eq in El. rewrite forallb_forall in H.
    revert b El H. induction a as [|n a IH]; intros [|m b] El H; try discriminate; [reflexivity|]. f_equal.
    - specialize (H (n, m) (or_introl eq_refl)). cbn in H. now apply (node_eqb_eq O (l_eqb L) eqb_eq) in H.
    - apply IH; [now injection El|]. intros p Hp. apply H. now right.
  Qed.
  Lemma extracted_proposes : forall fuel (g g' : eg O C) c, wf g -> congruent g -> size g <= size g' -> extracted L fuel g g' c -> proposes L g g' c.
  Proof.
    intros fuel g g' c W Cg Sz (order & arrange & uorder & (Po & Ha) & Pu & H) t1 t2 i j Hi Hj Ne Eij R1 R2 U1 U2.
    unfold extract_candidates in H. destruct (extractor _ _ _ _ _) as [t|] eqn:Ex; [|discriminate H]. cbn [rbind] in H.
    destruct (merged_pairs_spec g g' order uorder Po Pu Sz) as (ps & Eps & Hps). rewrite Eps in H. cbn [rbind] in H. destruct (rmapM _ ps) as [es|] eqn:Es; [|discriminate H]. cbn [rbind] in H.
    destruct (best_pair_of _ _ _ _ _ i j Es (proj2 (Hps i j) (conj Hi (conj Hj Eij)))) as (k1 & e1 & k2 & e2 & J & B1 & B2).
    pose proof (find_some _ _ _ Hi) as Li. pose proof (find_some _ _ _ Hj) as Lj. pose proof (order_ids g order Po) as Oi.
    pose proof (best_smallest g _ _ order Ha W Oi _ _ _ _ _ Ex B1 Li) as S1. pose proof (best_smallest g _ _ order Ha W Oi _ _ _ _ _ Ex B2 Lj) as S2.
    destruct (best_cost _ _ _ (l_eqb L) _ _ g eqb_eq Ha W order Oi _ _ _ _ _ Ex B1 Li) as (u1 & T1 & Q1 & _ & K1).
    destruct (best_cost _ _ _ (l_eqb L) _ _ g eqb_eq Ha W order Oi _ _ _ _ _ Ex B2 Lj) as (u2 & T2 & Q2 & _ & K2).
    exists e1, e2. split; [exact S1|]. split; [exact S2|]. intros k Nm. destruct (propose_keys _ _ _ H) as [_ PK]. apply (PK e1 e2 k); [|exact Nm].
    apply in_map_iff. exists ((k1, e1), (k2, e2)). split; [reflexivity|]. apply filter_In. split; [exact J|]. unfold wanted. cbn [fst snd].
    apply tcost_max in U1, U2. destruct S1 as (v1 & V1 & _ & M1). destruct S2 as (v2 & V2 & _ & M2). rewrite T1 in V1. rewrite T2 in V2. injection V1 as <-. injection V2 as <-.
    specialize (M1 t1 R1). specialize (M2 t2 R2).
    assert (N.eqb k1 usize_max = false) as -> by (apply N.eqb_neq; lia). assert (N.eqb k2 usize_max = false) as -> by (apply N.eqb_neq; lia). cbn [orb negb andb].
    apply negb_true_iff. destruct (rec_eqb L e1 e2) eqn:Er; [|reflexivity]. apply rec_same in Er. subst e2. assert (u1 = u2) by congruence. subst u2.
    destruct (repr_cong g Cg u1 i Q1 j Q2) as (r & E1 & E2). congruence.
  Qed.
  Lemma extracted_from : forall (R : term O -> term O -> Prop) fuel (g g' : eg O C) c, (forall a b, R a b -> R b a) -> wf g -> size g <= size g' ->
    (forall e, Forall (from_g g) e -> wf_rec ar e) ->
    (forall t1 t2 i j, eqv g' i j -> repr g t1 i -> repr g t2 j -> all_allowed (l_allowed L) t1 = true -> all_allowed (l_allowed L) t2 = true -> wf_term ar t1 -> wf_term ar t2 -> R t1 t2) ->
    extracted L fuel g g' c -> Forall (fun e => from_terms L ar R (snd e)) c.
  Proof.
    intros R fuel g g' c Sy W Sz Wr HR (order & arrange & uorder & (Po & Ha) & Pu & H).
    unfold extract_candidates in H. destruct (extractor _ _ _ _ _) as [t|] eqn:Ex; [|discriminate H]. cbn [rbind] in H.
    destruct (merged_pairs_spec g g' order uorder Po Pu Sz) as (ps & Eps & Hps). rewrite Eps in H. cbn [rbind] in H. destruct (rmapM _ ps) as [es|] eqn:Es; [|discriminate H]. cbn [rbind] in H.
    refine (propose_from L (from_terms L ar R) _ [] c _ (Forall_nil _) H). intros e1 e2 I fw bw Cp x Hx. apply in_map_iff in I as ([[k1 e1'] [k2 e2']] & E & I). cbn in E. injection E as -> ->.
    apply filter_In in I as [I Wt]. destruct (best_pair_in _ _ _ _ _ _ _ _ _ Es I) as (i & j & Ip & B1 & B2). apply Hps in Ip as (Hi & Hj & Eij).
    pose proof (find_some _ _ _ Hi) as Li. pose proof (find_some _ _ _ Hj) as Lj. pose proof (order_ids g order Po) as Oi.
    destruct (best_cost _ _ _ (l_eqb L) _ _ g eqb_eq Ha W order Oi _ _ _ _ _ Ex B1 Li) as (u1 & T1 & Q1 & F1 & K1).
    destruct (best_cost _ _ _ (l_eqb L) _ _ g eqb_eq Ha W order Oi _ _ _ _ _ Ex B2 Lj) as (u2 & T2 & Q2 & F2 & K2).
    unfold wanted in Wt. cbn [fst snd] in Wt. apply andb_true_iff in Wt as [Wt _]. apply negb_true_iff, orb_false_iff in Wt as [N1 N2]. apply N.eqb_neq in N1, N2.
    assert (Al : forall u k, k = tcost (l_allowed L) u -> k <> usize_max -> all_allowed (l_allowed L) u = true).
    { intros u k -> Nk. unfold tcost in Nk. destruct (all_allowed (l_allowed L) u); congruence. }
    pose proof (wf_rec_tree ar e1 u1 (Wr e1 F1) T1) as W1. pose proof (wf_rec_tree ar e2 u2 (Wr e2 F2) T2) as W2.
    exact (pair_rule L ar eqb_eq var_ok leaf R e1 u1 e2 u2 fw bw Sy (Wr e1 F1) (Wr e2 F2) T1 T2 (HR u1 u2 i j Eij Q1 Q2 (Al _ _ K1 N1) (Al _ _ K2 N2) W1 W2) Cp x Hx).
  Qed.

  (* ---- languages whose terms can be read ---- *)
  Variable P : O -> Prop.
  Variable K : C -> Prop.
  Hypothesis Rd : SaveDomains.readable L ar P K.
  Local Notation Q := (over L ar P).
  Lemma read_over : forall o k, read_op L o k -> Q o k.
  Proof. intros o k (s & E). split; [symmetry; exact (re_arity _ _ _ _ Rd s k o E)|exact (re_read _ _ _ _ Rd s k o E)]. Qed.
  Section Run.
    Variables (fuel : nat) (expl : ruleset O) (w : workload) (prior : ruleset O) (g0 g1 g2 g3 : eg O C).
    Hypothesis Ph : phases fuel expl w prior g0 g1 g2 g3.
    Hypothesis Hp : read_rules L prior.
    Hypothesis He : read_rules L expl.
    Lemma phase_structure : wf g1 /\ wf g2 /\ congruent g1 /\ congruent g2 /\ ext g0 g1 /\ ext g1 g2 /\ ext g2 g3 /\
      (forall e, Forall (from_g g1) e -> wf_rec ar e) /\ (forall e, Forall (from_g g2) e -> wf_rec ar e).
    Proof.
      destruct Ph as (al & ot & E & Pt & C1 & S2 & C3). apply compressed_run in C1 as (st1 & C1). apply compressed_run in C3 as (st3 & C3).
      pose proof (re_admits _ _ _ _ Rd) as Ad. pose proof (read_kind L ar P read_over prior Hp) as Kp. pose proof (read_kind L ar P read_over expl He) as Ke.
      assert (Ka : Forall (fun e => rhs_uses Q (snd e)) al).
      { apply Forall_forall. intros e J. destruct (partition_allowed _ _ _ Pt e J) as [(k & I) _]. rewrite Forall_forall in Kp. exact (Kp _ I). }
      pose proof (read_workload L ar P read_over w) as Fw.
      destruct (start_ops L eqb_eq keep Q K Ad fuel w g0 Fw E) as [W0 I0].
      destruct (grown_step L eqb_eq keep Q K Ad fuel st1 al g0 g1 Ka W0 I0 C1) as (W1 & I1 & E01 & Cg1).
      destruct (grown_step L eqb_eq keep Q K Ad fuel Simple expl g1 g2 Ke W1 I1 S2) as (W2 & I2 & E12 & Cg2).
      destruct (grown_step L eqb_eq keep Q K Ad fuel st3 _ g2 g3 (kind_extend Q _ _ Kp Ke) W2 I2 C3) as (W3 & I3 & E23 & _).
      split; [exact W1|]. split; [exact W2|]. split; [exact Cg1|]. split; [exact Cg2|]. split; [exact E01|]. split; [exact E12|]. split; [exact E23|].
      split; intros e F; eapply Forall_impl; try exact F; intros n (m & j & Hm & Eo & El); cbn; rewrite Eo, El; [exact (proj1 (proj1 I1 m j Hm))|exact (proj1 (proj1 I2 m j Hm))].
    Qed.

    (* terms without forbidden operators that are equal whatever the variables are *)
    Definition same {V} (A : algebra O C V) (ok : (string -> V) -> Prop) (t1 t2 : term O) : Prop :=
      wf_term ar t1 /\ wf_term ar t2 /\ all_allowed (l_allowed L) t1 = true /\ all_allowed (l_allowed L) t2 = true /\
      forall env, ok env -> aval (a_sem (set_vars L A env)) t1 = aval (a_sem (set_vars L A env)) t2.
    Lemma same_sym : forall V (A : algebra O C V) ok a b, same A ok a b -> same A ok b a.
    Proof. intros V A ok a b (H1 & H2 & H3 & H4 & H5). split; [exact H2|]. split; [exact H1|]. split; [exact H4|]. split; [exact H3|]. intros env D. symmetry. exact (H5 env D). Qed.
    Lemma candidates_same : forall V (A : algebra O C V) (ok : (string -> V) -> Prop),
      (forall env, ok env -> interprets L (set_vars L A env) /\ forall q, rule_of prior q \/ rule_of expl q -> holds L (set_vars L A env) q) ->
      forall c1 c2, extracted L fuel g1 g2 c1 -> extracted L fuel g2 g3 c2 -> Forall (fun e => from_terms L ar (same A ok) (snd e)) (extend c1 c2).
    Proof.
      intros V A ok H c1 c2 X1 X2. destruct phase_structure as (W1 & W2 & _ & _ & E01 & E12 & E23 & F1 & F2).
      assert (Go : forall (g g' : eg O C) c, ext g g' -> ext g' g3 -> wf g -> (forall e, Forall (from_g g) e -> wf_rec ar e) -> extracted L fuel g g' c -> Forall (fun e => from_terms L ar (same A ok) (snd e)) c).
      { intros g g' c Eg Eg3 W F X. refine (extracted_from (same A ok) fuel g g' c (same_sym V A ok) W (proj1 Eg) F _ X).
        intros t1 t2 i j E R1 R2 A1 A2 Wt1 Wt2. split; [exact Wt1|]. split; [exact Wt2|]. split; [exact A1|]. split; [exact A2|]. intros env D. destruct (H env D) as [Ia Hq].
        apply (repr_ext g g' Eg) in R1, R2. pose proof (repr_eqv g' t1 i j R1 E) as R1'. clear R1. apply (repr_ext g' g3 Eg3) in R1', R2.
        exact (phase_sound3 fuel expl w prior g0 g1 g2 g3 Ph V _ Ia Hq t1 t2 j R1' R2). }
      pose proof (Go g1 g2 c1 E12 E23 W1 F1 X1) as G1. pose proof (Go g2 g3 c2 E23 (ext_refl g3) W2 F2 X2) as G2.
      apply Forall_forall. intros e J. rewrite Forall_forall in G1, G2. apply extend_in' in J as [J|J]; auto.
    Qed.
    Lemma same_holds : forall V (A : algebra O C V) (ok : (string -> V) -> Prop) r, (forall env rho, ok env -> ok (fun x => env (rho x))) -> from_terms L ar (same A ok) r ->
      (exists tl tr, tree (rlhs r) = Val tl /\ tree (rrhs r) = Val tr /\ forall s, ok s -> paval (a_sem A) s tl = paval (a_sem A) s tr) /\ allowed_side L (rlhs r) /\ allowed_side L (rrhs r).
    Proof.
      intros V A ok r Cl (_ & _ & _ & t1 & t2 & (W1 & W2 & A1 & A2 & E) & rho & _ & T1 & T2). split.
      - exists (gen_term (l_to_var L) rho t1), (gen_term (l_to_var L) rho t2). split; [exact T1|]. split; [exact T2|]. intros s D.
        rewrite !(gen_val O C V L ar A rho s) by (exact leaf || assumption). apply E. apply Cl. exact D.
      - split; eexists; (split; [eassumption|]); apply gen_allowed; assumption.
    Qed.
  End Run.

  Lemma forwarding_phases : forall fuel expl w prior new, run_fast_forwarding L keep fuel expl w prior new ->
    exists g0 g1 g2 g3 c1 c2, phases fuel expl w prior g0 g1 g2 g3 /\ extracted L fuel g1 g2 c1 /\ extracted L fuel g2 g3 c2 /\ minimized L keep fuel (extend c1 c2) prior new.
  Proof.
    intros fuel expl w prior new (g0 & al & ot & g1 & g2 & g3 & c1 & c2 & E & Pt & C1 & S2 & X1 & C3 & X2 & M). exists g0, g1, g2, g3, c1, c2.
    split; [|auto]. exists al, ot. auto.
  Qed.
  Lemma same_reverse : forall V (A : algebra O C V) (ok : (string -> V) -> Prop) r r', from_terms L ar (same A ok) r -> reverse (l_name L) r = Val (Some r') -> from_terms L ar (same A ok) r'.
  Proof. intros V A ok r r'. exact (from_terms_reverse L ar (same A ok) r r' (same_sym V A ok)). Qed.
  Theorem forwarding_same : forall fuel expl w prior new, NoDup (map fst prior) -> read_rules L prior -> read_rules L expl -> run_fast_forwarding L keep fuel expl w prior new ->
    forall V (A : algebra O C V) (ok : (string -> V) -> Prop),
      (forall env, ok env -> interprets L (set_vars L A env) /\ forall q, rule_of prior q \/ rule_of expl q -> holds L (set_vars L A env) q) ->
    forall k r, In (k, r) new -> from_terms L ar (same A ok) r.
  Proof.
    intros fuel expl w prior new N Hp He Rn V A ok H k r I. destruct (forwarding_phases _ _ _ _ _ Rn) as (g0 & g1 & g2 & g3 & c1 & c2 & Ph & X1 & X2 & (order & invalid & _ & M)).
    pose proof (candidates_same fuel expl w prior g0 g1 g2 g3 Ph Hp He V A ok H c1 c2 X1 X2) as F.
    pose proof (minimize_origin L keep fuel _ (same_reverse V A ok) _ _ _ _ _ N M F) as G. rewrite Forall_forall in G. exact (G _ I).
  Qed.
  Theorem forwarding_consequences : forall fuel expl w prior new, NoDup (map fst prior) -> read_rules L prior -> read_rules L expl -> run_fast_forwarding L keep fuel expl w prior new ->
    forall k r, In (k, r) new -> consequence L (fun q => rule_of prior q \/ rule_of expl q) r /\ allowed_side L (rlhs r) /\ allowed_side L (rrhs r).
  Proof.
    intros fuel expl w prior new N Hp He Rn k r I. pose proof (fun V A ok H => forwarding_same fuel expl w prior new N Hp He Rn V A ok H k r I) as Go.
    split; [intros V A ok Cl H; exact (proj1 (same_holds V A ok r Cl (Go V A ok H)))|].
    assert (F : from_terms L ar (same (Alg (V := unit) (fun (_ : O) _ => tt) (fun _ => True) (fun (_ : interval C) _ => True)) (fun _ => False)) r).
    { apply Go. intros env []. }
    refine (proj2 (same_holds _ _ (fun _ => False) r _ F)). intros env rho [].
  Qed.
  Theorem forwarding_found : forall fuel expl w prior new, read_rules L prior -> read_rules L expl -> run_fast_forwarding L keep fuel expl w prior new ->
    exists g1 g2 g3 c1 c2,
      sound_for L (allowed_of L prior) g1 /\ sound_for L (fun q => allowed_of L prior q \/ rule_of expl q) g2 /\ sound_for L (fun q => rule_of prior q \/ rule_of expl q) g3 /\
      (forall ss ts, force w = Val ss -> Forall2 (reads L) ss ts -> Forall (fun t => exists c, repr g1 t c) ts) /\
      (forall t c, repr g1 t c -> repr g2 t c) /\ (forall t c, repr g2 t c -> repr g3 t c) /\
      proposes L g1 g2 c1 /\ proposes L g2 g3 c2 /\ minimized L keep fuel (extend c1 c2) prior new /\
      (forall t1 t2 i j, repr g1 t1 i -> repr g1 t2 j -> eqv g3 i j -> all_allowed (l_allowed L) t1 = true -> all_allowed (l_allowed L) t2 = true ->
        (tsize t1 < usize_max)%N -> (tsize t2 < usize_max)%N -> ~ equal_under L (allowed_of L prior) t1 t2 ->
        exists e1 e2 u1 u2, tree e1 = Val u1 /\ tree e2 = Val u2 /\
          equal_under L (fun q => allowed_of L prior q \/ rule_of expl q) u1 t1 /\ equal_under L (fun q => allowed_of L prior q \/ rule_of expl q) u2 t2 /\
          (tcost (l_allowed L) u1 <= tsize t1)%N /\ (tcost (l_allowed L) u2 <= tsize t2)%N /\ forall k, named L e1 e2 k -> In k (map fst c1) \/ In k (map fst c2)).
  Proof.
    intros fuel expl w prior new Hp He Rn. destruct (forwarding_phases _ _ _ _ _ Rn) as (g0 & g1 & g2 & g3 & c1 & c2 & Ph & X1 & X2 & M).
    destruct (phase_structure fuel expl w prior g0 g1 g2 g3 Ph Hp He) as (W1 & W2 & Cg1 & Cg2 & E01 & E12 & E23 & _).
    exists g1, g2, g3, c1, c2. split; [exact (phase_sound1 _ _ _ _ _ _ _ _ Ph)|]. split; [exact (phase_sound2 _ _ _ _ _ _ _ _ Ph)|]. split; [exact (phase_sound3 _ _ _ _ _ _ _ _ Ph)|].
    split. { intros ss ts Fw Fr. destruct Ph as (al & ot & E & _). destruct (to_egraph_present L eqb_eq keep fuel w g0 E) as (ss' & rs & Fw' & Fp & Fx).
      rewrite Fw in Fw'. injection Fw' as <-. clear - Fr Fp Fx E01. revert rs Fp Fx. induction Fr as [|s t ss ts Hr Fr IH]; intros rs Fp Fx; [constructor|].
      inversion Fp as [|s' r ss' rs' Hr' Fp']; subst. inversion Fx as [|r' rs'' Hx Fx']; subst. constructor; [|exact (IH _ Fp' Fx')].
      destruct Hx as (u & c & Tu & Ru). unfold reads in Hr. rewrite Hr in Hr'. injection Hr' as <-. rewrite tree_to_rec in Tu. injection Tu as <-. exists c. exact (repr_ext _ _ E01 _ _ Ru). }
    split; [intros t c; exact (repr_ext _ _ E12 t c)|]. split; [intros t c; exact (repr_ext _ _ E23 t c)|].
    pose proof (extracted_proposes fuel g1 g2 c1 W1 Cg1 (proj1 E12) X1) as P1. pose proof (extracted_proposes fuel g2 g3 c2 W2 Cg2 (proj1 E23) X2) as P2.
    split; [exact P1|]. split; [exact P2|]. split; [exact M|]. intros t1 t2 i j R1 R2 E3 A1 A2 Z1 Z2 Ne.
    exact (found_pair O C L g1 g2 g3 _ _ c1 c2 (phase_sound1 _ _ _ _ _ _ _ _ Ph) (phase_sound2 _ _ _ _ _ _ _ _ Ph) (fun q h => or_introl h) (fun t c => repr_ext _ _ E12 t c) P1 P2 W1 W2 t1 t2 i j R1 R2 E3 A1 A2 Z1 Z2 E12 E23 Ne).
  Qed.
End Forward.
