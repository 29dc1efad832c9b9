(* Rulesets learned by a recipe: true, well formed, and fit to start another run. *)
From Coq Require Import NArith ZArith QArith Qcanon.
From Verif Require Import EnumSpec.
From Verif Require Import Base BaseProofs Lang Util UtilProofs LangProofs BV BVText BVSpec BVProofs BoolDom NatDom NatProofs PosDom BvBoolDom Number Rational RationalSpec RationalValidate Halide HalideSpec HalideProofs DomainSpec
  Syntax Rule RuleSpec Ruleset Workload Analysis Egraph EgraphSpec EgraphProofs Synth SynthSpec Domains DomainAlg DomainSound DeriveProofs
  CalmDomains TotalSpec Match Infer InferProofs LearnSpec LearnProofs SampledDomains LearnDomains OpsSpec OpsProofs OpsDomains TextSpec TextProofs SaveProofs SaveDomains LearntSpec.
Open Scope list_scope.

Section Learnt.
  Context {O C : Type} (L : lang O C) (ar : O -> nat) (P : O -> Prop) (K : C -> Prop).
  Hypothesis Re : readable L ar P K.
  Local Notation entry := (entry_ok (l_from_op L) (l_name L) ar).
  Local Notation Q := (over L ar P).
  Definition sound_entry (e : string * rule O) : Prop := l_validate L (rlhs (snd e)) (rrhs (snd e)) = Val Valid /\ rule_uses L Q (snd e) /\ entry e.
  Lemma read_over : forall o k, read_op L o k -> Q o k.
  Proof. intros o k (s & E). split; [symmetry; exact (re_arity _ _ _ _ Re s k o E)|exact (re_read _ _ _ _ Re s k o E)]. Qed.
  Lemma sound_read : forall e, sound_entry e -> rhs_uses (read_op L) (snd e).
  Proof.
    intros e (V & U & _). pose proof (re_ok _ _ _ _ Re (snd e) V U) as Ok. destruct U as [_ U]. unfold pat_uses, rhs_uses in *. rewrite Forall_forall in *. intros n I.
    specialize (U n I). destruct (nop n) as [o|v] eqn:E; [|exact Logic.I]. destruct U as (_ & Hk & _).
    destruct (Ok n o) as (_ & _ & Hf & _); [apply in_app_iff; now right|exact E|]. exists (l_name L o). now rewrite Hk.
  Qed.
  Lemma given_over : forall rs, read_rules L rs -> Forall (fun e => rhs_uses Q (snd e)) rs.
  Proof. intros rs. apply Forall_impl. intros e. apply rhs_uses_mono. exact read_over. Qed.
  Lemma fits_over : forall w, workload_fits L Q w.
  Proof. intros w. apply (workload_fits_mono _ _ _ (read_op L)); [exact read_over|apply workload_read]. Qed.

  Lemma learnt_good : forall rs, learnt L (read_rules L) rs -> NoDup (map fst rs) /\ Forall sound_entry rs.
  Proof.
    pose proof (admits_learns _ _ L ar P P K (re_eqb _ _ _ _ Re) (re_var _ _ _ _ Re) (fun o H => H) (re_admits _ _ _ _ Re)) as Lo.
    intros rs H. induction H as [|keep fuel w prior fast ae new N Hs Rn|keep fuel ex w prior new N Hs Hx Rn|keep fuel met l prior n all H [Np Fp] Rn|a b _ [Na Fa] _ [Nb Fb]|a b _ [Nb Fb] I N].
    - split; constructor.
    - destruct (workload_saved L ar (re_eqb _ _ _ _ Re) (re_var _ _ _ _ Re) (re_leaf _ _ _ _ Re) P K (re_admits _ _ _ _ Re) read_over (re_ok _ _ _ _ Re) keep fuel w prior fast ae new N Hs Rn) as [Nn Fn].
      split; [exact Nn|]. destruct (workload_valid _ _ _ _ _ _ _ _ N Rn) as [_ V]. destruct (Lo keep fuel) as (U & _ & _). specialize (U w prior fast ae new N (fits_over w) (given_over _ Hs) Rn).
      rewrite Forall_forall in *. intros e I. split; [exact (proj1 (V e I))|]. split; [exact (U e I)|exact (Fn e I)].
    - destruct (forwarding_saved L ar (re_eqb _ _ _ _ Re) (re_var _ _ _ _ Re) (re_leaf _ _ _ _ Re) P K (re_admits _ _ _ _ Re) read_over (re_ok _ _ _ _ Re) keep fuel ex w prior new N Hs Hx Rn) as [Nn Fn].
      split; [exact Nn|]. destruct (forwarding_valid _ _ _ _ _ _ _ N Rn) as [_ V]. destruct (Lo keep fuel) as (_ & U & _). specialize (U ex w prior new N (fits_over w) (given_over _ Hs) (given_over _ Hx) Rn).
      rewrite Forall_forall in *. intros e I. split; [exact (proj1 (V e I))|]. split; [exact (U e I)|exact (Fn e I)].
    - assert (Hs : read_rules L prior) by (eapply Forall_impl; [exact sound_read|exact Fp]).
      assert (Fe : Forall entry prior) by (eapply Forall_impl; [|exact Fp]; unfold sound_entry; tauto).
      destruct (recursive_saved L ar (re_eqb _ _ _ _ Re) (re_var _ _ _ _ Re) (re_leaf _ _ _ _ Re) P K (re_admits _ _ _ _ Re) read_over (re_ok _ _ _ _ Re) keep fuel met l prior n all (conj Np Fe) Hs Rn) as [Nn Fn].
      split; [exact Nn|]. destruct (recursive_ok _ _ _ _ _ _ _ _ Np Rn) as (_ & _ & V). destruct (Lo keep fuel) as (_ & _ & U). specialize (U met l prior n all Np (fun m w _ _ => fits_over w) (given_over _ Hs) Rn).
      rewrite Forall_forall in *. intros e I. destruct (V e I) as [I'|V']; [exact (Fp e I')|]. destruct (U e I) as [I'|U']; [exact (Fp e I')|]. split; [exact V'|]. split; [exact U'|exact (Fn e I)].
    - split; [now apply extend_nodup'|]. rewrite Forall_forall in *. intros e I. apply extend_in' in I as [I|I]; auto.
    - split; [exact N|]. rewrite Forall_forall in *. auto.
  Qed.
  Lemma learnt_ready : forall rs, learnt L (read_rules L) rs -> NoDup (map fst rs) /\ read_rules L rs /\ reloads L rs.
  Proof.
    intros rs H. destruct (learnt_good rs H) as [N F]. split; [exact N|]. split.
    - eapply Forall_impl; [exact sound_read|exact F].
    - apply (ok_reloads _ _ L ar). split; [exact N|]. eapply Forall_impl; [|exact F]. unfold sound_entry. tauto.
  Qed.
  Lemma learnt_validated : forall rs, learnt L (read_rules L) rs -> validated L rs.
  Proof.
    intros rs H. destruct (learnt_good rs H) as [_ F]. eapply Forall_impl; [|exact F]. intros e (V & [U1 U2] & _). split; [exact V|].
    split; intros n o I E; [unfold pat_uses in U1; rewrite Forall_forall in U1; specialize (U1 n I); rewrite E in U1; tauto|unfold pat_uses in U2; rewrite Forall_forall in U2; specialize (U2 n I); rewrite E in U2; tauto].
  Qed.
End Learnt.

(* ---- domain by domain ---- *)
Lemma readable_ready : forall O C (L : lang O C) ar P, (exists K, readable L ar P K) -> ready L.
Proof. intros O C L ar P [K Re] rs H. exact (learnt_ready L ar P K Re rs H). Qed.

Lemma bv_lits : forall w check rs, (w <= 64)%N -> learnt (bv_lang w check) (read_rules (bv_lang w check)) rs ->
  Forall (fun e => lits64 w (rlhs (snd e)) /\ lits64 w (rrhs (snd e))) rs.
Proof.
  intros w check rs Hw H. destruct (bv_readable w check ltac:(lia)) as [K Re]. destruct (learnt_good _ _ _ _ Re rs H) as [_ F]. eapply Forall_impl; [|exact F]. intros e (_ & U & _).
  assert (G : forall n c, In n (rlhs (snd e) ++ rrhs (snd e)) -> nop n = EN (VLit c) -> inr w c /\ inr 64 c).
  { intros n c I E. destruct (uses_in _ _ _ _ _ _ _ U I E) as [_ [_ [X|X]]]; [elim X; reflexivity|]. cbn in X. split; [exact X|]. unfold inr in *. pose proof (N.pow_le_mono_r 2 w 64 ltac:(lia) Hw). lia. }
  split; intros n c I E; apply (G n c); try exact E; apply in_app_iff; auto.
Qed.
Lemma bv_true : forall w check, (w <= 64)%N -> unsat_right w check -> forall rs, learnt (bv_lang w check) (read_rules (bv_lang w check)) rs ->
  forall k r, In (k, r) rs -> identity VVar (inr w) (bv_den w) r.
Proof.
  intros w check Hw Hu rs H k r I. pose proof (bv_lits w check rs Hw H) as Fl. destruct (bv_readable w check ltac:(lia)) as [K Re].
  pose proof (learnt_validated _ _ _ _ Re rs H) as V. unfold validated in V. rewrite Forall_forall in *. destruct (Fl _ I) as [L1 L2]. destruct (V _ I) as (Vr & _). cbn [snd] in *.
  destruct (bv_validate_sound w check (rlhs r) (rrhs r) ltac:(lia) Hu L1 L2 Vr) as (tl & tr & T1 & T2 & _ & _ & D). exists tl, tr. auto.
Qed.
Lemma bv_rewrites : forall w check, (w <= 64)%N -> unsat_right w check -> forall rs, learnt (bv_lang w check) (read_rules (bv_lang w check)) rs ->
  forall keep g, made (bv_lang w check) keep rs g -> forall t u c, repr g t c -> repr g u c ->
  wf_term bv_arity t -> wf_term bv_arity u -> tall (lit_ok w) t -> tall (lit_ok w) u ->
  forall env, (forall s, inr w (env s)) -> exists v, bv_den w env t = Val v /\ bv_den w env u = Val v.
Proof.
  intros w check Hw Hu rs H keep. destruct (bv_readable w check ltac:(lia)) as [K Re].
  exact (bv_end_to_end w check ltac:(lia) Hu keep rs (learnt_validated _ _ _ _ Re rs H) (bv_lits w check rs Hw H)).
Qed.
Lemma nat_true : forall depth rng check, int_unsat_right check -> forall rs, learnt (nat_lang depth rng check) (read_rules (nat_lang depth rng check)) rs ->
  forall k r, In (k, r) rs -> identity NVar (fun _ => True) nat_den r.
Proof.
  intros depth rng check Hu rs H k r I. destruct (nat_readable depth rng check) as [K Re]. pose proof (learnt_validated _ _ _ _ Re rs H) as V. unfold validated in V. rewrite Forall_forall in V.
  destruct (V _ I) as (Vr & _). destruct (nat_validate_sound check (rlhs r) (rrhs r) Hu Vr) as (tl & tr & T1 & T2 & D). exists tl, tr. auto.
Qed.
Lemma nat_rewrites : forall depth rng check, int_unsat_right check -> forall rs, learnt (nat_lang depth rng check) (read_rules (nat_lang depth rng check)) rs ->
  forall keep g, made (nat_lang depth rng check) keep rs g -> forall t u c, repr g t c -> repr g u c ->
  wf_term nat_arity t -> wf_term nat_arity u -> forall env, exists v, nat_den env t = Val v /\ nat_den env u = Val v.
Proof. intros depth rng check Hu rs H keep. destruct (nat_readable depth rng check) as [K Re]. exact (nat_end_to_end depth rng check keep rs Hu (learnt_validated _ _ _ _ Re rs H)). Qed.
Lemma hal_true : forall check, hal_unsat_right check -> forall rs, learnt (hal_lang check) (read_rules (hal_lang check)) rs ->
  forall k r, In (k, r) rs -> identity HVar (fun _ => True) (hal_den div_smt) r.
Proof.
  intros check Hu rs H k r I. destruct (hal_readable check) as [K Re]. pose proof (learnt_validated _ _ _ _ Re rs H) as V. unfold validated in V. rewrite Forall_forall in V.
  destruct (V _ I) as (Vr & _). destruct (hal_valid check (rlhs r) (rrhs r) Hu Vr) as (tl & tr & T1 & T2 & D). exists tl, tr. auto.
Qed.
Lemma hal_rewrites : forall check, hal_unsat_right check -> forall rs, learnt (hal_lang check) (read_rules (hal_lang check)) rs ->
  forall keep g, made (hal_lang check) keep rs g -> forall t u c, repr g t c -> repr g u c ->
  forall env v v', hal_den div_smt env t = Val v -> hal_den div_smt env u = Val v' -> v = v'.
Proof. intros check Hu rs H keep. destruct (hal_readable check) as [K Re]. exact (hal_end_to_end check keep rs Hu (learnt_validated _ _ _ _ Re rs H)). Qed.

Lemma math_true : forall ov check, real_unsat_right check -> forall rs, learnt (math_lang ov check) (read_rules (math_lang ov check)) rs ->
  forall k r, In (k, r) rs -> rational_identity r.
Proof.
  intros ov check Hu rs H k r I. destruct (math_readable ov check) as [K Re]. destruct (learnt_good _ _ _ _ Re rs H) as [_ F]. rewrite Forall_forall in F. destruct (F _ I) as (V & _ & En). clear F.
  destruct En as (_ & _ & tl & tr & Ol & Or & _). cbn [snd l_validate math_lang l_from_op l_name] in *.
  exists (inst_term MVar tl), (inst_term MVar tr).
  split; [exact (tree_instantiate MVar _ _ (proj1 Ol))|]. split; [exact (tree_instantiate MVar _ _ (proj1 Or))|]. split.
  - intros env p q. exact (validate_values check _ tl _ tr env p q Hu Ol Or V).
  - intros S1 S2 env. exact (validate_errors check _ tl _ tr env Hu Ol Or V S1 S2).
Qed.

(* booleans: no validator, but all samples *)
Lemma bool_learnt : forall rs, learnt bool_lang (plain_rules bool_lang bool_arity) rs ->
  NoDup (map fst rs) /\ Forall (fun e => tautology (snd e) /\ plain_pat bool_lang bool_arity (rlhs (snd e)) /\ plain_pat bool_lang bool_arity (rrhs (snd e))) rs.
Proof.
  assert (G : forall w ts n vs r, samples_of bool_lang w ts n vs -> from_terms bool_lang bool_arity (untold bool_lang bool_arity (wvars bool_lang ts) n vs) r ->
    tautology r /\ plain_pat bool_lang bool_arity (rlhs r) /\ plain_pat bool_lang bool_arity (rrhs r)).
  { intros w ts n vs r S F. split; [exact (bool_learned_true w ts n vs r S F)|]. destruct F as (P1 & P2 & _). auto. }
  intros rs H. induction H as [|keep fuel w prior fast ae new N Hs Rn|keep fuel ex w prior new N Hs Hx Rn|keep fuel met l prior n all H [Np Fp] Rn|a b _ [Na Fa] _ [Nb Fb]|a b _ [Nb Fb] I N].
  - split; constructor.
  - split; [exact (proj1 (workload_valid _ _ _ _ _ _ _ _ N Rn))|]. destruct (workload_learned bool_lang bool_arity bool_sampled bool_reg keep fuel w prior fast ae new N Hs Rn) as (ts & n & vs & S & F).
    rewrite Forall_forall in *. intros e I. exact (G w ts n vs _ S (F e I)).
  - split; [exact (proj1 (forwarding_valid _ _ _ _ _ _ _ N Rn))|]. destruct (forwarding_learned bool_lang bool_arity bool_sampled bool_reg keep fuel ex w prior new N Hs Hx Rn) as (ts & n & vs & S & F).
    rewrite Forall_forall in *. intros e I. exact (G w ts n vs _ S (F e I)).
  - split; [exact (proj1 (recursive_ok _ _ _ _ _ _ _ _ Np Rn))|]. assert (Hs : plain_rules bool_lang bool_arity prior) by (eapply Forall_impl; [|exact Fp]; unfold plain_rhs; tauto).
    destruct (recursive_learned bool_lang bool_arity bool_sampled bool_reg keep fuel met l prior n all Np Hs Rn) as [_ F].
    rewrite Forall_forall in *. intros e I. destruct (F e I) as [I'|(m & w & ts & n' & vs & _ & _ & S & Fr)]; [exact (Fp e I')|exact (G w ts n' vs _ S Fr)].
  - split; [now apply extend_nodup'|]. rewrite Forall_forall in *. intros e I. apply extend_in' in I as [I|I]; auto.
  - split; [exact N|]. rewrite Forall_forall in *. auto.
Qed.
Lemma bool_identity : forall r, tautology r -> identity BVar (fun _ => True) bool_den r.
Proof. intros r (tl & tr & T1 & T2 & D). exists tl, tr. auto. Qed.
