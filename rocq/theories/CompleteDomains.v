(* Completeness of run_workload in the single domains. *)
From Coq Require Import NArith ZArith.
From Verif Require Import Base BaseProofs Lang LangProofs Util UtilProofs Syntax SyntaxProofs Rule Ruleset RuleSpec Workload DomainSpec BV BVSpec BVProofs BVText BoolDom BoolProofs NatDom Halide
  Analysis AnalysisSpec Generalize Egraph EgraphSpec Synth SynthSpec Domains DomainAlg DeriveProofs DomainSound Minimize Infer TextSpec TextProofs TotalSpec PlainProofs MatchSpec LearnSpec SampledDomains SettleProofs LearnProofs LearnDomains
  OpsSpec OpsProofs SaveProofs SaveDomains LearntSpec ForwardSpec CompleteSpec CompleteProofs.
From Verif Require LearntProofs.
Open Scope list_scope.

Lemma bool_complete : complete bool_lang bool_arity.
Proof.
  destruct bool_readable as [K Re]. apply (workload_complete bool_lang bool_arity _ K bool_sampled bool_reg Re).
  intros o Ho. apply bool_reads. destruct o; [exact I..|discriminate Ho].
Qed.
Lemma bv_complete : forall w check, (w <= 128)%N -> complete (bv_lang w check) bv_arity.
Proof.
  intros w check Hw. destruct (bv_readable w check Hw) as [K Re]. apply (workload_complete (bv_lang w check) bv_arity _ K (bv_sampled w check) (bv_reg w check) Re).
  intros o. apply bv_reads. exact Hw.
Qed.
Lemma nat_complete : forall depth rng check, complete (nat_lang depth rng check) nat_arity.
Proof.
  intros depth rng check. destruct (nat_readable depth rng check) as [K Re]. apply (workload_complete (nat_lang depth rng check) nat_arity _ K (nat_sampled depth rng check) (nat_reg depth rng check) Re).
  intros o Ho. apply nat_reads. destruct o; [exact I..|discriminate Ho].
Qed.
Lemma hal_complete : forall check, complete (hal_lang check) hal_arity.
Proof.
  intros check. destruct (hal_readable check) as [K Re]. apply (workload_complete (hal_lang check) hal_arity _ K (hal_sampled check) (hal_reg check) Re).
  intros o [_ Ho]. apply hal_reads. exact Ho.
Qed.

(* the terms of a workload *)
Lemma sample_terms : forall O C (L : lang O C) ar P K, SaveDomains.readable L ar P K -> forall w ts n vs, samples_of L w ts n vs -> forall t, In t ts ->
  wf_term ar t /\ incl (tvars (l_to_var L) t) (wvars L ts) /\ tall (fun o => l_to_var L o <> None \/ P o) t.
Proof.
  intros O C L ar P K Re w ts n vs (ss & ls & Fw & Fr & _) t It. pose proof (read_workload L ar P (LearntProofs.read_over L ar P K Re) w ss ts Fw Fr) as F.
  rewrite Forall_forall in F. specialize (F t It). split; [|split].
  - clear - F. induction t as [o us IH] using term_ind'. inversion F as [? ? Q Fs]; subst. constructor; [exact (proj1 Q)|]. rewrite Forall_forall in *. auto.
  - intros x Hx. unfold wvars. apply (proj2 (first_seen_in _ _)). apply in_flat_map. eauto.
  - clear - F. induction t as [o us IH] using term_ind'. inversion F as [? ? Q Fs]; subst. constructor; [exact (proj2 Q)|]. rewrite Forall_forall in *. auto.
Qed.
Lemma no_links_init : forall O C (r : res (nat * list (string * cvec C))) n (ls : list (string * cvec C * list (recexpr O))), no_links r = Val (n, ls) -> r = Val (n, map fst ls).
Proof.
  intros O C r n ls H. unfold no_links in H. destruct r as [[m vcs]|]; [|discriminate H]. cbn in H. injection H as -> <-. f_equal. f_equal. rewrite map_map.
  clear. induction vcs as [|[x c] vcs IH]; [reflexivity|]. cbn. f_equal. exact IH.
Qed.
Lemma rows_indistinct : forall C (c1 c2 : cvec C) n, length c1 = n -> length c2 = n -> 0 < n ->
  (forall r, r < n -> exists v, nth r c1 None = Some v /\ nth r c2 None = Some v) -> c1 = c2 /\ everywhere c1 /\ c1 <> [].
Proof.
  intros C c1 c2 n L1 L2 Hn H. split; [|split].
  - apply nth_ext with (d := None) (d' := None); [congruence|]. intros r Hr. destruct (H r ltac:(lia)) as (v & -> & ->). reflexivity.
  - apply Forall_forall. intros x Hx. apply In_nth with (d := None) in Hx as (r & Hr & <-). destruct (H r ltac:(lia)) as (v & -> & _). discriminate.
  - intros ->. cbn in L1. lia.
Qed.

(* booleans: the samples are all assignments, and the validator accepts everything *)
Theorem bool_all : forall keep fuel w prior fast ae new, fit_prior bool_lang bool_arity prior -> run_workload_internal bool_lang keep fuel w prior fast ae new ->
  exists ts n vs, samples_of bool_lang w ts n vs /\
  forall t1 t2, In t1 ts -> In t2 ts -> (forall env, bool_den env t1 = bool_den env t2) ->
    settles bool_lang bool_arity (fun u1 u2 => (forall env, bool_den env u1 = bool_den env u2) /\ unwritable bool_lang u1 u2) (rule_of prior) (fun r => rule_of prior r \/ rule_of new r) (wvars bool_lang ts) n vs t1 t2.
Proof.
  intros keep fuel w prior fast ae new Fp R. destruct (bool_complete keep fuel w prior fast ae new Fp R) as [(ts & n & vs & S & H) _]. exists ts, n, vs. split; [exact S|].
  intros t1 t2 I1 I2 E. destruct bool_readable as [K Re]. destruct (sample_terms _ _ _ _ _ _ Re w ts n vs S t1 I1) as (W1 & V1 & _). destruct (sample_terms _ _ _ _ _ _ Re w ts n vs S t2 I2) as (W2 & V2 & _).
  assert (D : indistinct bool_lang n vs t1 t2).
  { destruct S as (ss & ls & _ & _ & Hi & ->). apply (no_links_init bool_op) in Hi. pose proof (first_seen_nodup _ : NoDup (wvars bool_lang ts)) as N.
    destruct (bool_cvec_rows _ n _ t1 N Hi W1 V1) as (c1 & C1 & L1 & R1). destruct (bool_cvec_rows _ n _ t2 N Hi W2 V2) as (c2 & C2 & L2 & R2).
    destruct (init_product_row bool_samples _ n _ (fun _ => true) N Hi) as (r0 & Hr0 & _). { intros _. simpl. auto. }
    destruct (rows_indistinct _ c1 c2 n L1 L2 ltac:(lia)) as (<- & X1 & X2).
    { intros r Hr. destruct (init_product_row_env bool_samples true _ n _ r N (or_introl eq_refl) Hi Hr) as (env & _ & He).
      destruct (R1 r env Hr He) as (v & E1 & ->). destruct (R2 r env Hr He) as (v' & E2 & ->). exists v. rewrite E, E2 in E1. injection E1 as ->. auto. }
    exists c1. auto. }
  destruct (H t1 t2 I1 I2 D) as [X|(u1 & u2 & Q1 & Q2 & S1 & S2 & U & X)]; [left; exact X|]. right. exists u1, u2. do 5 (split; [assumption|]). split.
  - intros env. destruct (bool_untold w ts n vs u1 u2 S U env) as (v & -> & ->). reflexivity.
  - destruct X as [X|(r & _ & _ & X)]; [exact X|]. exfalso. unfold is_valid in X. cbn in X. discriminate X.
Qed.

(* bitvectors, with rules that are true and a solver that always answers rightly *)
Lemma bv_spelt : forall w (check : zbv -> zbv -> sat_result) o, (w <= 128)%N -> eov_ok (bv_from_op w) bv_name bv_arity (EN o) -> lit_ok w o.
Proof.
  intros w check o Hw (_ & _ & F & _). destruct (bv_readable w check Hw) as [K Re]. destruct (re_read _ _ _ _ Re _ _ o F) as [X|X]; destruct o; try exact I; [|exact X]. elim X. reflexivity.
Qed.
Lemma tall_inst : forall w (t : term (eov bv_op)), tall (fun e => match e with EN o => lit_ok w o | PV _ => True end) t -> tall (lit_ok w) (DeriveProofs.inst (bv_lang w (fun _ _ => SUnknown)) t).
Proof.
  intros w t. induction t as [e ts IH] using term_ind'. intros H. inversion H as [? ? He Ht]; subst. cbn. constructor; [destruct e; [exact He|exact I]|].
  apply Forall_map. rewrite Forall_forall in *. auto.
Qed.
Lemma gen_tall_inv : forall w rho t, wf_term bv_arity t -> tall (fun e => match e with EN o => lit_ok w o | PV _ => True end) (gen_term bv_to_var rho t) -> tall (lit_ok w) t.
Proof.
  intros w rho t. induction t as [o ts IH] using term_ind'. intros W H. inversion W as [? ? Lt Wt]; subst. cbn [gen_term] in H. destruct (bv_to_var o) as [x|] eqn:E.
  - destruct o; try discriminate E. destruct ts; [|discriminate Lt]. constructor; [exact I|constructor].
  - inversion H as [? ? Ho Ht]; subst. constructor; [exact Ho|]. rewrite Forall_forall in *. intros t It. apply (IH t It (Wt t It)). apply Ht. now apply in_map.
Qed.
Theorem bv_all : forall w check, (1 <= w <= 64)%N -> sat_right w check -> (forall a b, check a b <> SUnknown) ->
  forall keep fuel wl prior fast ae new, fit_prior (bv_lang w check) bv_arity prior ->
  (forall k r, In (k, r) prior -> true_rule (bv_lang w check) VVar (inr w) (bv_den w) r) ->
  run_workload_internal (bv_lang w check) keep fuel wl prior fast ae new ->
  exists ts n vs, samples_of (bv_lang w check) wl ts n vs /\
  forall t1 t2, In t1 ts -> In t2 ts -> (forall env, (forall s, inr w (env s)) -> bv_den w env t1 = bv_den w env t2) ->
    settles (bv_lang w check) bv_arity (unwritable (bv_lang w check)) (rule_of prior) (fun r => rule_of prior r \/ rule_of new r) (wvars (bv_lang w check) ts) n vs t1 t2.
Proof.
  intros w check Hw Sr Dc keep fuel wl prior fast ae new Fp Tp R. assert (Hw' : (w <= 128)%N) by lia.
  destruct (bv_complete w check Hw' keep fuel wl prior fast ae new Fp R) as [(ts & n & vs & S & H) _]. exists ts, n, vs. split; [exact S|].
  intros t1 t2 I1 I2 E. destruct (bv_readable w check Hw') as [K Re].
  assert (Tm : forall t, In t ts -> wf_term bv_arity t /\ incl (tvars bv_to_var t) (wvars (bv_lang w check) ts) /\ tall (lit_ok w) t).
  { intros t It. destruct (sample_terms _ _ _ _ _ _ Re wl ts n vs S t It) as (W & V & T). split; [exact W|]. split; [exact V|]. eapply tall_impl; [|exact T].
    intros o [X|X]; destruct o; try exact I; [elim X; reflexivity|exact X]. }
  destruct (Tm t1 I1) as (W1 & V1 & T1). destruct (Tm t2 I2) as (W2 & V2 & T2).
  assert (D : indistinct (bv_lang w check) n vs t1 t2).
  { destruct S as (ss & ls & _ & _ & Hi & ->). apply (no_links_init bv_op) in Hi. pose proof (first_seen_nodup _ : NoDup (wvars (bv_lang w check) ts)) as N.
    destruct (bv_samples_spec w ltac:(lia)) as (_ & Hin & S0 & _).
    assert (Ln : forall s, In s (wvars (bv_lang w check) ts) -> length (var_cvec (map fst ls) s) = n) by (intros s Hs; exact (init_product_length _ _ _ _ s N Hi Hs)).
    destruct (bv_cvec_den w n (var_cvec (map fst ls)) t1 Hw' (fun s Hs => Ln s (V1 s Hs)) T1 W1) as (c1 & C1 & L1 & R1).
    destruct (bv_cvec_den w n (var_cvec (map fst ls)) t2 Hw' (fun s Hs => Ln s (V2 s Hs)) T2 W2) as (c2 & C2 & L2 & R2).
    destruct (init_product_row (bv_samples w) _ n _ (fun _ => 0%N) N Hi) as (r0 & Hr0 & _). { intros _. exact S0. }
    destruct (rows_indistinct _ c1 c2 n L1 L2 ltac:(lia)) as (<- & X1 & X2).
    { intros r Hr. destruct (init_product_row_env (bv_samples w) 0%N _ n _ r N S0 Hi Hr) as (env & Hs & He).
      assert (Hr' : forall s, inr w (env s)) by (intros s; apply Hin, Hs).
      destruct (R1 r env Hr (fun s Is => He s (V1 s Is)) Hr') as (v & E1 & -> & _). destruct (R2 r env Hr (fun s Is => He s (V2 s Is)) Hr') as (v' & E2 & -> & _).
      exists v. rewrite (E env Hr'), E2 in E1. injection E1 as ->. auto. }
    exists c1. auto. }
  destruct (H t1 t2 I1 I2 D) as [X|(u1 & u2 & Q1 & Q2 & S1 & S2 & U & X)]; [left; exact X|]. right. exists u1, u2. do 5 (split; [assumption|]).
  destruct X as [X|(r & (P1 & P2 & _ & p & q & Hpq & rho & _ & Tl & Tr) & Sp & Iv)]; [exact X|]. exfalso.
  destruct U as (Wu1 & Wu2 & _).
  assert (Wpq : wf_term bv_arity p /\ wf_term bv_arity q) by (destruct Hpq as [[-> ->]|[-> ->]]; auto). destruct Wpq as [Wp Wq].
  assert (Lp : tall (lit_ok w) p).
  { apply (gen_tall_inv w rho p Wp). refine (tree_tall _ (rlhs r) _ _ Tl). intros m Im. destruct (nop m) as [o|] eqn:Eo; [|exact I]. apply (bv_spelt w check o Hw'). apply (Sp m o); [apply in_app_iff; auto|exact Eo]. }
  assert (Lq : tall (lit_ok w) q).
  { apply (gen_tall_inv w rho q Wq). refine (tree_tall _ (rrhs r) _ _ Tr). intros m Im. destruct (nop m) as [o|] eqn:Eo; [|exact I]. apply (bv_spelt w check o Hw'). apply (Sp m o); [apply in_app_iff; auto|exact Eo]. }
  assert (Lu : tall (lit_ok w) u1 /\ tall (lit_ok w) u2) by (destruct Hpq as [[-> ->]|[-> ->]]; auto). destruct Lu as [Lu1 Lu2].
  (* the prior rules hold *)
  assert (Ho : forall env, (forall s, inr w (env s)) -> forall x, rule_of prior x -> holds (bv_lang w check) (set_vars (bv_lang w check) (bv_alg w) env) x).
  { intros env He x (k & Ix). destruct (Tp k x Ix) as (G1 & G2 & tl & tr & Y1 & Y2 & Dn). pose proof (fp_text _ _ _ Fp) as Ft. rewrite Forall_forall in Ft. destruct (Ft _ Ix) as (_ & _ & ul & ur & (Z1 & _ & A1 & _) & (Z2 & _ & A2 & _) & _).
    pose proof (tree_inst (bv_lang w check) (rlhs x)) as J1. pose proof (tree_inst (bv_lang w check) (rrhs x)) as J2. cbn [l_mk_var bv_lang] in J1, J2. rewrite Y1, Z1 in J1. rewrite Y2, Z2 in J2. cbn [rmap] in J1, J2. injection J1 as ->. injection J2 as ->.
    assert (Ta : forall t, tall (eov_ok (bv_from_op w) bv_name bv_arity) t -> tall (lit_ok w) (DeriveProofs.inst (bv_lang w check) t)).
    { intros t Ht. apply tall_inst. eapply tall_impl; [|exact Ht]. intros [o|v] Y; [exact (bv_spelt w check o Hw' Y)|exact I]. }
    apply (den_holds (bv_lang w check) 0%N (bv_sem_mod w) (inr w) (bv_says w) (fun v => eq_refl) x ul ur Z1 Z2 (general_closed _ _ _ G1 Z1) (general_closed _ _ _ G2 Z2)).
    intros s Hs. destruct (Dn s Hs) as (v & D1 & D2). exists v. split; apply bv_mod_den; auto. }
  assert (Eu : forall env, (forall s, inr w (env s)) -> bv_den w env p = bv_den w env q).
  { intros env He. pose proof (bv_interprets w Hw' check env He) as Ia. pose proof (Q1 N _ Ia (Ho env He)) as F1. pose proof (Q2 N _ Ia (Ho env He)) as F2.
    destruct (den_total w env t1 W1) as (a & A1). destruct (den_total w env t2 W2) as (b & B1). destruct (den_total w env u1 Wu1) as (a' & A2). destruct (den_total w env u2 Wu2) as (b' & B2).
    rewrite (bv_aval w check env t1 a T1 A1), (bv_aval w check env u1 a' Lu1 A2) in F1. rewrite (bv_aval w check env t2 b T2 B1), (bv_aval w check env u2 b' Lu2 B2) in F2.
    pose proof (E env He) as F3. rewrite A1, B1 in F3. injection F3 as F3. destruct Hpq as [[-> ->]|[-> ->]]; rewrite A2, B2; congruence. }
  assert (Lits : lits64 w (rlhs r) /\ lits64 w (rrhs r)).
  { assert (G : forall m c, In m (rlhs r ++ rrhs r) -> nop m = EN (VLit c) -> inr w c /\ inr 64 c).
    { intros m c Im Em. pose proof (bv_spelt w check (VLit c) Hw' (Sp m _ Im Em)) as Y. cbn in Y. split; [exact Y|]. unfold inr in *. pose proof (N.pow_le_mono_r 2 w 64 ltac:(lia) ltac:(lia)). lia. }
    split; intros m c Im Em; apply (G m c); try exact Em; apply in_app_iff; auto. }
  destruct Lits as [Ll Lr]. unfold is_valid in Iv. cbn [l_validate bv_lang] in Iv. destruct (bv_validate check (rlhs r) (rrhs r)) as [v|] eqn:Ev; [|discriminate Iv].
  destruct v; [discriminate Iv| |].
  - destruct (bv_validate_complete w check _ _ Hw' Sr Ll Lr Ev) as (tl & tr & env & a & b & Y1 & Y2 & He & D1 & D2 & Ne).
    pose proof (tree_inst (bv_lang w check) (rlhs r)) as J1. pose proof (tree_inst (bv_lang w check) (rrhs r)) as J2. cbn [l_mk_var bv_lang] in J1, J2. rewrite Y1, Tl in J1. rewrite Y2, Tr in J2. cbn [rmap] in J1, J2. injection J1 as ->. injection J2 as ->.
    unfold bv_den in D1, D2. cbn [l_to_var bv_lang] in D1, D2.
    pose proof (inst_gen_den _ _ _ (bv_lang w check) bv_arity (bv_sem w) rho env p (fun s => eq_refl) (rg_leaf _ _ (bv_reg w check)) Wp) as G1.
    pose proof (inst_gen_den _ _ _ (bv_lang w check) bv_arity (bv_sem w) rho env q (fun s => eq_refl) (rg_leaf _ _ (bv_reg w check)) Wq) as G2. cbn [l_to_var bv_lang] in G1, G2.
    rewrite D1 in G1. rewrite D2 in G2. specialize (Eu (fun s => env (rho s)) (fun s => He (rho s))). unfold bv_den in Eu. rewrite <- G1, <- G2 in Eu. congruence.
  - unfold bv_validate, validate_neq in Ev. destruct (fold_rec _ _) as [e1|]; [|discriminate Ev]. cbn [rbind] in Ev. destruct (fold_rec _ _) as [e2|]; [|discriminate Ev]. cbn [rbind] in Ev.
    pose proof (Dc e1 e2) as Y. destruct (check e1 e2); try discriminate Ev. elim Y. reflexivity.
Qed.
