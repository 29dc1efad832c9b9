(* What the samples say about learned rules in the single domains. *)
From Coq Require Import NArith ZArith QArith Qcanon.
From Verif Require Import Base BaseProofs Lang Util UtilProofs LangProofs DomainSpec Syntax Rule Ruleset RuleSpec BV BoolDom BoolProofs NatDom Number Rational RationalProofs Halide Analysis Generalize GeneralizeProofs Egraph EgraphProofs SynthProofs Synth SynthSpec EgraphSpec Domains DomainAlg
  PlainProofs DeriveProofs DomainSound MatchSpec CalmSpec TotalSpec PlainSpec Workload SettleProofs LearnSpec SampledDomains LearnProofs.
Open Scope list_scope.

Lemma sampled_regular : forall O C (L : lang O C) ar, sampled L ar -> (forall a, l_ceqb L a a = true) -> regular L ar.
Proof.
  intros O C L ar Sp R. constructor.
  - exact (sp_eqb L ar Sp).
  - intros a b. split; [apply (sp_ceqb L ar Sp)|]. intros <-. apply R.
  - exact (sp_var L ar Sp).
  - intros o H. destruct (l_to_var L o) as [s|] eqn:E; [|congruence]. rewrite (sp_only L ar Sp o s E). apply (sp_leaf L ar Sp).
Qed.
Lemma bv_reg : forall w check, regular (bv_lang w check) bv_arity.
Proof. intros. apply sampled_regular; [apply bv_sampled|]. intros a. cbn. apply N.eqb_refl. Qed.
Lemma bool_reg : regular bool_lang bool_arity.
Proof. apply sampled_regular; [apply bool_sampled|]. intros a. cbn. apply Bool.eqb_reflx. Qed.
Lemma nat_reg : forall depth rng check, regular (nat_lang depth rng check) nat_arity.
Proof. intros. apply sampled_regular; [apply nat_sampled|]. intros a. cbn. apply Z.eqb_refl. Qed.
Lemma hal_reg : forall check, regular (hal_lang check) hal_arity.
Proof. intros. apply sampled_regular; [apply hal_sampled|]. intros a. cbn. apply Z.eqb_refl. Qed.
Lemma math_reg : forall ov check, regular (math_lang ov check) math_arity.
Proof. intros. apply sampled_regular; [apply math_sampled|]. intros a. cbn. now apply qeqb_spec. Qed.

(* all rows of a truth table agree *)
Lemma bool_untold : forall w ts n vs t1 t2, samples_of bool_lang w ts n vs -> untold bool_lang bool_arity (wvars bool_lang ts) n vs t1 t2 ->
  forall env, exists v, bool_den env t1 = Val v /\ bool_den env t2 = Val v.
Proof.
  intros w ts n vs t1 t2 (ss & ls & _ & _ & Hi & Hv) (W1 & W2 & I1 & I2 & v1 & v2 & E1 & E2 & L1 & L2 & A) env.
  change (no_links (bool_init (wvars bool_lang ts)) = Val (n, ls)) in Hi. unfold no_links in Hi. destruct (bool_init (wvars bool_lang ts)) as [[n' vcs]|] eqn:Eb; [|discriminate Hi].
  cbn [rbind] in Hi. injection Hi as -> Els. assert (vs = vcs) as ->.
  { rewrite Hv, <- Els, map_map. clear. induction vcs as [|[x c] vcs IH]; [reflexivity|]. cbn [map fst]. f_equal. exact IH. }
  assert (N : NoDup (wvars bool_lang ts)) by apply first_seen_nodup.
  destruct (bool_cvec_rows _ n vcs t1 N Eb W1 I1) as (c1 & F1 & K1 & R1). destruct (bool_cvec_rows _ n vcs t2 N Eb W2 I2) as (c2 & F2 & K2 & R2).
  cbn [bool_lang l_eval l_to_var] in E1, E2. rewrite E1 in F1. rewrite E2 in F2. injection F1 as <-. injection F2 as <-.
  destruct (init_product_row bool_samples _ n vcs env N Eb) as (r & Hr & He). { intros s. destruct (env s); simpl; auto. }
  destruct (R1 r env Hr He) as (x & D1 & X1). destruct (R2 r env Hr He) as (y & D2 & X2). exists x. split; [exact D1|]. rewrite D2. f_equal. symmetry. apply (A r x y). split.
  - rewrite <- X1. apply nth_error_nth'. now rewrite L1.
  - rewrite <- X2. apply nth_error_nth'. now rewrite L2.
Qed.

(* putting variables in for the pattern variables renames the term *)
Lemma inst_gen_den : forall O C A (L : lang O C) ar (f : O -> list A -> res A) rho env t, (forall s, l_to_var L (l_mk_var L s) = Some s) -> (forall o, l_to_var L o <> None -> ar o = 0) -> wf_term ar t ->
  fold_term (with_vars (l_to_var L) env f) (inst L (gen_term (l_to_var L) rho t)) = fold_term (with_vars (l_to_var L) (fun s => env (rho s)) f) t.
Proof.
  intros O C A L ar f rho env t Hv Hl. induction t as [o ts IH] using term_ind'. intros W. assert (length ts = ar o /\ Forall (wf_term ar) ts) as [Lt Wt] by (inversion W; auto).
  cbn [gen_term]. destruct (l_to_var L o) as [s|] eqn:E.
  - rewrite Hl in Lt by congruence. destruct ts; [|discriminate Lt]. cbn. unfold with_vars. now rewrite Hv, E.
  - cbn [inst fold_term instantiate_op map]. rewrite map_map.
    assert (rmapM (fold_term (with_vars (l_to_var L) env f)) (map (fun x => inst L (gen_term (l_to_var L) rho x)) ts) = rmapM (fold_term (with_vars (l_to_var L) (fun s => env (rho s)) f)) ts) as ->.
    { clear - IH Wt. induction IH as [|t ts H IH IHl]; [reflexivity|]. inversion Wt; subst. cbn [map rmapM]. rewrite H by assumption. now rewrite IHl. }
    destruct (rmapM _ ts) as [args|]; [|reflexivity]. cbn [rbind]. unfold with_vars. now rewrite E.
Qed.
Lemma plain_general : forall O C (L : lang O C) ar p, plain_pat L ar p -> general L p.
Proof. intros O C L ar p H n o I E. unfold plain_pat in H. rewrite Forall_forall in H. specialize (H n I). rewrite E in H. tauto. Qed.

(* a rule between boolean terms with the same value everywhere is a tautology *)
Lemma bool_learned_true : forall w ts n vs r, samples_of bool_lang w ts n vs ->
  from_terms bool_lang bool_arity (untold bool_lang bool_arity (wvars bool_lang ts) n vs) r -> tautology r.
Proof.
  intros w ts n vs r S (P1 & P2 & _ & t1 & t2 & U & rho & _ & T1 & T2).
  pose proof (tree_inst bool_lang (rlhs r)) as I1. pose proof (tree_inst bool_lang (rrhs r)) as I2. rewrite T1 in I1. rewrite T2 in I2. cbn [rmap] in I1, I2.
  exists (inst bool_lang (gen_term (l_to_var bool_lang) rho t1)), (inst bool_lang (gen_term (l_to_var bool_lang) rho t2)).
  split; [exact I1|]. split; [exact I2|].
  intros env. destruct (bool_untold w ts n vs t1 t2 S U (fun s => env (rho s))) as (v & D1 & D2). destruct U as (W1 & W2 & _). exists v.
  split; [rewrite <- D1|rewrite <- D2]; [exact (inst_gen_den _ _ _ bool_lang bool_arity bool_sem rho env _ (rg_var _ _ bool_reg) (rg_leaf _ _ bool_reg) W1)|exact (inst_gen_den _ _ _ bool_lang bool_arity bool_sem rho env _ (rg_var _ _ bool_reg) (rg_leaf _ _ bool_reg) W2)].
Qed.
(* rules learned from tautologies keep equal classes equal *)
Lemma bool_learned_sound : forall keep rs, Forall (fun e => tautology (snd e) /\ plain_pat bool_lang bool_arity (rlhs (snd e)) /\ plain_pat bool_lang bool_arity (rrhs (snd e))) rs ->
  forall g, made bool_lang keep rs g -> forall t u c, repr g t c -> repr g u c -> wf_term bool_arity t -> wf_term bool_arity u ->
  forall env, exists v, bool_den env t = Val v /\ bool_den env u = Val v.
Proof.
  intros keep rs H. apply bool_end_to_end. eapply Forall_impl; [|exact H]. intros e ((tl & tr & T1 & T2 & D) & P1 & P2). exists tl, tr.
  split; [exact T1|]. split; [exact T2|]. split; [exact (plain_general _ _ _ _ _ P1)|]. split; [exact (plain_general _ _ _ _ _ P2)|exact D].
Qed.
