(* Rewriting, deriving and fast-forwarding with safe rules. *)
From Coq Require Import NArith Permutation.
From Verif Require Import Base BaseProofs Lang LangProofs Syntax SyntaxProofs Rule Ruleset RuleSpec AnalysisSpec Util Analysis Generalize GeneralizeProofs Egraph EgraphSpec EgraphProofs EgraphSound Synth Apply Sched SynthSpec SynthProofs DeriveProofs
  Workload Extract ExtractProofs Match MatchSpec MatchProofs MinimizeSpec Minimize Infer InferProofs TotalSpec CalmSpec PlainSpec LearnSpec LearnProofs OpsSpec OpsProofs PlainProofs SaveProofs SaveDomains ForwardSpec ForwardProofs SafeSpec PartialSpec DomainSound.
From Verif Require RulesetProofs SafeProofs.
Open Scope list_scope.

Section Partial.
  Context {O C V : Type}.
  Variable L : lang O C.
  Variable sem : O -> list V -> res V.
  Variable says : interval C -> V -> Prop.
  Local Notation value := (value L sem).
  Local Notation pvalue := (pvalue L sem).
  Local Notation A := (at_env L sem says).

  (* ---- values ---- *)
  Lemma rmapM_id : forall X Y (f : X -> res Y) l, rmapM (fun v => v) (map f l) = rmapM f l.
  Proof. intros X Y f l. induction l as [|x l IH]; cbn; [reflexivity|]. now rewrite IH. Qed.
  Lemma value_aval : forall env t, aval (a_sem (A env)) t = value env t.
  Proof.
    intros env t. induction t as [o ts IH] using term_ind'. cbn [aval PartialSpec.value].
    assert (map (aval (a_sem (A env))) ts = map (value env) ts) as -> by (induction IH; cbn [map]; f_equal; auto).
    cbn. destruct (l_to_var L o); [reflexivity|]. now rewrite rmapM_id.
  Qed.
  Lemma pvalue_paval : forall genv env t, paval (a_sem (A genv)) (fun v => Val (env v)) t = pvalue genv env t.
  Proof.
    intros genv env t. induction t as [[o|v] ts IH] using term_ind'; cbn [paval PartialSpec.pvalue]; [|reflexivity].
    assert (map (paval (a_sem (A genv)) (fun v => Val (env v))) ts = map (pvalue genv env) ts) as -> by (induction IH; cbn [map]; f_equal; auto).
    cbn. destruct (l_to_var L o); [reflexivity|]. now rewrite rmapM_id.
  Qed.
  Lemma fold_value : forall env t v, fold_term (with_vars (l_to_var L) env sem) t = Val v -> value env t = Val v.
  Proof.
    intros env t. induction t as [o ts IH] using term_ind'. intros v H. cbn [fold_term] in H. apply rbind_val in H as (vs & H1 & H2). cbn.
    unfold with_vars in H2. destruct (l_to_var L o); [exact H2|]. assert (rmapM (value env) ts = Val vs) as ->; [|exact H2].
    clear H2 v. apply rmapM_F2. apply rmapM_F2 in H1. induction H1 as [|t v ts vs E F IHl]; constructor; inversion IH; subst; auto.
  Qed.
  Lemma fold_pvalue : forall genv env t v, fold_term (pat_sem (l_to_var L) sem genv env) t = Val v -> pvalue genv env t = Val v.
  Proof.
    intros genv env t. induction t as [o ts IH] using term_ind'. intros v H. cbn [fold_term] in H. apply rbind_val in H as (vs & H1 & H2).
    destruct o as [o|x]; cbn in H2 |- *; [|exact H2]. unfold with_vars in H2. destruct (l_to_var L o); [exact H2|].
    assert (rmapM (pvalue genv env) ts = Val vs) as ->; [|exact H2].
    clear H2 v. apply rmapM_F2. apply rmapM_F2 in H1. induction H1 as [|t v ts vs E F IHl]; constructor; inversion IH; subst; auto.
  Qed.
  Lemma value_fold : forall ar env t v, (forall o, l_to_var L o <> None -> ar o = 0) -> wf_term ar t -> value env t = Val v -> fold_term (with_vars (l_to_var L) env sem) t = Val v.
  Proof.
    intros ar env t v Hl. revert v. induction t as [o ts IH] using term_ind'. intros v W H. inversion W as [? ? Lt Wt]; subst. cbn [fold_term PartialSpec.value] in *.
    destruct (l_to_var L o) as [x|] eqn:E.
    - assert (ts = []) as ->. { assert (ar o = 0) by (apply Hl; congruence). destruct ts; [reflexivity|cbn in Lt; lia]. } cbn. unfold with_vars. now rewrite E.
    - apply rbind_val in H as (vs & H1 & H2). assert (rmapM (fold_term (with_vars (l_to_var L) env sem)) ts = Val vs) as ->; [|cbn; unfold with_vars; now rewrite E].
      clear H2 v E. apply rmapM_F2. apply rmapM_F2 in H1. clear Lt W. induction H1 as [|t v ts vs E1 F IHl]; constructor; inversion IH; inversion Wt; subst; auto.
  Qed.

  (* ---- nodes with values ---- *)
  Lemma rec_defined_ok : forall env r, rec_defined L sem env r -> rec_ok (A env) r.
  Proof.
    intros env r (v & H) ts R. unfold fold_rec in H. apply rbind_val in H as (xs & H & _).
    pose proof (run_buf_tree _ r [] [] ts xs (Forall2_nil _) R H) as F. clear - F. induction F as [|t a ts xs E F IH]; constructor; [|exact IH].
    rewrite value_aval. exists a. now apply fold_value.
  Qed.
  Lemma pden_ok : forall genv env p v, pden (l_to_var L) sem genv env p = Val v -> pat_ok (A genv) (fun x => Val (env x)) p.
  Proof.
    intros genv env p v H ts R. unfold pden, fold_rec in H. apply rbind_val in H as (xs & H & _).
    pose proof (run_buf_tree _ p [] [] ts xs (Forall2_nil _) R H) as F. clear - F. induction F as [|t a ts xs E F IH]; constructor; [|exact IH].
    rewrite pvalue_paval. exists a. now apply fold_pvalue.
  Qed.
  Lemma pat_ok_ext : forall (B : algebra O C (res V)) s s' p, (forall v, s v = s' v) -> pat_ok B s p -> pat_ok B s' p.
  Proof.
    intros B s s' p E H ts R. specialize (H ts R). eapply Forall_impl; [|exact H]. cbn. intros t D. rewrite (paval_ext B s' s t); [exact D|]. intros v. now rewrite E.
  Qed.
  Lemma safe_rule_safe : forall genv r, safe_rule L sem r -> safe L (A genv) r.
  Proof.
    intros genv r (tl & tr & Tl & Tr & H). exists tl, tr. split; [exact Tl|]. split; [exact Tr|]. intros s D _ Sub.
    destruct (D EmptyString) as (d & _). set (env := fun v => match s v with Val x => x | Panic => d end).
    assert (E : forall v, s v = Val (env v)). { intros v. unfold env. destruct (D v) as (x & ->). reflexivity. }
    assert (Dl : exists v, pvalue genv env tl = Val v).
    { rewrite <- pvalue_paval. rewrite <- (paval_ext (A genv) s (fun v => Val (env v)) tl E). destruct tl as [[o|x] ts]; cbn [sub_ok] in Sub; [exact (proj1 Sub)|exact Sub]. }
    destruct Dl as (v & Ev). pose proof (H genv env v Ev) as P. split.
    - apply (pat_ok_ext (A genv) (fun v => Val (env v)) s); [intros; now rewrite E|]. exact (pden_ok genv env (rrhs r) v P).
    - rewrite !(paval_ext (A genv) s (fun v => Val (env v)) _ E), !pvalue_paval, Ev. symmetry. apply fold_pvalue. exact (fold_rec_tree _ _ _ _ Tr P).
  Qed.

  (* ---- rewriting ---- *)
  Lemma default_defined : forall (B : algebra O C (res V)) g, moves B eg_default g -> forall t c, repr g t c -> a_dom B (aval (a_sem B) t).
  Proof.
    intros B g (W & _ & Cr) t c R. destruct (Cr _ (sound_default B (fun _ => aval (a_sem B) t))) as (val & _ & S).
    rewrite (models_repr _ (a_sem B) val g (proj1 S) t c R). exact (sound_dom B val g W S c (repr_lt g t c R)).
  Qed.
  Lemma moves_value : forall env g, moves (A env) eg_default g -> forall t u c, repr g t c -> repr g u c -> exists v, value env t = Val v /\ value env u = Val v.
  Proof.
    intros env g M t u c Rt Ru. destruct (default_defined (A env) g M t c Rt) as (v & E). pose proof (default_moves (A env) g M t u c Rt Ru) as Q.
    rewrite !value_aval in *. exists v. split; [exact E|]. now rewrite <- Q.
  Qed.
  Hypothesis eqb_eq : forall a b, l_eqb L a b = true <-> a = b.
  Lemma made_of_moves : forall keep rs env g, steady L (A env) -> starts L (A env) -> Forall (fun e => safe_rule L sem (snd e)) rs -> made_of L keep (rec_defined L sem env) rs g -> moves (A env) eg_default g.
  Proof.
    intros keep rs env g St Si Sf M. induction M as [|fuel w ss es g Fw Pw Dw H|fuel g r g' i M IH Dr H|fuel st g g' M IH Fr H].
    - apply moves_refl. apply wf_default.
    - apply (SafeProofs.to_egraph_moves L eqb_eq keep fuel (A env) St Si w g); [|exact H]. intros ss' es' Fw' Pw'. rewrite Fw in Fw'. injection Fw' as <-. rewrite Pw in Pw'. injection Pw' as <-.
      eapply Forall_impl; [|exact Dw]. intros r. apply rec_defined_ok.
    - apply (moves_trans (A env) _ _ _ IH). exact (SafeProofs.s_add_expr_moves L eqb_eq keep fuel (A env) St g r g' i (proj1 IH) (rec_defined_ok env r Dr) H).
    - apply (moves_trans (A env) _ _ _ IH).
      exact (proj1 (SafeProofs.scheduled_moves L eqb_eq keep fuel (A env) St (safe_rule L sem) (safe_rule_safe env) st rs g g' Fr Sf (proj1 IH) H)).
  Qed.
  Theorem rewriting_safe : forall ok : (string -> V) -> Prop, (forall env, ok env -> steady L (A env) /\ starts L (A env)) -> rewrites_safely L sem ok.
  Proof.
    intros ok Hs keep rs g env Ok Sf M. destruct (Hs env Ok) as [St Si]. exact (moves_value env g (made_of_moves keep rs env g St Si Sf M)).
  Qed.

  (* ---- deriving ---- *)
  Hypothesis var_ok : forall v, l_to_var L (l_mk_var L v) = Some v.
  Lemma inst_pvalue : forall genv env t, closed L t -> value env (inst L t) = pvalue genv env t.
  Proof.
    intros genv env t Cl. rewrite <- value_aval, <- pvalue_paval. unfold at_env. rewrite (inst_val L (res V) (lifted sem says) (fun x => Val (env x)) var_ok t Cl).
    induction t as [[o|v] ts IH] using term_ind'; cbn [paval]; [|reflexivity]. destruct Cl as [No Cl]. cbn. rewrite No.
    apply (f_equal (fun x => let* xs := rmapM (fun v => v) x in sem o xs)). revert Cl. induction IH as [|t ts H F IH2]; cbn; intros Cl; [reflexivity|]. destruct Cl as [C1 C2]. f_equal; auto.
  Qed.
  Lemma inst_den : forall genv env p, general L p -> fold_rec (with_vars (l_to_var L) env sem) (instantiate (l_mk_var L) p) = pden (l_to_var L) sem genv env p.
  Proof.
    intros genv env p G. unfold pden, fold_rec. f_equal. generalize (@nil V) as buf. induction p as [|n p IH]; intros buf; [reflexivity|]. cbn [instantiate map run_buf nop nch].
    destruct (rmapM (index buf) (nch n)) as [args|]; [|reflexivity]. cbn [rbind].
    assert (with_vars (l_to_var L) env sem (instantiate_op (l_mk_var L) (nop n)) args = pat_sem (l_to_var L) sem genv env (nop n) args) as ->.
    { destruct (nop n) as [o|v] eqn:E; cbn; unfold with_vars; [|now rewrite var_ok]. now rewrite (G n o (or_introl eq_refl) E). }
    destruct (pat_sem _ _ _ _ _ _); [|reflexivity]. cbn [rbind]. apply IH. intros m o I. apply G. now right.
  Qed.
  Lemma derive_start_moves : forall keep fuel lo r g env, steady L (A env) -> rec_defined L sem env (instantiate (l_mk_var L) (rlhs r)) ->
    (lo = false -> rec_defined L sem env (instantiate (l_mk_var L) (rrhs r))) -> derive_start L keep fuel lo r = Val g -> moves (A env) eg_default g.
  Proof.
    intros keep fuel lo r g env St Dl Dr H. unfold derive_start in H.
    destruct (s_add_expr L keep fuel eg_default _) as [[g1 i]|] eqn:A1; [|discriminate H]. cbn in H.
    pose proof (SafeProofs.s_add_expr_moves L eqb_eq keep fuel (A env) St _ _ _ _ wf_default (rec_defined_ok env _ Dl) A1) as M1.
    destruct lo; [now inversion H; subst|].
    destruct (s_add_expr L keep fuel g1 _) as [[g2 j]|] eqn:A2; [|discriminate H]. cbn in H. inversion H; subst.
    exact (moves_trans (A env) _ _ _ M1 (SafeProofs.s_add_expr_moves L eqb_eq keep fuel (A env) St _ _ _ _ (proj1 M1) (rec_defined_ok env _ (Dr eq_refl)) A2)).
  Qed.
  Lemma safe_readable : forall rs, Forall (fun e => safe_rule L sem (snd e)) rs -> all_hold L unit_alg rs.
  Proof. intros rs. apply Forall_impl. intros e (tl & tr & Tl & Tr & _). apply unit_holds. exists tl, tr. auto. Qed.
  Theorem deriving_safe : (forall env, steady L (A env)) -> derives_safely L sem.
  Proof.
    intros Hs keep fuel lo iter rs r Sf (g & out & Hg & Hr & Ha).
    assert (Mo : made L keep rs out). { apply (M_run L keep rs fuel (Saturating iter) g out); [exact (derive_start_made L keep _ _ _ _ _ Hg)|exact I|exact Hr]. }
    pose proof (proj1 (made_moves L eqb_eq keep unit unit_alg (unit_interprets L) rs (safe_readable rs Sf) out Mo)) as W.
    unfold derive_answer in Ha.
    destruct (lookup_expr (l_eqb L) out (instantiate (l_mk_var L) (rlhs r))) as [[l|]|] eqn:El; try discriminate Ha. cbn in Ha.
    destruct (lookup_expr (l_eqb L) out (instantiate (l_mk_var L) (rrhs r))) as [[i|]|] eqn:Er; try discriminate Ha. cbn in Ha.
    inversion Ha as [Hi]. apply Nat.eqb_eq in Hi. subst i.
    destruct (lookup_expr_repr L eqb_eq _ _ _ W El) as (t1 & T1 & R1). destruct (lookup_expr_repr L eqb_eq _ _ _ W Er) as (t2 & T2 & R2).
    rewrite tree_inst in T1, T2. destruct (tree (rlhs r)) as [tl|] eqn:Tl; [|discriminate T1]. destruct (tree (rrhs r)) as [tr|] eqn:Tr; [|discriminate T2].
    inversion T1; inversion T2; subst t1 t2. exists tl, tr. split; [reflexivity|]. split; [reflexivity|].
    intros Gl Gr genv env v Dl Dr. rewrite <- (inst_pvalue genv env tr (general_closed L _ _ Gr Tr)).
    assert (M0 : moves (A env) eg_default g).
    { apply (derive_start_moves keep fuel lo r g env (Hs env)); [|intros E|exact Hg].
      - exists v. rewrite (inst_den genv env _ Gl). exact Dl.
      - destruct (Dr E) as (x & Dx). exists x. rewrite (inst_den genv env _ Gr). exact Dx. }
    pose proof (proj1 (SafeProofs.scheduled_moves L eqb_eq keep fuel (A env) (Hs env) (safe_rule L sem) (safe_rule_safe env) (Saturating iter) rs g out I Sf (proj1 M0) Hr)) as M1.
    destruct (moves_value env out (moves_trans (A env) _ _ _ M0 M1) _ _ l R1 R2) as (x & E1 & E2). rewrite E2. rewrite (inst_pvalue genv env tl (general_closed L _ _ Gl Tl)) in E1.
    pose proof (fold_pvalue genv env tl v (fold_rec_tree _ _ _ _ Tl Dl)) as E3. congruence.
  Qed.

  (* ---- fast-forwarding ---- *)
  Variable ar : O -> nat.
  Variable P : O -> Prop.
  Variable K : C -> Prop.
  Hypothesis Rd : SaveDomains.readable L ar P K.
  Variable ok : (string -> V) -> Prop.
  Hypothesis Hs : forall env, ok env -> steady L (A env) /\ starts L (A env).
  Local Notation leaf := (re_leaf _ _ _ _ Rd).
  Lemma read_terms_wf : forall w ss ts, force w = Val ss -> Forall2 (reads L) ss ts -> Forall (wf_term ar) ts.
  Proof.
    intros w ss ts Fw Fr. pose proof (read_workload L ar P (read_over L ar P K Rd) w ss ts Fw Fr) as F. eapply Forall_impl; [|exact F].
    induction a as [o us IH] using term_ind'. intros H. inversion H as [? ? Q Fs]; subst. constructor; [exact (proj1 Q)|]. rewrite Forall_forall in *. auto.
  Qed.
  Lemma phases_moves : forall keep fuel expl w prior g0 g1 g2 g3, phases L keep fuel expl w prior g0 g1 g2 g3 ->
    Forall (fun e => safe_rule L sem (snd e)) prior -> Forall (fun e => safe_rule L sem (snd e)) expl ->
    forall env, ok env -> workload_defined L sem w env -> moves (A env) eg_default g3.
  Proof.
    intros keep fuel expl w prior g0 g1 g2 g3 (al & ot & E & Pt & (o1 & Po1 & C1) & S2 & (o3 & Po3 & C3)) Sp Se env Ok Wd. destruct (Hs env Ok) as [St Si].
    assert (M0 : moves (A env) eg_default g0).
    { apply (SafeProofs.to_egraph_moves L eqb_eq keep fuel (A env) St Si w g0); [|exact E]. intros ss es Fw Pw.
      assert (X : exists ts, Forall2 (reads L) ss ts /\ es = map to_rec ts).
      { apply rmapM_F2 in Pw. clear - Pw. induction Pw as [|s r ss es H F IH]; [exists []; auto|]. destruct IH as (ts & F' & ->).
        destruct (parse_rec (l_from_op L) (Sexp.display s)) as [r'|] eqn:Ep; [|discriminate H]. injection H as ->.
        assert (exists t, r = to_rec t) as (t & ->). { unfold parse_rec in Ep. destruct (Reader.parse_str (Sexp.display s)); [|discriminate Ep]. destruct (term_of_sexp (l_from_op L) s0); [|discriminate Ep]. injection Ep as <-. eauto. }
        exists (t :: ts). split; [constructor; auto|reflexivity]. }
      destruct X as (ts & Fr & ->). pose proof (Wd ss ts Fw Fr) as Fd. pose proof (read_terms_wf w ss ts Fw Fr) as Fwf.
      apply Forall_map. rewrite Forall_forall in *. intros t It. apply rec_defined_ok. destruct (Fd t It) as (v & Ev). exists v. rewrite fold_to_rec. exact (value_fold ar env t v leaf (Fwf t It) Ev). }
    pose proof (SafeProofs.scheduled_moves L eqb_eq keep fuel (A env) St (safe_rule L sem) (safe_rule_safe env)) as Sc.
    assert (Sa : Forall (fun e => safe_rule L sem (snd e)) al).
    { apply Forall_forall. intros e J. destruct (partition_allowed L _ _ _ Pt e J) as [(k & I) _]. rewrite Forall_forall in Sp. exact (Sp _ I). }
    pose proof (proj1 (Sc (Compress o1) al g0 g1 Po1 Sa (proj1 M0) C1)) as M1. pose proof (proj1 (Sc Simple expl g1 g2 I Se (proj1 M1) S2)) as M2.
    assert (Sx : Forall (fun e => safe_rule L sem (snd e)) (extend prior expl)).
    { apply Forall_forall. intros e J. rewrite Forall_forall in Sp, Se. apply extend_in' in J as [J|J]; auto. }
    pose proof (proj1 (Sc (Compress o3) _ g2 g3 Po3 Sx (proj1 M2) C3)) as M3.
    exact (moves_trans (A env) _ _ _ M0 (moves_trans (A env) _ _ _ M1 (moves_trans (A env) _ _ _ M2 M3))).
  Qed.
  Definition joined (w : workload) (t1 t2 : term O) : Prop :=
    all_allowed (l_allowed L) t1 = true /\ all_allowed (l_allowed L) t2 = true /\
    forall env, ok env -> workload_defined L sem w env -> exists v, value env t1 = Val v /\ value env t2 = Val v.
  Lemma joined_sym : forall w a b, joined w a b -> joined w b a.
  Proof. intros w a b (A1 & A2 & H). split; [exact A2|]. split; [exact A1|]. intros env Ok Wd. destruct (H env Ok Wd) as (v & E1 & E2). exists v. auto. Qed.
  Theorem forwarding_safe : forwards_safely L sem ok.
  Proof.
    intros keep fuel expl w prior new N Hp He Sp Se Rn k r J. destruct (forwarding_phases L keep fuel expl w prior new Rn) as (g0 & g1 & g2 & g3 & c1 & c2 & Ph & X1 & X2 & (order & invalid & _ & M)).
    destruct (phase_structure L ar eqb_eq keep P K Rd fuel expl w prior g0 g1 g2 g3 Ph Hp He) as (W1 & W2 & _ & _ & E01 & E12 & E23 & F1 & F2).
    assert (Go : forall (g g' : eg O C) c, ext g g' -> ext g' g3 -> wf g -> (forall e, Forall (from_g g) e -> wf_rec ar e) -> extracted L fuel g g' c -> Forall (fun e => from_terms L ar (joined w) (snd e)) c).
    { intros g g' c Eg Eg3 W F X. refine (extracted_from L ar eqb_eq var_ok leaf (joined w) fuel g g' c (joined_sym w) W (proj1 Eg) F _ X).
      intros t1 t2 i j E R1 R2 A1 A2 _ _. split; [exact A1|]. split; [exact A2|]. intros env Ok Wd.
      apply (repr_ext g g' Eg) in R1, R2. pose proof (repr_eqv g' t1 i j R1 E) as R1'. clear R1. apply (repr_ext g' g3 Eg3) in R1', R2.
      exact (moves_value env g3 (phases_moves keep fuel expl w prior g0 g1 g2 g3 Ph Sp Se env Ok Wd) t1 t2 j R1' R2). }
    pose proof (Go g1 g2 c1 E12 E23 W1 F1 X1) as G1. pose proof (Go g2 g3 c2 E23 (ext_refl g3) W2 F2 X2) as G2.
    assert (G : Forall (fun e => from_terms L ar (joined w) (snd e)) (extend c1 c2)).
    { apply Forall_forall. intros e I. rewrite Forall_forall in G1, G2. apply extend_in' in I as [I|I]; auto. }
    pose proof (minimize_origin L keep fuel _ (fun a b H => from_terms_reverse L ar (joined w) a b (joined_sym w) H) _ _ _ _ _ N M G) as Gn. rewrite Forall_forall in Gn.
    destruct (Gn _ J) as (_ & _ & _ & t1 & t2 & (A1 & A2 & H) & Ge). exists t1, t2. auto.
  Qed.
End Partial.
