(* Runs of inference over booleans, bitvectors, binary positives and solids can be
   finished. *)
From Coq Require Import NArith ZArith QArith Qcanon.
From Verif Require Import SolidProofs Base BaseProofs Sexp Lang LangProofs Util TextProofs BV BVSpec BVProofs BoolDom BoolProofs PosDom Solid SolidProofs DomainSpec
  Syntax SyntaxProofs Rule RuleSpec Ruleset Workload Analysis AnalysisProofs Generalize GeneralizeProofs Egraph EgraphSpec Synth Apply Sched SynthSpec DeriveProofs Domains DomainAlg DomainSound
  TotalSpec TotalDomains CalmDomains InferProofs SettleProofs MatchSpec MatchProofs Minimize Infer LearnSpec LearnProofs SampledDomains LearnDomains TextSpec OpsSpec OpsDomains SaveProofs SaveDomains LearntSpec LearntProofs LiveSpec LiveQuiet LiveDomains FinishSpec FinishProofs FinishRun.
Open Scope list_scope.
Open Scope nat_scope.

(* an encoder that answers for the right number of children answers for patterns *)
Lemma fold_typed {O A} (ar : O -> nat) (f : O -> list A -> res A) (d : A) r t : (forall o l, length l = ar o -> exists a, f o l = Val a) ->
  wf_rec ar r -> tree r = Val t -> exists a, fold_rec f r = Val a.
Proof.
  intros Hf W T. set (f' := fun o l => if Nat.eqb (length l) (ar o) then f o l else Val d).
  destruct (fold_rec_of_tree f' r t) as (a & E & _); [|exact T|].
  - intros o l. unfold f'. destruct (Nat.eqb_spec (length l) (ar o)) as [H|H]; [exact (Hf o l H)|eauto].
  - exists a. rewrite <- E. unfold fold_rec. f_equal. clear - W. generalize (@nil A) as buf. induction W as [|n r Hn W IH]; intros buf; cbn [run_buf]; [reflexivity|].
    destruct (rmapM (index buf) (nch n)) as [xs|] eqn:Ex; [|reflexivity]. cbn [rbind]. apply rmapM_val in Ex. apply Forall2_length in Ex.
    unfold f' at 1. rewrite <- Ex, Hn, Nat.eqb_refl. destruct (f (nop n) xs); [|reflexivity]. cbn [rbind]. apply IH.
Qed.
Lemma inst_typed {O C} (L : lang O C) ar A p : (forall s, ar (l_mk_var L s) = 0) -> OpsSpec.pat_uses L (OpsSpec.over L ar A) p -> leaf_vars p -> wf_rec ar (instantiate (l_mk_var L) p).
Proof.
  intros Hv U V. unfold wf_rec, instantiate. apply Forall_map. unfold OpsSpec.pat_uses, leaf_vars in *. rewrite Forall_forall in *. intros n I. specialize (U n I). specialize (V n I). cbn in *.
  destruct n as [[o|v] ch]; cbn in *; [exact (proj1 (proj2 U))|]. subst ch. now rewrite Hv.
Qed.
(* both extractions of fast-forwarding propose what the samples do not tell apart *)
Lemma forwarded_learned {O C} (L : lang O C) ar (Sp : sampled L ar) (Rg : regular L ar) keep fuel expl w prior c1 c2 : plain_rules L ar prior -> plain_rules L ar expl ->
  forwarded L keep fuel expl w prior c1 c2 ->
  exists ts n vs, samples_of L w ts n vs /\ Forall (fun e => from_terms L ar (untold L ar (wvars L ts) n vs) (snd e)) (extend c1 c2).
Proof.
  intros Hp He (g1 & g2 & g3 & (g0 & allowed & other & E & Pt & C1 & S2) & X1 & C3 & X2).
  apply compressed_run in C1 as (st1 & C1). apply compressed_run in C3 as (st3 & C3).
  pose proof (Gr_start L (plain_rhs L ar) keep w fuel g0 E) as G0.
  assert (Ha : plain_rules L ar allowed).
  { destruct (RulesetProofs.partition_sub _ _ _ _ Pt) as [Sub _]. apply Forall_forall. intros e J. unfold plain_rules in Hp. rewrite Forall_forall in Hp. apply Sub in J. apply in_map_iff in J as (x & <- & Ix). exact (Hp x Ix). }
  assert (Gn : forall g, ran L (plain_rhs L ar) keep w g -> grown L (plain_rhs L ar) keep w g) by (intros g; apply ran_grown).
  assert (R1 : ran L (plain_rhs L ar) keep w g1) by (exists fuel, st1, allowed, g0; auto).
  assert (R2 : ran L (plain_rhs L ar) keep w g2) by (exists fuel, Simple, expl, g1; auto).
  assert (Pe : plain_rules L ar (extend prior expl)) by (apply plain_extend; assumption).
  assert (R3 : ran L (plain_rhs L ar) keep w g3) by (exists fuel, st3, (extend prior expl), g2; auto).
  destruct (ran_samples L ar Sp keep w g0 G0) as (ts & n & vs & S). exists ts, n, vs. split; [exact S|].
  pose proof (run_ext L ar Sp keep w fuel Simple expl g1 g2 (Gn _ R1) He S2) as E12.
  pose proof (run_ext L ar Sp keep w fuel st3 (extend prior expl) g2 g3 (Gn _ R2) Pe C3) as E23.
  pose proof (extracted_learned L ar Sp Rg keep w g2 ts n vs R2 S fuel g1 c1 R1 E12 X1) as F1. pose proof (extracted_learned L ar Sp Rg keep w g3 ts n vs R3 S fuel g2 c2 R2 E23 X2) as F2.
  apply Forall_forall. intros e J. rewrite Forall_forall in F1, F2. apply InferProofs.extend_in' in J as [J|J]; auto.
Qed.

(* ---- booleans ---- *)
Definition bool_fit (r : rule bool_op) : Prop := rewrite_rule bool_lang r /\ LearntSpec.true_rule bool_lang BVar (fun _ => True) bool_den r.
Lemma tautology_reverse : forall r r', tautology r -> reverse bool_name r = Val (Some r') -> tautology r'.
Proof.
  intros r r' (tl & tr & T1 & T2 & D) E. unfold reverse, rule_new in E. destruct (rule_name bool_name (rrhs r) (rlhs r)) as [s|]; [|discriminate E]. cbn in E.
  destruct (rewrite_ok _ _); [|discriminate E]. injection E as <-. exists tr, tl. split; [exact T2|]. split; [exact T1|]. intros env. destruct (D env) as (v & H1 & H2). eauto.
Qed.
Lemma total_start {O C} (L : lang O C) keep w : steady L keep -> (exists g, to_egraph L keep 2 w = Val g) -> exists g, forall f, 2 <= f -> to_egraph L keep f w = Val g.
Proof. intros St (g & E). exists g. intros f Hf. exact (St 2 f w g (le_n 2) Hf E). Qed.
Theorem bool_finishes : forall keep w ss ts prior fast, force w = Val ss -> Forall2 (reads bool_lang) ss ts -> mentions_var bool_to_var ts -> length (wvars bool_lang ts) <= 26 ->
  Forall (fun e => bool_fit (snd e)) prior -> all_finish bool_lang keep bool_fit w prior fast.
Proof.
  intros keep w ss ts prior fast Fo Fr Mv Lt Fp. destruct bool_readable as (K & Re).
  assert (Tx : forall o, bool_to_var o = None -> eov_ok (l_from_op bool_lang) (l_name bool_lang) bool_arity (EN o)) by (intros o Ho; apply bool_reads; destruct o; [exact I..|discriminate Ho]).
  assert (Cp : forall c, Forall (fun n => l_to_var bool_lang (nop n) = None) (l_const bool_lang c)) by (intros c; repeat constructor).
  assert (Ip : forall vars n vs, l_init bool_lang vars = Val (n, vs) -> forall v c ls, In (v, c, ls) vs -> Forall (Forall (fun m => forall x, l_to_var bool_lang (nop m) = Some x -> x = v)) ls) by (intros vars n vs E v c ls J; rewrite (proj2 (proj2 (sp_init _ _ bool_sampled vars n vs E) v c ls J)); constructor).
  assert (Fg : forall r, bool_fit r -> general bool_lang (rrhs r)) by (intros r (_ & _ & H & _); exact H).
  assert (Xc : forall fuel fast c cands, ran bool_lang (plain_rhs bool_lang bool_arity) keep w c -> proposed bool_lang fuel fast c cands -> Forall (fun e => tautology (snd e)) cands).
  { intros fuel fs c cands Rn Pr. destruct Rn as (f & st & rs & g & G & Fk & S). destruct (ran_samples bool_lang bool_arity bool_sampled keep w g G) as (ts' & n & vs & Sa).
    pose proof (proposed_learned bool_lang bool_arity bool_sampled bool_reg keep w c ts' n vs (ex_intro _ f (ex_intro _ st (ex_intro _ rs (ex_intro _ g (conj G (conj Fk S)))))) Sa fuel fs cands Pr) as F.
    eapply Forall_impl; [|exact F]. intros e He. exact (bool_learned_true w ts' n vs (snd e) Sa He). }
  assert (Xw : forall fuel ex prior c1 c2, plain_rules bool_lang bool_arity ex -> plain_rules bool_lang bool_arity prior -> forwarded bool_lang keep fuel ex w prior c1 c2 -> Forall (fun e => tautology (snd e)) (extend c1 c2)).
  { intros fuel ex pr c1 c2 He Hp Fw. destruct (forwarded_learned bool_lang bool_arity bool_sampled bool_reg keep fuel ex w pr c1 c2 Hp He Fw) as (ts' & n & vs & Sa & F).
    eapply Forall_impl; [|exact F]. intros e H. exact (bool_learned_true w ts' n vs (snd e) Sa H). }
  assert (Xf : forall r, cgood bool_lang bool_arity (fun o => bool_to_var o = None) r -> tautology r -> l_validate bool_lang (rlhs r) (rrhs r) = Val Valid -> bool_fit r).
  { intros r Cg Ta _. split; [exact (cgood_rewrite bool_lang bool_arity _ Tx r Cg)|]. destruct (cgood_general bool_lang bool_arity _ r Cg) as [G1 G2]. split; [exact G1|]. split; [exact G2|]. apply bool_identity. exact Ta. }
  assert (Lp : forall rs, Forall (fun e => bool_fit (snd e)) rs -> forall part g, incl part rs -> reached bool_lang keep rs g -> goes_on bool_lang keep part g) by (intros rs F; exact (proj1 (bool_live keep rs F))).
  assert (St : exists g, forall f, 2 <= f -> to_egraph bool_lang keep f w = Val g).
  { apply total_start; [exact (proj2 (proj2 (bool_live keep [] (Forall_nil _))))|]. apply (bool_total keep 0 w ss ts Fo Fr). now apply mentions_tvars. }
  split; [|split; [|split]].
  - exact (run_finishes bool_lang bool_arity _ K Re bool_reg Tx Cp (fun _ _ => eq_refl) Ip keep bool_fit (fun r => @proj1 _ _) Fg Lp (fun r _ => ex_intro _ _ eq_refl) w ss ts Fo Fr Lt St tautology tautology_reverse Xc Xf prior fast Fp).
  - intros ex Fe. exact (forward_finishes bool_lang bool_arity _ K Re bool_reg Tx Cp (fun _ _ => eq_refl) Ip keep bool_fit (fun r => @proj1 _ _) Fg Lp (fun r _ => ex_intro _ _ eq_refl) w ss ts Fo Fr Lt St tautology tautology_reverse Xw Xf ex prior Fe Fp).
  - intros fuel ae new Nd Rw. exact (run_again bool_lang bool_arity _ K Re Cp (fun _ _ => eq_refl) Ip keep bool_fit (fun r => @proj1 _ _) Fg w ss ts Fo Fr tautology tautology_reverse Xc Xf fuel prior fast ae new Nd Fp Rw).
  - intros fuel ex new Nd Fe Rw. exact (forward_again bool_lang bool_arity _ K Re Cp (fun _ _ => eq_refl) Ip keep bool_fit (fun r => @proj1 _ _) Fg w ss ts Fo Fr tautology tautology_reverse Xw Xf ex prior Fe Fp fuel new Nd Rw).
Qed.

(* ---- bitvectors ---- *)
Definition bv_fit w check (r : rule bv_op) : Prop := rewrite_rule (bv_lang w check) r /\ LearntSpec.true_rule (bv_lang w check) VVar (inr w) (bv_den w) r.
Section BVs.
  Variable w : N.
  Variable check : zbv -> zbv -> sat_result.
  Hypothesis W : (1 <= w <= 64)%N.
  Hypothesis Un : unsat_right w check.
  Local Notation L := (bv_lang w check).
  Lemma bv_w : (w <= 128)%N. Proof. lia. Qed.
  Lemma bv_cgood_valid : forall r, cgood L bv_arity (bv_plain w) r -> l_validate L (rlhs r) (rrhs r) = Val Valid -> bv_fit w check r.
  Proof.
    intros r Cg V. split; [exact (cgood_rewrite L bv_arity _ (fun o => bv_reads w o bv_w) r Cg)|]. destruct (cgood_general L bv_arity _ r Cg) as [G1 G2]. split; [exact G1|]. split; [exact G2|].
    assert (G : forall n c, In n (rlhs r ++ rrhs r) -> nop n = EN (VLit c) -> inr w c /\ inr 64 c).
    { intros n c I E. destruct (uses_in _ _ _ _ _ _ _ (proj1 Cg) I E) as [_ [_ [X|X]]]; [elim X; reflexivity|]. cbn in X. split; [exact X|]. unfold inr in *. pose proof (N.pow_le_mono_r 2 w 64 ltac:(lia) ltac:(lia)). lia. }
    destruct (bv_validate_sound w check (rlhs r) (rrhs r) bv_w Un) as (tl & tr & T1 & T2 & _ & _ & D); [intros n c I E; apply (G n c); [apply in_app_iff; auto|exact E]|intros n c I E; apply (G n c); [apply in_app_iff; auto|exact E]|exact V|].
    exists tl, tr. auto.
  Qed.
  Lemma bv_validates : forall r, cgood L bv_arity (bv_plain w) r -> exists v, l_validate L (rlhs r) (rrhs r) = Val v.
  Proof.
    intros r ((U1 & U2) & (_ & tl & tr & (T1 & _) & (T2 & _) & _) & (V1 & V2 & _)). cbn [l_validate bv_lang]. unfold bv_validate, validate_neq.
    assert (Hf : forall o (l : list zbv), length l = bv_arity o -> exists a, bv_to_z3 o l = Val a) by (intros o l H; destruct o; cbn in H; args l H; eexists; reflexivity).
    destruct (fold_typed bv_arity bv_to_z3 (ZNum 0) (instantiate VVar (rlhs r)) (inst L tl) Hf) as (a & ->); [exact (inst_typed L bv_arity (bv_plain w) _ (fun _ => eq_refl) U1 V1)|pose proof (tree_inst L (rlhs r)) as X; rewrite T1 in X; exact X|].
    destruct (fold_typed bv_arity bv_to_z3 (ZNum 0) (instantiate VVar (rrhs r)) (inst L tr) Hf) as (b & ->); [exact (inst_typed L bv_arity (bv_plain w) _ (fun _ => eq_refl) U2 V2)|pose proof (tree_inst L (rrhs r)) as X; rewrite T2 in X; exact X|].
    cbn. eauto.
  Qed.
  Variable keep : eg bv_op N -> nat -> nat -> bool.
  Theorem bv_finishes : forall wl ss ts prior fast, force wl = Val ss -> Forall2 (reads L) ss ts -> mentions_var bv_to_var ts -> length (wvars L ts) <= 26 ->
    Forall (fun e => bv_fit w check (snd e)) prior -> all_finish L keep (bv_fit w check) wl prior fast.
  Proof.
    intros wl ss ts prior fast Fo Fr Mv Lt Fp. destruct (bv_readable w check bv_w) as (K & Re).
    assert (W' : (1 <= w <= 128)%N) by lia.
    assert (Cp : forall c, Forall (fun n => l_to_var L (nop n) = None) (l_const L c)) by (intros c; repeat constructor).
    assert (Ip : forall vars n vs, l_init L vars = Val (n, vs) -> forall v c ls, In (v, c, ls) vs -> Forall (Forall (fun m => forall x, l_to_var L (nop m) = Some x -> x = v)) ls) by (intros vars n vs E v c ls J; rewrite (proj2 (proj2 (sp_init _ _ (bv_sampled w check) vars n vs E) v c ls J)); constructor).
    assert (Fg : forall r, bv_fit w check r -> general L (rrhs r)) by (intros r (_ & _ & H & _); exact H).
    assert (Lp : forall rs, Forall (fun e => bv_fit w check (snd e)) rs -> forall part g, incl part rs -> reached L keep rs g -> goes_on L keep part g) by (intros rs F; exact (proj1 (bv_live w check keep rs W' F))).
    assert (St : exists g, forall f, 2 <= f -> to_egraph L keep f wl = Val g).
    { apply total_start; [exact (proj2 (proj2 (bv_live w check keep [] W' (Forall_nil _))))|]. apply (bv_total keep w check 0 wl ss ts Fo Fr). now apply mentions_tvars. }
    assert (Tx : forall o, bv_plain w o -> eov_ok (l_from_op L) (l_name L) bv_arity (EN o)) by (intros o; exact (bv_reads w o bv_w)).
    split; [|split; [|split]].
    - exact (run_finishes L bv_arity _ K Re (bv_reg w check) Tx Cp (fun _ _ => eq_refl) Ip keep (bv_fit w check) (fun r => @proj1 _ _) Fg Lp bv_validates wl ss ts Fo Fr Lt St (fun _ => True) (fun _ _ _ _ => I)
        (fun _ _ _ cands _ _ => proj2 (Forall_forall _ cands) (fun _ _ => I)) (fun r H _ => bv_cgood_valid r H) prior fast Fp).
    - intros ex Fe. exact (forward_finishes L bv_arity _ K Re (bv_reg w check) Tx Cp (fun _ _ => eq_refl) Ip keep (bv_fit w check) (fun r => @proj1 _ _) Fg Lp bv_validates wl ss ts Fo Fr Lt St (fun _ => True) (fun _ _ _ _ => I) (fun _ _ _ c1 c2 _ _ _ => proj2 (Forall_forall _ (extend c1 c2)) (fun _ _ => I)) (fun r H _ => bv_cgood_valid r H) ex prior Fe Fp).
    - intros fuel ae new Nd Rw. exact (run_again L bv_arity _ K Re Cp (fun _ _ => eq_refl) Ip keep (bv_fit w check) (fun r => @proj1 _ _) Fg wl ss ts Fo Fr (fun _ => True) (fun _ _ _ _ => I)
        (fun _ _ _ cands _ _ => proj2 (Forall_forall _ cands) (fun _ _ => I)) (fun r H _ => bv_cgood_valid r H) fuel prior fast ae new Nd Fp Rw).
    - intros fuel ex new Nd Fe Rw. exact (forward_again L bv_arity _ K Re Cp (fun _ _ => eq_refl) Ip keep (bv_fit w check) (fun r => @proj1 _ _) Fg wl ss ts Fo Fr (fun _ => True) (fun _ _ _ _ => I) (fun _ _ _ c1 c2 _ _ _ => proj2 (Forall_forall _ (extend c1 c2)) (fun _ _ => I)) (fun r H _ => bv_cgood_valid r H) ex prior Fe Fp fuel new Nd Rw).
  Qed.
End BVs.

(* ---- domains whose test validates every rule ---- *)
Definition open_fit {O C} (L : lang O C) (r : rule O) : Prop := rewrite_rule L r /\ general L (rrhs r).
Section Open.
  Context {O C : Type}.
  Variable L : lang O C.
  Variable ar : O -> nat.
  Variable P : O -> Prop.
  Variable K : C -> Prop.
  Hypothesis Re : SaveDomains.readable L ar P K.
  Hypothesis Rg : regular L ar.
  Hypothesis Tx : forall o, P o -> RuleSpec.eov_ok (l_from_op L) (l_name L) ar (EN o).
  Hypothesis const_plain : forall c, Forall (fun n => l_to_var L (nop n) = None) (l_const L c).
  Hypothesis custom_none : forall g i, l_custom L g i = Val [].
  Hypothesis init_own : forall vars n vs, l_init L vars = Val (n, vs) -> forall v c ls, In (v, c, ls) vs -> Forall (Forall (fun m => forall x, l_to_var L (nop m) = Some x -> x = v)) ls.
  Hypothesis all_valid : forall l r, l_validate L l r = Val Valid.
  Variable keep : eg O C -> nat -> nat -> bool.
  Hypothesis live : forall rs, Forall (fun e => rewrite_rule L (snd e)) rs -> forall part g, incl part rs -> reached L keep rs g -> goes_on L keep part g.
  Variable w : workload.
  Variable ss : list sexp.
  Variable ts : list (term O).
  Hypothesis Fo : force w = Val ss.
  Hypothesis Fr : Forall2 (reads L) ss ts.
  Hypothesis Lt : length (wvars L ts) <= 26.
  Hypothesis St : exists g, forall f, 2 <= f -> to_egraph L keep f w = Val g.
  Variable prior : ruleset O.
  Hypothesis Fp : Forall (fun e => open_fit L (snd e)) prior.
  Lemma open_live : forall rs, Forall (fun e => open_fit L (snd e)) rs -> forall part g, incl part rs -> reached L keep rs g -> goes_on L keep part g.
  Proof. intros rs F. apply live. eapply Forall_impl; [|exact F]. intros e H. exact (proj1 H). Qed.
  Lemma open_valid : forall r, cgood L ar P r -> l_validate L (rlhs r) (rrhs r) = Val Valid -> open_fit L r.
  Proof. intros r Cg _. split; [exact (cgood_rewrite L ar P Tx r Cg)|exact (proj2 (cgood_general L ar P r Cg))]. Qed.
  Theorem open_finishes : forall fast, all_finish L keep (open_fit L) w prior fast.
  Proof.
    intros fast. assert (Fg : forall r, open_fit L r -> general L (rrhs r)) by (intros r H; exact (proj2 H)). split; [|split; [|split]].
    - exact (run_finishes L ar P K Re Rg Tx const_plain custom_none init_own keep (open_fit L) (fun r => @proj1 _ _) Fg open_live (fun r _ => ex_intro _ _ (all_valid _ _)) w ss ts Fo Fr Lt St (fun _ => True) (fun _ _ _ _ => I)
        (fun _ _ _ cands _ _ => proj2 (Forall_forall _ cands) (fun _ _ => I)) (fun r H _ => open_valid r H) prior fast Fp).
    - intros ex Fe. exact (forward_finishes L ar P K Re Rg Tx const_plain custom_none init_own keep (open_fit L) (fun r => @proj1 _ _) Fg open_live (fun r _ => ex_intro _ _ (all_valid _ _)) w ss ts Fo Fr Lt St (fun _ => True) (fun _ _ _ _ => I) (fun _ _ _ c1 c2 _ _ _ => proj2 (Forall_forall _ (extend c1 c2)) (fun _ _ => I)) (fun r H _ => open_valid r H) ex prior Fe Fp).
    - intros fuel ae new Nd Rw. exact (run_again L ar P K Re const_plain custom_none init_own keep (open_fit L) (fun r => @proj1 _ _) Fg w ss ts Fo Fr (fun _ => True) (fun _ _ _ _ => I)
        (fun _ _ _ cands _ _ => proj2 (Forall_forall _ cands) (fun _ _ => I)) (fun r H _ => open_valid r H) fuel prior fast ae new Nd Fp Rw).
    - intros fuel ex new Nd Fe Rw. exact (forward_again L ar P K Re const_plain custom_none init_own keep (open_fit L) (fun r => @proj1 _ _) Fg w ss ts Fo Fr (fun _ => True) (fun _ _ _ _ => I) (fun _ _ _ c1 c2 _ _ _ => proj2 (Forall_forall _ (extend c1 c2)) (fun _ _ => I)) (fun r H _ => open_valid r H) ex prior Fe Fp fuel new Nd Rw).
  Qed.
End Open.
Lemma none_own {O C} (L : lang O C) : (forall vars, l_init L vars = Val (0, [])) ->
  forall vars n vs, l_init L vars = Val (n, vs) -> forall v c ls, In (v, c, ls) vs -> Forall (Forall (fun m => forall x, l_to_var L (nop m) = Some x -> x = v)) ls.
Proof. intros H vars n vs E v c ls J. rewrite H in E. injection E as <- <-. destruct J. Qed.
Lemma pos_const_plain : forall depth c, Forall (fun n => pos_to_var (nop n) = None) (const_nodes (pos_constant depth c)).
Proof.
  intros depth c. apply (OpsDomains.const_nodes_uses _ (fun o _ => pos_to_var o = None)).
  assert (J : forall c t, pos_constant_id depth c = Val t -> OpsSpec.fits (fun o _ => pos_to_var o = None) t).
  { clear c. induction depth as [|d IH]; intros c t E; [discriminate E|]. cbn in E.
    destruct c as [|c]; [injection E as <-; constructor; [reflexivity|constructor]|].
    destruct c; try (injection E as <-; constructor; [reflexivity|constructor]); (destruct (N.eqb _ 0); (destruct (pos_constant_id d _) as [u|] eqn:Eu; [|discriminate E]; cbn in E; injection E as <-; constructor; [reflexivity|]; constructor; [exact (IH _ _ Eu)|constructor])). }
  intros t E. unfold pos_constant in E. destruct c as [|c]; [injection E as <-; constructor; [reflexivity|constructor]|].
  destruct c; try (injection E as <-; constructor; [reflexivity|constructor]); (destruct (N.eqb _ 0); (destruct (pos_constant_id depth _) as [u|] eqn:Eu; [|discriminate E]; cbn in E; injection E as <-; constructor; [reflexivity|]; constructor; [exact (J _ _ Eu)|constructor])).
Qed.
Theorem pos_finishes : forall depth keep w ss ts prior fast, force w = Val ss -> Forall2 (reads (pos_lang depth)) ss ts -> length (wvars (pos_lang depth) ts) <= 26 ->
  Forall (fun e => open_fit (pos_lang depth) (snd e)) prior -> all_finish (pos_lang depth) keep (open_fit (pos_lang depth)) w prior fast.
Proof.
  intros depth keep w ss ts prior fast Fo Fr Lt Fp. destruct (pos_readable depth) as (K & Re).
  refine (open_finishes (pos_lang depth) pos_arity _ K Re _ _ (pos_const_plain depth) (fun _ _ => eq_refl) (none_own (pos_lang depth) (fun _ => eq_refl)) (fun _ _ => eq_refl) keep (fun rs F => proj1 (pos_live depth keep rs F)) w ss ts Fo Fr Lt _ prior Fp fast).
  - constructor; [exact pos_op_eqb_eq|intros a b; apply N.eqb_eq|reflexivity|intros o H; destruct o; try reflexivity; elim H; reflexivity].
  - intros o Ho. apply pos_reads. destruct o; [exact I..|discriminate Ho].
  - refine (quiet_start (pos_lang depth) pos_op_eqb_eq keep (aqb pos_arity) _ _ _ _ _ _ _ w ss ts Fo Fr); quiet pos_from_op_arity.
Qed.
Theorem cf_finishes : forall keep w ss ts prior fast, force w = Val ss -> Forall2 (reads cf_lang) ss ts -> length (wvars cf_lang ts) <= 26 ->
  Forall (fun e => open_fit cf_lang (snd e)) prior -> all_finish cf_lang keep (open_fit cf_lang) w prior fast.
Proof.
  intros keep w ss ts prior fast Fo Fr Lt Fp. destruct cf_readable as (K & Re).
  refine (open_finishes cf_lang cf_arity _ K Re _ cf_reads _ (fun _ _ => eq_refl) (none_own cf_lang (fun _ => eq_refl)) (fun _ _ => eq_refl) keep (fun rs F => proj1 (cf_live keep rs F)) w ss ts Fo Fr Lt _ prior Fp fast).
  - constructor; [exact cf_eqb_eq|intros a b; apply Z.eqb_eq|reflexivity|intros o H; destruct o; try reflexivity; elim H; reflexivity].
  - intros c. repeat constructor.
  - refine (quiet_start cf_lang cf_eqb_eq keep (aqb cf_arity) _ _ _ _ _ _ _ w ss ts Fo Fr); quiet cf_from_op_arity.
Qed.
