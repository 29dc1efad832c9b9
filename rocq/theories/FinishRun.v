(* A run of inference can be finished: the steps before minimization. *)
From Coq Require Import Permutation NArith ZArith.
From Verif Require Import EnumSpec.
From Verif Require RulesetProofs.
From Verif Require Import Base BaseProofs Sexp Reader Lang Util LangProofs Syntax SyntaxProofs Rule RuleSpec RuleTextProofs Ruleset Workload Analysis Generalize GeneralizeProofs Egraph EgraphSpec EgraphProofs Synth Apply Sched SynthSpec SynthProofs TotalSpec
  Extract Match MatchSpec MatchProofs Minimize MinimizeProofs MinimizeLoop ScoreProofs DomainSound PlainProofs Infer InferProofs InvProofs LearnSpec LearnProofs OpsSpec OpsProofs SaveProofs SaveDomains LiveSpec FinishSpec FinishProofs.
Open Scope list_scope.

(* candidates have variables without children *)
Definition leaf_vars {O} (p : pat O) : Prop := Forall (fun n => match nop n with EN _ => True | PV _ => nch n = [] end) p.
Section Leaf.
  Context {O C : Type}.
  Variable L : lang O C.
  Local Notation tv := (l_to_var L).
  Definition lv (n : node O) : Prop := tv (nop n) <> None -> nch n = [].
  Lemma rename_lv : forall m n n' m', rename_node tv (l_mk_var L) m n = Val (n', m') -> lv n'.
  Proof.
    intros m n n' m' H. unfold rename_node in H. destruct (tv (nop n)) as [s|] eqn:E.
    - destruct (lookup m s) as [v|]; [injection H as <- <-; intros _; reflexivity|]. destruct (letter (length m)) as [v0|]; [|discriminate H]. cbn in H. injection H as <- <-. intros _. reflexivity.
    - injection H as <- <-. intros X. rewrite E in X. contradiction.
  Qed.
  Lemma lv_children : forall o ch ch' (f : nat -> res nat), lv (Node o ch) -> rmapM f ch = Val ch' -> lv (Node o ch').
  Proof. intros o ch ch' f F H X. specialize (F X). cbn in *. subst ch. cbn in H. now injection H as <-. Qed.
  Lemma build_lv : forall f e todo st st', Forall lv (bs_set st) -> build_loop (l_eqb L) tv (l_mk_var L) f e todo st = Val st' -> Forall lv (bs_set st').
  Proof.
    intros f e. induction f as [|f IH]; intros [|id todo] st st' Hs H; cbn [build_loop] in H; try discriminate H; try (injection H as <-; exact Hs).
    destruct (nlookup (bs_ids st) id); [exact (IH _ _ _ Hs H)|]. destruct (index e id) as [n|] eqn:En; [|discriminate H]. cbn [rbind] in H.
    destruct (rename_node tv (l_mk_var L) (bs_map st) n) as [[n' m']|] eqn:Rn; [|discriminate H]. cbn [rbind] in H. pose proof (rename_lv _ _ _ _ Rn) as Fn.
    destruct (List.filter _ (nch n')); [|exact (IH _ (BS _ _ _) _ Hs H)].
    destruct (rmapM _ (nch n')) as [ch|] eqn:Ech; [|discriminate H]. cbn [rbind] in H.
    destruct (insert_full (l_eqb L) (bs_set st) (Node (nop n') ch)) as [set' i] eqn:Ei. refine (IH _ (BS _ _ _) _ _ H). cbn [bs_set].
    unfold insert_full in Ei. destruct (find_node _ _ _ _); injection Ei as <- <-; [exact Hs|]. apply Forall_app. split; [exact Hs|]. constructor; [|constructor].
    refine (lv_children _ (nch n') _ _ _ Ech). destruct n'; exact Fn.
  Qed.
  Lemma generalize_leaf : forall m e p m', generalize (l_eqb L) tv (l_mk_var L) m e = Val (p, m') -> leaf_vars p.
  Proof.
    intros m e p m' H. unfold generalize in H. destruct (rev e) as [|n re] eqn:Er; [discriminate H|]. cbn [rbind] in H.
    destruct (rename_node tv (l_mk_var L) m n) as [[n' m1]|] eqn:Rn; [|discriminate H]. cbn [rbind] in H. pose proof (rename_lv _ _ _ _ Rn) as Fn.
    destruct (build_loop _ _ _ _ e _ _) as [st|] eqn:B; [|discriminate H]. cbn [rbind] in H. pose proof (build_lv _ _ _ (BS [] [] m1) _ (Forall_nil _) B) as Fs.
    destruct (rmapM _ (nch n')) as [ch|] eqn:Ech; [|discriminate H]. cbn [rbind] in H. injection H as <- <-.
    unfold leaf_vars. apply Forall_map. assert (forall n0, lv n0 -> match to_enode_or_var tv (nop n0) with EN o => True | PV _ => nch n0 = [] end) as J.
    { intros n0 F0. unfold to_enode_or_var. destruct (tv (nop n0)) as [s|] eqn:E; [apply F0; rewrite E; discriminate|exact I]. }
    apply Forall_app. split; [|constructor; [|constructor]].
    - eapply Forall_impl; [|exact Fs]. intros n0 F0. exact (J n0 F0).
    - apply J. refine (lv_children _ (nch n') _ _ _ Ech). destruct n'; exact Fn.
  Qed.
  Definition shaped (r : rule O) : Prop := leaf_vars (rlhs r) /\ leaf_vars (rrhs r) /\ rkind r = KRhs.
  Lemma pair_shaped : forall e1 e2 fw bw, candidate_pair (l_eqb L) tv (l_mk_var L) (l_name L) e1 e2 = Val (fw, bw) -> forall x, fw = Some x \/ bw = Some x -> shaped x.
  Proof.
    intros e1 e2 fw bw H x Hx. unfold candidate_pair in H.
    destruct (generalize (l_eqb L) tv (l_mk_var L) [] e1) as [[l m1]|] eqn:G1; [|discriminate H]. cbn [rbind] in H.
    destruct (generalize (l_eqb L) tv (l_mk_var L) m1 e2) as [[r m2]|] eqn:G2; [|discriminate H]. cbn [rbind] in H. apply generalize_leaf in G1, G2.
    unfold rule_new in H. destruct (rule_name (l_name L) l r) as [s1|]; [|discriminate H]. cbn [rbind] in H.
    destruct (rule_name (l_name L) r l) as [s2|]; [|discriminate H]. cbn [rbind] in H. injection H as <- <-.
    destruct Hx as [Hx|Hx]; (match type of Hx with (if ?b then _ else _) = _ => destruct b; [|discriminate Hx] end); injection Hx as <-; (split; [|split]); auto.
  Qed.
  Lemma shaped_reverse : forall r r', shaped r -> reverse (l_name L) r = Val (Some r') -> shaped r'.
  Proof.
    intros r r' (P1 & P2 & _) E. unfold reverse, rule_new in E. destruct (rule_name (l_name L) (rrhs r) (rlhs r)) as [s|]; [|discriminate E]. cbn in E.
    destruct (rewrite_ok _ _); [|discriminate E]. injection E as <-. split; [exact P2|]. split; [exact P1|reflexivity].
  Qed.
End Leaf.

Lemma occurs_in {O} (ar : O -> nat) (t : term (eov O)) v : wf_term (par ar) t -> In v (ptvars t) -> LiveSpec.occurs v t.
Proof.
  unfold ptvars. induction t as [o ts IH] using term_ind'. intros W H. inversion W as [? ? Wl Wt]; subst. cbn [tvars] in H. destruct o as [o|w]; cbn in *.
  - clear Wl W. induction ts as [|t ts IHt]; [contradiction H|]. inversion IH as [|? ? I1 I2]; subst. inversion Wt as [|? ? W1 W2]; subst. cbn in *. apply in_app_iff in H as [H|H]; auto.
  - destruct ts; [|discriminate Wl]. cbn in H. destruct H as [H|[]]. exact H.
Qed.

Section Whole.
  Context {O C : Type}.
  Variable L : lang O C.
  Variable ar : O -> nat.
  Variable P : O -> Prop.
  Variable K : C -> Prop.
  Hypothesis Re : SaveDomains.readable L ar P K.
  Hypothesis Rg : regular L ar.
  Hypothesis Tx : forall o, P o -> eov_ok (l_from_op L) (l_name L) ar (EN o).
  Hypothesis const_plain : forall c, Forall (fun n => l_to_var L (nop n) = None) (l_const L c).
  Hypothesis custom_none : forall g i, l_custom L g i = Val [].
  Hypothesis init_plain : forall vars n vs, l_init L vars = Val (n, vs) -> forall v c ts, In (v, c, ts) vs -> Forall (Forall (fun m => forall x, l_to_var L (nop m) = Some x -> x = v)) ts.
  Local Notation tv := (l_to_var L).
  Local Notation over := (over L ar P).
  Definition Qv (vs : list string) (o : O) (k : nat) : Prop := over o k /\ forall x, tv o = Some x -> In x vs.

  Lemma Qv_admits : forall vs, admits L (Qv vs) K.
  Proof.
    intros vs. destruct (re_admits _ _ _ _ Re) as [A1 A2 A3 A4 A5]. constructor.
    - intros o is i [H _]. exact (A1 o is i H).
    - intros c Hc. pose proof (A2 c Hc) as U. unfold uses in *. pose proof (const_plain c) as F. rewrite Forall_forall in *. intros n I. split; [exact (U n I)|]. intros x E. rewrite (F n I) in E. discriminate E.
    - intros o k s [H Hx] E. split; [exact (A3 o k s H E)|]. intros x Ex. rewrite (re_var _ _ _ _ Re) in Ex. injection Ex as <-. exact (Hx s E).
    - intros g i ts _ E. rewrite custom_none in E. injection E as <-. constructor.
    - intros vars n vs' Hv E v c ts I. destruct (A5 vars n vs' (fun v Iv => proj1 (Hv v Iv)) E v c ts I) as [Iv U]. split; [exact Iv|]. pose proof (init_plain vars n vs' E v c ts I) as F.
      pose proof (proj2 (Hv v Iv) v (re_var _ _ _ _ Re v)) as Ix. unfold uses in *. rewrite Forall_forall in *. intros t It. specialize (U t It). specialize (F t It). rewrite Forall_forall in *.
      intros m Im. split; [exact (U m Im)|]. intros x Ex. rewrite (F m Im x Ex). exact Ix.
  Qed.
  Lemma over_read : forall o k, read_op L o k -> over o k.
  Proof. intros o k (s & E). split; [symmetry; exact (re_arity _ _ _ _ Re s k o E)|exact (re_read _ _ _ _ Re s k o E)]. Qed.
  Lemma fits_vars : forall vs t, fits over t -> incl (tvars tv t) vs -> fits (Qv vs) t.
  Proof.
    intros vs t. induction t as [o ts IH] using term_ind'. intros F J. inversion F as [? ? Q F']; subst. cbn [tvars] in J. constructor.
    - split; [exact Q|]. intros x E. apply J. rewrite E. now left.
    - rewrite Forall_forall in *. intros u Hu. apply IH; [exact Hu|exact (F' u Hu)|]. intros x Hx. apply J, in_app_iff. right. apply in_flat_map. eauto.
  Qed.
  Lemma workload_vars : forall w ss ts, force w = Val ss -> Forall2 (reads L) ss ts -> workload_fits L (Qv (wvars L ts)) w.
  Proof.
    intros w ss ts Fo Fr ss' ts' Fo' Fr'. assert (ss' = ss) as -> by congruence.
    assert (ts' = ts) as ->.
    { clear Fo Fo'. revert ts' Fr'. induction Fr as [|s t ss ts H Fr IH]; intros ts' Fr'; inversion Fr' as [|? t' ? ts'' H' Fr'']; subst; [reflexivity|]. f_equal; [|exact (IH _ Fr'')].
      unfold reads in H, H'. rewrite H in H'. injection H' as E. assert (tree (to_rec t) = tree (to_rec t')) as X by congruence. rewrite !tree_to_rec in X. now injection X. }
    pose proof (read_workload L ar P over_read w ss ts Fo Fr) as F. rewrite Forall_forall in *. intros t I. apply fits_vars; [exact (F t I)|].
    intros x Hx. unfold wvars. apply first_seen_in. apply in_flat_map. eauto.
  Qed.
  (* rules without language variables only add nodes of this kind *)
  Lemma general_uses : forall vs r, rewrite_rule L r -> general L (rrhs r) -> rhs_uses (Qv vs) r.
  Proof.
    intros vs r (_ & (F & _) & _) G. unfold rhs_uses. rewrite Forall_forall in *. intros n I. specialize (F n I). cbn in F. destruct (nop n) as [o|v] eqn:E; [|exact Logic.I].
    split; [exact (over_read _ _ F)|]. intros x Ex. rewrite (G n o I E) in Ex. discriminate Ex.
  Qed.

  (* ---- candidates ---- *)
  Definition cgood (r : rule O) : Prop := rule_uses L over r /\ formed L ar r /\ shaped r.
  Lemma cgood_pair : forall vs e1 t1 e2 t2 fw bw, uses (Qv vs) e1 -> uses (Qv vs) e2 -> tree e1 = Val t1 -> tree e2 = Val t2 ->
    candidate_pair (l_eqb L) tv (l_mk_var L) (l_name L) e1 e2 = Val (fw, bw) -> forall x, fw = Some x \/ bw = Some x -> cgood x.
  Proof.
    intros vs e1 t1 e2 t2 fw bw U1 U2 T1 T2 E x Hx.
    destruct (both_pair L ar (re_eqb _ _ _ _ Re) (re_var _ _ _ _ Re) (re_leaf _ _ _ _ Re) P e1 t1 e2 t2 fw bw) with (x := x) as [H1 H2]; try assumption;
      try (eapply Forall_impl; [|eassumption]; intros n [H _]; exact H).
    split; [exact H1|]. split; [exact H2|exact (pair_shaped L e1 e2 fw bw E x Hx)].
  Qed.
  Lemma cgood_reverse : forall r r', cgood r -> reverse (l_name L) r = Val (Some r') -> cgood r'.
  Proof.
    intros r r' (H1 & H2 & H3) E. split; [exact (rule_uses_reverse L over r r' H1 E)|]. split; [exact (formed_reverse L ar r r' H2 E)|exact (shaped_reverse L r r' H3 E)].
  Qed.
  Lemma cgood_name : forall r, cgood r -> exists o, reverse (l_name L) r = Val o.
  Proof.
    intros r (_ & (E & _) & _). unfold rule_name in E. apply rbind_val in E as (a & Ea & E). apply rbind_val in E as (b & Eb & _).
    unfold reverse, rule_new, rule_name. rewrite Eb, Ea. cbn. eauto.
  Qed.
  Lemma cgood_score : forall r, cgood r -> exists s, rule_score L r = Val s.
  Proof.
    intros r (_ & (_ & tl & tr & (T1 & _) & (T2 & _) & _) & _). unfold rule_score, score. rewrite (ast_size_spec _ tl T1), (ast_size_spec _ tr T2). cbn [rbind]. eauto.
  Qed.
  Lemma cgood_pat : forall p t, pat_uses L over p -> leaf_vars p -> tree p = Val t -> read_pat L p.
  Proof.
    intros p t U V T. split; [|eauto]. unfold pat_uses, leaf_vars in *. rewrite Forall_forall in *. intros n I. specialize (U n I). specialize (V n I). cbn in U, V.
    destruct (nop n) as [o|v]; [|exact V]. destruct U as (N & Hk & [X|X]); [contradiction|]. rewrite Hk. destruct (Tx o X) as (_ & _ & H & _). eexists. exact H.
  Qed.
  Lemma cgood_rewrite : forall r, cgood r -> rewrite_rule L r.
  Proof.
    intros r ((U1 & U2) & (_ & tl & tr & (T1 & W1 & _) & (T2 & _ & _ & J2) & Hi) & (V1 & V2 & Hk)). split; [exact (cgood_pat _ _ U1 V1 T1)|]. split; [exact (cgood_pat _ _ U2 V2 T2)|]. split.
    - intros v t Iv T. assert (t = tl) as -> by congruence. apply (occurs_in ar); [exact W1|]. apply Hi. apply pvars_in in Iv as (n & I & E). exact (J2 n v I E).
    - intros v. rewrite Hk. discriminate.
  Qed.
  Lemma cgood_general : forall r, cgood r -> general L (rlhs r) /\ general L (rrhs r).
  Proof.
    intros r ((U1 & U2) & _). unfold pat_uses in *. rewrite Forall_forall in *. split; intros n o I E; [specialize (U1 n I); cbn in U1; rewrite E in U1; tauto|specialize (U2 n I); cbn in U2; rewrite E in U2; tauto].
  Qed.

  (* ---- the whole run ---- *)
  Variable keep : eg O C -> nat -> nat -> bool.
  Variable fit : rule O -> Prop.
  Hypothesis fit_rewrite : forall r, fit r -> rewrite_rule L r.
  Hypothesis fit_general : forall r, fit r -> general L (rrhs r).
  Hypothesis live_parts : forall rs, Forall (fun e => fit (snd e)) rs -> forall part g, incl part rs -> reached L keep rs g -> goes_on L keep part g.
  Hypothesis validates : forall r, cgood r -> exists v, l_validate L (rlhs r) (rrhs r) = Val v.
  Variable w : workload.
  Variable ss : list sexp.
  Variable ts : list (term O).
  Hypothesis force_w : force w = Val ss.
  Hypothesis reads_w : Forall2 (reads L) ss ts.
  Hypothesis letters : length (wvars L ts) <= 26.
  Hypothesis start : exists g, forall f, 2 <= f -> to_egraph L keep f w = Val g.
  Local Notation allfit := (Forall (fun e : string * rule O => fit (snd e))).
  Lemma live : forall rs, allfit rs -> forall g, reached L keep rs g -> goes_on L keep rs g.
  Proof. intros rs F g. apply live_parts; [exact F|apply incl_refl]. Qed.

  Lemma grown_run : forall kind fuel prior g c, Forall (fun e => kind (snd e)) prior -> to_egraph L keep fuel w = Val g -> compressed L keep fuel prior g c -> ran L kind keep w c.
  Proof. intros kind fuel prior g c F E (order & A & H). exists fuel, (Compress order), prior, g. split; [exact (Gr_start _ _ _ _ fuel g E)|]. split; [exact F|]. exact H. Qed.
  Lemma run_inv : forall fuel prior g c, allfit prior -> to_egraph L keep fuel w = Val g -> compressed L keep fuel prior g c ->
    wf c /\ InvProofs.inv (Qv (wvars L ts)) nv (oP K) c.
  Proof.
    intros fuel prior g c F E H. apply (grown_ops L (re_eqb _ _ _ _ Re) keep (Qv (wvars L ts)) K (Qv_admits _) w c (workload_vars w ss ts force_w reads_w)).
    destruct (grown_run (rhs_uses (Qv (wvars L ts))) fuel prior g c) as (f & st & rs & g0 & G & Fr & S); [|exact E|exact H|exact (Gr_run _ _ _ _ f st rs g0 c G Fr S)].
    eapply Forall_impl; [|exact F]. intros e He. apply general_uses; [apply fit_rewrite|apply fit_general]; exact He.
  Qed.
  Lemma run_ready : forall c, InvProofs.inv (Qv (wvars L ts)) nv (oP K) c -> MatchSpec.ready L ar c.
  Proof.
    intros c [H _]. constructor.
    - intros n i I. exact (proj1 (proj1 (H n i I))).
    - intros n i I N. destruct (H n i I) as [[_ [Y|Y]] _]; [contradiction|exact (Tx _ Y)].
    - exists (wvars L ts). split; [exact letters|]. intros n i x I E. exact (proj2 (H n i I) x E).
  Qed.
  Lemma matching_all : forall fast c order arrange, wf c -> MatchSpec.ready L ar c -> layout c order arrange -> exists f0 cands, forall f, f0 <= f -> matching L fast f arrange order c = Val cands.
  Proof.
    intros fast c order arrange W Rd [Po Pa]. destruct (matches_spec L ar Rg c W Rd arrange Pa order Po) as (f1 & b1 & _ & ps1 & fs1 & _ & _ & H).
    destruct (best_all L ar Rg c W (fun _ => true) arrange Pa order Po) as (f2 & t & best & cost & E & F & _).
    destruct (cvec_pairs_spec L ar Rg c W order Po) as (ps & Eps & Hps). destruct (fast_pairs_spec L ar Rg c W order Po) as (fs & Efs & Hfs).
    assert (Lp : forall i j, In (i, j) ps -> i < size c /\ j < size c). { intros i j I. apply Hps in I as (Hi & Hj & _). split; eapply in_order_lt; eassumption. }
    assert (Lf : forall i j, In (i, j) fs -> i < size c /\ j < size c). { intros i j I. apply Hfs in I as (I & _). apply pairs_in in I as [Hi Hj]. split; eapply in_order_lt; eassumption. }
    exists (f1 + f2). destruct (H (f1 + f2) (Nat.le_add_r _ _)) as (rs & rf & Er & Ef & _). exists (if fast then rf else rs). intros f Hf.
    assert (U : forall f, f1 + f2 <= f -> matching L fast f arrange order c = propose L [] (map (fun p => (best (fst p), best (snd p))) (if fast then fs else ps))).
    { intros f' Hf'. assert (f2 <= f') as Hf2 by (clear - Hf'; lia). unfold matching, cvec_match, fast_cvec_match. rewrite (E f' Hf2). cbn [rbind]. rewrite Eps, Efs. cbn [rbind].
      rewrite (best_pairs L c f' t best cost ps (fun i Hi => F f' i Hf2 Hi) Lp), (best_pairs L c f' t best cost fs (fun i Hi => F f' i Hf2 Hi) Lf). cbn [rbind]. rewrite !map_map. destruct fast; reflexivity. }
    rewrite (U f Hf), <- (U (f1 + f2) (le_n _)). unfold matching. destruct fast; [exact Ef|exact Er].
  Qed.

  Lemma extracting_all : forall g1 g2, wf g1 -> congruent g1 -> MatchSpec.ready L ar g1 -> size g1 <= size g2 -> extracting L g1 g2.
  Proof.
    intros g1 g2 W Cg Rd Sz order arrange uorder [Po Pa] Pu. destruct (extract_candidates_spec L ar Rg g1 g2 W Cg Rd Sz arrange order uorder Pa Po Pu) as (f1 & b1 & _ & H).
    destruct (best_all L ar Rg g1 W (l_allowed L) arrange Pa order Po) as (f2 & t & best & cost & E & F & _).
    destruct (merged_pairs_spec g1 g2 order uorder Po Pu Sz) as (ps & Eps & Hps).
    assert (Lp : forall i j, In (i, j) ps -> i < size g1 /\ j < size g1). { intros i j I. apply Hps in I as (H1 & H2 & _). split; eapply find_some; eassumption. }
    exists (f1 + f2). destruct (H (f1 + f2) (Nat.le_add_r _ _)) as (rs & Er & _). exists rs. intros f Hf. rewrite <- Er.
    assert (U : forall f, f1 + f2 <= f -> extract_candidates L f arrange order uorder g1 g2 = propose L [] (map (fun p => (snd (fst p), snd (snd p))) (List.filter (wanted L) (map (fun p => (cost (fst p), best (fst p), (cost (snd p), best (snd p)))) ps)))).
    { intros f' Hf'. assert (f2 <= f') as Hf2 by (clear - Hf'; lia). unfold extract_candidates. rewrite (E f' Hf2). cbn [rbind]. rewrite Eps. cbn [rbind].
      rewrite (best_pairs L g1 f' t best cost ps (fun i Hi => F f' i Hf2 Hi) Lp). reflexivity. }
    rewrite (U f Hf), (U (f1 + f2) (le_n _)). reflexivity.
  Qed.

  Lemma fit_plain : forall rs, allfit rs -> plain_rules L ar rs.
  Proof.
    intros rs F. unfold plain_rules. rewrite Forall_forall in *. intros e' Ie'. pose proof (F e' Ie') as Fe. unfold plain_rhs, plain_pat.
    destruct (fit_rewrite _ Fe) as (_ & (G & _) & _). pose proof (fit_general _ Fe) as Gn. rewrite Forall_forall in *. intros n In'. specialize (G n In'). cbn in G. destruct (nop n) as [o|v] eqn:En; [|exact Logic.I].
    split; [exact (Gn n o In' En)|exact (proj1 (over_read _ _ G))].
  Qed.
  Section Cands.
  Variable X : rule O -> Prop.
  Hypothesis X_reverse : forall r r', X r -> reverse (l_name L) r = Val (Some r') -> X r'.
  Hypothesis X_cands : forall fuel fast c cands, ran L (plain_rhs L ar) keep w c -> proposed L fuel fast c cands -> Forall (fun e => X (snd e)) cands.
  Hypothesis X_fit : forall r, cgood r -> X r -> l_validate L (rlhs r) (rrhs r) = Val Valid -> fit r.
  Lemma run_cands : forall fuel fast prior g c cands, allfit prior -> to_egraph L keep fuel w = Val g -> compressed L keep fuel prior g c -> proposed L fuel fast c cands ->
    Forall (fun e => cgood (snd e) /\ X (snd e)) cands.
  Proof.
    intros fuel fast prior g c cands F E H Pr. destruct (run_inv fuel prior g c F E H) as [W I].
    pose proof (proposed_uses L (re_eqb _ _ _ _ Re) (Qv (wvars L ts)) K cgood (cgood_pair (wvars L ts)) fuel fast c cands W I Pr) as F1.
    pose proof (X_cands fuel fast c cands) as F2. rewrite Forall_forall in *. intros e Ie. split; [exact (F1 e Ie)|]. refine (F2 _ Pr e Ie).
    apply (grown_run _ fuel prior g c); [|exact E|exact H]. apply fit_plain. apply Forall_forall. exact F.
  Qed.

  Theorem run_finishes : forall prior fast, allfit prior -> finishes L keep w prior fast.
  Proof.
    intros prior fast Fp. set (R := fun r => cgood r /\ X r).
    assert (R_reverse : forall r r', R r -> reverse (l_name L) r = Val (Some r') -> R r') by (intros r r' [H1 H2] E; split; [exact (cgood_reverse r r' H1 E)|exact (X_reverse r r' H2 E)]).
    assert (R_valid : forall r, R r -> exists b, is_valid L r = Val b) by (intros r [H1 _]; destruct (validates r H1) as (v & E); unfold is_valid; rewrite E; cbn; eauto).
    assert (R_fit : forall r, R r -> is_valid L r = Val true -> fit r).
    { intros r [H1 H2] V. apply (X_fit r H1 H2). unfold is_valid in V. destruct (l_validate L (rlhs r) (rrhs r)) as [v|]; [|discriminate V]. cbn in V. destruct v; try discriminate V. reflexivity. }
    pose proof (fun st (Fs : fair st) => finish_from L (re_eqb _ _ _ _ Re) keep fit fit_rewrite live R R_reverse (fun r H => cgood_name r (proj1 H)) (fun r H => cgood_score r (proj1 H)) R_valid (fun r H => cgood_rewrite r (proj1 H)) R_fit st Fs) as Fin.
    pose proof (fun st (Fs : fair st) => next L (re_eqb _ _ _ _ Re) keep fit fit_rewrite live R R_reverse (fun r H => cgood_name r (proj1 H)) (fun r H => cgood_score r (proj1 H)) R_valid (fun r H => cgood_rewrite r (proj1 H)) R_fit st Fs) as Nx.
    assert (Cmp : forall fuel g order, 2 <= fuel -> to_egraph L keep fuel w = Val g -> anyorder order -> goes_on L keep prior g /\ exists f0 c, forall f, f0 <= f -> compress L keep f order prior g c).
    { intros fuel g order Hf E A. assert (G : goes_on L keep prior g) by (apply live; [exact Fp|exact (R_workload L keep prior fuel w g Hf E)]). split; [exact G|]. exact (go_schedule _ _ _ _ G (Compress order) A). }
    assert (Pro : forall fuel g c order arrange, to_egraph L keep fuel w = Val g -> compressed L keep fuel prior g c -> layout c order arrange -> exists f0 cands, forall f, f0 <= f -> matching L fast f arrange order c = Val cands).
    { intros fuel g c order arrange E H Ly. destruct (run_inv fuel prior g c Fp E H) as [W I]. exact (matching_all fast c order arrange W (run_ready c I) Ly). }
    constructor.
    - exact start.
    - exact Cmp.
    - intros fuel g c order arrange _ E H Ly. exact (Pro fuel g c order arrange E H Ly).
    - intros fuel g c cands st m chosen invalid _ E H Pr Fs Rs. pose proof (run_cands fuel fast prior g c cands Fp E H Pr) as Fc.
      destruct (rounds_fit L (re_eqb _ _ _ _ Re) keep fit R R_reverse R_fit st fuel _ _ Rs (conj Fc Fp)) as [Fm Fch]. cbn [fst snd] in Fm, Fch.
      split; [intros Nm; exact (Nx st Fs m chosen invalid Fm Fch Nm)|]. exact (Fin st Fs (length m) m chosen invalid (le_n _) Fm Fch).
    - destruct start as (g & Eg). assert (A : anyorder (fun l : list (list nat) => l)) by (intros l; apply Permutation_refl).
      destruct (Cmp 2 g _ (le_n 2) (Eg 2 (le_n 2)) A) as (_ & f1 & c & Hc).
      assert (Ly : layout c (class_ids c) (fun l : list (node O) => l)) by (split; [apply Permutation_refl|intros l; apply Permutation_refl]).
      assert (Cc : forall f, f1 <= f -> compressed L keep f prior g c) by (intros f Hf; eexists; split; [exact A|exact (Hc f Hf)]).
      destruct (Pro (2 + f1) g c _ _ (Eg _ (Nat.le_add_r 2 f1)) (Cc _ (Nat.le_add_l f1 2)) Ly) as (f2 & cands & Hm).
      assert (Pr : forall f, f2 <= f -> proposed L f fast c cands) by (intros f Hf; eexists _, _; split; [exact Ly|exact (Hm f Hf)]).
      assert (H2 : 2 <= 2 + f1 + f2) by (clear; lia). assert (H1 : f1 <= 2 + f1 + f2) by (clear; lia). assert (H3 : f2 <= 2 + f1 + f2) by (clear; lia).
      pose proof (run_cands (2 + f1 + f2) fast prior g c cands Fp (Eg _ H2) (Cc _ H1) (Pr _ H3)) as Fc.
      destruct (Fin (Compress (fun l => l)) A (length cands) cands prior [] (le_n _) Fc Fp) as (f3 & chosen & invalid & Hr).
      exists (2 + f1 + f2 + f3), (remove_all chosen prior). intros f Hf. exists g, c, cands.
      split; [apply Eg; clear - Hf; lia|]. split; [apply Cc; clear - Hf; lia|]. split; [apply Pr; clear - Hf; lia|]. split; [|discriminate].
      exists (fun l => l), invalid. split; [exact A|]. exists chosen. split; [apply Hr; clear - Hf; lia|reflexivity].
  Qed.
  (* whatever comes out can start another run *)
  Theorem run_again : forall fuel prior fast ae new, NoDup (map fst prior) -> allfit prior -> run_workload_internal L keep fuel w prior fast ae new ->
    NoDup (map fst (extend new prior)) /\ allfit (extend new prior).
  Proof.
    intros fuel prior fast ae new Nd Fp Rw. destruct (workload_valid L keep fuel w prior fast ae new Nd Rw) as [Nn V]. split; [exact (extend_nodup' new prior Nn)|].
    destruct Rw as (g & c & cands & E & H & Pr & (order & invalid & A & chosen & Rs & En) & _).
    set (R := fun r => cgood r /\ X r).
    assert (R_reverse : forall r r', R r -> reverse (l_name L) r = Val (Some r') -> R r') by (intros r r' [H1 H2] Er; split; [exact (cgood_reverse r r' H1 Er)|exact (X_reverse r r' H2 Er)]).
    assert (R_fit : forall r, R r -> is_valid L r = Val true -> fit r).
    { intros r [H1 H2] Vr. apply (X_fit r H1 H2). unfold is_valid in Vr. destruct (l_validate L (rlhs r) (rrhs r)) as [v|]; [|discriminate Vr]. cbn in Vr. destruct v; try discriminate Vr. reflexivity. }
    destruct (rounds_fit L (re_eqb _ _ _ _ Re) keep fit R R_reverse R_fit (Compress order) fuel _ _ Rs (conj (run_cands fuel fast prior g c cands Fp E H Pr) Fp)) as [_ Fch]. cbn [fst snd] in Fch.
    rewrite Forall_forall in *. intros e I. apply extend_in in I as [I|I]; [|auto]. apply Fch.
    destruct (rounds_valid L keep fuel (Compress order) prior _ _ Rs) as [Nc _]; [split; [exact Nd|auto]|]. cbn [fst snd] in Nc.
    destruct (RulesetProofs.remove_all_spec prior chosen Nc) as [Nr Lk]. subst new. destruct e as [k r]. apply (lookup_in_nodup _ _ _ Nr) in I. rewrite Lk in I.
    destruct (lookup prior k); [discriminate I|]. now apply lookup_some_in.
  Qed.
  End Cands.

  (* ---- fast-forwarding ---- *)
  Section Forward.
  Variable X : rule O -> Prop.
  Hypothesis X_reverse : forall r r', X r -> reverse (l_name L) r = Val (Some r') -> X r'.
  Hypothesis X_forward : forall fuel exploratory prior c1 c2, plain_rules L ar exploratory -> plain_rules L ar prior -> forwarded L keep fuel exploratory w prior c1 c2 ->
    Forall (fun e => X (snd e)) (extend c1 c2).
  Hypothesis X_fit : forall r, cgood r -> X r -> l_validate L (rlhs r) (rrhs r) = Val Valid -> fit r.
  Variable exploratory : ruleset O.
  Variable prior : ruleset O.
  Hypothesis fit_exploratory : allfit exploratory.
  Hypothesis fit_prior : allfit prior.
  Local Notation Qw := (Qv (wvars L ts)).
  Local Notation part := (partition (fun r => Val (is_allowed_rewrite L (rlhs r) (rrhs r))) prior).
  Local Notation inv := (InvProofs.inv Qw nv (oP K)).
  Definition fcand (r : rule O) : Prop := cgood r /\ X r.
  Lemma fcand_reverse : forall r r', fcand r -> reverse (l_name L) r = Val (Some r') -> fcand r'.
  Proof. intros r r' [H1 H2] E. split; [exact (cgood_reverse r r' H1 E)|exact (X_reverse r r' H2 E)]. Qed.
  Lemma valid_fits : forall r, fcand r -> is_valid L r = Val true -> fit r.
  Proof. intros r [H1 H2] V. apply (X_fit r H1 H2). unfold is_valid in V. destruct (l_validate L (rlhs r) (rrhs r)) as [v|]; [|discriminate V]. cbn in V. destruct v; try discriminate V. reflexivity. Qed.
  Lemma fit_uses : forall rs, allfit rs -> Forall (fun e => rhs_uses Qw (snd e)) rs.
  Proof. intros rs. apply Forall_impl. intros e He. apply general_uses; [apply fit_rewrite|apply fit_general]; exact He. Qed.
  Lemma fit_extend : forall a b, allfit a -> allfit b -> allfit (extend a b).
  Proof. intros a b Fa Fb. rewrite Forall_forall in *. intros e I. apply extend_in in I as [I|I]; auto. Qed.
  Lemma fit_part : forall a b, part = Val (a, b) -> allfit a.
  Proof.
    intros a b E. apply RulesetProofs.partition_sub in E as [H _]. rewrite Forall_forall in *. intros e I. apply H in I. apply in_map_iff in I as (e' & <- & I). exact (fit_prior e' I).
  Qed.
  Local Notation step := (grown_step L (re_eqb _ _ _ _ Re) keep Qw K (Qv_admits _)).
  Lemma start_inv : forall fuel g, to_egraph L keep fuel w = Val g -> wf g /\ inv g.
  Proof. intros fuel g E. exact (start_ops L (re_eqb _ _ _ _ Re) keep Qw K (Qv_admits _) fuel w g (workload_vars w ss ts force_w reads_w) E). Qed.
  Lemma compressed_step : forall fuel rs g g', allfit rs -> wf g -> inv g -> compressed L keep fuel rs g g' -> wf g' /\ inv g' /\ ext g g' /\ congruent g'.
  Proof. intros fuel rs g g' F W I (order & _ & H). exact (step fuel (Compress order) rs g g' (fit_uses rs F) W I H). Qed.
  Lemma simple_step : forall fuel rs g g', allfit rs -> wf g -> inv g -> simple L keep fuel rs g g' -> wf g' /\ inv g' /\ ext g g' /\ congruent g'.
  Proof. intros fuel rs g g' F W I H. exact (step fuel Simple rs g g' (fit_uses rs F) W I H). Qed.
  Definition everything (allowed : ruleset O) : ruleset O := allowed ++ prior ++ exploratory.
  Lemma everything_fit : forall a b, part = Val (a, b) -> allfit (everything a).
  Proof. intros a b E. apply Forall_app. split; [exact (fit_part a b E)|]. apply Forall_app. auto. Qed.
  Lemma everything_in : forall a, incl a (everything a) /\ incl exploratory (everything a) /\ incl (extend prior exploratory) (everything a).
  Proof.
    intros a. unfold everything. split; [|split]; intros e I; rewrite !in_app_iff; [auto|auto|]. apply extend_in in I as [I|I]; auto.
  Qed.
  Lemma allowed_reached : forall fuel g a b g1, 2 <= fuel -> to_egraph L keep fuel w = Val g -> part = Val (a, b) -> compressed L keep fuel a g g1 -> reached L keep (everything a) g1.
  Proof.
    intros fuel g a b g1 Hf E _ (order & A & out & S & H). apply (R_compress L keep _ fuel order a g out g1 Hf (R_workload L keep _ fuel w g Hf E) A); [|exact S|exact H]. apply everything_in.
  Qed.
  Lemma explored_reached : forall fuel g1 g2, 2 <= fuel -> explored L keep fuel exploratory w prior g1 g2 -> exists a b, part = Val (a, b) /\ reached L keep (everything a) g2.
  Proof.
    intros fuel g1 g2 Hf (g & a & b & E & Pt & Cm & h & R & Rb). exists a, b. split; [exact Pt|]. apply (R_rebuild L keep _ fuel h g2 Hf); [|exact Rb].
    apply (R_runs L keep _ fuel (map snd exploratory) g1 h Hf (allowed_reached fuel g a b g1 Hf E Pt Cm)); [|exact R]. apply incl_map. apply everything_in.
  Qed.
  Lemma explored_inv : forall fuel g1 g2, explored L keep fuel exploratory w prior g1 g2 -> (wf g1 /\ inv g1 /\ congruent g1) /\ wf g2 /\ inv g2 /\ congruent g2 /\ size g1 <= size g2.
  Proof.
    intros fuel g1 g2 (g & a & b & E & Pt & Cm & S). destruct (start_inv fuel g E) as [W I]. destruct (compressed_step fuel a g g1 (fit_part a b Pt) W I Cm) as (W1 & I1 & _ & C1).
    destruct (simple_step fuel exploratory g1 g2 fit_exploratory W1 I1 S) as (W2 & I2 & (Sz & _) & C2). auto 9.
  Qed.
  Lemma forwarded_cands : forall fuel c1 c2, forwarded L keep fuel exploratory w prior c1 c2 -> Forall (fun e => fcand (snd e)) (extend c1 c2).
  Proof.
    intros fuel c1 c2 Fw. pose proof (X_forward fuel exploratory prior c1 c2 (fit_plain _ fit_exploratory) (fit_plain _ fit_prior) Fw) as FX. destruct Fw as (g1 & g2 & g3 & Xp & E1 & Cm & E2). destruct (explored_inv fuel g1 g2 Xp) as ((W1 & I1 & _) & W2 & I2 & _).
    pose proof (extracted_uses L (re_eqb _ _ _ _ Re) Qw K cgood (cgood_pair (wvars L ts)) fuel g1 g2 c1 W1 I1 E1) as F1.
    pose proof (extracted_uses L (re_eqb _ _ _ _ Re) Qw K cgood (cgood_pair (wvars L ts)) fuel g2 g3 c2 W2 I2 E2) as F2.
    rewrite Forall_forall in *. intros e I. split; [|exact (FX e I)]. apply extend_in in I as [I|I]; auto.
  Qed.
  Theorem forward_finishes : forwards L keep exploratory w prior.
  Proof.
    assert (R_valid : forall r, fcand r -> exists b, is_valid L r = Val b) by (intros r [H1 _]; destruct (validates r H1) as (v & E); unfold is_valid; rewrite E; cbn; eauto).
    pose proof (fun st (Fs : fair st) => finish_from L (re_eqb _ _ _ _ Re) keep fit fit_rewrite live fcand fcand_reverse (fun r H => cgood_name r (proj1 H)) (fun r H => cgood_score r (proj1 H)) R_valid (fun r H => cgood_rewrite r (proj1 H)) valid_fits st Fs) as Fin.
    pose proof (fun st (Fs : fair st) => next L (re_eqb _ _ _ _ Re) keep fit fit_rewrite live fcand fcand_reverse (fun r H => cgood_name r (proj1 H)) (fun r H => cgood_score r (proj1 H)) R_valid (fun r H => cgood_rewrite r (proj1 H)) valid_fits st Fs) as Nx.
    assert (Pa : exists a b, part = Val (a, b)). { unfold partition. rewrite (rmapM_pure _ (fun r => is_allowed_rewrite L (rlhs r) (rrhs r))) by reflexivity. cbn. eauto. }
    assert (A1 : forall fuel g order a b, 2 <= fuel -> to_egraph L keep fuel w = Val g -> part = Val (a, b) -> anyorder order -> goes_on L keep a g /\ exists f0 g1, forall f, f0 <= f -> compress L keep f order a g g1).
    { intros fuel g order a b Hf E Pt A. assert (G : goes_on L keep a g) by (apply live; [exact (fit_part a b Pt)|exact (R_workload L keep a fuel w g Hf E)]). split; [exact G|]. exact (go_schedule _ _ _ _ G (Compress order) A). }
    assert (A2 : forall fuel g a b g1, 2 <= fuel -> to_egraph L keep fuel w = Val g -> part = Val (a, b) -> compressed L keep fuel a g g1 ->
      goes_on L keep exploratory g1 /\ exists f0 g2, forall f, f0 <= f -> simple L keep f exploratory g1 g2).
    { intros fuel g a b g1 Hf E Pt Cm. assert (G : goes_on L keep exploratory g1) by (apply (live_parts (everything a)); [exact (everything_fit a b Pt)|apply everything_in|exact (allowed_reached fuel g a b g1 Hf E Pt Cm)]).
      split; [exact G|]. exact (go_schedule _ _ _ _ G Simple Logic.I). }
    assert (A3 : forall fuel g1 g2 order, 2 <= fuel -> explored L keep fuel exploratory w prior g1 g2 -> anyorder order ->
      extracting L g1 g2 /\ goes_on L keep (extend prior exploratory) g2 /\ exists f0 g3, forall f, f0 <= f -> compress L keep f order (extend prior exploratory) g2 g3).
    { intros fuel g1 g2 order Hf Ex A. destruct (explored_inv fuel g1 g2 Ex) as ((W1 & I1 & C1) & _ & _ & _ & Sz). split; [exact (extracting_all g1 g2 W1 C1 (run_ready g1 I1) Sz)|].
      destruct (explored_reached fuel g1 g2 Hf Ex) as (a & b & Pt & Rc). assert (G : goes_on L keep (extend prior exploratory) g2) by (apply (live_parts (everything a)); [exact (everything_fit a b Pt)|apply everything_in|exact Rc]).
      split; [exact G|]. exact (go_schedule _ _ _ _ G (Compress order) A). }
    assert (A4 : forall fuel g1 g2 g3, explored L keep fuel exploratory w prior g1 g2 -> compressed L keep fuel (extend prior exploratory) g2 g3 -> extracting L g2 g3).
    { intros fuel g1 g2 g3 Ex Cm. destruct (explored_inv fuel g1 g2 Ex) as (_ & W2 & I2 & C2 & _). destruct (compressed_step fuel _ g2 g3 (fit_extend _ _ fit_prior fit_exploratory) W2 I2 Cm) as (_ & _ & (Sz & _) & _).
      exact (extracting_all g2 g3 W2 C2 (run_ready g2 I2) Sz). }
    constructor.
    - exact start.
    - destruct Pa as (a & b & Pt). exists a, b. split; [exact Pt|]. intros fuel g order Hf E A. exact (A1 fuel g order a b Hf E Pt A).
    - exact A2.
    - exact A3.
    - intros fuel g1 g2 g3 _ Ex Cm. exact (A4 fuel g1 g2 g3 Ex Cm).
    - intros fuel c1 c2 st m chosen invalid _ Fw Fs Rs. pose proof (forwarded_cands fuel c1 c2 Fw) as Fc.
      destruct (rounds_fit L (re_eqb _ _ _ _ Re) keep fit fcand fcand_reverse valid_fits st fuel _ _ Rs (conj Fc fit_prior)) as [Fm Fch]. cbn [fst snd] in Fm, Fch.
      split; [intros Nm; exact (Nx st Fs m chosen invalid Fm Fch Nm)|]. exact (Fin st Fs (length m) m chosen invalid (le_n _) Fm Fch).
    - destruct start as (g & Eg). destruct Pa as (a & b & Pt). assert (A : anyorder (fun l : list (list nat) => l)) by (intros l; apply Permutation_refl).
      destruct (A1 2 g _ a b (le_n 2) (Eg 2 (le_n 2)) Pt A) as (_ & f1 & g1 & H1).
      assert (Cc : forall f, f1 <= f -> compressed L keep f a g g1) by (intros f Hf; eexists; split; [exact A|exact (H1 f Hf)]).
      destruct (A2 (2 + f1) g a b g1 (Nat.le_add_r 2 f1) (Eg _ (Nat.le_add_r 2 f1)) Pt (Cc _ (Nat.le_add_l f1 2))) as (_ & f2 & g2 & H2).
      assert (Ex : forall f, 2 + f1 + f2 <= f -> explored L keep f exploratory w prior g1 g2).
      { intros f Hf. exists g, a, b. split; [apply Eg; clear - Hf; lia|]. split; [exact Pt|]. split; [apply Cc; clear - Hf; lia|apply H2; clear - Hf; lia]. }
      destruct (A3 (2 + f1 + f2) g1 g2 _ ltac:(clear; lia) (Ex _ (le_n _)) A) as (X1 & _ & f3 & g3 & H3).
      assert (Ly : forall c : eg O C, layout c (class_ids c) (fun l : list (node O) => l)) by (intros c; split; [apply Permutation_refl|intros l; apply Permutation_refl]).
      destruct (X1 _ _ _ (Ly g1) A) as (f4 & c1 & H4).
      assert (Cc3 : forall f, f3 <= f -> compressed L keep f (extend prior exploratory) g2 g3) by (intros f Hf; eexists; split; [exact A|exact (H3 f Hf)]).
      assert (L0 : 2 + f1 + f2 <= 2 + f1 + f2 + f3) by (clear; lia). assert (L3 : f3 <= 2 + f1 + f2 + f3) by (clear; lia).
      destruct (A4 (2 + f1 + f2 + f3) g1 g2 g3 (Ex _ L0) (Cc3 _ L3) _ _ _ (Ly g2) A) as (f5 & c2 & H5).
      assert (E1 : forall f, f4 <= f -> extracted L f g1 g2 c1) by (intros f Hf; eexists _, _, _; split; [exact (Ly g1)|]; split; [exact A|exact (H4 f Hf)]).
      assert (E2 : forall f, f5 <= f -> extracted L f g2 g3 c2) by (intros f Hf; eexists _, _, _; split; [exact (Ly g2)|]; split; [exact A|exact (H5 f Hf)]).
      set (F := 2 + f1 + f2 + f3 + f4 + f5).
      assert (Fw : forall f, F <= f -> forwarded L keep f exploratory w prior c1 c2).
      { intros f Hf. exists g1, g2, g3. split; [apply Ex; clear - Hf; unfold F in *; lia|]. split; [apply E1; clear - Hf; unfold F in *; lia|]. split; [apply Cc3; clear - Hf; unfold F in *; lia|apply E2; clear - Hf; unfold F in *; lia]. }
      pose proof (forwarded_cands F c1 c2 (Fw F (le_n _))) as Fc.
      destruct (Fin (Compress (fun l => l)) A (length (extend c1 c2)) (extend c1 c2) prior [] (le_n _) Fc fit_prior) as (f6 & chosen & invalid & Hr).
      exists (F + f6), (remove_all chosen prior). intros f Hf. exists g, a, b, g1, g2, g3, c1, c2.
      split; [apply Eg; clear - Hf; unfold F in *; lia|]. split; [exact Pt|]. split; [apply Cc; clear - Hf; unfold F in *; lia|]. split; [apply H2; clear - Hf; unfold F in *; lia|].
      split; [apply E1; clear - Hf; unfold F in *; lia|]. split; [apply Cc3; clear - Hf; unfold F in *; lia|]. split; [apply E2; clear - Hf; unfold F in *; lia|].
      exists (fun l => l), invalid. split; [exact A|]. exists chosen. split; [apply Hr; clear - Hf; lia|reflexivity].
  Qed.
  (* what comes out can be used for another run *)
  Theorem forward_again : forall fuel new, NoDup (map fst prior) -> run_fast_forwarding L keep fuel exploratory w prior new ->
    NoDup (map fst (extend new prior)) /\ allfit (extend new prior).
  Proof.
    intros fuel new Nd Rw. destruct (forwarding_valid L keep fuel exploratory w prior new Nd Rw) as [Nn V]. split; [exact (extend_nodup' new prior Nn)|].
    destruct Rw as (g & a & b & g1 & g2 & g3 & c1 & c2 & E & Pt & Cm & S & E1 & Cm3 & E2 & (order & invalid & A & chosen & Rs & En)).
    assert (Fw : forwarded L keep fuel exploratory w prior c1 c2). { exists g1, g2, g3. split; [exists g, a, b; auto|]. auto. }
    destruct (rounds_fit L (re_eqb _ _ _ _ Re) keep fit fcand fcand_reverse valid_fits (Compress order) fuel _ _ Rs (conj (forwarded_cands fuel c1 c2 Fw) fit_prior)) as [_ Fch]. cbn [fst snd] in Fch.
    rewrite Forall_forall in *. intros e I. apply extend_in in I as [I|I]; [|auto]. apply Fch.
    destruct (rounds_valid L keep fuel (Compress order) prior _ _ Rs) as [Nc _]; [split; [exact Nd|auto]|]. cbn [fst snd] in Nc.
    destruct (RulesetProofs.remove_all_spec prior chosen Nc) as [Nr Lk]. subst new. destruct e as [k r]. apply (lookup_in_nodup _ _ _ Nr) in I. rewrite Lk in I.
    destruct (lookup prior k); [discriminate I|]. now apply lookup_some_in.
  Qed.
  End Forward.
End Whole.
