(* Equality saturation with SynthAnalysis keeps the values of an algebra, as long as
   the terms and rules do not leave the values that count. *)
From Verif Require Import Base BaseProofs Lang LangProofs Rule Ruleset RulesetProofs Analysis AnalysisSpec Generalize
  Egraph EgraphSpec EgraphProofs EgraphSound Synth Apply Sched SynthSpec SafeSpec.
From Coq Require Import Permutation.
Open Scope list_scope.

Section Sound.
  Context {O C V : Type}.
  Variable L : lang O C.
  Hypothesis eqb_eq : forall a b, l_eqb L a b = true <-> a = b.
  Variable keep : eg O C -> nat -> nat -> bool.
  Variable fuel : nat.
  Variable A : algebra O C V.
  Hypothesis St_alg : steady L A.
  Local Notation sem := (a_sem A).
  Local Notation dom := (a_dom A).
  Definition sdok (v : V) (d : sig O C) : Prop := dom v /\ a_says A (sg_itv d) v.

  Lemma slookup_combine : forall (P : nat -> sig O C -> Prop) ch ds, Forall2 P ch ds -> forall i, In i ch ->
    exists d, slookup (combine ch ds) i = Some d /\ P i d.
  Proof.
    intros P ch ds F. induction F as [|c d ch ds H F IH]; intros i I; [contradiction|]. cbn.
    destruct (Nat.eqb_spec i c) as [->|N]; [eauto|]. destruct I as [->|I]; [congruence|auto].
  Qed.
  Lemma sdok_dom : forall v d, sdok v d -> dom v.
  Proof. intros v d [D _]. exact D. Qed.
  Lemma s_make_dok : forall a n ds d val, Forall2 (fun c x => sdok (val c) x) (nch n) ds -> dom (sem (nop n) (map val (nch n))) -> s_make L a n ds = Val d ->
    sdok (sem (nop n) (map val (nch n))) d.
  Proof.
    intros a n ds d val F Dn H. unfold s_make, make in H.
    destruct (make_simplest _ _ n) as [s|]; [|discriminate H]. cbn [rbind] in H.
    destruct (l_eval L a (nop n) _) as [c|]; [|discriminate H]. cbn [rbind] in H.
    match type of H with (let* i := ?x in _) = _ => destruct x as [iv|] eqn:E; [|discriminate H] end. cbn [rbind] in H.
    inversion H; subst d. unfold sdok. cbn.
    assert (Fd : Forall dom (map val (nch n))). { clear - F. induction F as [|c x l l' [D _] F IH]; cbn; constructor; auto. }
    split; [exact Dn|]. refine (st_itvs _ _ St_alg _ _ _ _ Fd Dn _ E).
    assert (G : forall i, In i (nch n) -> exists d, slookup (combine (nch n) ds) i = Some d /\ sdok (val i) d)
      by (apply slookup_combine; exact F).
    clear - G. revert G. generalize (combine (nch n) ds) as m. intros m. generalize (nch n) as l.
    induction l as [|c l IH]; intros G; cbn; constructor.
    - destruct (G c) as (d & -> & _ & K); [now left|]. exact K.
    - apply IH. intros i I. apply G. now right.
  Qed.
  Lemma s_merge_dok : forall v d1 d2 d c, sdok v d1 -> sdok v d2 -> s_merge L d1 d2 = Val (d, c) -> sdok v d.
  Proof.
    intros v d1 d2 d c [D H1] [_ H2] H. split; [exact D|]. unfold s_merge, merge in H.
    destruct (merge_cvecs _ _ _) as [[[cv a1] b1]|]; [|discriminate H]. cbn [rbind] in H.
    destruct (mk_itv _ _ _) as [i|] eqn:E; [|discriminate H]. cbn [rbind] in H.
    destruct (cost_rec _ (sg_simplest d2)) as [cf|]; [|discriminate H]. cbn [rbind] in H.
    destruct (cost_rec _ (sg_simplest d1)) as [ct|]; [|discriminate H]. cbn [rbind] in H.
    assert (Ei : sg_itv d = i). { destruct (BinNat.N.ltb cf ct); inversion H; reflexivity. }
    rewrite Ei. exact (st_merge _ _ St_alg v _ _ _ D H1 H2 E).
  Qed.

  Local Notation snd := (sound (A := nat) sem sdok).
  Lemma class_data_val : forall (g : eg O C) i, wf g -> i < size g -> exists d, class_data g i = Val d.
  Proof.
    intros g i W Li. destruct (find_val g i Li) as (r & F). unfold class_data. rewrite F. cbn.
    destruct (index_lt _ (g_data g) r) as (d & E & _); [|eauto].
    rewrite (wf_data g W). apply (find_some g r r). exact (wf_rep g W _ _ F).
  Qed.
  Lemma sound_dom : forall val (g : eg O C), wf g -> snd val g -> forall i, i < size g -> dom (val i).
  Proof.
    intros val g W [_ S] i Li. destruct (class_data_val g i W Li) as (d & E). exact (proj1 (S i d E)).
  Qed.
  Lemma stages_true : forall s, In s [l_custom L; const_stage L] -> forall val g i ts, wf g -> i < size g -> snd val g -> s g i = Val ts ->
    forall r, In r ts -> rec_ok A r /\ forall t, tree r = Val t -> aval sem t = val i.
  Proof.
    intros s [<-|[<-|[]]] val g i ts W Li [M Dk] H r I.
    - exact (st_custom _ _ St_alg val g i ts W Li (sound_dom val g W (conj M Dk)) M H r I).
    - unfold const_stage in H. destruct (class_data g i) as [d|] eqn:E; [|discriminate H]. cbn [rbind] in H.
      destruct (Dk i d E) as [D K]. destruct (sg_itv d) as [lo hi]. cbn in H.
      destruct lo as [a|]; [|inversion H; subst; contradiction]. destruct hi as [b|]; [|inversion H; subst; contradiction].
      destruct (l_ceqb L a b) eqn:Eq; inversion H; subst; [|contradiction]. destruct I as [<-|[]].
      exact (st_const _ _ St_alg a b _ D K Eq).
  Qed.
  Lemma s_md : md_sound sem sdok (s_modify L keep fuel).
  Proof. exact (modify_sound _ eqb_eq _ _ _ _ _ dom s_make_dok s_merge_dok _ stages_true fuel). Qed.
  Lemma s_md_ok : md_ok (s_modify L keep fuel).
  Proof. exact (modify_ok _ eqb_eq _ _ _ _ fuel). Qed.

  (* ---- applying rules ---- *)
  (* values of the substitution *)
  Definition sval (val : nat -> V) (s : subst) (d : V) (v : string) : V :=
    match lookup s v with Some i => val i | None => d end.
  Lemma pmatch_ind' : forall (g : eg O C) (s : subst) (P : term (eov O) -> nat -> Prop),
    (forall v ts i c, lookup s v = Some i -> eqv g i c -> P (T (PV v) ts) c) ->
    (forall o ts ch c, Forall2 (pmatch g s) ts ch -> Forall2 P ts ch -> has g o ch c -> P (T (EN o) ts) c) ->
    forall t c, pmatch g s t c -> P t c.
  Proof.
    intros g s P H1 H2. fix IH 3. intros t c [v ts i c' Hl He|o ts ch c' F Hh].
    - exact (H1 v ts i c' Hl He).
    - apply (H2 o ts ch c' F); [|exact Hh]. clear Hh. induction F; constructor; auto.
  Qed.
  Lemma pmatch_ext : forall (g h : eg O C) s t c, ext g h -> pmatch g s t c -> pmatch h s t c.
  Proof.
    intros g h s t c E. revert t c. apply (pmatch_ind' g s (fun t c => pmatch h s t c)).
    - intros v ts i c Hl He. apply PM_var with i; [exact Hl|]. now apply E.
    - intros o ts ch c F IH Hh. apply PM_node with ch; [exact IH|]. now apply E.
  Qed.
  Lemma pmatch_val : forall val (g : eg O C) s d t c, models sem val g -> pmatch g s t c -> paval sem (sval val s d) t = val c.
  Proof.
    intros val g s d t c M. revert t c. apply (pmatch_ind' g s (fun t c => paval sem (sval val s d) t = val c)).
    - intros v ts i c Hl He. cbn. unfold sval. rewrite Hl. now apply M.
    - intros o ts ch c F IH Hh. cbn. rewrite (models_has _ _ _ _ _ _ _ M Hh). f_equal. clear - IH. induction IH; cbn; f_equal; auto.
  Qed.

  Lemma pmatch_lt : forall (g : eg O C) s t c, pmatch g s t c -> c < size g.
  Proof.
    intros g s t c [v ts i c' Hl He|o ts ch c' F Hh].
    - eapply eqv_lt; eauto.
    - destruct Hh as (n & i & _ & _ & _ & E). eapply eqv_lt; eauto.
  Qed.

  (* apply_pat builds an instance of the pattern *)
  Lemma apply_nodes_ok : forall p (g : eg O C) s ids ts ts' g' ids', wf g -> Forall (fun e => Datatypes.snd e < size g) s ->
    Forall2 (pmatch g s) ts ids -> run_buf (fun o ts => Val (T o ts)) p ts = Val ts' ->
    apply_nodes L keep fuel g s ids p = Val (g', ids') ->
    wf g' /\ ext g g' /\ Forall2 (pmatch g' s) ts' ids'.
  Proof.
    induction p as [|n p IH]; intros g s ids ts ts' g' ids' W Fs F R H; cbn in H, R.
    - inversion H; inversion R; subst. split; [exact W|]. split; [apply ext_refl|]. exact F.
    - destruct (rmapM (index ts) (nch n)) as [us|] eqn:Eu; [|discriminate R]. cbn in R.
      destruct n as [[o|v] nc]; cbn [nop nch] in *.
      + destruct (rmapM (index ids) nc) as [ch|] eqn:Ec; [|discriminate H]. cbn [rbind] in H.
        destruct (s_add L keep fuel g (Node o ch)) as [[g1 i]|] eqn:Ad; [|discriminate H]. cbn [rbind] in H.
        destruct (add_ok _ eqb_eq _ _ s_md_ok _ _ _ _ W Ad) as (W1 & E1 & H1). cbn in H1.
        assert (Fu : Forall2 (pmatch g s) us ch).
        { clear - F Eu Ec. apply rmapM_F2 in Eu, Ec. revert ch Ec. induction Eu as [|c u nc us Hc Eu IH]; intros ch Ec; inversion Ec; subst; constructor; auto.
          apply index_some in Hc as [_ Hc]. match goal with X : index ids c = Val _ |- _ => apply index_some in X as [_ X]; revert Hc X end.
          clear - F. revert c. induction F; intros [|c] A B; cbn in *; try discriminate A; [inversion A; inversion B; subst; auto|eauto]. }
        assert (Fe : forall us ch, Forall2 (pmatch g s) us ch -> Forall2 (pmatch g1 s) us ch).
        { clear - E1. intros us ch F. induction F; constructor; auto. eapply pmatch_ext; eauto. }
        apply (IH g1 s (ids ++ [i]) (ts ++ [T (EN o) us]) ts') in H; [|exact W1| | |exact R].
        * destruct H as (W2 & E2 & F'). split; [exact W2|]. split; [exact (ext_trans _ _ _ E1 E2)|exact F'].
        * eapply Forall_impl; [|exact Fs]. cbn. destruct E1 as (Ls & _). intros; lia.
        * apply Forall2_app; [auto|]. constructor; [|constructor]. apply PM_node with ch; auto.
      + destruct (lookup s v) as [i|] eqn:El; [|discriminate H]. cbn [unwrap rbind] in H.
        assert (Li : i < size g).
        { clear - El Fs. induction Fs as [|[k j] s Hj Fs IHs]; cbn in El; [discriminate El|].
          destruct (String.eqb v k); [inversion El; subst; exact Hj|auto]. }
        apply (IH g s (ids ++ [i]) (ts ++ [T (PV v) us]) ts') in H; auto.
        apply Forall2_app; [auto|]. constructor; [|constructor]. apply PM_var with i; [exact El|]. now apply eqv_refl.
  Qed.
  Lemma apply_pat_ok : forall p t (g : eg O C) s g' i, wf g -> Forall (fun e => Datatypes.snd e < size g) s -> tree p = Val t ->
    apply_pat L keep fuel g s p = Val (g', i) -> wf g' /\ ext g g' /\ pmatch g' s t i.
  Proof.
    intros p t g s g' i W Fs Tr H. unfold apply_pat in H. unfold tree, fold_rec in Tr.
    destruct (run_buf _ p []) as [ts|] eqn:R; [|discriminate Tr]. cbn in Tr.
    destruct (apply_nodes L keep fuel g s [] p) as [[g1 ids]|] eqn:E; [|discriminate H]. cbn in H.
    destruct (pop_unwrap ids) as [j|] eqn:P; [|discriminate H]. cbn in H. inversion H; subst g1 j.
    destruct (apply_nodes_ok _ _ _ _ _ _ _ _ W Fs (Forall2_nil _) R E) as (W1 & E1 & F).
    split; [exact W1|]. split; [exact E1|]. destruct (F2_pop _ _ _ _ _ _ F P) as (t' & T1 & T2). congruence.
  Qed.
  Lemma sval_agree : forall (val val' : nat -> V) n s d v, (forall i, i < n -> val' i = val i) ->
    Forall (fun e => Datatypes.snd e < n) s -> sval val' s d v = sval val s d v.
  Proof.
    intros val val' n s d v Ag F. unfold sval. induction F as [|[k j] s Hj F IH]; cbn; [reflexivity|].
    destruct (String.eqb v k); auto.
  Qed.
  Lemma paval_ext : forall (e e' : string -> V) t, (forall v, e v = e' v) -> paval sem e t = paval sem e' t.
  Proof.
    intros e e' t H. induction t as [[o|v] ts IH] using term_ind'; cbn; [|apply H]. f_equal.
    clear - IH. induction IH; cbn; f_equal; auto.
  Qed.

  Lemma apply_nodes_carries : forall p val (g : eg O C) s d ids ts ts' g' ids', wf g -> snd val g -> Forall (fun e => Datatypes.snd e < size g) s ->
    Forall2 (pmatch g s) ts ids -> run_buf (fun o ts => Val (T o ts)) p ts = Val ts' -> Forall (fun t => dom (paval sem (sval val s d) t)) ts' ->
    apply_nodes L keep fuel g s ids p = Val (g', ids') -> carries sem sdok val g g'.
  Proof.
    induction p as [|n p IH]; intros val g s d ids ts ts' g' ids' W S Fs F R Dt H; cbn in H, R.
    - inversion H; subst. now apply carries_refl.
    - destruct (rmapM (index ts) (nch n)) as [us|] eqn:Eu; [|discriminate R]. cbn in R.
      destruct n as [[o|v] nc]; cbn [nop nch] in *.
      + destruct (rmapM (index ids) nc) as [ch|] eqn:Ec; [|discriminate H]. cbn [rbind] in H.
        destruct (s_add L keep fuel g (Node o ch)) as [[g1 i]|] eqn:Ad; [|discriminate H]. cbn [rbind] in H.
        destruct (add_ok _ eqb_eq _ _ s_md_ok _ _ _ _ W Ad) as (W1 & E1 & H1). cbn in H1.
        assert (Fu : Forall2 (pmatch g s) us ch).
        { clear - F Eu Ec. apply rmapM_F2 in Eu, Ec. revert ch Ec. induction Eu as [|c u nc us Hc Eu IH]; intros ch Ec; inversion Ec; subst; constructor; auto.
          apply index_some in Hc as [_ Hc]. match goal with X : index ids c = Val _ |- _ => apply index_some in X as [_ X]; revert Hc X end.
          clear - F. revert c. induction F; intros [|c] A B; cbn in *; try discriminate A; [inversion A; inversion B; subst; auto|eauto]. }
        assert (Dn : dom (sem o (map val ch))).
        { rewrite Forall_forall in Dt. assert (Du : dom (paval sem (sval val s d) (T (EN o) us))). { apply Dt. apply (run_buf_in p _ _ _ R). apply in_or_app. right. now left. }
          cbn in Du. replace (map val ch) with (map (paval sem (sval val s d)) us); [exact Du|]. clear - Fu S. induction Fu as [|u c us ch Hu Fu IHu]; [reflexivity|]. cbn. f_equal; [|exact IHu].
          exact (pmatch_val val g s d u c (proj1 S) Hu). }
        assert (Fe : forall us ch, Forall2 (pmatch g s) us ch -> Forall2 (pmatch g1 s) us ch).
        { clear - E1. intros us ch F. induction F; constructor; auto. eapply pmatch_ext; eauto. }
        apply carries_trans with g1; [apply E1| |].
        * exact (add_carries _ _ _ _ dom s_make_dok _ s_md val g (Node o ch) g1 i W S Dn Ad).
        * intros val' Ag S'. apply (IH val' g1 s d (ids ++ [i]) (ts ++ [T (EN o) us]) ts' g' ids' W1 S'); [| |exact R| |exact H].
          { eapply Forall_impl; [|exact Fs]. cbn. destruct E1 as (Ls & _). intros; lia. }
          { apply Forall2_app; [auto|]. constructor; [|constructor]. apply PM_node with ch; auto. }
          { eapply Forall_impl; [|exact Dt]. intros t. cbn. rewrite (paval_ext (sval val' s d) (sval val s d)); [auto|]. intros x. exact (sval_agree val val' (size g) s d x Ag Fs). }
      + destruct (lookup s v) as [i|] eqn:El; [|discriminate H]. cbn [unwrap rbind] in H.
        apply (IH val g s d (ids ++ [i]) (ts ++ [T (PV v) us]) ts' g' ids' W S Fs); [|exact R|exact Dt|exact H].
        apply Forall2_app; [exact F|]. constructor; [|constructor]. apply PM_var with i; [exact El|]. apply eqv_refl.
        clear - El Fs. induction Fs as [|[k j] s Hj Fs IHs]; cbn in El; [discriminate El|].
        destruct (String.eqb v k); [inversion El; subst; exact Hj|auto].
  Qed.
  Lemma apply_pat_carries : forall p t val (g : eg O C) s d g' i, wf g -> snd val g -> Forall (fun e => Datatypes.snd e < size g) s ->
    tree p = Val t -> pat_ok A (sval val s d) p -> apply_pat L keep fuel g s p = Val (g', i) -> carries sem sdok val g g'.
  Proof.
    intros p t val g s d g' i W S Fs Tr Pk H. unfold apply_pat in H. unfold tree, fold_rec in Tr.
    destruct (run_buf _ p []) as [ts|] eqn:R; [|discriminate Tr].
    destruct (apply_nodes L keep fuel g s [] p) as [[g1 ids]|] eqn:E; [|discriminate H]. cbn in H.
    destruct (pop_unwrap ids) as [j|] eqn:P; [|discriminate H]. cbn in H. inversion H; subst g1 j.
    exact (apply_nodes_carries _ _ _ _ d _ _ _ _ _ W S Fs (Forall2_nil _) R (Pk ts R) E).
  Qed.

  (* one application of a safe rule, at one of its matches *)
  Lemma matches_ext : forall (g h : eg O C) r c s, ext g h -> matches g r c s -> matches h r c s.
  Proof.
    intros g h r c s E [(t & Tr & M) F]. split.
    - exists t. split; [exact Tr|]. exact (pmatch_ext g h s t c E M).
    - destruct E as (Ls & _). eapply Forall_impl; [|exact F]. cbn. intros; lia.
  Qed.
  Lemma apply_plain_ok : forall p t (g : eg O C) c s g' ids, wf g -> Forall (fun e => Datatypes.snd e < size g) s -> tree p = Val t ->
    apply_plain L keep fuel p g c s = Val (g', ids) -> wf g' /\ ext g g' /\ pmatch g' s t c.
  Proof.
    intros p t g c s g' ids W Fs Tr H. unfold apply_plain in H.
    destruct (apply_pat L keep fuel g s p) as [[g1 i]|] eqn:E; [|discriminate H]. cbn in H.
    destruct (s_union L keep fuel g1 i c) as [[g2 b]|] eqn:U; [|discriminate H]. cbn in H. inversion H; subst g2.
    destruct (apply_pat_ok _ _ _ _ _ _ W Fs Tr E) as (W1 & E1 & M).
    destruct (union_ok _ _ _ s_md_ok _ _ _ _ _ W1 U) as (W2 & E2 & Q).
    split; [exact W2|]. split; [exact (ext_trans _ _ _ E1 E2)|].
    apply (pmatch_ext g1 g') in M; [|exact E2]. clear - M Q.
    inversion M as [v ts j c' Hl He|o ts ch c' F Hh]; subst.
    - apply PM_var with j; [exact Hl|]. exact (eqv_trans _ _ _ _ He Q).
    - apply PM_node with ch; [exact F|]. apply has_eqv with ch i; [exact Hh| |exact Q].
      apply eqvs_refl. destruct Hh as (n & k & _ & _ & Fh & _). clear - Fh. induction Fh; constructor; auto. eapply eqv_lt; eauto.
  Qed.
  Lemma apply_rhs_ok : forall p t (g : eg O C) c s g' ids, wf g -> Forall (fun e => Datatypes.snd e < size g) s -> tree p = Val t ->
    apply_rhs L keep fuel p g c s = Val (g', ids) -> wf g' /\ ext g g'.
  Proof.
    intros p t g c s g' ids W Fs Tr H. unfold apply_rhs in H.
    destruct (class_data g c) as [d|]; [|discriminate H]. cbn in H.
    destruct (negb (is_defined d)). { inversion H; subst. split; [exact W|apply ext_refl]. }
    destruct (apply_pat L keep fuel g s p) as [[g1 i]|] eqn:E; [|discriminate H]. cbn in H.
    destruct (apply_pat_ok _ _ _ _ _ _ W Fs Tr E) as (W1 & E1 & M).
    destruct (Nat.eqb i c). { inversion H; subst. auto. }
    destruct (class_data g1 i) as [d1|]; [|discriminate H]. cbn in H.
    destruct (negb (is_defined d1)). { inversion H; subst. auto. }
    destruct (s_union L keep fuel g1 i c) as [[g2 b]|] eqn:U; [|discriminate H]. cbn in H. inversion H; subst g2.
    destruct (union_ok _ _ _ s_md_ok _ _ _ _ _ W1 U) as (W2 & E2 & Q). split; [exact W2|exact (ext_trans _ _ _ E1 E2)].
  Qed.
  Lemma apply_one_ok : forall r t (g : eg O C) c s g' ids, wf g -> Forall (fun e => Datatypes.snd e < size g) s -> tree (rrhs r) = Val t ->
    apply_one L keep fuel r g c s = Val (g', ids) -> wf g' /\ ext g g'.
  Proof.
    intros r t g c s g' ids W Fs Tr H. unfold apply_one in H. destruct (rkind r) as [| |v].
    - exact (apply_rhs_ok _ _ _ _ _ _ _ W Fs Tr H).
    - destruct (apply_plain_ok _ _ _ _ _ _ _ W Fs Tr H) as (X1 & X2 & _). auto.
    - destruct (guard L v g s) as [b|]; [|discriminate H]. cbn in H. destruct b.
      + destruct (apply_plain_ok _ _ _ _ _ _ _ W Fs Tr H) as (X1 & X2 & _). auto.
      + inversion H; subst. split; [exact W|apply ext_refl].
  Qed.

  Lemma union_pat_carries : forall p t val (g g1 : eg O C) c s i g2 b tl, wf g -> Forall (fun e => Datatypes.snd e < size g) s -> tree p = Val t ->
    snd val g -> pat_ok A (sval val s (val c)) p -> apply_pat L keep fuel g s p = Val (g1, i) -> s_union L keep fuel g1 i c = Val (g2, b) ->
    pmatch g s tl c -> paval sem (sval val s (val c)) tl = paval sem (sval val s (val c)) t -> carries sem sdok val g g2.
  Proof.
    intros p t val g g1 c s i g2 b tl W Fs Tr S Pk E U M Eq.
    destruct (apply_pat_ok _ _ _ _ _ _ W Fs Tr E) as (W1 & E1 & M1).
    apply carries_trans with g1; [apply E1|exact (apply_pat_carries _ _ _ _ _ (val c) _ _ W S Fs Tr Pk E)|].
    intros val' Ag S'. refine (union_carries _ _ _ _ s_merge_dok _ s_md _ _ _ _ _ _ W1 S' _ U).
    rewrite <- (pmatch_val val' g1 s (val c) t i (proj1 S') M1).
    rewrite <- (pmatch_val val' g1 s (val c) tl c (proj1 S') (pmatch_ext _ _ _ _ _ E1 M)).
    rewrite !(paval_ext (sval val' s (val c)) (sval val s (val c))) by (intros v; exact (sval_agree _ _ _ _ _ _ Ag Fs)).
    symmetry. exact Eq.
  Qed.
  Lemma apply_one_carries : forall r val (g : eg O C) c s g' ids, wf g -> snd val g -> safe L A r -> matches g r c s ->
    apply_one L keep fuel r g c s = Val (g', ids) -> carries sem sdok val g g'.
  Proof.
    intros r val g c s g' ids W S (tl & tr & Tl & Tr & Eq) [(t & Tt & M) Fs] H.
    rewrite Tl in Tt. inversion Tt; subst t. clear Tt. unfold apply_one in H.
    assert (Dv : forall v, dom (sval val s (val c) v)).
    { intros v. pose proof (sound_dom val g W S) as Sd. unfold sval. destruct (lookup s v) as [i|] eqn:El.
      - apply Sd. clear - El Fs. induction Fs as [|[k j] s Hj Fs IHs]; cbn in El; [discriminate El|].
        destruct (String.eqb v k); [inversion El; subst; exact Hj|auto].
      - apply Sd. exact (pmatch_lt _ _ _ _ M). }
    assert (Sub : sub_ok A (sval val s (val c)) tl).
    { pose proof (sound_dom val g W S) as Sd. clear Tl Tr Eq H. revert tl c M Dv.
      assert (Gen : forall d t c, pmatch g s t c -> (forall v, dom (sval val s d v)) -> sub_ok A (sval val s d) t).
      { intros d. apply (pmatch_ind' g s (fun t c => (forall v, dom (sval val s d v)) -> sub_ok A (sval val s d) t)).
        - intros v ts i c Hl He Dv. cbn. apply Dv.
        - intros o ts ch c F IH Hh Dv. cbn [sub_ok]. split.
          + rewrite (pmatch_val val g s d (T (EN o) ts) c (proj1 S)); [|now apply PM_node with ch]. apply Sd. exact (pmatch_lt g s (T (EN o) ts) c ltac:(now apply PM_node with ch)).
          + clear - IH Dv. induction IH; cbn; auto. }
      intros tl c M Dv. exact (Gen (val c) tl c M Dv). }
    assert (P : guarded L A (rkind r) (sval val s (val c)) -> apply_plain L keep fuel (rrhs r) g c s = Val (g', ids) -> carries sem sdok val g g').
    { intros G X. unfold apply_plain in X. destruct (apply_pat L keep fuel g s (rrhs r)) as [[g1 i]|] eqn:E; [|discriminate X]. cbn in X.
      destruct (s_union L keep fuel g1 i c) as [[g2 b]|] eqn:U; [|discriminate X]. cbn in X. inversion X; subst g2.
      exact (union_pat_carries _ _ _ _ _ _ _ _ _ _ _ W Fs Tr S (proj1 (Eq _ Dv G Sub)) E U M (proj2 (Eq _ Dv G Sub))). }
    destruct (rkind r) as [| |v] eqn:K.
    - pose proof (proj1 (Eq _ Dv I Sub)) as Pk. unfold apply_rhs in H. destruct (class_data g c) as [d|]; [|discriminate H]. cbn in H.
      destruct (negb (is_defined d)). { inversion H; subst. now apply carries_refl. }
      destruct (apply_pat L keep fuel g s (rrhs r)) as [[g1 i]|] eqn:E; [|discriminate H]. cbn in H.
      destruct (Nat.eqb i c). { inversion H; subst. exact (apply_pat_carries _ _ _ _ _ (val c) _ _ W S Fs Tr Pk E). }
      destruct (class_data g1 i) as [d1|]; [|discriminate H]. cbn in H.
      destruct (negb (is_defined d1)). { inversion H; subst. exact (apply_pat_carries _ _ _ _ _ (val c) _ _ W S Fs Tr Pk E). }
      destruct (s_union L keep fuel g1 i c) as [[g2 b]|] eqn:U; [|discriminate H]. cbn in H. inversion H; subst g2.
      exact (union_pat_carries _ _ _ _ _ _ _ _ _ _ _ W Fs Tr S Pk E U M (proj2 (Eq _ Dv I Sub))).
    - exact (P I H).
    - destruct (guard L v g s) as [b|] eqn:G; [|discriminate H]. cbn in H. destruct b.
      + apply P; [|exact H]. unfold guard in G. destruct (lookup s v) as [i|] eqn:El; [|discriminate G]. cbn in G.
        destruct (class_nodes g i) as [ns|] eqn:Cn; [|discriminate G]. cbn in G. inversion G as [Ge]. clear G.
        apply existsb_exists in Ge as (n & In_n & Al). exists (nop n), (map val (nch n)). split; [exact Al|].
        apply (class_nodes_has g i ns W Cn) in In_n. split.
        { destruct In_n as (n' & k & _ & _ & Fh & _). clear - Fh W S. induction Fh; cbn; constructor; auto.
          apply (sound_dom val g W S). eapply eqv_lt; eauto. }
        unfold sval. rewrite El. exact (models_has _ _ _ _ _ _ _ (proj1 S) In_n).
      + inversion H; subst. now apply carries_refl.
  Qed.

  (* ---- runners and schedulers ---- *)
  (* the rules in use *)
  Variable rok : rule O -> Prop.
  Hypothesis rok_safe : forall r, rok r -> safe L A r.
  Definition good (g : eg O C) (ms : list (rule O * nat * subst)) : Prop :=
    Forall (fun m => let '(r, c, s) := m in rok r /\ matches g r c s) ms.
  Lemma good_ext : forall g h ms, ext g h -> good g ms -> good h ms.
  Proof.
    intros g h ms E G. eapply Forall_impl; [|exact G]. intros [[r c] s] [H M]. split; [exact H|]. exact (matches_ext _ _ _ _ _ E M).
  Qed.
  Lemma rstep_ok : forall rules, Forall (rok) rules -> forall x y, rstep L keep fuel rules x y ->
    wf (fst x) -> good (fst x) (Datatypes.snd x) ->
    wf (fst y) /\ ext (fst x) (fst y) /\ good (fst y) (Datatypes.snd y) /\
    forall val, snd val (fst x) -> carries sem sdok val (fst x) (fst y).
  Proof.
    intros rules Hr x y St W G. destruct St as [g ms r c s Ir M|g ms r c s g' ids Im Ap|g ms g' Rb]; cbn [fst Datatypes.snd] in *.
    - split; [exact W|]. split; [apply ext_refl|]. split; [|intros; now apply carries_refl].
      constructor; [|exact G]. split; [|exact M]. rewrite Forall_forall in Hr. auto.
    - unfold good in G. rewrite Forall_forall in G. pose proof (G _ Im) as [Hd M]. 
      destruct (rok_safe r Hd) as (tl & tr & _ & Tr & _). pose proof M as [_ Fs].
      destruct (apply_one_ok r tr g c s g' ids W Fs Tr Ap) as [W' E]. split; [exact W'|]. split; [exact E|].
      split; [apply (good_ext g g' ms E); unfold good; now rewrite Forall_forall|].
      intros val S. exact (apply_one_carries r val g c s g' ids W S (rok_safe r Hd) M Ap).
    - destruct (rebuild_ok _ eqb_eq _ _ _ _ s_md_ok _ _ _ W Rb) as (W' & E & _). split; [exact W'|]. split; [exact E|].
      split; [exact (good_ext _ _ _ E G)|]. intros val S.
      exact (rebuild_carries _ eqb_eq _ _ _ _ _ dom sdok_dom s_make_dok s_merge_dok _ s_md _ _ _ _ W S Rb).
  Qed.
  (* what every step below gives *)
  Definition moves (g g' : eg O C) : Prop :=
    wf g' /\ ext g g' /\ forall val, snd val g -> carries sem sdok val g g'.
  Lemma moves_refl : forall g, wf g -> moves g g.
  Proof. intros g W. split; [exact W|]. split; [apply ext_refl|]. intros; now apply carries_refl. Qed.
  Lemma moves_trans : forall g h k, moves g h -> moves h k -> moves g k.
  Proof.
    intros g h k (W & E & S) (W' & E' & S'). split; [exact W'|]. split; [exact (ext_trans _ _ _ E E')|].
    intros val Hv. apply carries_trans with h; [apply E|auto|]. intros val' _ Hv'. auto.
  Qed.
  Lemma rsteps_moves : forall rules, Forall (rok) rules -> forall x y, rsteps L keep fuel rules x y ->
    wf (fst x) -> good (fst x) (Datatypes.snd x) -> moves (fst x) (fst y).
  Proof.
    intros rules Hr x y St. induction St as [x|x y z S1 S2 IH]; intros W G; [now apply moves_refl|].
    destruct (rstep_ok rules Hr x y S1 W G) as (W' & E & G' & Cr).
    apply moves_trans with (fst y); [|auto]. split; [exact W'|]. auto.
  Qed.
  Lemma runs_moves : forall rules, Forall (rok) rules -> forall g g', wf g -> runs L keep fuel rules g g' -> moves g g'.
  Proof.
    intros rules Hr g g' W (ms & St). exact (rsteps_moves rules Hr _ _ St W (Forall_nil _)).
  Qed.
  Lemma rebuild_moves : forall g g', wf g -> s_rebuild L keep fuel g = Val g' -> moves g g' /\ congruent g' /\ canonical g'.
  Proof.
    intros g g' W Rb. destruct (rebuild_ok _ eqb_eq _ _ _ _ s_md_ok _ _ _ W Rb) as (W' & E & K).
    split; [|exact K]. split; [exact W'|]. split; [exact E|].
    intros val S. exact (rebuild_carries _ eqb_eq _ _ _ _ _ dom sdok_dom s_make_dok s_merge_dok _ s_md _ _ _ _ W S Rb).
  Qed.
  Local Notation ruleset_holds := (fun rs : ruleset O => Forall (fun e => rok (Datatypes.snd e)) rs).
  Lemma all_hold_map : forall rs, ruleset_holds rs <-> Forall (rok) (map Datatypes.snd rs).
  Proof. intros rs. now rewrite Forall_map. Qed.
  Lemma simple_moves : forall rs g g', ruleset_holds rs -> wf g -> simple L keep fuel rs g g' -> moves g g' /\ congruent g' /\ canonical g'.
  Proof.
    intros rs g g' Hr W (g1 & R & Rb). apply all_hold_map in Hr. pose proof (runs_moves _ Hr _ _ W R) as M.
    destruct (rebuild_moves g1 g' (proj1 M) Rb) as [M' K]. split; [exact (moves_trans _ _ _ M M')|exact K].
  Qed.
  Lemma sat_rounds_moves : forall a b, Forall (rok) a -> Forall (rok) b -> forall n g g', wf g ->
    sat_rounds L keep fuel a b n g g' -> moves g g'.
  Proof.
    intros a b Ha Hb n g g' W R. induction R as [g|n g g1 g2 g' R1 R2 R IH]; [now apply moves_refl|].
    pose proof (runs_moves _ Ha _ _ W R1) as M1. pose proof (runs_moves _ Hb _ _ (proj1 M1) R2) as M2.
    apply moves_trans with g1; [exact M1|]. apply moves_trans with g2; [exact M2|]. apply IH. exact (proj1 M2).
  Qed.
  Lemma partition_holds : forall f rs a b, ruleset_holds rs -> partition f rs = Val (a, b) -> ruleset_holds a /\ ruleset_holds b.
  Proof.
    intros f rs a b Hr H. destruct (partition_sub f rs a b H) as [Sa Sb]. apply all_hold_map in Hr. rewrite Forall_forall in Hr.
    split; apply all_hold_map, Forall_forall; intros r I; apply in_map_iff in I as (e & <- & I); apply Hr; auto.
  Qed.
  Lemma saturating_moves : forall iter rs g g', ruleset_holds rs -> wf g -> saturating L keep fuel iter rs g g' ->
    moves g g' /\ congruent g' /\ canonical g'.
  Proof.
    intros iter rs g g' Hr W (a & b & g1 & g2 & P & R & R2 & Rb). destruct (partition_holds _ _ _ _ Hr P) as [Ha Hb]. apply all_hold_map in Ha, Hb.
    pose proof (sat_rounds_moves _ _ Ha Hb _ _ _ W R) as M1. pose proof (runs_moves _ Ha _ _ (proj1 M1) R2) as M2.
    destruct (rebuild_moves g2 g' (proj1 M2) Rb) as [M3 K]. split; [|exact K].
    apply moves_trans with g1; [exact M1|]. exact (moves_trans _ _ _ M2 M3).
  Qed.

  (* ---- Compress ---- *)
  Lemma group_in_ok : forall (out : eg O C) k i m, find out i = Val k ->
    Forall (fun e => Forall (fun j => find out j = Val (fst e)) (Datatypes.snd e)) m ->
    Forall (fun e => Forall (fun j => find out j = Val (fst e)) (Datatypes.snd e)) (group_in k i m).
  Proof.
    intros out k i m F H. induction H as [|[k' is] m H Hm IH]; cbn; [constructor; cbn; auto|].
    destruct (Nat.eqb_spec k k') as [->|N]; constructor; auto. cbn in *. apply Forall_app. auto.
  Qed.
  Lemma group_by_ok : forall (out : eg O C) ids m m', group_by out ids m = Val m' ->
    Forall (fun e => Forall (fun j => find out j = Val (fst e)) (Datatypes.snd e)) m ->
    Forall (fun e => Forall (fun j => find out j = Val (fst e)) (Datatypes.snd e)) m'.
  Proof.
    induction ids as [|i ids IH]; intros m m' H F; cbn in H; [now inversion H; subst|].
    destruct (find out i) as [k|] eqn:E; [|discriminate H]. cbn in H. apply (IH _ _ H). now apply group_in_ok.
  Qed.
  Lemma union_first_moves : forall ids (g : eg O C) f g', wf g -> union_first L keep fuel g f ids = Val g' ->
    wf g' /\ ext g g' /\ forall val, snd val g -> (forall i, In i ids -> val i = val f /\ i < size g) -> f < size g -> carries sem sdok val g g'.
  Proof.
    induction ids as [|i ids IH]; intros g f g' W H; cbn in H.
    - inversion H; subst. split; [exact W|]. split; [apply ext_refl|]. intros; now apply carries_refl.
    - destruct (s_union L keep fuel g f i) as [[g1 b]|] eqn:U; [|discriminate H]. cbn in H.
      destruct (union_ok _ _ _ s_md_ok _ _ _ _ _ W U) as (W1 & E1 & _).
      destruct (IH g1 f g' W1 H) as (W2 & E2 & Cr). split; [exact W2|]. split; [exact (ext_trans _ _ _ E1 E2)|].
      intros val S Eq Lf. apply carries_trans with g1; [apply E1| |].
      + refine (union_carries _ _ _ _ s_merge_dok _ s_md _ _ _ _ _ _ W S _ U). symmetry. apply Eq. now left.
      + intros val' Ag S'. apply Cr; [exact S'| |destruct E1; lia]. intros j J. destruct (Eq j (or_intror J)) as [X1 X2].
        split; [now rewrite !Ag by assumption|destruct E1; lia].
  Qed.
  Definition alike (val : nat -> V) (n : nat) (ids : list nat) : Prop :=
    forall i j, In i ids -> In j ids -> val i = val j /\ i < n.
  Lemma union_groups_moves : forall gs (g : eg O C) g', wf g -> union_groups L keep fuel g gs = Val g' ->
    wf g' /\ ext g g' /\ forall val, snd val g -> Forall (alike val (size g)) gs -> carries sem sdok val g g'.
  Proof.
    induction gs as [|[|f ids] gs IH]; intros g g' W H; cbn in H.
    - inversion H; subst. split; [exact W|]. split; [apply ext_refl|]. intros; now apply carries_refl.
    - destruct (IH g g' W H) as (W2 & E2 & Cr). split; [exact W2|]. split; [exact E2|]. intros val S F. inversion F; subst. auto.
    - destruct (union_first L keep fuel g f ids) as [g1|] eqn:U; [|discriminate H]. cbn in H.
      destruct (union_first_moves _ _ _ _ W U) as (W1 & E1 & C1).
      destruct (IH g1 g' W1 H) as (W2 & E2 & Cr). split; [exact W2|]. split; [exact (ext_trans _ _ _ E1 E2)|].
      intros val S F. inversion F as [|? ? Al F']; subst. apply carries_trans with g1; [apply E1| |].
      + apply C1; [exact S| |].
        * intros i I. destruct (Al i f (or_intror I) (or_introl eq_refl)). auto.
        * apply (Al f f); now left.
      + intros val' Ag S'. apply Cr; [exact S'|]. eapply Forall_impl; [|exact F'].
        intros is Al' i j I J. destruct (Al' i j I J) as [Q Li]. destruct (Al' j i J I) as [_ Lj]. rewrite !Ag by assumption. split; [exact Q|]. destruct E1; lia.
  Qed.
  Lemma group_in_mem : forall k i m e j, In e (group_in k i m) -> In j (Datatypes.snd e) -> j = i \/ exists e', In e' m /\ In j (Datatypes.snd e').
  Proof.
    intros k i m e j. induction m as [|[k' is] m IH]; cbn; intros H J.
    - destruct H as [<-|[]]. destruct J as [<-|[]]. now left.
    - destruct (Nat.eqb k k'); cbn in H; destruct H as [<-|H].
      + cbn in J. apply in_app_or in J as [J|[<-|[]]]; [|now left]. right. exists (k', is). auto.
      + right. exists e. auto.
      + right. exists (k', is). auto.
      + destruct (IH H J) as [->|(e' & I & J')]; [now left|]. right. exists e'. auto.
  Qed.
  Lemma group_by_mem : forall (out : eg O C) ids m m' e j, group_by out ids m = Val m' -> In e m' -> In j (Datatypes.snd e) ->
    In j ids \/ exists e', In e' m /\ In j (Datatypes.snd e').
  Proof.
    induction ids as [|i ids IH]; intros m m' e j H I J; cbn in H; [inversion H; subst; eauto|].
    destruct (find out i) as [k|]; [|discriminate H]. cbn in H. destruct (IH _ _ _ _ H I J) as [X|(e' & X & Y)]; [left; now right|].
    destruct (group_in_mem _ _ _ _ _ X Y) as [->|Z]; [left; now left|auto].
  Qed.
  Lemma class_ids_spec : forall (g : eg O C) i, In i (class_ids g) <-> find g i = Val i.
  Proof.
    intros g i. unfold class_ids. rewrite filter_In, in_seq. split.
    - intros [_ H]. destruct (find g i) as [r|]; [|discriminate H]. apply Nat.eqb_eq in H. now subst.
    - intros H. rewrite H, Nat.eqb_refl. pose proof (find_some _ _ _ H). split; [lia|reflexivity].
  Qed.
  Lemma compress_moves : forall order rs g g', (forall l, Permutation l (order l)) -> ruleset_holds rs -> wf g ->
    compress L keep fuel order rs g g' -> moves g g' /\ congruent g' /\ canonical g'.
  Proof.
    intros order rs g g' Po Hr W (out & Si & H). destruct (simple_moves rs g out Hr W Si) as [(Wo & Eo & Co) _].
    unfold compress_with in H. destruct (group_by out (class_ids g) []) as [m|] eqn:Gb; [|discriminate H]. cbn in H.
    destruct (union_groups L keep fuel g (order (map Datatypes.snd m))) as [g1|] eqn:U; [|discriminate H]. cbn in H.
    destruct (union_groups_moves _ _ _ W U) as (W1 & E1 & C1). destruct (rebuild_moves g1 g' W1 H) as [M K]. split; [|exact K].
    apply moves_trans with g1; [|exact M]. split; [exact W1|]. split; [exact E1|]. intros val S. apply C1; [exact S|].
    destruct (Co val S) as (val' & Ag & [[S1 _] _]). apply Forall_forall. intros is Iis.
    apply (Permutation_in _ (Permutation_sym (Po _))) in Iis. apply in_map_iff in Iis as (e & <- & Ie).
    pose proof (group_by_ok _ _ _ _ Gb (Forall_nil _)) as F. rewrite Forall_forall in F. specialize (F e Ie). rewrite Forall_forall in F.
    assert (Lt : forall i, In i (Datatypes.snd e) -> i < size g).
    { intros i I. destruct (group_by_mem _ _ _ _ _ _ Gb Ie I) as [X|(e' & [] & _)]. apply class_ids_spec in X. exact (find_some _ _ _ X). }
    intros i j I J. split; [|auto]. rewrite <- !Ag by auto. apply S1. exists (fst e). auto.
  Qed.

  (* ---- e-graphs made from a workload ---- *)
  Lemma set_cvec_moves : forall (g : eg O C) i c g', wf g -> set_cvec g i c = Val g' -> moves g g'.
  Proof.
    intros g i c g' W H. unfold set_cvec in H. destruct (find g i) as [r|] eqn:F; [|discriminate H]. cbn in H.
    destruct (index (g_data g) r) as [d|] eqn:D; [|discriminate H]. cbn in H. inversion H; subst g'. clear H.
    destruct (set_data_ok g (set_nth (g_data g) r (Sig c (sg_simplest d) (sg_itv d))) W) as [W' E];
      [rewrite set_nth_length; apply (wf_data g W)|]. split; [exact W'|]. split; [exact E|].
    intros val S. exists val. split; [reflexivity|]. apply set_data_carries; auto.
    - exact (wf_rep g W _ _ F).
    - assert (X : class_data g r = Val d) by (unfold class_data; rewrite (wf_rep g W _ _ F); exact D).
      pose proof (proj2 S r d X) as K. exact K.
  Qed.
  Lemma s_add_moves : forall (g : eg O C) n g' i, wf g -> nch n = [] -> dom (sem (nop n) []) -> s_add L keep fuel g n = Val (g', i) -> moves g g'.
  Proof.
    intros g n g' i W Nc Dn H. destruct (add_ok _ eqb_eq _ _ s_md_ok _ _ _ _ W H) as (W1 & E1 & _).
    split; [exact W1|]. split; [exact E1|]. intros val S. refine (add_carries _ _ _ _ dom s_make_dok _ s_md _ _ _ _ _ W S _ H). rewrite Nc. exact Dn.
  Qed.
  Lemma s_add_expr_moves : forall (g : eg O C) r g' i, wf g -> rec_ok A r -> s_add_expr L keep fuel g r = Val (g', i) -> moves g g'.
  Proof.
    intros g r g' i W Rk H. destruct (add_expr_ok _ eqb_eq _ _ s_md_ok _ _ _ _ W H) as (W1 & E1 & _).
    split; [exact W1|]. split; [exact E1|]. intros val S. exact (add_expr_carries _ eqb_eq _ _ _ dom s_make_dok _ s_md _ _ _ _ _ W S Rk H).
  Qed.
  (* the values of terms are told by any model *)
  Lemma link_all_moves : forall ts (g : eg O C) i g' t0, wf g -> repr g t0 i ->
    (forall r, In r ts -> rec_ok A r /\ forall t, tree r = Val t -> aval sem t = aval sem t0) -> link_all L keep fuel g i ts = Val g' -> moves g g'.
  Proof.
    induction ts as [|r ts IH]; intros g i g' t0 W R0 Ht H; cbn in H; [inversion H; subst; now apply moves_refl|].
    destruct (s_add_expr L keep fuel g r) as [[g1 j]|] eqn:Ad; [|discriminate H]. cbn in H.
    destruct (s_union L keep fuel g1 i j) as [[g2 b]|] eqn:U; [|discriminate H]. cbn in H.
    pose proof (s_add_expr_moves _ _ _ _ W (proj1 (Ht r (or_introl eq_refl))) Ad) as M1. pose proof (proj1 M1) as W1.
    destruct (add_expr_ok _ eqb_eq _ _ s_md_ok _ _ _ _ W Ad) as (_ & E1 & t & Tr & Rj).
    destruct (union_ok _ _ _ s_md_ok _ _ _ _ _ W1 U) as (W2 & E2 & _).
    apply moves_trans with g1; [exact M1|]. apply moves_trans with g2.
    - split; [exact W2|]. split; [exact E2|]. intros val S. refine (union_carries _ _ _ _ s_merge_dok _ s_md _ _ _ _ _ _ W1 S _ U).
      rewrite <- (models_repr _ sem val g1 (proj1 S) t j Rj), <- (models_repr _ sem val g1 (proj1 S) t0 i (repr_ext _ _ E1 _ _ R0)).
      symmetry. exact (proj2 (Ht r (or_introl eq_refl)) t Tr).
    - apply (IH g2 i g' t0); auto.
      + exact (repr_ext _ _ E2 _ _ (repr_ext _ _ E1 _ _ R0)).
      + intros r' I. apply Ht. now right.
  Qed.
  Lemma init_vars_moves : forall vs (g : eg O C) g', wf g ->
    (forall v c ts, In (v, c, ts) vs -> dom (sem (l_mk_var L v) []) /\ forall r, In r ts -> rec_ok A r /\ forall t, tree r = Val t -> aval sem t = sem (l_mk_var L v) []) ->
    init_vars L keep fuel g vs = Val g' -> moves g g'.
  Proof.
    induction vs as [|[[v c] ts] vs IH]; intros g g' W Hv H; cbn in H; [inversion H; subst; now apply moves_refl|].
    destruct (s_add L keep fuel g _) as [[g1 i]|] eqn:Ad; [|discriminate H]. cbn in H.
    destruct (set_cvec g1 i c) as [g2|] eqn:S; [|discriminate H]. cbn in H.
    destruct (link_all L keep fuel g2 i ts) as [g3|] eqn:Lk; [|discriminate H]. cbn in H.
    destruct (Hv v c ts (or_introl eq_refl)) as [Dv Hts]. pose proof (s_add_moves g (Node (l_mk_var L v) []) g1 i W eq_refl Dv Ad) as M1. pose proof (set_cvec_moves _ _ _ _ (proj1 M1) S) as M2.
    destruct (add_ok _ eqb_eq _ _ s_md_ok _ _ _ _ W Ad) as (_ & _ & Hh). cbn in Hh.
    assert (R0 : repr g2 (T (l_mk_var L v) []) i).
    { apply Rp with []; [constructor|]. apply M2. exact Hh. }
    assert (M3 : moves g2 g3). { apply (link_all_moves ts g2 i g3 _ (proj1 M2) R0); [|exact Lk]. exact Hts. }
    apply moves_trans with g1; [exact M1|]. apply moves_trans with g2; [exact M2|]. apply moves_trans with g3; [exact M3|].
    apply IH; [apply M3| |exact H]. intros v' c' ts' I. apply (Hv v' c' ts'). now right.
  Qed.
  Lemma set_an_moves : forall (g : eg O C) n, wf g -> moves g (EG (g_reps g) (g_nodes g) (g_data g) n).
  Proof.
    intros g n W. split; [destruct W; constructor; auto|]. split; [split; [apply le_n|]; split; auto|].
    intros val S. exists val. split; [reflexivity|exact S].
  Qed.
  Lemma initialize_vars_moves : starts L A -> forall (g : eg O C) vars g', wf g -> initialize_vars L keep fuel g vars = Val g' -> moves g g'.
  Proof.
    intros St_init g vars g' W H. unfold initialize_vars in H. destruct (l_init L vars) as [[n vs]|] eqn:Ei; [|discriminate H]. cbn in H.
    pose proof (set_an_moves g n W) as M. refine (moves_trans _ _ _ M (init_vars_moves _ _ _ (proj1 M) _ H)).
    intros v c ts I. exact (St_init _ _ _ _ _ _ Ei I).
  Qed.
  Lemma add_all_exprs_moves : forall rs (g : eg O C) g', wf g -> Forall (rec_ok A) rs -> add_all_exprs L keep fuel g rs = Val g' -> moves g g'.
  Proof.
    induction rs as [|r rs IH]; intros g g' W F H; cbn in H; [inversion H; subst; now apply moves_refl|]. inversion F as [|? ? Fr Fs]; subst.
    destruct (s_add_expr L keep fuel g r) as [[g1 i]|] eqn:Ad; [|discriminate H]. cbn in H.
    pose proof (s_add_expr_moves _ _ _ _ W Fr Ad) as M1. exact (moves_trans _ _ _ M1 (IH _ _ (proj1 M1) Fs H)).
  Qed.
  Lemma wf_default : wf (@eg_default O C).
  Proof.
    constructor.
    - intros [|i] r H; discriminate H.
    - reflexivity.
    - intros n i [].
    - intros i H. inversion H.
    - intros i H. inversion H.
  Qed.
  Lemma to_egraph_moves : starts L A -> forall w g, (forall ss es, Workload.force w = Val ss ->
      rmapM (fun s => unwrap (Syntax.parse_rec (l_from_op L) (Sexp.display s))) ss = Val es -> Forall (rec_ok A) es) ->
    to_egraph L keep fuel w = Val g -> moves eg_default g.
  Proof.
    intros Si w g Hw H. unfold to_egraph in H. destruct (Workload.force w) as [ss|] eqn:Fo; [|discriminate H]. cbn in H.
    destruct (rmapM _ ss) as [rs|] eqn:Pa; [|discriminate H]. cbn in H.
    destruct (initialize_vars L keep fuel eg_default (all_vars L rs)) as [g1|] eqn:I; [|discriminate H]. cbn in H.
    pose proof (initialize_vars_moves Si _ _ _ wf_default I) as M. exact (moves_trans _ _ _ M (add_all_exprs_moves _ _ _ (proj1 M) (Hw _ _ eq_refl Pa) H)).
  Qed.
  Lemma sound_default : forall val, snd val (@eg_default O C).
  Proof.
    intros val. split; [split|].
    - intros i j (r & H & _). destruct i; discriminate H.
    - intros n i [].
    - intros i d H. destruct i; discriminate H.
  Qed.
  Lemma default_moves : forall g, moves eg_default g -> forall t u c, repr g t c -> repr g u c -> aval sem t = aval sem u.
  Proof.
    intros g (W & _ & Cr) t u c Ht Hu. destruct (Cr _ (sound_default (fun _ => aval sem t))) as (val & _ & [M _]).
    now rewrite (models_repr _ sem val g M t c Ht), (models_repr _ sem val g M u c Hu).
  Qed.

  Lemma scheduled_moves : forall st rs g g', fair st ->
    ruleset_holds rs -> wf g -> scheduled L keep fuel st rs g g' -> moves g g' /\ congruent g' /\ canonical g'.
  Proof.
    intros [|iter|order] rs g g' Po Hr W H.
    - exact (simple_moves rs g g' Hr W H).
    - exact (saturating_moves iter rs g g' Hr W H).
    - exact (compress_moves order rs g g' Po Hr W H).
  Qed.
End Sound.
