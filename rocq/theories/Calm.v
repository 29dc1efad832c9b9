(* E-graphs of languages whose analysis only knows literals: modify does nothing,
   so the effect of every operation is exact. *)
From Coq Require Import Permutation.
From Verif Require Import Base BaseProofs Sexp Reader Lang LangProofs Syntax SyntaxProofs Rule Ruleset RulesetProofs Analysis Generalize Workload
  Egraph EgraphSpec EgraphProofs EgraphSound Synth Apply Sched SynthSpec SynthProofs CalmSpec Cover.
Open Scope list_scope.

Section Calm.
  Context {O C : Type}.
  Variable L : lang O C.
  Variable ar : O -> nat.
  Hypothesis Lo : literal_only L ar.
  Variable keep : eg O C -> nat -> nat -> bool.
  Local Notation wf := (@wf O (sig O C) nat).
  Local Notation eqb_eq := (lo_eqb L ar Lo).

  Definition lit_of (o : O) (c : C) : Prop := l_const L c = [Node o []] /\ ar o = 0.
  (* what the data of a class may say *)
  Definition lit_data (g : eg O C) (i : nat) (d : sig O C) : Prop :=
    sg_itv d = full \/ exists c o, sg_itv d = point c /\ lit_of o c /\ has g o [] i.
  Record calm (g : eg O C) : Prop := {
    cm_wf : wf g;
    cm_typed : forall n i, In (n, i) (g_nodes g) -> typed_node ar n;
    cm_lits : forall i d, class_data g i = Val d -> lit_data g i d;
    cm_leaf : forall o i j, In (Node o [], i) (g_nodes g) -> In (Node o [], j) (g_nodes g) -> eqv g i j }.

  Lemma calm_default : calm eg_default.
  Proof.
    constructor; [apply wf_default| | |]; cbn; intros; try contradiction.
    exfalso. unfold class_data, find in H. cbn in H. unfold index in H. destruct i; discriminate H.
  Qed.

  Lemma has_leaf : forall (g : eg O C) o i, has g o [] i -> exists j, In (Node o [], j) (g_nodes g) /\ eqv g j i.
  Proof. intros g o i (n & j & I & <- & F & Q). destruct n as [o ch]. cbn in *. inversion F; subst. eauto. Qed.
  Lemma leaf_lookup : forall (g : eg O C) o i, calm g -> has g o [] i -> exists r, lookup_node (l_eqb L) g (Node o []) = Val (Some r) /\ find g r = Val r /\ eqv g r i.
  Proof.
    intros g o i Cm H. destruct (has_leaf g o i H) as (j & I & Q). unfold lookup_node, canon. cbn.
    destruct (get_node (l_eqb L) (g_nodes g) (Node o [])) as [k|] eqn:G.
    - apply (get_node_in _ eqb_eq) in G. pose proof (cm_leaf g Cm o k j G I) as Qk. destruct (eqv_lt _ _ _ Qk) as [Lk _].
      destruct (find_val g k Lk) as (r & F). exists r. rewrite F. cbn. split; [reflexivity|]. split; [exact (wf_rep g (cm_wf g Cm) _ _ F)|].
      apply eqv_trans with k; [apply eqv_sym; exact (eqv_find g k r (cm_wf g Cm) F)|]. apply eqv_trans with j; assumption.
    - destruct (get_node_none _ eqb_eq _ _ G j I).
  Qed.

  (* modify does nothing *)
  Lemma calm_modify : forall fuel (g : eg O C) i g', calm g -> s_modify L keep fuel g i = Val g' -> g' = g.
  Proof.
    intros [|k] g i g' Cm H; unfold s_modify in H; cbn [modify] in H; [discriminate H|].
    cbn [stages] in H. rewrite (lo_custom L ar Lo) in H. cbn [rbind join_all] in H.
    remember (modify (l_eqb L) (s_make L) (s_merge L) keep [l_custom L; const_stage L] k) as md eqn:Emd. clear Emd.
    destruct (const_stage L g i) as [ts|] eqn:Ec; [|discriminate H]. cbn [rbind] in H.
    unfold const_stage in Ec. destruct (class_data g i) as [d|] eqn:Ed; [|discriminate Ec]. cbn [rbind] in Ec.
    destruct (cm_lits g Cm i d Ed) as [E|(c & o & E & [Hc _] & Hh)]; rewrite E in Ec; cbn in Ec.
    - inversion Ec; subst ts. cbn in H. now inversion H.
    - destruct (l_ceqb L c c); inversion Ec; subst ts; cbn [join_all] in H; [|cbn in H; now inversion H].
      rewrite Hc in H. unfold add_expr, add_nodes in H. cbn [nch nop rmapM rbind] in H.
      destruct (leaf_lookup g o i Cm Hh) as (r & Lk & Fr & Q). unfold add in H. rewrite Lk in H. cbn [rbind app pop_unwrap rev] in H.
      unfold union in H. destruct Q as (q & Q1 & Q2). rewrite Fr in *. inversion Q1; subst q. rewrite Q2 in H. cbn in H. rewrite Nat.eqb_refl in H. cbn in H. now inversion H.
  Qed.

  (* ---- data ---- *)
  Lemma s_make_lit : forall a n ds d, s_make L a n ds = Val d -> typed_node ar n ->
    sg_itv d = full \/ exists c, sg_itv d = point c /\ lit_of (nop n) c /\ nch n = [].
  Proof.
    intros a n ds d H Ty. unfold s_make, make in H.
    destruct (make_simplest _ _ n) as [s|]; [|discriminate H]. cbn [rbind] in H.
    destruct (l_eval L a (nop n) _) as [cv|]; [|discriminate H]. cbn [rbind] in H.
    match type of H with (let* i := ?x in _) = _ => destruct x as [iv|] eqn:E; [|discriminate H] end. cbn [rbind] in H.
    inversion H; subst d. cbn. destruct (lo_itv L ar Lo _ _ _ E) as [->|(c & -> & Hc & Ha)]; [now left|].
    right. exists c. split; [reflexivity|]. split; [now split|]. unfold typed_node in Ty. rewrite Ha in Ty. now destruct (nch n).
  Qed.
  Lemma mk_point : forall (c d : C) k, mk_itv (l_cleb L) (omax (l_cleb L) (Some c) (Some d)) (omin (l_cleb L) (Some c) (Some d)) = Val k -> c = d /\ k = point c.
  Proof.
    intros c d k H. unfold omax, omin in H.
    destruct (l_cleb L c d) eqn:E1; destruct (l_cleb L d c) eqn:E2; cbn in H; rewrite ?E1, ?E2 in H; cbn in H; try discriminate H.
    pose proof (lo_order L ar Lo c d E1 E2) as <-. inversion H. auto.
  Qed.
  Lemma s_merge_lit : forall g i d1 d2 d ch, lit_data g i d1 -> lit_data g i d2 -> s_merge L d1 d2 = Val (d, ch) -> lit_data g i d.
  Proof.
    intros g i d1 d2 d ch H1 H2 H. unfold s_merge, merge in H.
    destruct (merge_cvecs _ _ _) as [[[cv a1] b1]|]; [|discriminate H]. cbn [rbind] in H.
    destruct (mk_itv _ _ _) as [iv|] eqn:E; [|discriminate H]. cbn [rbind] in H.
    destruct (cost_rec _ (sg_simplest d2)) as [cf|]; [|discriminate H]. cbn [rbind] in H.
    destruct (cost_rec _ (sg_simplest d1)) as [ct|]; [|discriminate H]. cbn [rbind] in H.
    assert (Ei : sg_itv d = iv). { destruct (BinNat.N.ltb cf ct); inversion H; reflexivity. } clear H.
    unfold lit_data. rewrite Ei. destruct H1 as [E1|(c & o & E1 & Hc & Hh)]; destruct H2 as [E2|(c2 & o2 & E2 & Hc2 & Hh2)];
      rewrite E1, E2 in E; unfold full, point in E; cbn [low high] in E.
    - cbn in E. inversion E. now left.
    - right. exists c2, o2. cbn in E. destruct (l_cleb L c2 c2); inversion E. auto.
    - right. exists c, o. cbn in E. destruct (l_cleb L c c); inversion E. auto.
    - destruct (mk_point _ _ _ E) as [<- ->]. right. exists c, o. auto.
  Qed.
  Lemma lit_ext : forall g g' i d, ext g g' -> lit_data g i d -> lit_data g' i d.
  Proof. intros g g' i d E [H|(c & o & H1 & H2 & H3)]; [now left|]. right. exists c, o. split; [exact H1|]. split; [exact H2|]. now apply E. Qed.
  Lemma lit_eqv : forall g i j d, wf g -> eqv g i j -> lit_data g i d -> lit_data g j d.
  Proof.
    intros g i j d W Q [H|(c & o & H1 & H2 & H3)]; [now left|]. right. exists c, o. split; [exact H1|]. split; [exact H2|].
    apply has_eqv with [] i; auto.
  Qed.

  (* ---- the steps ---- *)
  Lemma canon_typed : forall (g : eg O C) n n', canon g n = Val n' -> typed_node ar n -> typed_node ar n'.
  Proof. intros g n n' H T1. apply canon_spec in H as [E F]. unfold typed_node in *. rewrite E, <- T1. symmetry. exact (Forall2_length _ _ _ F). Qed.
  Lemma lookup_none : forall (g : eg O C) n n' , canon g n = Val n' -> lookup_node (l_eqb L) g n = Val None -> forall i, ~ In (n', i) (g_nodes g).
  Proof.
    intros g n n' E H. unfold lookup_node in H. rewrite E in H. cbn in H. destruct (get_node (l_eqb L) (g_nodes g) n') as [k|] eqn:G.
    - destruct (find g k); discriminate H.
    - exact (get_node_none _ eqb_eq _ _ G).
  Qed.
  Lemma new_class_calm : forall (g : eg O C) n g' i, calm g -> typed_node ar n -> Forall (fun c => c < size g) (nch n) ->
    (forall j, ~ In (n, j) (g_nodes g)) -> new_class (s_make L) g n = Val (g', i) -> calm g'.
  Proof.
    intros g n g' i Cm Ty Lt No H. pose proof (new_class_ok _ g n g' i (cm_wf g Cm) Lt H) as (W' & E & Sz & -> & Hn).
    unfold new_class in H. destruct (rmapM (class_data g) (nch n)) as [ds|] eqn:Ed; [|discriminate H]. cbn in H.
    destruct (s_make L (g_an g) n ds) as [d|] eqn:Em; [|discriminate H]. cbn in H. inversion H as [Hg]. clear H. rewrite Hg.
    assert (R : g_reps g' = g_reps g ++ [size g]) by (rewrite <- Hg; reflexivity).
    assert (Nd : g_nodes g' = g_nodes g ++ [(n, size g)]) by (rewrite <- Hg; reflexivity).
    constructor; [exact W'| | |].
    - intros m j I. rewrite Nd in I. apply in_app_or in I as [I|[I|[]]]; [exact (cm_typed g Cm m j I)|]. now inversion I; subst.
    - intros j dj Hd. unfold class_data in Hd. destruct (find g' j) as [r|] eqn:Fj; [|discriminate Hd]. cbn in Hd.
      rewrite <- Hg in Hd. cbn in Hd. apply (find_app_inv g) in Fj; [|exact R].
      pose proof (wf_data g (cm_wf g Cm)) as Ld. destruct Fj as [[Lj Fj]|[-> ->]].
      + apply lit_ext with g; [exact E|]. apply (cm_lits g Cm). unfold class_data. rewrite Fj. cbn.
        pose proof (find_some _ _ _ (wf_rep g (cm_wf g Cm) _ _ Fj)) as Lr.
        unfold index in *. rewrite nth_error_app1 in Hd by (unfold size in *; lia). exact Hd.
      + rewrite <- Ld in Hd. rewrite index_last in Hd. inversion Hd; subst dj. unfold lit_data.
        destruct (s_make_lit _ _ _ _ Em Ty) as [X|(c & X & Hc & Hz)]; [now left|]. right. exists c, (nop n). split; [exact X|]. split; [exact Hc|].
        now rewrite Hz in Hn.
    - intros o a b Ia Ib. rewrite Nd in Ia, Ib. apply in_app_or in Ia as [Ia|[Ia|[]]]; apply in_app_or in Ib as [Ib|[Ib|[]]].
      + apply E. exact (cm_leaf g Cm o a b Ia Ib).
      + inversion Ib; subst. destruct (No _ Ia).
      + inversion Ia; subst. destruct (No _ Ib).
      + inversion Ia; inversion Ib; subst. apply eqv_refl. lia.
  Qed.
  Lemma merged_calm : forall (g : eg O C) k d dk dd dm ch, calm g -> find g k = Val k -> find g d = Val d -> k <> d ->
    index (g_data g) k = Val dk -> index (g_data g) d = Val dd -> s_merge L dk dd = Val (dm, ch) ->
    calm (merged g k d (set_nth (g_data g) k dm)).
  Proof.
    intros g k d dk dd dm ch Cm Fk Fd N Ik Id Em. pose proof (cm_wf g Cm) as W.
    destruct (merged_ok g k d (set_nth (g_data g) k dm) W Fk Fd N) as (W' & E & Q); [rewrite set_nth_length; apply (wf_data g W)|].
    constructor; [exact W'|exact (cm_typed g Cm)| |].
    - intros i x H. unfold class_data in H. rewrite find_merged in H.
      destruct (find g i) as [r|] eqn:Fi; [|discriminate H]. cbn in H. unfold index in H.
      rewrite set_nth_nth in H by (rewrite (wf_data g W); now apply find_some in Fk).
      set (h := merged g k d (set_nth (g_data g) k dm)) in *.
      assert (Qkd : eqv h k d). { apply Q. right. left. split; apply eqv_refl; eapply find_some; eassumption. }
      assert (Dm : lit_data h k dm).
      { apply (s_merge_lit h k dk dd dm ch); [| |exact Em].
        - apply lit_ext with g; [exact E|]. apply (cm_lits g Cm). unfold class_data. rewrite Fk. exact Ik.
        - apply lit_eqv with d; [exact W'|now apply eqv_sym|]. apply lit_ext with g; [exact E|]. apply (cm_lits g Cm). unfold class_data. rewrite Fd. exact Id. }
      pose proof (proj1 (proj2 E) _ _ (eqv_find g i r W Fi)) as Qi.
      destruct (Nat.eqb_spec r d) as [->|Nr].
      + rewrite Nat.eqb_refl in H. inversion H; subst x. apply lit_eqv with k; [exact W'| |exact Dm].
        apply eqv_trans with d; [exact Qkd|now apply eqv_sym].
      + destruct (Nat.eqb_spec r k) as [->|Nk].
        * inversion H; subst x. apply lit_eqv with k; [exact W'|now apply eqv_sym|exact Dm].
        * apply lit_ext with g; [exact E|]. apply (cm_lits g Cm). unfold class_data. rewrite Fi. exact H.
    - intros o a b Ia Ib. apply E. exact (cm_leaf g Cm o a b Ia Ib).
  Qed.
  Lemma set_data_calm : forall (g : eg O C) c d, calm g -> find g c = Val c -> lit_data g c d ->
    calm (EG (g_reps g) (g_nodes g) (set_nth (g_data g) c d) (g_an g)).
  Proof.
    intros g c d Cm Fc Hd. pose proof (cm_wf g Cm) as W.
    destruct (set_data_ok g (set_nth (g_data g) c d) W) as [W' E]; [rewrite set_nth_length; apply (wf_data g W)|].
    constructor; [exact W'|exact (cm_typed g Cm)| |exact (cm_leaf g Cm)].
    intros i x H. unfold class_data in H.
    change (find (EG (g_reps g) (g_nodes g) (set_nth (g_data g) c d) (g_an g)) i) with (find g i) in H.
    destruct (find g i) as [r|] eqn:Fi; [|discriminate H]. cbn in H. unfold index in H.
    rewrite set_nth_nth in H by (rewrite (wf_data g W); now apply find_some in Fc).
    destruct (Nat.eqb_spec r c) as [->|N].
    - inversion H; subst x. apply lit_ext with g; [exact E|]. apply lit_eqv with c; [exact W| |exact Hd]. exists c. auto.
    - apply lit_ext with g; [exact E|]. apply (cm_lits g Cm). unfold class_data. rewrite Fi. exact H.
  Qed.
  Lemma set_an_calm : forall (g : eg O C) a, calm g -> calm (EG (g_reps g) (g_nodes g) (g_data g) a).
  Proof. intros g a [W T1 D1 L1]. constructor; auto. destruct W as [W1 W2 W3 W4 W5]. constructor; auto. Qed.
  Lemma set_cvec_calm : forall (g : eg O C) i c g', calm g -> set_cvec g i c = Val g' -> calm g'.
  Proof.
    intros g i c g' Cm H. unfold set_cvec in H. destruct (find g i) as [r|] eqn:F; [|discriminate H]. cbn in H.
    destruct (index (g_data g) r) as [d|] eqn:Ed; [|discriminate H]. cbn in H. inversion H.
    pose proof (wf_rep g (cm_wf g Cm) _ _ F) as Fr. apply set_data_calm; [exact Cm|exact Fr|].
    assert (class_data g r = Val d) as Cd by (unfold class_data; rewrite Fr; exact Ed). exact (cm_lits g Cm r d Cd).
  Qed.
  Lemma canon_nodes_calm : forall (g : eg O C) g1, calm g -> canon_nodes g = Val g1 -> calm g1.
  Proof.
    intros g g1 Cm H. pose proof (cm_wf g Cm) as W. pose proof (canon_nodes_ok g g1 W H) as (W1 & E & Cn & R & Dt & Hb).
    unfold canon_nodes in H.
    destruct (rmapM (fun e => let* n := canon g (fst e) in Val (n, snd e)) (g_nodes g)) as [ns|] eqn:Em; [|discriminate H].
    cbn in H. assert (Nd : g_nodes g1 = ns) by (inversion H; reflexivity). clear H. apply rmapM_F2 in Em.
    assert (Bw : forall n' i, In (n', i) ns -> exists n, In (n, i) (g_nodes g) /\ canon g n = Val n').
    { clear - Em. induction Em as [|[n j] [n' j'] l l' H E IH]; intros m i I; [contradiction|]. destruct I as [I|I].
      - inversion I; subst. cbn in H. destruct (canon g n) as [m'|] eqn:Cc; [|discriminate H]. cbn in H. inversion H; subst. exists n. cbn. auto.
      - destruct (IH m i I) as (m' & I' & Cc). exists m'. cbn. auto. }
    constructor; [exact W1| | |].
    - intros n i I. rewrite Nd in I. destruct (Bw n i I) as (m & J & Cc). exact (canon_typed g m n Cc (cm_typed g Cm m i J)).
    - intros i d H. apply lit_ext with g; [exact E|]. apply (cm_lits g Cm). unfold class_data, find in *. now rewrite R, Dt in H.
    - intros o i j I J. rewrite Nd in I, J. apply Bw in I as (n & I & Cn1). apply Bw in J as (m & J & Cn2). apply E.
      apply canon_spec in Cn1 as [E1 F1]. apply canon_spec in Cn2 as [E2 F2]. cbn in *. inversion F1 as [X1|]; inversion F2 as [X2|]. destruct n as [o1 c1], m as [o2 c2]; cbn in *; subst.
      exact (cm_leaf g Cm _ i j I J).
  Qed.

  (* ---- the operations ---- *)
  Variable fuel : nat.
  Lemma add_calm : forall (g : eg O C) n g' i, calm g -> typed_node ar n -> s_add L keep fuel g n = Val (g', i) ->
    calm g' /\ ((g' = g /\ has g (nop n) (nch n) i) \/
      exists n', canon g n = Val n' /\ (forall j, ~ In (n', j) (g_nodes g)) /\ new_class (s_make L) g n' = Val (g', i)).
  Proof.
    intros g n g' i Cm Ty H. pose proof (cm_wf g Cm) as W. unfold s_add, add in H. destruct (lookup_node (l_eqb L) g n) as [[j|]|] eqn:Lk; [| |discriminate H]; cbn in H.
    - inversion H; subst. split; [exact Cm|]. left. split; [reflexivity|]. exact (lookup_node_some _ eqb_eq _ _ _ W Lk).
    - destruct (canon g n) as [n'|] eqn:Cc; [|discriminate H]. cbn in H.
      destruct (new_class (s_make L) g n') as [[g1 k]|] eqn:Nc; [|discriminate H]. cbn in H.
      pose proof (lookup_none g n n' Cc Lk) as No.
      pose proof (new_class_calm g n' g1 k Cm (canon_typed g n n' Cc Ty) (canon_lt g n n' W Cc) No Nc) as C1.
      destruct (s_modify L keep fuel g1 k) as [g2|] eqn:M; [|discriminate H]. cbn in H. apply calm_modify in M; [|exact C1]. inversion H; subst.
      split; [exact C1|]. right. exists n'. auto.
  Qed.
  Lemma union_calm : forall (g : eg O C) a b g' m, calm g -> s_union L keep fuel g a b = Val (g', m) ->
    calm g' /\ ((g' = g /\ eqv g a b /\ m = false) \/
      (m = true /\ ~ eqv g a b /\ exists k d dt, g' = merged g k d dt /\ find g k = Val k /\ find g d = Val d /\ k <> d /\ length dt = size g /\
         ((eqv g a k /\ eqv g b d) \/ (eqv g a d /\ eqv g b k)))).
  Proof.
    intros g a b g' m Cm H. pose proof (cm_wf g Cm) as W. unfold s_union, union in H. destruct (find g a) as [ra|] eqn:Ra; [|discriminate H]. cbn in H.
    destruct (find g b) as [rb|] eqn:Rb; [|discriminate H]. cbn in H.
    destruct (Nat.eqb_spec ra rb) as [->|N].
    - inversion H; subst. split; [exact Cm|]. left. split; [reflexivity|]. split; [|reflexivity]. exists rb. auto.
    - pose proof (eqv_find g a ra W Ra) as Ea. pose proof (eqv_find g b rb W Rb) as Eb.
      assert (Fa : find g ra = Val ra) by (now apply (wf_rep g W) with a).
      assert (Fb : find g rb = Val rb) by (now apply (wf_rep g W) with b).
      assert (forall k d, find g k = Val k -> find g d = Val d -> k <> d -> ((eqv g a k /\ eqv g b d) \/ (eqv g a d /\ eqv g b k)) ->
          (let* dk := index (g_data g) k in let* dd := index (g_data g) d in let* (dm, _) := s_merge L dk dd in
           let g1 := EG (map (fun r => if Nat.eqb r d then k else r) (g_reps g)) (g_nodes g) (set_nth (g_data g) k dm) (g_an g) in
           let* g2 := s_modify L keep fuel g1 k in Val (g2, true)) = Val (g', m) ->
           m = true /\ exists dt, calm g' /\ g' = merged g k d dt /\ length dt = size g) as Gen.
      { intros k d Hk Hd Ne Hab X. destruct (index (g_data g) k) as [dk|] eqn:Ik; [|discriminate X]. cbn in X.
        destruct (index (g_data g) d) as [dd|] eqn:Id; [|discriminate X]. cbn in X.
        destruct (s_merge L dk dd) as [[dm ch]|] eqn:Em; [|discriminate X]. cbn in X.
        fold (merged g k d (set_nth (g_data g) k dm)) in X.
        pose proof (merged_calm g k d dk dd dm ch Cm Hk Hd Ne Ik Id Em) as C1.
        destruct (s_modify L keep fuel (merged g k d (set_nth (g_data g) k dm)) k) as [g2|] eqn:M; [|discriminate X]. cbn in X.
        apply calm_modify in M; [|exact C1]. inversion X; subst. split; [reflexivity|]. eexists. split; [exact C1|]. split; [reflexivity|].
        rewrite set_nth_length. apply (wf_data g W). }
      assert (Nq : ~ eqv g a b) by (intros (r & R1 & R2); congruence).
      destruct (keep g ra rb).
      + destruct (Gen ra rb) as (-> & dt & C1 & -> & Ld); auto. split; [exact C1|]. right. split; [reflexivity|]. split; [exact Nq|]. exists ra, rb, dt. auto 10.
      + destruct (Gen rb ra) as (-> & dt & C1 & -> & Ld); auto. split; [exact C1|]. right. split; [reflexivity|]. split; [exact Nq|]. exists rb, ra, dt. auto 10.
  Qed.
  Lemma rebuild_calm : forall (g : eg O C) g', calm g -> s_rebuild L keep fuel g = Val g' -> calm g' /\ size g' = size g.
  Proof.
    unfold s_rebuild. generalize fuel at 2 as f. induction f as [|k IH]; intros g g' Cm H; cbn in H; [discriminate H|].
    destruct (canon_nodes g) as [g1|] eqn:Cc; [|discriminate H]. cbn in H. pose proof (canon_nodes_calm g g1 Cm Cc) as C1.
    destruct (canon_nodes_ok g g1 (cm_wf g Cm) Cc) as (W1 & _ & _ & R1 & _).
    assert (S1 : size g1 = size g) by (unfold size; now rewrite R1).
    destruct (clash (l_eqb L) g1 (g_nodes g1)) as [c|] eqn:Cl; [|discriminate H]. cbn in H. destruct c as [[i j]|].
    - destruct (union (s_merge L) keep (s_modify L keep fuel) g1 i j) as [[g2 m]|] eqn:U; [|discriminate H]. cbn in H.
      destruct (union_calm g1 i j g2 m C1 U) as [C2 D2]. destruct (IH g2 g' C2 H) as [C3 S3]. split; [exact C3|]. rewrite S3, <- S1.
      destruct D2 as [(-> & _)|(_ & _ & k' & d & dt & -> & _)]; [reflexivity|apply size_merged].
    - destruct (stale (s_make L) (s_merge L) g1 (g_nodes g1)) as [s|] eqn:S; [|discriminate H]. cbn in H. destruct s as [[c d]|].
      + apply stale_some in S; [|exact W1|apply incl_refl]. destruct S as (Fc & n & i & ds & dn & dc & ch & I & Fi & Eds & Edn & Edc & Em).
        assert (Ld : lit_data g1 c d).
        { apply (s_merge_lit g1 c dc dn d ch); [| |exact Em].
          - apply (cm_lits g1 C1). unfold class_data. rewrite Fc. exact Edc.
          - unfold lit_data. destruct (s_make_lit _ _ _ _ Edn (cm_typed g1 C1 n i I)) as [X|(c0 & X & Hc & Hz)]; [now left|].
            right. exists c0, (nop n). split; [exact X|]. split; [exact Hc|]. rewrite <- Hz. apply has_eqv with (nch n) i; [now apply EgraphProofs.has_in| |].
            + apply eqvs_refl. apply (wf_nodes g1 W1 n i I).
            + exact (eqv_find g1 i c W1 Fi). }
        pose proof (set_data_calm g1 c d C1 Fc Ld) as C2.
        destruct (s_modify L keep fuel _ c) as [g2|] eqn:M in H; [|discriminate H]. cbn in H. apply calm_modify in M; [|exact C2]. subst g2.
        destruct (IH _ g' C2 H) as [C3 S3]. split; [exact C3|]. rewrite S3. exact S1.
      + inversion H; subst g1. auto.
  Qed.
End Calm.
