(* The operators of learned rules: nothing but what the workload, the right-hand sides
   of the rules that were run and constant folding put into the e-graph. *)
From Coq Require Import Permutation NArith.
From Verif Require Import Base BaseProofs Sexp Reader Lang Util LangProofs Syntax SyntaxProofs Rule Ruleset Workload Analysis Generalize GeneralizeProofs Egraph EgraphSpec EgraphProofs EgraphSound Synth SynthProofs Apply Sched TotalSpec
  Extract ExtractProofs Match MatchSpec MatchProofs Minimize Infer InferProofs InvProofs LearnSpec SettleProofs LearnProofs DeriveProofs OpsSpec.
From Verif Require RulesetProofs.
Open Scope list_scope.

Section Ops.
  Context {O C : Type}.
  Variable L : lang O C.
  Hypothesis eqb_eq : forall a b, l_eqb L a b = true <-> a = b.
  Hypothesis var_ok : forall s, l_to_var L (l_mk_var L s) = Some s.
  Variable keep : eg O C -> nat -> nat -> bool.
  Variable Q : O -> nat -> Prop.
  Variable K : C -> Prop.
  Hypothesis Ad : admits L Q K.
  Local Notation tv := (l_to_var L).

  Definition nv (o : O) : bool := false.
  Definition oP (a : nat) (d : sig O C) : Prop := ends K (sg_itv d).
  Definition ole (d e : sig O C) : Prop := True.
  Lemma oP_make : forall a n ds d, Q (nop n) (length (nch n)) -> length ds = length (nch n) -> Forall (oP a) ds ->
    s_make L a n ds = Val d -> oP a d /\ (nv (nop n) = false -> oP a d).
  Proof.
    intros a n ds d HQ Hl F H. assert (oP a d); [|auto]. unfold s_make, make in H. destruct (make_simplest _ _ n) as [s|]; [|discriminate H]. cbn [rbind] in H.
    destruct (l_eval L a (nop n) _) as [c|]; [|discriminate H]. cbn [rbind] in H. destruct (l_itv L (nop n) _) as [i|] eqn:E; [|discriminate H]. cbn [rbind] in H. injection H as <-. cbn.
    refine (ad_itv L Q K Ad _ _ _ _ _ E); [now rewrite map_length|]. apply Forall_map. apply Forall_forall. intros j Hj.
    destruct (slookup_in (nch n) ds j Hl Hj) as (d0 & -> & I). rewrite Forall_forall in F. exact (F _ I).
  Qed.
  Lemma oP_merge : forall a x y d ch, oP a x -> oP a y -> s_merge L x y = Val (d, ch) -> oP a d /\ ole x d /\ (oP a y -> ole y d).
  Proof.
    intros a x y d ch [X1 X2] [Y1 Y2] H. split; [|split; [exact I|intros _; exact I]]. unfold s_merge, merge in H.
    destruct (merge_cvecs _ _ _) as [[[cv a1] b1]|]; [|discriminate H]. cbn [rbind] in H.
    destruct (mk_itv _ _ _) as [itv|] eqn:E; [|discriminate H]. cbn [rbind] in H. destruct (cost_rec _ (sg_simplest y)) as [cf|]; [|discriminate H]. cbn [rbind] in H.
    destruct (cost_rec _ (sg_simplest x)) as [ct|]; [|discriminate H]. cbn [rbind] in H.
    assert (sg_itv d = itv) as Ed. { destruct (N.ltb cf ct); injection H as <- <-; reflexivity. } unfold oP. rewrite Ed.
    assert (low itv = omax (l_cleb L) (low (sg_itv x)) (low (sg_itv y)) /\ high itv = omin (l_cleb L) (high (sg_itv x)) (high (sg_itv y))) as [E1 E2].
    { unfold mk_itv in E. destruct (omax _ _ _) as [p|], (omin _ _ _) as [q|]; try (destruct (l_cleb L p q)); inversion E; split; reflexivity. }
    split; intros z Hz; [rewrite E1 in Hz|rewrite E2 in Hz]; unfold omax, omin in Hz.
    - destruct (low (sg_itv x)) as [p|], (low (sg_itv y)) as [q|]; try discriminate Hz; try destruct (l_cleb L p q); injection Hz as <-; auto.
    - destruct (high (sg_itv x)) as [p|], (high (sg_itv y)) as [q|]; try discriminate Hz; try destruct (l_cleb L p q); injection Hz as <-; auto.
  Qed.
  Local Notation inv := (InvProofs.inv Q nv oP).
  Local Notation step := (InvProofs.step Q nv oP ole).
  Lemma ole_refl : forall d, ole d d. Proof. intros; exact I. Qed.
  Lemma ole_trans : forall d e f, ole d e -> ole e f -> ole d f. Proof. intros; exact I. Qed.
  Lemma nv_leaf : forall o k, nv o = true -> Q o k -> k = 0. Proof. intros o k H. discriminate H. Qed.
  Lemma o_weak : forall a d, oP a d -> oP a d. Proof. auto. Qed.
  Lemma o_custom : forall g i ts, wf g -> inv g -> i < size g -> l_custom L g i = Val ts -> Forall (Forall (okn Q)) ts.
  Proof. intros g i ts _ (H & _) _ E. exact (ad_custom L Q K Ad g i ts H E). Qed.
  Lemma o_const : forall a d x y, oP a d -> low (sg_itv d) = Some x -> high (sg_itv d) = Some y -> l_ceqb L x y = true -> Forall (okn Q) (l_const L x).
  Proof. intros a d x y [H _] E _ _. exact (ad_const L Q K Ad x (H x E)). Qed.

  Lemma set_cvec_step : forall (g : eg O C) i c g', wf g -> inv g -> set_cvec g i c = Val g' -> step g g'.
  Proof.
    intros g i c g' W (I1 & I2 & I3) H. unfold set_cvec in H. destruct (find g i) as [r|] eqn:F; [|discriminate H]. cbn in H.
    destruct (index (g_data g) r) as [d|] eqn:D; [|discriminate H]. cbn in H. inversion H; subst g'. clear H.
    destruct (set_data_ok g (set_nth (g_data g) r (Sig c (sg_simplest d) (sg_itv d))) W) as [W' E]; [rewrite set_nth_length; apply (wf_data g W)|].
    assert (Fd : Forall (oP (g_an g)) (set_nth (g_data g) r (Sig c (sg_simplest d) (sg_itv d)))).
    { apply Forall_forall. intros x Ix. apply In_nth_error in Ix as (j & Ej). apply index_some in D as [Lr Er]. rewrite Forall_forall in I3.
      destruct (Nat.eq_dec r j) as [<-|Nj]; [rewrite set_nth_same in Ej by exact Lr; injection Ej as <-; exact (I3 d (nth_error_In _ _ Er))|].
      rewrite set_nth_other in Ej by exact Nj. exact (I3 x (nth_error_In _ _ Ej)). }
    constructor; [exact W'|exact E|reflexivity|split; [exact I1|split; [exact I2|exact Fd]]|].
    intros j dj Ej. assert (exists d', class_data (EG (g_reps g) (g_nodes g) (set_nth (g_data g) r (Sig c (sg_simplest d) (sg_itv d))) (g_an g)) j = Val d') as (d' & Ed'); [|exists d'; split; [exact Ed'|exact I]].
    unfold class_data in *. destruct (find g j) as [q|] eqn:Eq; [|discriminate Ej]. change (find (EG (g_reps g) (g_nodes g) (set_nth (g_data g) r (Sig c (sg_simplest d) (sg_itv d))) (g_an g)) j) with (find g j). rewrite Eq. cbn [rbind g_data] in *.
    apply index_some in Ej as [Lq _]. destruct (index_lt _ (set_nth (g_data g) r (Sig c (sg_simplest d) (sg_itv d))) q) as (x & Ex & _); [now rewrite set_nth_length|eauto].
  Qed.

  Local Notation INV f := (f L eqb_eq keep Q nv oP oP ole ole_refl ole_trans nv_leaf o_weak oP_make oP_merge o_custom o_const).
  Local Notation wf_of S := (st_wf _ _ _ _ _ _ S).
  Local Notation inv_of S := (st_inv _ _ _ _ _ _ S).
  Lemma step_self : forall g : eg O C, wf g -> inv g -> step g g.
  Proof. exact (step_refl Q nv oP ole ole_refl). Qed.
  Lemma step_then : forall g h k : eg O C, step g h -> step h k -> step g k.
  Proof. exact (step_trans Q nv oP ole ole_trans). Qed.
  Lemma link_all_ops : forall fuel ts g i g', Forall (uses Q) ts -> wf g -> inv g -> link_all L keep fuel g i ts = Val g' -> step g g'.
  Proof.
    intros fuel. induction ts as [|t ts IH]; intros g i g' F W I H; cbn [link_all] in H; [injection H as <-; now apply step_self|].
    destruct (s_add_expr L keep fuel g t) as [[g1 j]|] eqn:E1; [|discriminate H]. cbn [rbind] in H. destruct (s_union L keep fuel g1 i j) as [[g2 m]|] eqn:E2; [|discriminate H]. cbn [rbind] in H.
    inversion F as [|x l F1 F2]; subst. pose proof (INV s_add_expr_inv fuel _ _ _ _ W I F1 E1) as S1. pose proof (INV s_union_inv fuel _ _ _ _ _ (wf_of S1) (inv_of S1) E2) as S2.
    exact (step_then _ _ _ S1 (step_then _ _ _ S2 (IH _ _ _ F2 (wf_of S2) (inv_of S2) H))).
  Qed.
  Lemma init_vars_ops : forall fuel vs g g', (forall v c ts, In (v, c, ts) vs -> Q (l_mk_var L v) 0 /\ Forall (uses Q) ts) -> wf g -> inv g ->
    init_vars L keep fuel g vs = Val g' -> step g g'.
  Proof.
    intros fuel. induction vs as [|[[v c] ts] vs IH]; intros g g' F W I H; cbn [init_vars] in H; [injection H as <-; now apply step_self|].
    destruct (s_add L keep fuel g (Node (l_mk_var L v) [])) as [[g1 i]|] eqn:E1; [|discriminate H]. cbn [rbind] in H.
    destruct (set_cvec g1 i c) as [g2|] eqn:E2; [|discriminate H]. cbn [rbind] in H. destruct (link_all L keep fuel g2 i ts) as [g3|] eqn:E3; [|discriminate H]. cbn [rbind] in H.
    destruct (F v c ts (or_introl eq_refl)) as [F1 F2].
    pose proof (INV s_add_inv fuel g (Node (l_mk_var L v) []) _ _ W I F1 E1) as S1. pose proof (set_cvec_step _ _ _ _ (wf_of S1) (inv_of S1) E2) as S2.
    pose proof (link_all_ops fuel _ _ _ _ F2 (wf_of S2) (inv_of S2) E3) as S3.
    exact (step_then _ _ _ S1 (step_then _ _ _ S2 (step_then _ _ _ S3 (IH _ _ (fun v c ts J => F v c ts (or_intror J)) (wf_of S3) (inv_of S3) H)))).
  Qed.
  Lemma fits_uses : forall t, fits Q t -> uses Q (to_rec t).
  Proof.
    assert (G : forall t, fits Q t -> forall r, uses Q r -> uses Q (fst (add_term t r))).
    { intros t. induction t as [o ts IH] using term_ind'. intros W r Hr. rewrite add_term_eq. assert (Q o (length ts) /\ Forall (fits Q) ts) as [Ho Wt] by (inversion W; auto). clear W.
      assert (G : forall l r ids, Forall (fun t => fits Q t -> forall r, uses Q r -> uses Q (fst (add_term t r))) l -> Forall (fits Q) l -> uses Q r ->
        uses Q (fst (add_terms l r ids)) /\ length (snd (add_terms l r ids)) = length ids + length l).
      { clear. induction l as [|t l IHl]; intros r ids Hl Wl Hr; cbn; [split; [exact Hr|lia]|]. inversion Hl as [|? ? H1 H2]; inversion Wl as [|? ? W1 W2]; subst.
        destruct (add_term t r) as [r1 i] eqn:E. destruct (IHl r1 (ids ++ [i])) as [G1 G2]; auto; [specialize (H1 W1 r Hr); now rewrite E in H1|].
        split; [exact G1|]. rewrite G2, app_length. cbn. lia. }
      destruct (G ts r [] IH Wt Hr) as [G1 G2]. destruct (add_terms ts r []) as [r1 ids]. cbn in *. apply Forall_app. split; [exact G1|]. constructor; [|constructor]. cbn. now rewrite G2. }
    intros t H. apply G; [exact H|constructor].
  Qed.
  Lemma all_vars_in : forall rs v, In v (all_vars L rs) -> exists r n, In r rs /\ In n r /\ tv (nop n) = Some v.
  Proof.
    assert (G1 : forall r vars v, In v (rec_vars L vars r) -> In v vars \/ exists n, In n r /\ tv (nop n) = Some v).
    { induction r as [|n r IH]; intros vars v H; [now left|]. cbn in H. apply IH in H as [H|(m & Hm & E)]; [|right; exists m; split; [now right|exact E]].
      destruct (tv (nop n)) as [s|] eqn:E; [|now left]. destruct (mem s vars); [now left|]. apply in_app_iff in H as [H|[<-|[]]]; [now left|right; exists n; split; [now left|exact E]]. }
    assert (G2 : forall rs vars v, In v (fold_left (rec_vars L) rs vars) -> In v vars \/ exists r n, In r rs /\ In n r /\ tv (nop n) = Some v).
    { induction rs as [|r rs IH]; intros vars v H; [now left|]. cbn in H. apply IH in H as [H|(r' & n & H1 & H2)]; [|right; exists r', n; split; [now right|exact H2]].
      apply G1 in H as [H|(n & H1 & H2)]; [now left|right; exists r, n; split; [now left|auto]]. }
    intros rs v H. apply G2 in H as [[]|H]. exact H.
  Qed.
  Lemma start_ops : forall fuel w g, workload_fits L Q w -> to_egraph L keep fuel w = Val g -> wf g /\ inv g.
  Proof.
    intros fuel w g Hw H. unfold to_egraph in H. destruct (force w) as [ss|] eqn:Ef; [|discriminate H]. cbn [rbind] in H.
    destruct (rmapM _ ss) as [rs|] eqn:E; [|discriminate H]. cbn [rbind] in H.
    destruct (initialize_vars L keep fuel eg_default (all_vars L rs)) as [g1|] eqn:I1; [|discriminate H]. cbn [rbind] in H.
    assert (exists ts, rs = map to_rec ts /\ Forall2 (reads L) ss ts) as (ts & -> & F).
    { apply rmapM_F2 in E. clear - E. induction E as [|s r ss rs H E (ts & -> & F)]; [exists []; repeat constructor|].
      destruct (parse_rec (l_from_op L) (display s)) as [r'|] eqn:P; [|discriminate H]. cbn in H. inversion H; subst.
      pose proof P as P'. unfold parse_rec in P. destruct (parse_str (display s)) as [x|]; [|discriminate P]. destruct (term_of_sexp (l_from_op L) x) as [t|]; [|discriminate P]. cbn in P. injection P as <-.
      exists (t :: ts). split; [reflexivity|]. constructor; [exact P'|exact F]. }
    assert (U : Forall (uses Q) (map to_rec ts)). { apply Forall_map. eapply Forall_impl; [|exact (Hw ss ts Ef F)]. exact fits_uses. }
    unfold initialize_vars in I1. destruct (l_init L _) as [[n vs]|] eqn:Ei; [|discriminate I1]. cbn [rbind] in I1. cbn in I1.
    assert (W0 : wf (EG [] [] [] n : eg O C)) 
      by (constructor; cbn; try (intros i r H0; exfalso; unfold find in H0; cbn in H0; destruct i; discriminate H0); try reflexivity; try (intros; lia); intros ? ? []).
    assert (I0 : inv (EG [] [] [] n : eg O C)) by (split; [intros ? ? []|split; [discriminate|constructor]]).
    assert (Hv : forall v, In v (all_vars L (map to_rec ts)) -> Q (l_mk_var L v) 0).
    { intros v Hv. destruct (all_vars_in _ _ Hv) as (r & m & Ir & Im & Em). rewrite Forall_forall in U. specialize (U r Ir). unfold uses in U. rewrite Forall_forall in U. exact (ad_var L Q K Ad _ _ v (U m Im) Em). }
    pose proof (init_vars_ops fuel vs _ g1 (fun v c ts0 J => conj (Hv v (proj1 (ad_init L Q K Ad _ n vs Hv Ei v c ts0 J))) (proj2 (ad_init L Q K Ad _ n vs Hv Ei v c ts0 J))) W0 I0 I1) as S1.
    pose proof (INV add_all_exprs_inv fuel _ _ _ U (wf_of S1) (inv_of S1) H) as S2. split; [exact (wf_of S2)|exact (inv_of S2)].
  Qed.
  Lemma grown_ops : forall w g, workload_fits L Q w -> grown L (rhs_uses Q) keep w g -> wf g /\ inv g.
  Proof.
    intros w g Hw H. induction H as [fuel g H|fuel st rs g g' H [W I] Hr S]; [exact (start_ops fuel w g Hw H)|].
    destruct (INV scheduled_inv fuel st rs g g' Hr W I S) as [S1 _]. split; [exact (wf_of S1)|exact (inv_of S1)].
  Qed.

  Lemma grown_step : forall fuel st rs g g', Forall (fun e => rhs_uses Q (snd e)) rs -> wf g -> inv g -> scheduled L keep fuel st rs g g' -> wf g' /\ inv g' /\ ext g g' /\ congruent g'.
  Proof.
    intros fuel st rs g g' Hr W I S. destruct (INV scheduled_inv fuel st rs g g' Hr W I S) as (S1 & h & Wh & Rb).
    split; [exact (wf_of S1)|]. split; [exact (inv_of S1)|]. split; [exact (st_ext _ _ _ _ _ _ S1)|].
    exact (proj1 (proj2 (rebuild_moves L eqb_eq keep fuel unit_alg (unit_interprets L) h g' Wh Rb))).
  Qed.

  (* ---- generalization ---- *)
  Definition fitq (n : node O) : Prop := tv (nop n) = None -> Q (nop n) (length (nch n)).
  Lemma rename_fitq : forall m n n' m', Q (nop n) (length (nch n)) -> rename_node tv (l_mk_var L) m n = Val (n', m') -> fitq n'.
  Proof.
    intros m n n' m' Hn H. unfold rename_node in H. destruct (tv (nop n)) as [s|] eqn:E.
    - assert (exists v, nop n' = l_mk_var L v) as [v Ev].
      { destruct (lookup m s) as [v|]; [injection H as <- <-; eexists; reflexivity|]. destruct (letter (length m)) as [v0|]; [|discriminate H]. cbn in H. injection H as <- <-. eexists; reflexivity. }
      intros X. rewrite Ev, var_ok in X. discriminate X.
    - injection H as <- <-. intros _. exact Hn.
  Qed.
  Lemma fitq_children : forall o ch ch' (f : nat -> res nat), fitq (Node o ch) -> rmapM f ch = Val ch' -> fitq (Node o ch').
  Proof. intros o ch ch' f F H X. cbn in *. specialize (F X). apply rmapM_F2 in H. now rewrite <- (Forall2_length _ _ _ H). Qed.
  Lemma build_fitq : forall f e, uses Q e -> forall todo st st', Forall fitq (bs_set st) -> build_loop (l_eqb L) tv (l_mk_var L) f e todo st = Val st' -> Forall fitq (bs_set st').
  Proof.
    intros f e We. induction f as [|f IH]; intros [|id todo] st st' Hs H; cbn [build_loop] in H; try discriminate H; try (injection H as <-; exact Hs).
    destruct (nlookup (bs_ids st) id); [exact (IH _ _ _ Hs H)|]. destruct (index e id) as [n|] eqn:En; [|discriminate H]. cbn [rbind] in H.
    assert (Hn : Q (nop n) (length (nch n))). { unfold uses in We. rewrite Forall_forall in We. apply We. apply index_some in En as [_ En]. exact (nth_error_In _ _ En). }
    destruct (rename_node tv (l_mk_var L) (bs_map st) n) as [[n' m']|] eqn:Rn; [|discriminate H]. cbn [rbind] in H. pose proof (rename_fitq _ _ _ _ Hn Rn) as Fn.
    destruct (List.filter _ (nch n')); [|exact (IH _ (BS _ _ _) _ Hs H)].
    destruct (rmapM _ (nch n')) as [ch|] eqn:Ech; [|discriminate H]. cbn [rbind] in H.
    destruct (insert_full (l_eqb L) (bs_set st) (Node (nop n') ch)) as [set' i] eqn:Ei. refine (IH _ (BS _ _ _) _ _ H). cbn [bs_set].
    unfold insert_full in Ei. destruct (find_node _ _ _ _); injection Ei as <- <-; [exact Hs|]. apply Forall_app. split; [exact Hs|]. constructor; [|constructor].
    refine (fitq_children _ (nch n') _ _ _ Ech). destruct n'; exact Fn.
  Qed.
  Lemma generalize_uses : forall m e p m', uses Q e -> generalize (l_eqb L) tv (l_mk_var L) m e = Val (p, m') -> pat_uses L Q p.
  Proof.
    intros m e p m' We H. unfold generalize in H. destruct (rev e) as [|n re] eqn:Er; [discriminate H|]. cbn [rbind] in H.
    assert (Hn : Q (nop n) (length (nch n))). { unfold uses in We. rewrite Forall_forall in We. apply We. apply in_rev. rewrite Er. now left. }
    destruct (rename_node tv (l_mk_var L) m n) as [[n' m1]|] eqn:Rn; [|discriminate H]. cbn [rbind] in H. pose proof (rename_fitq _ _ _ _ Hn Rn) as Fn.
    destruct (build_loop _ _ _ _ e _ _) as [st|] eqn:B; [|discriminate H]. cbn [rbind] in H. pose proof (build_fitq _ _ We _ (BS [] [] m1) _ (Forall_nil _) B) as Fs.
    destruct (rmapM _ (nch n')) as [ch|] eqn:Ech; [|discriminate H]. cbn [rbind] in H. injection H as <- <-.
    unfold pat_uses. apply Forall_map. assert (forall n0, fitq n0 -> match to_enode_or_var tv (nop n0) with EN o => tv o = None /\ Q o (length (nch n0)) | PV _ => True end) as J.
    { intros n0 F0. unfold to_enode_or_var. destruct (tv (nop n0)) as [s|] eqn:E; [exact I|]. split; [exact E|exact (F0 E)]. }
    apply Forall_app. split; [|constructor; [|constructor]].
    - eapply Forall_impl; [|exact Fs]. intros n0 F0. exact (J n0 F0).
    - apply J. refine (fitq_children _ (nch n') _ _ _ Ech). destruct n'; exact Fn.
  Qed.

  (* ---- candidates ---- *)
  Local Notation rule_uses := (rule_uses L Q).
  Lemma rule_uses_rhs : forall r, rule_uses r -> rhs_uses Q r.
  Proof. intros r [_ H]. eapply Forall_impl; [|exact H]. intros n. cbn. destruct (nop n); tauto. Qed.
  Lemma rule_uses_reverse : forall r r', rule_uses r -> reverse (l_name L) r = Val (Some r') -> rule_uses r'.
  Proof.
    intros r r' [P1 P2] E. unfold reverse, rule_new in E. destruct (rule_name (l_name L) (rrhs r) (rlhs r)) as [s|]; [|discriminate E]. cbn in E.
    destruct (rewrite_ok _ _); [|discriminate E]. injection E as <-. split; assumption.
  Qed.
  Lemma pair_uses : forall e1 e2 fw bw, uses Q e1 -> uses Q e2 -> candidate_pair (l_eqb L) tv (l_mk_var L) (l_name L) e1 e2 = Val (fw, bw) ->
    forall x, fw = Some x \/ bw = Some x -> rule_uses x.
  Proof.
    intros e1 e2 fw bw W1 W2 H x Hx. unfold candidate_pair in H.
    destruct (generalize (l_eqb L) tv (l_mk_var L) [] e1) as [[l m1]|] eqn:G1; [|discriminate H]. cbn [rbind] in H.
    destruct (generalize (l_eqb L) tv (l_mk_var L) m1 e2) as [[r m2]|] eqn:G2; [|discriminate H]. cbn [rbind] in H.
    pose proof (generalize_uses _ _ _ _ W1 G1) as P1. pose proof (generalize_uses _ _ _ _ W2 G2) as P2.
    unfold rule_new in H. destruct (rule_name (l_name L) l r) as [s1|]; [|discriminate H]. cbn [rbind] in H.
    destruct (rule_name (l_name L) r l) as [s2|]; [|discriminate H]. cbn [rbind] in H. injection H as <- <-. destruct Hx as [Hx|Hx].
    - destruct (rewrite_ok l r); [|discriminate Hx]. injection Hx as <-. split; assumption.
    - destruct (rewrite_ok r l); [|discriminate Hx]. injection Hx as <-. split; assumption.
  Qed.
  Lemma best_uses : forall (g : eg O C) allowed arrange order f t i k e, (forall l, Permutation l (arrange l)) -> wf g -> inv g -> Permutation (class_ids g) order ->
    extractor allowed arrange g f order = Val t -> find_best (l_eqb L) g f t i = Val (k, e) -> uses Q e /\ exists u, tree e = Val u.
  Proof.
    intros g allowed arrange order f t i k e Ha W (I1 & _) Po Ex B.
    assert (Hi : i < size g). { unfold find_best, best_node in B. destruct (find g i) as [r|] eqn:E; [exact (find_some _ _ _ E)|discriminate B]. }
    destruct (best_any (l_eqb L) allowed arrange g eqb_eq Ha W order (order_ids g order Po) f t i k e Ex B Hi) as (u & T & _ & F).
    split; [|exists u; exact T]. eapply Forall_impl; [|exact F]. intros n (m & j & Hm & Eo & El). cbn. rewrite Eo, El. exact (I1 m j Hm).
  Qed.

  (* a property of all rules that are made from two terms over [Q] *)
  Variable R : rule O -> Prop.
  Hypothesis R_pair : forall e1 t1 e2 t2 fw bw, uses Q e1 -> uses Q e2 -> tree e1 = Val t1 -> tree e2 = Val t2 ->
    candidate_pair (l_eqb L) tv (l_mk_var L) (l_name L) e1 e2 = Val (fw, bw) -> forall x, fw = Some x \/ bw = Some x -> R x.
  Hypothesis R_reverse : forall r r', R r -> reverse (l_name L) r = Val (Some r') -> R r'.
  Hypothesis R_rhs : forall r, R r -> rhs_uses Q r.
  Lemma propose_uses : forall (g : eg O C) allowed arrange order f t ps es rs (sel : _ -> bool), (forall l, Permutation l (arrange l)) -> wf g -> inv g -> Permutation (class_ids g) order ->
    extractor allowed arrange g f order = Val t -> rmapM (best_pair L f g t) ps = Val es ->
    propose L [] (map (fun p => (snd (fst p), snd (snd p))) (List.filter sel es)) = Val rs -> Forall (fun e => R (snd e)) rs.
  Proof.
    intros g allowed arrange order f t ps es rs sel Ha W Iv Po Ex Es H.
    refine (propose_from L R _ [] rs _ (Forall_nil _) H). intros e1 e2 J fw bw Cp x Hx. apply in_map_iff in J as ([[k1 e1'] [k2 e2']] & E & J). cbn in E. injection E as -> ->.
    apply filter_In in J as [J _]. apply rmapM_F2 in Es.
    assert (exists i j, find_best (l_eqb L) g f t i = Val (k1, e1) /\ find_best (l_eqb L) g f t j = Val (k2, e2)) as (i & j & B1 & B2).
    { clear - Es J. induction Es as [|[i j] e ps es H Es IH]; [destruct J|]. destruct J as [->|J]; [|exact (IH J)].
      unfold best_pair in H. cbn [fst snd] in H. destruct (find_best _ _ _ _ i) as [a|] eqn:E1; [|discriminate H]. cbn [rbind] in H.
      destruct (find_best _ _ _ _ j) as [b|] eqn:E2; [|discriminate H]. cbn [rbind] in H. injection H as -> ->. exists i, j. auto. }
    destruct (best_uses g _ _ _ _ _ _ _ _ Ha W Iv Po Ex B1) as [U1 (u1 & T1)]. destruct (best_uses g _ _ _ _ _ _ _ _ Ha W Iv Po Ex B2) as [U2 (u2 & T2)].
    exact (R_pair e1 u1 e2 u2 fw bw U1 U2 T1 T2 Cp x Hx).
  Qed.
  Lemma proposed_uses : forall fuel fast g rs, wf g -> inv g -> proposed L fuel fast g rs -> Forall (fun e => R (snd e)) rs.
  Proof.
    intros fuel fast g rs W Iv (order & arrange & (Po & Ha) & H). destruct fast.
    - unfold fast_cvec_match in H. destruct (extractor _ _ _ _ _) as [t|] eqn:Ex; [|discriminate H]. cbn [rbind] in H. destruct (fast_pairs _ _ _) as [ps|]; [|discriminate H]. cbn [rbind] in H.
      destruct (rmapM _ ps) as [es|] eqn:Es; [|discriminate H]. cbn [rbind] in H. rewrite <- (filter_all _ es) in H. exact (propose_uses g _ _ _ _ _ _ _ _ _ Ha W Iv Po Ex Es H).
    - unfold cvec_match in H. destruct (extractor _ _ _ _ _) as [t|] eqn:Ex; [|discriminate H]. cbn [rbind] in H. destruct (cvec_pairs _ _ _) as [ps|]; [|discriminate H]. cbn [rbind] in H.
      destruct (rmapM _ ps) as [es|] eqn:Es; [|discriminate H]. cbn [rbind] in H. rewrite <- (filter_all _ es) in H. exact (propose_uses g _ _ _ _ _ _ _ _ _ Ha W Iv Po Ex Es H).
  Qed.
  Lemma extracted_uses : forall fuel g1 g2 rs, wf g1 -> inv g1 -> extracted L fuel g1 g2 rs -> Forall (fun e => R (snd e)) rs.
  Proof.
    intros fuel g1 g2 rs W Iv (order & arrange & uorder & (Po & Ha) & _ & H).
    unfold extract_candidates in H. destruct (extractor _ _ _ _ _) as [t|] eqn:Ex; [|discriminate H]. cbn [rbind] in H. destruct (merged_pairs _ _ _) as [ps|]; [|discriminate H]. cbn [rbind] in H.
    destruct (rmapM _ ps) as [es|] eqn:Es; [|discriminate H]. cbn [rbind] in H. exact (propose_uses g1 _ _ _ _ _ _ _ _ _ Ha W Iv Po Ex Es H).
  Qed.

  (* ---- learned rules ---- *)
  Local Notation kind rs := (Forall (fun e => rhs_uses Q (snd e)) rs).
  Lemma kind_extend : forall a b, kind a -> kind b -> kind (extend a b).
  Proof. intros a b Ha Hb. apply Forall_forall. intros e J. rewrite Forall_forall in Ha, Hb. apply extend_in' in J as [J|J]; auto. Qed.
  Theorem workload_ops : forall fuel w prior fast ae new, NoDup (map fst prior) -> workload_fits L Q w -> kind prior -> run_workload_internal L keep fuel w prior fast ae new ->
    Forall (fun e => R (snd e)) new.
  Proof.
    intros fuel w prior fast ae new N Hw Hp (g & c & cands & E & Cm & Pr & (order & invalid & _ & M) & _). apply compressed_run in Cm as (st & Cm).
    assert (G : grown L (rhs_uses Q) keep w c) by (refine (Gr_run _ _ _ _ _ _ _ _ _ (Gr_start _ _ _ _ _ g E) Hp Cm)).
    destruct (grown_ops w c Hw G) as [W Iv]. exact (minimize_origin L keep fuel R R_reverse _ _ _ _ _ N M (proposed_uses fuel fast c cands W Iv Pr)).
  Qed.
  Theorem forwarding_ops : forall fuel exploratory w prior new, NoDup (map fst prior) -> workload_fits L Q w -> kind prior -> kind exploratory ->
    run_fast_forwarding L keep fuel exploratory w prior new -> Forall (fun e => R (snd e)) new.
  Proof.
    intros fuel expl w prior new N Hw Hp He (g0 & allowed & other & g1 & g2 & g3 & c1 & c2 & E & Pt & C1 & S2 & X1 & C3 & X2 & (order & invalid & _ & M)).
    apply compressed_run in C1 as (st1 & C1).
    assert (Ha : kind allowed).
    { destruct (RulesetProofs.partition_sub _ _ _ _ Pt) as [Sub _]. apply Forall_forall. intros e J. rewrite Forall_forall in Hp. apply Sub in J. apply in_map_iff in J as (x & <- & Ix). exact (Hp x Ix). }
    assert (G1 : grown L (rhs_uses Q) keep w g1) by (refine (Gr_run _ _ _ _ _ _ _ _ _ (Gr_start _ _ _ _ _ g0 E) Ha C1)).
    assert (G2 : grown L (rhs_uses Q) keep w g2) by (apply (Gr_run L (rhs_uses Q) keep w fuel Simple expl g1 g2 G1 He); exact S2).
    destruct (grown_ops w g1 Hw G1) as [W1 I1]. destruct (grown_ops w g2 Hw G2) as [W2 I2].
    refine (minimize_origin L keep fuel R R_reverse _ _ _ _ _ N M _).
    pose proof (extracted_uses _ _ _ _ W1 I1 X1) as F1. pose proof (extracted_uses _ _ _ _ W2 I2 X2) as F2.
    apply Forall_forall. intros e J. rewrite Forall_forall in F1, F2. apply extend_in' in J as [J|J]; auto.
  Qed.
  Theorem recursive_ops : forall fuel met l prior n all, NoDup (map fst prior) -> (forall m w, m <= n -> sized_workload met m l = Val w -> workload_fits L Q w) -> kind prior ->
    recursive_rules L keep fuel met l prior n all -> kind all /\ forall e, In e all -> In e prior \/ R (snd e).
  Proof.
    intros fuel met l prior n all N Hw Hp Rr. induction Rr as [|k rec w new Rr IH Ew Rw]; [split; [constructor|intros e []]|].
    destruct IH as [IP IH]; [intros m v Hm; apply Hw; lia|]. destruct (recursive_ok L keep fuel met l prior k rec N Rr) as (Nr & _).
    pose proof (kind_extend rec prior IP Hp) as Pe.
    pose proof (workload_ops fuel w (extend rec prior) true _ new (extend_nodup' rec prior Nr) (Hw _ w (le_n _) Ew) Pe Rw) as F. split.
    - apply kind_extend; [|exact Pe]. eapply Forall_impl; [|exact F]. intros e U. exact (R_rhs _ U).
    - intros e J. rewrite Forall_forall in F. apply extend_in' in J as [J|J]; [right; exact (F e J)|]. apply extend_in' in J as [J|J]; [exact (IH e J)|now left].
  Qed.
End Ops.
