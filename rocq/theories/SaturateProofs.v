(* Literal-only languages: which rules count as saturating, and that these rules add
   no classes. *)
From Verif Require Import Base BaseProofs Lang LangProofs Util Syntax SyntaxProofs Rule Ruleset Analysis MinimizeSpec
  Egraph EgraphSpec EgraphProofs EgraphSound Synth Apply Sched SynthSpec SynthProofs DeriveProofs CalmSpec Calm CalmRun Cover ApplySpec ApplyProofs
  PlainSpec PlainProofs PartsProofs SaturateSpec.
Open Scope list_scope.

(* ---- subterms ---- *)
Section Terms.
  Context {O : Type}.
  Implicit Types t u v : term O.
  Definition tsz t : nat := length (subterms t).
  Lemma subterms_self : forall t, In t (subterms t).
  Proof. intros [o ts]. now left. Qed.
  Lemma subterms_trans : forall t u v, In u (subterms t) -> In v (subterms u) -> In v (subterms t).
  Proof.
    intros t. induction t as [o ts IH] using term_ind'. intros u v [<-|I] J; [exact J|]. right. apply in_flat_map in I as (x & Ix & Iu).
    apply in_flat_map. exists x. split; [exact Ix|]. rewrite Forall_forall in IH. exact (IH x Ix u v Iu J).
  Qed.
  Lemma arg_sz : forall o ts u, In u ts -> tsz u < tsz (T o ts).
  Proof.
    intros o ts u I. unfold tsz. cbn. apply Nat.lt_succ_r. induction ts as [|x ts IH]; [destruct I|]. cbn. rewrite app_length.
    destruct I as [->|I]; [lia|]. specialize (IH I). lia.
  Qed.
  Lemma subterm_sz : forall t u, In u (subterms t) -> tsz u <= tsz t.
  Proof.
    intros t. induction t as [o ts IH] using term_ind'. intros u [<-|I]; [lia|]. apply in_flat_map in I as (x & Ix & Iu).
    rewrite Forall_forall in IH. pose proof (IH x Ix u Iu). pose proof (arg_sz o ts x Ix). lia.
  Qed.
  Lemma subterm_cases : forall t u, In u (subterms t) -> u = t \/ exists a, In a (args t) /\ In u (subterms a).
  Proof. intros [o ts] u [<-|I]; [now left|]. right. apply in_flat_map in I as (a & Ia & Iu). eauto. Qed.
  Lemma arg_subterm : forall t a, In a (args t) -> In a (subterms t).
  Proof. intros [o ts] a I. right. apply in_flat_map. exists a. split; [exact I|apply subterms_self]. Qed.

  Lemma neat_entries : forall (p : recexpr O) t bx, neat p t -> run_buf (fun o ts => Val (T o ts)) p [] = Val bx -> Forall (fun x => In x (subterms t)) bx.
  Proof.
    intros p t bx [Tr H] R. destruct (run_buf_entries _ _ _ _ R) as (vs & E & Ln & P). cbn in E. subst vs.
    apply Forall_forall. intros x I. apply In_nth_error in I as (k & Ek). apply (H (firstn (S k) p) (skipn (S k) p)); [symmetry; apply firstn_skipn|].
    unfold tree, fold_rec. rewrite (P k x Ek). cbn [rbind app]. apply pop_last.
  Qed.
  Lemma entries_neat : forall (p : recexpr O) t bx, tree p = Val t -> run_buf (fun o ts => Val (T o ts)) p [] = Val bx ->
    Forall (fun x => In x (subterms t)) bx -> neat p t.
  Proof.
    intros p t bx Tr R F. split; [exact Tr|]. intros p1 p2 q -> T1. rewrite ApplyProofs.run_buf_app in R. unfold tree, fold_rec in T1.
    destruct (run_buf _ p1 []) as [b1|] eqn:E1; [|discriminate T1]. cbn [rbind] in T1, R.
    destruct (run_buf_entries _ _ _ _ R) as (vs & -> & _). apply Forall_app in F as [F _]. rewrite Forall_forall in F. apply F.
    unfold pop_unwrap in T1. rewrite in_rev. destruct (rev b1); inversion T1. now left.
  Qed.
  Lemma to_rec_neat : forall t, neat (to_rec t) t.
  Proof. intros t. destruct (to_rec_parts t) as (bx & R & F). exact (entries_neat _ t bx (tree_to_rec t) R F). Qed.
End Terms.

Section Inst.
  Context {O C : Type}.
  Variable L : lang O C.
  Variable ar : O -> nat.
  Hypothesis Vr : plain_vars L.
  Hypothesis Va : forall x, ar (l_mk_var L x) = 0.
  Local Notation inst := (inst L).

  Inductive okp : term (eov O) -> Prop :=
    | Ok_var v : okp (T (PV v) [])
    | Ok_op o ts : l_to_var L o = None -> length ts = ar o -> Forall okp ts -> okp (T (EN o) ts).
  Lemma run_buf_okp : forall p buf out, Forall (plain_pnode L ar) p -> Forall okp buf ->
    run_buf (fun o ts => Val (T o ts)) p buf = Val out -> Forall okp out.
  Proof.
    induction p as [|n p IH]; intros buf out F B H; cbn in H; [inversion H; now subst|]. inversion F as [|? ? P1 P2]; subst.
    destruct (rmapM (index buf) (nch n)) as [ts|] eqn:E; [|discriminate H]. cbn in H. apply IH in H; auto. apply Forall_app. split; [exact B|]. constructor; [|constructor].
    apply rmapM_F2 in E. pose proof (Forall2_length _ _ _ E) as Ln. unfold plain_pnode in P1. destruct (nop n) as [o|v].
    - destruct P1 as [A1 A2]. constructor; [exact A2|congruence|]. clear - E B. induction E as [|i t is ts H E IH]; constructor; [|auto].
      apply index_some in H as [_ H]. rewrite Forall_forall in B. exact (B t (nth_error_In _ _ H)).
    - rewrite P1 in Ln. destruct ts; [constructor|discriminate Ln].
  Qed.
  Lemma tree_okp : forall p t, Forall (plain_pnode L ar) p -> tree p = Val t -> okp t.
  Proof.
    intros p t F H. unfold tree, fold_rec in H. destruct (run_buf _ p []) as [b|] eqn:E; [|discriminate H]. cbn [rbind] in H.
    pose proof (run_buf_okp p [] b F (Forall_nil _) E) as B. rewrite Forall_forall in B. apply B. unfold pop_unwrap in H. rewrite in_rev. destruct (rev b); inversion H. now left.
  Qed.
  Lemma inst_inj : forall t, okp t -> forall u, okp u -> inst t = inst u -> t = u.
  Proof.
    intros t. induction t as [o ts IH] using term_ind'. intros Ot u Ou E. destruct u as [o' us]. cbn in E. inversion E as [[E1 E2]].
    assert (Q : forall x o0, l_mk_var L x = o0 -> l_to_var L o0 = None -> False). { intros x o0 <- H. rewrite (pv_var L Vr) in H. discriminate H. }
    inversion Ot as [v|o0 ts0 H1 H2 H3]; subst; inversion Ou as [w|o1 us0 H4 H5 H6]; subst; cbn in E1.
    - f_equal. f_equal. pose proof (pv_var L Vr v) as P. rewrite E1, (pv_var L Vr) in P. congruence.
    - destruct (Q _ _ E1 H4).
    - destruct (Q _ _ (eq_sym E1) H1).
    - subst o1. f_equal. clear - IH H3 H6 E2. revert us H6 E2. induction H3 as [|t ts Ht H3 IHt]; intros [|u us] H6 E2; try discriminate E2; [reflexivity|].
      inversion IH as [|? ? I1 I2]; subst. inversion H6; subst. cbn in E2. inversion E2. f_equal; auto.
  Qed.
  Lemma okp_sub : forall t, okp t -> forall u, In u (subterms t) -> okp u.
  Proof.
    intros t. induction t as [o ts IH] using term_ind'. intros Ot u [<-|I]; [exact Ot|]. apply in_flat_map in I as (x & Ix & Iu). rewrite Forall_forall in IH.
    apply (IH x Ix); [|exact Iu]. inversion Ot as [v|o0 ts0 H1 H2 H3]; subst; [destruct Ix|]. rewrite Forall_forall in H3. auto.
  Qed.
  Lemma subterms_inst : forall t, subterms (inst t) = map inst (subterms t).
  Proof.
    intros t. induction t as [o ts IH] using term_ind'. cbn. f_equal. induction IH as [|t ts H IH' IHl]; cbn; [reflexivity|]. now rewrite H, IHl, map_app.
  Qed.
  Lemma in_sub_inst : forall t u, okp t -> okp u -> (In (inst u) (subterms (inst t)) <-> In u (subterms t)).
  Proof.
    intros t u Ot Ou. rewrite subterms_inst. split; [|apply in_map]. intros I. apply in_map_iff in I as (w & E & I).
    now rewrite <- (inst_inj w (okp_sub t Ot w I) u Ou E).
  Qed.
  Lemma inst_wf : forall t, okp t -> wf_term ar (inst t).
  Proof.
    intros t. induction t as [o ts IH] using term_ind'. intros Ot. inversion Ot as [v|o0 ts0 H1 H2 H3]; subst; cbn.
    - constructor; [cbn; symmetry; apply Va|constructor].
    - constructor; [now rewrite map_length|]. clear - IH H3. induction H3; inversion IH; subst; cbn; constructor; auto.
  Qed.
  Lemma instantiate_typed : forall p, Forall (plain_pnode L ar) p -> Forall (typed_node ar) (instantiate (l_mk_var L) p).
  Proof.
    intros p F. unfold instantiate. apply Forall_forall. intros m I. apply in_map_iff in I as (n & <- & I). rewrite Forall_forall in F. specialize (F n I).
    unfold typed_node, plain_pnode in *. cbn. destruct (nop n); cbn; [tauto|]. now rewrite F, Va.
  Qed.
  Lemma instantiate_neat : forall p t, neat p t -> neat (instantiate (l_mk_var L) p) (inst t).
  Proof.
    intros p t [Tr N]. split; [rewrite (tree_inst L), Tr; reflexivity|]. intros p1 p2 q E T1. unfold instantiate in E.
    apply map_eq_app in E as (a & b & -> & <- & <-). pose proof (tree_inst L a) as Ta. unfold instantiate in Ta. rewrite Ta in T1.
    destruct (tree a) as [w|] eqn:Ew; [|discriminate T1]. cbn in T1. inversion T1; subst. rewrite subterms_inst. apply in_map. exact (N a b w eq_refl Ew).
  Qed.
End Inst.

Section Sat.
  Context {O C : Type}.
  Variable L : lang O C.
  Variable ar : O -> nat.
  Hypothesis Lo : literal_only L ar.
  Variable keep : eg O C -> nat -> nat -> bool.
  Variable fuel : nat.
  Local Notation wf := (@wf O (sig O C) nat).
  Local Notation eqb_eq := (lo_eqb L ar Lo).
  Local Notation calm := (calm L ar).

  (* nothing happens when a congruence-closed e-graph is rebuilt *)
  Lemma rebuild_still : forall (g : eg O C) g', calm g -> congruent g -> s_rebuild L keep fuel g = Val g' -> g_reps g' = g_reps g.
  Proof.
    unfold s_rebuild. generalize fuel at 2 as f. induction f as [|k IH]; intros g g' Cm Cg H; cbn in H; [discriminate H|].
    destruct (canon_nodes g) as [g1|] eqn:Cc; [|discriminate H]. cbn in H. pose proof (canon_nodes_calm L ar g g1 Cm Cc) as C1.
    destruct (canon_nodes_ok g g1 (cm_wf _ _ g Cm) Cc) as (W1 & E1 & _ & R1 & _ & Hb).
    assert (Q1 : forall i j, eqv g1 i j <-> eqv g i j). { intros i j. unfold eqv, find. now rewrite R1. }
    assert (Cg1 : congruent g1). { intros o ch c d H1 H2. apply Q1. apply (Cg o ch); now apply Hb. }
    destruct (clash (l_eqb L) g1 (g_nodes g1)) as [c|] eqn:Cl; [|discriminate H]. cbn in H. destruct c as [[i j]|].
    - destruct (union (s_merge L) keep (s_modify L keep fuel) g1 i j) as [[g2 m]|] eqn:U; [|discriminate H]. cbn in H.
      destruct (union_calm L ar Lo keep fuel g1 i j g2 m C1 U) as [C2 D2].
      apply (clash_some _ eqb_eq) in Cl as (n & I1 & I2).
      assert (eqv g1 i j) as Q. { apply (Cg1 (nop n) (nch n)); now apply EgraphProofs.has_in. }
      destruct D2 as [(-> & _)|(_ & Nq & _)]; [|contradiction]. now rewrite (IH g1 g' C1 Cg1 H).
    - destruct (stale (s_make L) (s_merge L) g1 (g_nodes g1)) as [s|] eqn:S; [|discriminate H]. cbn in H. destruct s as [[c d]|].
      + apply stale_some in S; [|exact W1|apply incl_refl]. destruct S as (Fc & n & i & ds & dn & dc & ch & I & Fi & Eds & Edn & Edc & Em).
        assert (Ld : lit_data L ar g1 c d).
        { apply (s_merge_lit L ar Lo g1 c dc dn d ch); [| |exact Em].
          - apply (cm_lits _ _ g1 C1). unfold class_data. rewrite Fc. exact Edc.
          - unfold lit_data. destruct (s_make_lit L ar Lo _ _ _ _ Edn (cm_typed _ _ g1 C1 n i I)) as [X|(c0 & X & Hc & Hz)]; [now left|].
            right. exists c0, (nop n). split; [exact X|]. split; [exact Hc|]. rewrite <- Hz. apply has_eqv with (nch n) i; [now apply EgraphProofs.has_in| |].
            + apply eqvs_refl. apply (wf_nodes g1 W1 n i I).
            + exact (eqv_find g1 i c W1 Fi). }
        pose proof (set_data_calm L ar g1 c d C1 Fc Ld) as C2.
        destruct (s_modify L keep fuel _ c) as [g2|] eqn:M in H; [|discriminate H]. cbn in H. apply (calm_modify L ar Lo) in M; [|exact C2]. subst g2.
        rewrite (IH _ g' C2) with (2 := H); [exact R1|]. intros o ch' c' d' H1 H2. exact (Cg1 o ch' c' d' H1 H2).
      + inversion H; subst g1. exact R1.
  Qed.

  Lemma count_reps : forall g g' : eg O C, g_reps g' = g_reps g -> number_of_classes g' = number_of_classes g.
  Proof. intros g g' E. unfold number_of_classes, class_ids, size, find. now rewrite E. Qed.
  Lemma filter_ne : forall d n a, length (List.filter (fun i => negb (Nat.eqb i d)) (seq a n)) = if Nat.leb a d && Nat.ltb d (a + n) then n - 1 else n.
  Proof.
    intros d. induction n as [|n IH]; intros a; cbn [seq List.filter].
    - destruct (Nat.leb_spec a d), (Nat.ltb_spec d (a + 0)); cbn; reflexivity.
    - destruct (Nat.eqb_spec a d) as [->|N]; cbn [negb].
      + rewrite IH. destruct (Nat.leb_spec (S d) d), (Nat.leb_spec d d), (Nat.ltb_spec d (d + S n)); cbn; lia.
      + cbn [length]. rewrite IH. destruct (Nat.leb_spec (S a) d), (Nat.leb_spec a d), (Nat.ltb_spec d (S a + n)), (Nat.ltb_spec d (a + S n)); cbn; lia.
  Qed.
  Lemma merged_count : forall (g : eg O C) k d dt, g_reps g = seq 0 (size g) -> d < size g -> k < size g -> k <> d ->
    S (number_of_classes (merged g k d dt)) = size g.
  Proof.
    intros g k d dt R Ld Lk N. unfold number_of_classes, class_ids. rewrite size_merged.
    rewrite (filter_ext_in _ (fun i => negb (Nat.eqb i d))).
    - rewrite filter_ne. destruct (Nat.ltb_spec d (0 + size g)); cbn; lia.
    - intros i I. apply in_seq in I. rewrite find_merged. assert (find g i = Val i) as ->. { unfold find, index. rewrite R, (nth_error_nth' _ 0) by (rewrite seq_length; lia). now rewrite seq_nth by lia. }
      cbn. destruct (Nat.eqb_spec i d) as [->|]; cbn; [destruct (Nat.eqb_spec k d); [lia|reflexivity]|apply Nat.eqb_refl].
  Qed.

  Hypothesis Vr : plain_vars L.
  Lemma add_neat_tidy : forall an vc r t (g : eg O C) g' i, tidy L ar an vc g -> Forall (typed_node ar) r -> neat r t -> s_add_expr L keep fuel g r = Val (g', i) ->
    tidy L ar an vc g' /\ appends g g' /\ repr g' t i /\ forall x, x < size g' -> x < size g \/ exists u, In u (subterms t) /\ repr g' u x.
  Proof.
    intros an vc r t g g' i Td Ty Nt H. pose proof (td_calm _ _ _ _ g Td) as Cm. pose proof (cm_wf _ _ g Cm) as W.
    destruct (add_expr_ok _ eqb_eq _ _ (s_md_ok L eqb_eq keep fuel) _ _ _ _ W H) as (_ & _ & t' & Tr & R). rewrite (proj1 Nt) in Tr. inversion Tr; subst t'.
    unfold s_add_expr, add_expr in H. destruct (add_nodes _ _ _ g [] r) as [[g1 ids]|] eqn:E; [|discriminate H]. cbn in H.
    destruct (pop_unwrap ids); [|discriminate H]. cbn in H. inversion H; subst.
    destruct (add_nodes_tidy L ar Lo Vr keep fuel an vc _ _ _ _ _ Td Ty E) as [Td1 A1]. split; [exact Td1|]. split; [exact A1|]. split; [exact R|].
    destruct (add_nodes_appends L ar Lo keep fuel _ _ _ _ _ Cm Ty E) as (_ & _ & is & Ei & X). cbn in Ei. subst is.
    destruct (add_nodes_ok _ eqb_eq _ _ (s_md_ok L eqb_eq keep fuel) _ _ _ _ _ _ W (Forall2_nil _) E) as (_ & _ & ts & Rb & F).
    pose proof (neat_entries r t ts Nt Rb) as P.
    intros x Lx. destruct (X x Lx) as [Y|Y]; [now left|]. right. clear - F P Y. revert P. induction F as [|u c us cs Hu F IH]; intros P; [destruct Y|].
    inversion P; subst. destruct Y as [->|Y]; [eauto|auto].
  Qed.
  Lemma default_tidy : tidy L ar 0 (fun _ => []) (@eg_default O C).
  Proof.
    constructor; try reflexivity; [apply calm_default|constructor|intros m i []|intros s H; now destruct H].
  Qed.

  Definition parts_of (g : eg O C) (a b : term O) : Prop := forall x t, repr g t x -> In t (subterms a) \/ In t (subterms b).
  (* one union of two terms keeps an e-graph of their subterms congruence closed *)
  Lemma one_union_congruent : forall an vc (g : eg O C) l i tl tr g', tidy L ar an vc g -> repr g tl l -> repr g tr i -> parts_of g tl tr ->
    only_merges g l i g' -> congruent g'.
  Proof.
    intros an vc g l i tl tr g' Td Rl Ri Pt Om o ch c d H1 H2. pose proof (cm_wf _ _ g (td_calm _ _ _ _ g Td)) as W.
    apply (om_nodes _ _ _ _ Om) in H1 as (ch1 & c1 & N1 & F1 & Q1). apply (om_nodes _ _ _ _ Om) in H2 as (ch2 & c2 & N2 & F2 & Q2).
    assert (Hc : c1 = c2).
    { assert (ch1 = ch2 \/ (In l ch1 /\ In i ch2) \/ (In i ch1 /\ In l ch2)) as D.
      { clear N1 N2 Q1 Q2. revert ch2 F2. induction F1 as [|x y ch1 ch Qx F1 IH]; intros ch2 F2; inversion F2 as [|x2 y2 ch2' ch' Qx2 F2']; subst; [now left|].
        assert (eqv g' x x2) as Qxx by (exact (eqv_trans _ _ _ _ Qx (eqv_sym _ _ _ Qx2))).
        apply (om_eqv _ _ _ _ Om) in Qxx as [Q|[[Qa Qb]|[Qa Qb]]].
        - apply (tidy_eqv L ar an vc g) in Q; [|exact Td]. subst x2. destruct (IH _ F2') as [->|[[A B]|[A B]]]; [now left|right; left; split; now right|right; right; split; now right].
        - apply (tidy_eqv L ar an vc g) in Qa, Qb; [|exact Td|exact Td]. subst. right. left. split; now left.
        - apply (tidy_eqv L ar an vc g) in Qa, Qb; [|exact Td|exact Td]. subst. right. right. split; now left. }
      assert (forall o ch c x tx, has g o ch c -> In x ch -> repr g tx x -> exists u, repr g u c /\ tsz tx < tsz u /\ In tx (args u)) as Up.
      { intros o0 ch0 c0 x tx Hh I Rx. assert (exists ts, Forall2 (repr g) ts ch0) as (ts & F).
        { destruct Hh as (m & j & Im & Eo & Fc & Qc). assert (Forall (fun c => c < size g) ch0) as Lc. { clear - Fc. induction Fc; constructor; auto. eapply eqv_lt; eauto. }
          clear - Lc W. induction Lc as [|c0 ch0 Hc Lc (ts & F)]; [exists []; constructor|]. destruct (wf_represents g W c0 Hc) as (t & R). exists (t :: ts). now constructor. }
        exists (T o0 ts). assert (In tx ts) as It.
        { clear - F I Rx Td. induction F as [|t c ts ch Rt F IH]; [destruct I|]. destruct I as [->|I]; [left; exact (tidy_one_term L ar an vc g Td _ _ Rt _ Rx)|right; auto]. }
        split; [now apply Rp with ch0|]. split; [now apply arg_sz|exact It]. }
      assert (forall ca cb cha chb, has g o cha ca -> has g o chb cb -> In l cha -> In i chb -> False) as No.
      { intros ca cb cha chb Ha Hb Ia Ib. destruct (Up _ _ _ _ _ Ha Ia Rl) as (u & Ru & Su & Iu). destruct (Up _ _ _ _ _ Hb Ib Ri) as (w & Rw & Sw & Iw).
        destruct (Pt _ _ Ru) as [P1|P1]; [apply subterm_sz in P1; lia|]. destruct (Pt _ _ Rw) as [P2|P2]; [|apply subterm_sz in P2; lia].
        apply subterm_sz in P1, P2. lia. }
      destruct D as [<-|[[A B]|[A B]]].
      - apply (tidy_has L ar an vc g) in N1, N2; [|exact Td|exact Td]. exact (nodup_fst _ _ _ _ _ _ (td_keys _ _ _ _ g Td) N1 N2).
      - destruct (No _ _ _ _ N1 N2 A B).
      - destruct (No _ _ _ _ N2 N1 B A). }
    subst c2. exact (eqv_trans _ _ _ _ (eqv_sym _ _ _ Q1) Q2).
  Qed.

  Lemma saturating_iff : forall r tl tr b, neat (rlhs r) tl -> neat (rrhs r) tr -> Forall (plain_pnode L ar) (rlhs r) -> Forall (plain_pnode L ar) (rrhs r) ->
    is_saturating L keep fuel r = Val b -> (b = true <-> Forall (fun a => In a (subterms tl)) (args tr)).
  Proof.
    intros r tl tr b Nl Nr Pl Pr H. unfold is_saturating in H. pose proof (lo_vars L ar Lo) as Va.
    pose proof (tree_okp L ar _ _ Pl (proj1 Nl)) as Ol. pose proof (tree_okp L ar _ _ Pr (proj1 Nr)) as Or.
    destruct (s_add_expr L keep fuel eg_default _) as [[g1 l]|] eqn:E1; [|discriminate H]. cbn [rbind] in H.
    destruct (add_neat_tidy 0 (fun _ => []) _ (inst L tl) _ g1 l default_tidy (instantiate_typed L ar Va _ Pl) (instantiate_neat L _ _ Nl) E1) as (Td1 & _ & Rl & X1).
    destruct (s_add_expr L keep fuel g1 _) as [[g2 i]|] eqn:E2; [|discriminate H]. cbn [rbind] in H.
    destruct (add_neat_tidy 0 (fun _ => []) _ (inst L tr) _ g2 i Td1 (instantiate_typed L ar Va _ Pr) (instantiate_neat L _ _ Nr) E2) as (Td2 & A2 & Ri & X2).
    pose proof (cm_wf _ _ g1 (td_calm _ _ _ _ g1 Td1)) as W1. pose proof (cm_wf _ _ g2 (td_calm _ _ _ _ g2 Td2)) as W2.
    pose proof (appends_ext g1 g2 W1 W2 A2) as Ex. pose proof (repr_ext g1 g2 Ex _ _ Rl) as Rl2.
    (* the classes of g1 are the subterms of the left-hand side *)
    assert (Old : forall x t, x < size g1 -> repr g2 t x -> In t (subterms (inst L tl))).
    { intros x t Lx Rt. destruct (X1 x Lx) as [Y|(u & Iu & Ru)]; [inversion Y|]. now rewrite (tidy_one_term L ar _ _ g2 Td2 t x Rt u (repr_ext g1 g2 Ex _ _ Ru)). }
    assert (Here : forall t x, repr g2 t x -> In t (subterms (inst L tl)) -> x < size g1).
    { intros t x Rt It. destruct (repr_subterms g1 _ _ Rl t It) as (y & Ry).
      rewrite (tidy_one_class L ar _ _ g2 Td2 t x Rt y (repr_ext g1 g2 Ex _ _ Ry)). destruct Ry as [o ts ch y0 _ (m & j & _ & _ & _ & Q)]. exact (proj2 (eqv_lt _ _ _ Q)). }
    assert (Pt : parts_of g2 (inst L tl) (inst L tr)).
    { intros x t Rt. assert (x < size g2) as Lx. { destruct Rt as [o ts ch y0 _ (m & j & _ & _ & _ & Q)]. exact (proj2 (eqv_lt _ _ _ Q)). }
      destruct (X2 x Lx) as [Y|(u & Iu & Ru)]; [left; exact (Old x t Y Rt)|]. right. now rewrite (tidy_one_term L ar _ _ g2 Td2 t x Rt u Ru). }
    assert (Lt2 : forall t x, repr g2 t x -> x < size g2). { intros t x Rt. destruct Rt as [o ts ch y0 _ (m & j & _ & _ & _ & Q)]. exact (proj2 (eqv_lt _ _ _ Q)). }
    pose proof (appends_size _ _ A2) as Sz.
    destruct (s_union L keep fuel g2 l i) as [[g3 m]|] eqn:U; [|discriminate H]. cbn [rbind] in H.
    destruct (s_rebuild L keep fuel g3) as [g4|] eqn:Rb; [|discriminate H]. cbn [rbind] in H. inversion H as [Hb]. clear H. subst b.
    rewrite (tidy_size L ar _ _ g1 Td1).
    assert (Cn : l = i /\ number_of_classes g4 = size g2 \/ l <> i /\ S (number_of_classes g4) = size g2).
    { destruct (union_calm L ar Lo keep fuel g2 l i g3 m (td_calm _ _ _ _ g2 Td2) U) as [C3 D3].
      destruct (union_exact L ar Lo keep fuel g2 l i g3 m (td_calm _ _ _ _ g2 Td2) U) as [(Q & -> & _)|(Nq & _ & Om)].
      - left. split; [exact (tidy_eqv L ar _ _ g2 l i Td2 Q)|]. assert (Cg : congruent g2).
        { intros o ch c d H1 H2. apply (tidy_has L ar _ _ g2 _ _ _ Td2) in H1. apply (tidy_has L ar _ _ g2 _ _ _ Td2) in H2. rewrite (nodup_fst _ _ _ _ _ _ (td_keys _ _ _ _ g2 Td2) H1 H2).
          apply eqv_refl. apply (wf_nodes g2 W2 _ _ H2). }
        rewrite (count_reps g2 g4 (rebuild_still g2 g4 (td_calm _ _ _ _ g2 Td2) Cg Rb)). exact (tidy_size L ar _ _ g2 Td2).
      - right. split; [intros ->; apply Nq, eqv_refl; exact (Lt2 _ _ Ri)|].
        pose proof (one_union_congruent _ _ g2 l i _ _ g3 Td2 Rl2 Ri Pt Om) as Cg.
        rewrite (count_reps g3 g4 (rebuild_still g3 g4 C3 Cg Rb)).
        destruct D3 as [(_ & Q & _)|(_ & _ & k & d & dt & -> & Fk & Fd & Nk & _)]; [contradiction|].
        apply merged_count; [exact (td_reps _ _ _ _ g2 Td2)|exact (find_some _ _ _ Fd)|exact (find_some _ _ _ Fk)|exact Nk]. }
    assert (Ai : forall a, In a (args tr) -> In (inst L a) (args (inst L tr))). { destruct tr as [o ts]. cbn. intros a I. now apply in_map. }
    assert (Oa : forall a, In a (args tr) -> okp L ar a). { intros a I. apply (okp_sub L ar tr Or). now apply arg_subterm. }
    rewrite Nat.leb_le. split.
    - intros Hle. apply Forall_forall. intros a Ia. apply (in_sub_inst L ar Vr tl a Ol (Oa a Ia)).
      pose proof (arg_subterm _ _ (Ai a Ia)) as Sa. destruct (repr_subterms g2 _ _ Ri _ Sa) as (x & Rx).
      destruct (Nat.lt_ge_cases x (size g1)) as [Lx|Gx]; [exact (Old x _ Lx Rx)|].
      destruct (Nat.lt_ge_cases i (size g1)) as [Li|Gi]; [exact (subterms_trans _ _ _ (Old i _ Li Ri) Sa)|]. exfalso.
      assert (x <> i) as Nx. { intros ->. pose proof (tidy_one_term L ar _ _ g2 Td2 _ _ Rx _ Ri) as E. 
assert (tsz (inst L a) < tsz (inst L tr)) as As; [|rewrite E in As; lia]. destruct tr as [o ts]. cbn [inst]. apply arg_sz. exact (Ai a Ia). }
      pose proof (Lt2 _ _ Rx). pose proof (Lt2 _ _ Ri). destruct Cn as [[E Cn]|[_ Cn]]; [|lia].
      subst i. pose proof (Here _ _ Rl2 (subterms_self _)). lia.
    - intros Fa. assert (size g2 <= S (size g1) /\ (l = i -> size g2 <= size g1)) as [B1 B2].
      { assert (New : forall x, size g1 <= x -> x < size g2 -> x = i).
        { intros x Gx Lx. destruct (X2 x Lx) as [Y|(u & Iu & Ru)]; [lia|]. apply subterm_cases in Iu as [->|(a' & Ia & Iu)]; [exact (tidy_one_class L ar _ _ g2 Td2 _ _ Ru _ Ri)|].
          exfalso. assert (exists a, In a (args tr) /\ a' = inst L a) as (a & Ia' & ->). { destruct tr as [o ts]. cbn in Ia. apply in_map_iff in Ia as (a & <- & I). eauto. }
          rewrite Forall_forall in Fa. pose proof (proj2 (in_sub_inst L ar Vr tl a Ol (Oa a Ia')) (Fa a Ia')) as I2.
          pose proof (Here u x Ru (subterms_trans _ _ _ I2 Iu)). lia. }
        split.
        - destruct (Nat.le_gt_cases (size g2) (S (size g1))) as [|G]; [assumption|]. pose proof (New (size g1) ltac:(lia) ltac:(lia)). pose proof (New (S (size g1)) ltac:(lia) ltac:(lia)). lia.
        - intros <-. pose proof (Here _ _ Rl2 (subterms_self _)). destruct (Nat.le_gt_cases (size g2) (size g1)) as [|G]; [assumption|]. pose proof (New (size g1) ltac:(lia) ltac:(lia)). lia. }
      destruct Cn as [[E Cn]|[_ Cn]]; [specialize (B2 E)|]; lia.
  Qed.
End Sat.

(* ---- runs of saturating rules ---- *)
Section Runs.
  Context {O C : Type}.
  Variable L : lang O C.
  Variable ar : O -> nat.
  Hypothesis Lo : literal_only L ar.
  Variable keep : eg O C -> nat -> nat -> bool.
  Variable fuel : nat.
  Local Notation wf := (@wf O (sig O C) nat).
  Local Notation eqb_eq := (lo_eqb L ar Lo).
  Local Notation calm := (calm L ar).

  Lemma pmatch_cong : forall (g : eg O C) s, congruent g -> forall t c, pmatch g s t c -> forall d, pmatch g s t d -> eqv g c d.
  Proof.
    intros g s Cg. apply (pmatch_ind' g s (fun t c => forall d, pmatch g s t d -> eqv g c d)).
    - intros v ts i c Hl He d M. inversion M as [v' ts' j d' Hl' He'|]; subst. assert (i = j) as <- by congruence. exact (eqv_trans _ _ _ _ (eqv_sym _ _ _ He) He').
    - intros o ts ch c F IH Hh d M. inversion M as [|o' ts' ch' d' F' Hh']; subst. apply (Cg o ch'); [|exact Hh'].
      apply has_eqv with ch c; [exact Hh| |apply eqv_refl; destruct Hh as (n & i & _ & _ & _ & Q); exact (proj2 (eqv_lt _ _ _ Q))].
      clear - IH F'. revert ch' F'. induction IH; intros ch' F'; inversion F'; subst; constructor; auto.
  Qed.
  Lemma pmatch_parts : forall (g : eg O C) s t c, (forall q, In q (subterms t) -> forall o ts, q = T o ts -> match o with PV _ => ts = [] | EN _ => True end) ->
    pmatch g s t c -> forall q, In q (subterms t) -> exists d, pmatch g s q d.
  Proof.
    intros g s t. induction t as [o ts IH] using term_ind'. intros c Lf M q [<-|I]; [eauto|].
    inversion M as [v ts' i c' Hl He|o' ts' ch c' F Hh]; subst.
    - rewrite (Lf _ (subterms_self _) _ _ eq_refl) in I. destruct I.
    - apply in_flat_map in I as (x & Ix & Iq). rewrite Forall_forall in IH.
      assert (exists d, pmatch g s x d) as (d & Md). { clear - F Ix. induction F as [|y d ts ch My F IHF]; [destruct Ix|]. destruct Ix as [->|Ix]; eauto. }
      apply (IH x Ix d); [|exact Md|exact Iq]. intros q' I'. apply Lf. apply (subterms_trans _ x); [|exact I']. right. apply in_flat_map. exists x. split; [exact Ix|apply subterms_self].
  Qed.
  Lemma rsteps_snoc : forall rules x y z, rsteps L keep fuel rules x y -> rstep L keep fuel rules y z -> rsteps L keep fuel rules x z.
  Proof. intros rules x y z H. induction H as [x|x y w H1 H2 IH]; intros Hz; [eapply RS_step; [exact Hz|apply RS_refl]|eapply RS_step; [exact H1|auto]]. Qed.

  (* what is asked of a rule: its right-hand side adds at most one node to a match *)
  Definition small_rule (r : rule O) : Prop := exists tl tr, neat (rlhs r) tl /\ neat (rrhs r) tr /\ typed_rule ar r /\
    Forall (fun n => match nop n with PV _ => nch n = [] | EN _ => True end) (rlhs r) /\ Forall (fun a => In a (subterms tl)) (args tr).

  Section One.
    Variable rules : list (rule O).
    Hypothesis Sr : Forall small_rule rules.
    Variable g0 : eg O C.
    Hypothesis C0 : calm g0.
    Hypothesis Df : forall h, runs L keep fuel rules g0 h -> forall i d, class_data h i = Val d -> is_defined d = true.
    Variable G : eg O C.
    Hypothesis Cg : congruent G.

    Definition old (x : nat) : Prop := exists y, y < size g0 /\ eqv G x y.
    Definition seen (m : rule O * nat * subst) : Prop := let '(r, c, s) := m in In r rules /\ old c /\
      exists tl, tree (rlhs r) = Val tl /\ forall q, In q (subterms tl) -> exists d, old d /\ pmatch G s q d.

    Lemma rules_hold : Forall (holds L unit_alg) rules.
    Proof. eapply Forall_impl; [|exact Sr]. intros r (tl & tr & H1 & H2 & _). apply unit_holds. exists tl, tr. split; [apply H1|apply H2]. Qed.
    Lemma rules_typed : Forall (typed_rule ar) rules.
    Proof. eapply Forall_impl; [|exact Sr]. intros r (tl & tr & _ & _ & H & _). exact H. Qed.

    Lemma tree_leaf : forall p (t : term (eov O)), Forall (fun n => match nop n with PV _ => nch n = [] | EN _ => True end) p -> tree p = Val t ->
      forall q, In q (subterms t) -> forall o ts, q = T o ts -> match o with PV _ => ts = [] | EN _ => True end.
    Proof.
      intros p t F Tr. set (P := fun t : term (eov O) => forall q, In q (subterms t) -> forall o ts, q = T o ts -> match o with PV _ => ts = [] | EN _ => True end).
      assert (forall p buf out, Forall (fun n => match nop n with PV _ => nch n = [] | EN _ => True end) p -> Forall P buf -> run_buf (fun o ts => Val (T o ts)) p buf = Val out -> Forall P out) as H.
      { clear p t F Tr. induction p as [|n p IH]; intros buf out F B H; cbn in H; [inversion H; now subst|]. inversion F as [|? ? P1 P2]; subst.
        destruct (rmapM (index buf) (nch n)) as [ts|] eqn:E; [|discriminate H]. cbn in H. apply IH in H; auto. apply Forall_app. split; [exact B|]. constructor; [|constructor].
        apply rmapM_F2 in E. intros q I o us ->. destruct I as [I|I].
        - inversion I; subst. destruct (nop n) as [|v]; [trivial|]. rewrite P1 in E. now inversion E.
        - apply in_flat_map in I as (x & Ix & Iq). assert (P x) as Px.
          { clear - E B Ix. induction E as [|i t is ts H E IH]; [destruct Ix|]. destruct Ix as [->|Ix]; [|auto]. apply index_some in H as [_ H]. rewrite Forall_forall in B. exact (B x (nth_error_In _ _ H)). }
          exact (Px _ Iq o us eq_refl). }
      unfold tree, fold_rec in Tr. destruct (run_buf _ p []) as [b|] eqn:E; [|discriminate Tr]. cbn [rbind] in Tr.
      specialize (H p [] b F (Forall_nil _) E). rewrite Forall_forall in H. apply (H t). unfold pop_unwrap in Tr. rewrite in_rev. destruct (rev b); inversion Tr. now left.
    Qed.

    Lemma rsteps_old : forall x y, rsteps L keep fuel rules x y -> rsteps L keep fuel rules (g0, []) x -> calm (fst x) -> good L unit_alg (fst x) (Datatypes.snd x) ->
      ext (fst y) G -> (forall i, i < size (fst x) -> old i) -> Forall seen (Datatypes.snd x) -> forall i, i < size (fst y) -> old i.
    Proof.
      intros x y St. induction St as [x|x y z S1 S2 IH]; intros Pre Cm Gd Ez Ho Hs; [exact Ho|].
      destruct (rstep_ok L eqb_eq keep fuel unit_alg (unit_interprets L) rules rules_hold x y S1 (cm_wf _ _ _ Cm) Gd) as (Wy & Exy & Gy & _).
      pose proof (rsteps_snoc rules _ _ _ Pre S1) as Pre'.
      assert (Cy : calm (fst y)).
      { apply (runs_calm L ar Lo keep fuel rules g0 (fst y) rules_typed C0). exists (Datatypes.snd y). now destruct y. }
      assert (Eyz : ext (fst y) (fst z)) by (apply (rsteps_moves L eqb_eq keep fuel unit_alg (unit_interprets L) rules rules_hold y z S2 Wy Gy)).
      pose proof (ext_trans _ _ _ Eyz Ez) as Ey. pose proof (ext_trans _ _ _ Exy Ey) as Ex.
      apply (IH Pre' Cy Gy Ez); clear IH.
      - destruct S1 as [g ms r c s Ir M|g ms r c s g' ids Im Ap|g ms g' Rb]; cbn [fst Datatypes.snd] in *.
        + exact Ho.
        + unfold good in Gd. rewrite Forall_forall in Gd, Hs. destruct (Gd _ Im) as [_ [_ Fs]]. destruct (Hs _ Im) as (Ir & Oc & tl & Tl & Hq).
          rewrite Forall_forall in Sr. destruct (Sr r Ir) as (tl' & tr & Nl & Nr & Ty & _ & Fa). rewrite (proj1 Nl) in Tl. inversion Tl; subst tl'. clear Tl.
          (* what the applier did *)
          assert (Rg : runs L keep fuel rules g0 g) by (exists ms; exact Pre). assert (Rg' : runs L keep fuel rules g0 g') by (exists ms; exact Pre').
          assert (exists g1, only_adds g g1 /\ new_are_parts (rrhs r) s g g1 /\ size g' = size g1 /\ ext g1 G /\ (g' = g \/ exists k, pmatch g1 s tr k /\ eqv G k c)) as (g1 & Oa & Np & Sz & E1 & Hk).
          { assert (Og : only_adds g g). { constructor; [lia|tauto|intros a b Ha Q; destruct (eqv_lt _ _ _ Q); lia|tauto|reflexivity]. }
            assert (Ng : new_are_parts (rrhs r) s g g). { intros a Ha Hb. lia. }
            assert (Pl : apply_plain L keep fuel (rrhs r) g c s = Val (g', ids) -> exists g1, only_adds g g1 /\ new_are_parts (rrhs r) s g g1 /\ size g' = size g1 /\ ext g1 G /\ (g' = g \/ exists k, pmatch g1 s tr k /\ eqv G k c)).
            { intros Hp. destruct (apply_plain_exact L ar Lo keep fuel _ tr g c s g' ids Cm (proj2 Ty) Fs (proj1 Nr) Hp) as (g1 & k & A1 & A2 & A3 & A4).
              unfold apply_plain in Hp. destruct (apply_pat L keep fuel g s (rrhs r)) as [[g1' k']|] eqn:E; [|discriminate Hp]. cbn in Hp.
              exists g1'. destruct (apply_pat_exact L ar Lo keep fuel _ tr g s g1' k' Cm (proj2 Ty) Fs (proj1 Nr) E) as (C1 & B1 & B2 & B3).
              destruct (s_union L keep fuel g1' k' c) as [[g2 b]|] eqn:U; [|discriminate Hp]. cbn in Hp. inversion Hp; subst g2.
              destruct (union_ok _ _ _ (s_md_ok L eqb_eq keep fuel) _ _ _ _ _ (cm_wf _ _ _ C1) U) as (_ & Eu & Qu).
              split; [exact B1|]. split; [exact B2|]. split.
              { destruct (union_exact L ar Lo keep fuel g1' k' c g' b C1 U) as [(_ & -> & _)|(_ & _ & Om)]; [reflexivity|exact (om_size _ _ _ _ Om)]. }
              split; [exact (ext_trans _ _ _ Eu Ey)|]. right. exists k'. split; [exact B3|]. now apply Ey. }
            unfold apply_one in Ap. destruct (rkind r).
            - unfold apply_rhs in Ap. destruct (class_data g c) as [d|] eqn:Ed; [|discriminate Ap]. cbn [rbind] in Ap. rewrite (Df g Rg c d Ed) in Ap. cbn [negb] in Ap.
              destruct (apply_pat L keep fuel g s (rrhs r)) as [[g1 k]|] eqn:E; [|discriminate Ap]. cbn [rbind] in Ap.
              destruct (apply_pat_exact L ar Lo keep fuel _ tr g s g1 k Cm (proj2 Ty) Fs (proj1 Nr) E) as (C1 & B1 & B2 & B3).
              exists g1. split; [exact B1|]. split; [exact B2|]. destruct (Nat.eqb_spec k c) as [->|Nk].
              + inversion Ap; subst g1. split; [reflexivity|]. split; [exact Ey|]. right. exists c. split; [exact B3|]. apply Ey, eqv_refl. exact (pmatch_lt _ _ _ _ B3).
              + destruct (class_data g1 k) as [dk|] eqn:Edk; [|discriminate Ap]. cbn [rbind] in Ap. destruct (is_defined dk) eqn:Dk; cbn [negb] in Ap.
                * destruct (s_union L keep fuel g1 k c) as [[g2 b]|] eqn:U; [|discriminate Ap]. cbn in Ap. inversion Ap; subst g2.
                  destruct (union_ok _ _ _ (s_md_ok L eqb_eq keep fuel) _ _ _ _ _ (cm_wf _ _ _ C1) U) as (_ & Eu & Qu). split.
                  { destruct (union_exact L ar Lo keep fuel g1 k c g' b C1 U) as [(_ & -> & _)|(_ & _ & Om)]; [reflexivity|exact (om_size _ _ _ _ Om)]. }
                  split; [exact (ext_trans _ _ _ Eu Ey)|]. right. exists k. split; [exact B3|]. now apply Ey.
                * inversion Ap; subst g1. rewrite (Df g' Rg' k dk Edk) in Dk. discriminate Dk.
            - exact (Pl Ap).
            - destruct (guard L v g s) as [[|]|]; [| |discriminate Ap]; cbn in Ap; [exact (Pl Ap)|]. inversion Ap; subst g'. exists g. split; [exact Og|]. split; [exact Ng|]. split; [reflexivity|]. split; [exact Ex|now left]. }
          destruct Oc as (yc & Lyc & Qc). intros i Li. destruct (Nat.lt_ge_cases i (size g)) as [Lg|Gg]; [auto|].
          destruct Hk as [->|(k & Mk & Qk)]; [lia|]. destruct (Np i Gg ltac:(lia)) as (p1 & p2 & q & Ep & Tq & Mq).
          pose proof (proj2 Nr p1 p2 q Ep Tq) as Iq. apply (pmatch_ext g1 G s q i E1) in Mq.
          apply subterm_cases in Iq as [->|(a & Ia & Iq)].
          * exists yc. split; [exact Lyc|]. apply eqv_trans with k; [exact (pmatch_cong G s Cg tr i Mq k (pmatch_ext g1 G s tr k E1 Mk))|]. exact (eqv_trans _ _ _ _ Qk Qc).
          * rewrite Forall_forall in Fa. destruct (Hq q (subterms_trans _ _ _ (Fa a Ia) Iq)) as (d & (yd & Lyd & Qd) & Md).
            exists yd. split; [exact Lyd|]. exact (eqv_trans _ _ _ _ (pmatch_cong G s Cg q i Mq d Md) Qd).
        + intros i Li. destruct (rebuild_calm L ar Lo keep fuel g g' Cm Rb) as [_ Sz]. apply Ho. lia.
      - destruct S1 as [g ms r c s Ir M|g ms r c s g' ids Im Ap|g ms g' Rb]; cbn [fst Datatypes.snd] in *; [|exact Hs|exact Hs].
        constructor; [|exact Hs]. destruct M as [(tl & Tl & Mt) Fs]. split; [exact Ir|]. split; [apply Ho; exact (pmatch_lt _ _ _ _ Mt)|].
        exists tl. split; [exact Tl|]. intros q Iq. rewrite Forall_forall in Sr. destruct (Sr r Ir) as (tl' & tr & Nl & _ & _ & Lf & _).
        destruct (pmatch_parts g s tl c (tree_leaf _ tl Lf Tl) Mt q Iq) as (d & Md). exists d. split; [apply Ho; exact (pmatch_lt _ _ _ _ Md)|].
        exact (pmatch_ext g G s q d Ex Md).
    Qed.
  End One.

  Lemma runs_no_growth : forall rules (g h h' : eg O C), Forall small_rule rules -> calm g ->
    (forall k, runs L keep fuel rules g k -> forall i d, class_data k i = Val d -> is_defined d = true) ->
    runs L keep fuel rules g h -> s_rebuild L keep fuel h = Val h' -> number_of_classes h' <= number_of_classes g.
  Proof.
    intros rules g h h' Sr Cm Df (ms & St) Rb. pose proof (cm_wf _ _ g Cm) as W.
    pose proof (rsteps_moves L eqb_eq keep fuel unit_alg (unit_interprets L) rules (rules_hold rules Sr) _ _ St W (Forall_nil _)) as (Wh & Eh & _). cbn [fst] in *.
    destruct (rebuild_moves L eqb_eq keep fuel unit_alg (unit_interprets L) h h' Wh Rb) as ((W' & E' & _) & Cg & _).
    apply covers_count; [exact W|exact W'|exact (ext_trans _ _ _ Eh E')|]. intros x Lx.
    destruct (rebuild_calm L ar Lo keep fuel h h' (runs_calm L ar Lo keep fuel rules g h (rules_typed rules Sr) Cm (ex_intro _ ms St)) Rb) as [_ Sz].
    assert (Hx : old g h' x).
    { apply (rsteps_old rules Sr g Cm Df h' Cg _ _ St); cbn [fst Datatypes.snd]; [apply RS_refl|exact Cm|constructor|exact E'| |constructor|lia].
      intros i Li. exists i. split; [exact Li|]. apply eqv_refl. destruct Eh as [Lh _], E' as [Lh' _]. lia. }
    exact Hx.
  Qed.
End Runs.
