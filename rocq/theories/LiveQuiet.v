(* Languages whose classes know nothing but a smallest term: no intervals, and no
   characteristic vectors.  Whatever the rules say, nothing can disagree. *)
From Coq Require Import NArith Permutation.
From Verif Require Import Base BaseProofs Sexp Lang LangProofs Syntax SyntaxProofs Workload Rule Ruleset Analysis AnalysisProofs Generalize Egraph EgraphSpec EgraphProofs EgraphSound Synth Apply Sched SynthSpec SynthProofs
  DeriveProofs InvProofs OpsSpec OpsProofs TotalSpec LiveSpec LiveProofs LivePower.
Open Scope list_scope.

Section Quiet.
  Context {O C : Type}.
  Variable L : lang O C.
  Hypothesis eqb_eq : forall a b, l_eqb L a b = true <-> a = b.
  Variable keep : eg O C -> nat -> nat -> bool.
  Variable Qb : O -> nat -> bool.
  Definition Qq (o : O) (k : nat) : Prop := Qb o k = true.
  Local Notation Q := Qq.
  Hypothesis leaf0 : forall o k, is_leaf L o = true -> Q o k -> k = 0.
  Hypothesis eval_none : forall o cs, Q o (length cs) -> Forall (fun c => c = []) cs -> l_eval L 0 o cs = Val [].
  Hypothesis itv_none : forall o is, l_itv L o is = Val full.
  Hypothesis custom_none : forall g i, l_custom L g i = Val [].
  Hypothesis Q_var : forall v k, Q (l_mk_var L v) k <-> k = 0.
  Hypothesis read_Q : forall o k, read_op L o k -> Q o k.

  Definition qsem (o : O) (vs : list bool) : bool := Qb o (length vs).
  Definition qvok (v : bool) : Prop := v = true.
  Definition qdok (v : bool) (d : sig O C) : Prop := v = true /\ sg_itv d = full /\ exists t, tree (sg_simplest d) = Val t.
  Definition qP (a : nat) (d : sig O C) : Prop := sg_itv d = full /\ (a = 0 -> sg_cvec d = []).
  Definition qokan (a : nat) : Prop := a = 0.
  Definition qmu (d : sig O C) : nat := match cost_rec (l_allowed L) (sg_simplest d) with Val c => N.to_nat c | Panic => 0 end.

  Local Notation dof nn ds := (fun i => match slookup (combine (nch nn) ds) i with Some d => d | None => Sig [] [] full end).
  Lemma q_make : forall (nn : node O) ds val, Q (nop nn) (length (nch nn)) -> Forall2 (fun c d => qdok (val c) d) (nch nn) ds ->
    exists s t, make_simplest (is_leaf L) (fun i => sg_simplest (dof nn ds i)) nn = Val s /\ tree s = Val t.
  Proof.
    intros nn ds val H F. pose proof (dof_ok _ nn ds F) as D.
    assert (exists trees, forall i, In i (nch nn) -> tree (sg_simplest (dof nn ds i)) = Val (trees i)) as (trees & Tr).
    { exists (fun i => match tree (sg_simplest (dof nn ds i)) with Val t => t | Panic => T (nop nn) [] end). intros i I. destruct (D i I) as [(_ & _ & t & E) _]. now rewrite E. }
    destruct (make_simplest_spec (is_leaf L) (fun i => sg_simplest (dof nn ds i)) trees nn) as (s & Ms & Ts); [|exact Tr|eauto].
    intros Hl. pose proof (leaf0 _ _ Hl H) as Ln. destruct (nch nn); [reflexivity|discriminate Ln].
  Qed.
  Lemma q_dok_vok : forall v d, qdok v d -> qvok v. Proof. intros v d H. exact (proj1 H). Qed.
  Lemma q_Q_vok : forall o vs, Q o (length vs) -> Forall qvok vs -> qvok (qsem o vs). Proof. intros o vs H _. exact H. Qed.
  Lemma q_P_make : forall a (nn : node O) ds d, Q (nop nn) (length (nch nn)) -> length ds = length (nch nn) -> Forall (qP a) ds -> s_make L a nn ds = Val d -> qP a d.
  Proof.
    intros a nn ds d Hq Ln Fp H. destruct (make_inv L a nn ds d H) as (_ & Ev & It). rewrite itv_none in It. injection It as It. split; [congruence|]. intros ->.
    assert (D : forall i, In i (nch nn) -> qP 0 (dof nn ds i)).
    { intros i I. assert (F2 : Forall2 (fun (_ : nat) d => qP 0 d) (nch nn) ds).
      { clear I H Ev It. revert ds Ln Fp. generalize (nch nn) as l. induction l as [|c l IH]; intros [|d' ds] Ln F; try discriminate Ln; constructor; inversion F; subst; auto. }
      exact (proj1 (dof_ok _ nn ds F2 i I)). }
    rewrite eval_none in Ev; [congruence|now rewrite map_length|]. apply Forall_map, Forall_forall. intros i I. exact (proj2 (D i I) eq_refl).
  Qed.
  Lemma q_merge : forall x y, qdok true x -> qdok true y -> qP 0 x -> qP 0 y -> exists d ch, s_merge L x y = Val (d, ch) /\ (fst ch = true -> qmu d < qmu x) /\ qdok true d.
  Proof.
    intros x y (_ & I1 & t1 & T1) (_ & I2 & t2 & T2) [_ C1] [_ C2]. specialize (C1 eq_refl). specialize (C2 eq_refl). unfold s_merge, merge. rewrite C1, C2. cbn [merge_cvecs rbind].
    rewrite I1, I2. cbn [low high full omax omin mk_itv rbind].
    pose proof (cost_spec (l_allowed L) (sg_simplest y) t2 T2) as Cy. pose proof (cost_spec (l_allowed L) (sg_simplest x) t1 T1) as Cx. rewrite Cy. cbn [rbind]. rewrite Cx. cbn [rbind].
    match type of Cy with _ = Val ?c => remember c as cf eqn:Ef end. match type of Cx with _ = Val ?c => remember c as ct eqn:Et end. clear Ef Et.
    destruct (N.ltb cf ct) eqn:El; eexists _, _; (split; [reflexivity|]); cbn [fst]; unfold qmu; cbn [sg_itv sg_simplest]; (split; [|split; [reflexivity|split; [reflexivity|cbn; eauto]]]).
    - intros _. rewrite Cx, Cy. apply N.ltb_lt in El. lia.
    - cbn. discriminate.
  Qed.
  Lemma q_mk : forall x y d ch, s_merge L x y = Val (d, ch) -> (exists a1 b1, merge_cvecs (l_ceqb L) (sg_cvec x) (sg_cvec y) = Val (sg_cvec d, a1, b1)) /\
    mk_itv (l_cleb L) (omax (l_cleb L) (low (sg_itv x)) (low (sg_itv y))) (omin (l_cleb L) (high (sg_itv x)) (high (sg_itv y))) = Val (sg_itv d) /\ (sg_simplest d = sg_simplest x \/ sg_simplest d = sg_simplest y).
  Proof. exact (merge_inv L). Qed.
  Lemma q_merge_dok : forall v d1 d2 d c, qdok v d1 -> qdok v d2 -> s_merge L d1 d2 = Val (d, c) -> qdok v d.
  Proof.
    intros v d1 d2 d c (V1 & I1 & t1 & T1) (_ & I2 & t2 & T2) H. destruct (q_mk _ _ _ _ H) as (_ & Mi & Sm). rewrite I1, I2 in Mi. cbn in Mi. injection Mi as Mi. split; [exact V1|]. split; [symmetry; exact Mi|]. destruct Sm as [-> | ->]; eauto.
  Qed.
  Lemma q_P_merge : forall a x y d ch, qP a x -> qP a y -> s_merge L x y = Val (d, ch) -> qP a d.
  Proof.
    intros a x y d ch [I1 C1] [I2 C2] H. destruct (q_mk _ _ _ _ H) as ((a1 & b1 & Mc) & Mi & _). rewrite I1, I2 in Mi. cbn in Mi. injection Mi as Mi. split; [symmetry; exact Mi|]. intros Ha. rewrite (C1 Ha) in Mc. cbn in Mc. congruence.
  Qed.
  Lemma q_make_dok : forall a (nn : node O) ds d val, Forall2 (fun c x => qdok (val c) x) (nch nn) ds -> qvok (qsem (nop nn) (map val (nch nn))) -> s_make L a nn ds = Val d -> qdok (qsem (nop nn) (map val (nch nn))) d.
  Proof.
    intros a nn ds d val F V H. destruct (make_inv L a nn ds d H) as (Ms & _ & It). rewrite itv_none in It. injection It as It. split; [exact V|]. split; [congruence|].
    unfold qvok, qsem in V. rewrite map_length in V. destruct (q_make nn ds val V F) as (s & t & Ms' & Ts). exists t. congruence.
  Qed.
  Lemma q_make_live : forall a (nn : node O) ds val, qokan a -> Q (nop nn) (length (nch nn)) -> Forall2 (fun c d => qdok (val c) d) (nch nn) ds -> Forall (qP a) ds -> exists d, s_make L a nn ds = Val d.
  Proof.
    intros a nn ds val Ha Hq F Fp. unfold qokan in Ha. subst a. destruct (q_make nn ds val Hq F) as (s & t & Ms & _). pose proof (dof_ok _ nn ds F) as D.
    unfold s_make, make. rewrite Ms. cbn [rbind]. rewrite eval_none; [|rewrite map_length; exact Hq|]; [cbn [rbind]; rewrite itv_none; cbn [rbind]; eauto|].
    apply Forall_map, Forall_forall. intros i I. rewrite Forall_forall in Fp. exact (proj2 (Fp _ (proj2 (D i I))) eq_refl).
  Qed.
  Lemma q_merge_live : forall a v x y, qokan a -> qdok v x -> qdok v y -> qP a x -> qP a y -> exists d ch, s_merge L x y = Val (d, ch) /\ (fst ch = true -> qmu d < qmu x).
  Proof.
    intros a v x y Ha Dx Dy Px Py. unfold qokan in Ha. subst a. assert (v = true) as -> by exact (proj1 Dx). destruct (q_merge x y Dx Dy Px Py) as (d & ch & H1 & H2 & _). eauto.
  Qed.
  Lemma q_const_op : forall v d a b, qdok v d -> low (sg_itv d) = Some a -> high (sg_itv d) = Some b -> l_ceqb L a b = true -> exists o, l_const L a = [Node o []] /\ qsem o [] = v /\ In o [].
  Proof. intros v d a b (_ & I & _) H. rewrite I in H. discriminate H. Qed.
  Lemma q_P_const : forall a d x y, qP a d -> low (sg_itv d) = Some x -> high (sg_itv d) = Some y -> l_ceqb L x y = true -> Forall (okn Q) (l_const L x).
  Proof. intros a d x y (I & _) H. rewrite I in H. discriminate H. Qed.
  Lemma q_const_one : forall v d a b d' a' b', qdok v d -> low (sg_itv d) = Some a -> high (sg_itv d) = Some b -> l_ceqb L a b = true ->
    qdok v d' -> low (sg_itv d') = Some a' -> high (sg_itv d') = Some b' -> l_ceqb L a' b' = true -> l_const L a = l_const L a'.
  Proof. intros v d a b d' a' b' (_ & I & _) H. rewrite I in H. discriminate H. Qed.
  Lemma q_an0 : qokan 0. Proof. reflexivity. Qed.
  Lemma q_true : forall e t, (forall v, qvok (e v)) -> fits (fun o k => match o with EN o => Qb o k = true | PV _ => True end) t -> paval qsem e t = true.
  Proof.
    intros e [[o|v] ts] He Ft; cbn [paval]; [|apply He]. inversion Ft as [o' ts' Ho _]; subst. unfold qsem. now rewrite map_length.
  Qed.
  Definition rewrites (rs : ruleset O) : Prop := Forall (fun e => rewrite_rule L (snd e)) rs.
  Lemma q_good : forall rs, rewrites rs -> good_rules L Qq qsem qvok rs.
  Proof.
    intros rs F. eapply Forall_impl; [|exact F]. intros [k r] H1. apply (read_sure L Qq qsem qvok Q_var read_Q r H1). destruct H1 as (Hl & Hr & _). intros tl tr Tl Tr e He.
    assert (Ft : forall p t, read_pat L p -> tree p = Val t -> fits (fun o k => match o with EN o => Qb o k = true | PV _ => True end) t).
    { intros p t [Fp _] Tp. apply (tree_fits _ p t); [|exact Tp]. eapply Forall_impl; [|exact Fp]. intros [[o|v] ch] X; cbn in *; [exact (read_Q _ _ X)|exact Logic.I]. }
    rewrite (q_true e tl He (Ft _ _ Hl Tl)), (q_true e tr He (Ft _ _ Hr Tr)). reflexivity.
  Qed.
  Definition qlive (val : nat -> bool) (g : eg O C) : Prop := live Qq qsem qdok qP qokan val g.
  Theorem quiet_answers : forall rs, rewrites rs -> answers L keep rs.
  Proof. intros rs F. exact (good_answers L eqb_eq keep Qq qsem qvok qdok qP qokan qmu [] q_dok_vok q_Q_vok q_make_dok q_merge_dok q_P_make q_P_merge q_make_live q_merge_live custom_none q_const_op q_P_const q_const_one Q_var q_an0 read_Q rs (q_good rs F)). Qed.

  (* languages that give the variables of a workload nothing *)
  Hypothesis init_none : forall vars, l_init L vars = Val (0, []).
  Lemma quiet_workload : forall fuel w g, 2 <= fuel -> to_egraph L keep fuel w = Val g -> exists val, qlive val g.
  Proof.
    intros fuel w g Lf H. assert (H0 := H). unfold to_egraph in H0. destruct (force w) as [ss|] eqn:Fo; [|discriminate H0]. cbn [rbind] in H0.
    destruct (rmapM _ ss) as [rs|] eqn:Pa; [|discriminate H0]. clear H0. pose proof (parsed_read _ _ L ss rs Pa) as Fr.
    destruct (to_egraph_live L eqb_eq keep Qq qsem qvok qdok qP qokan qmu [] q_dok_vok q_Q_vok q_make_dok q_merge_dok q_P_make q_P_merge q_make_live q_merge_live custom_none q_const_op q_P_const q_const_one Q_var q_an0 w ss rs 0 [] Fo Pa) as (g1 & val & Ok & Lv); [|apply init_none|reflexivity|constructor|].
    - eapply Forall_impl; [|exact Fr]. intros r Hr. exact (read_term_ok L Qq Q_var read_Q r Hr).
    - destruct (two fuel Lf) as (k & ->). rewrite Ok in H. injection H as <-. exists val. exact Lv.
  Qed.
  Lemma quiet_start : forall w ss ts, force w = Val ss -> Forall2 (reads L) ss ts -> exists g, forall f, 2 <= f -> to_egraph L keep f w = Val g.
  Proof.
    intros w ss ts Fo Fr. assert (rmapM (fun s => unwrap (parse_rec (l_from_op L) (display s))) ss = Val (map to_rec ts)) as Pa.
    { clear Fo. induction Fr as [|s t ss ts H Fr IH]; [reflexivity|]. cbn [rmapM map]. unfold reads in H. rewrite H. cbn [unwrap rbind]. rewrite IH. reflexivity. }
    destruct (to_egraph_live L eqb_eq keep Qq qsem qvok qdok qP qokan qmu [] q_dok_vok q_Q_vok q_make_dok q_merge_dok q_P_make q_P_merge q_make_live q_merge_live custom_none q_const_op q_P_const q_const_one Q_var q_an0 w ss _ 0 [] Fo Pa) as (g1 & val & Ok & Lv); [|apply init_none|reflexivity|constructor|].
    - eapply Forall_impl; [|exact (parsed_read _ _ L ss _ Pa)]. intros r Hr. exact (read_term_ok L Qq Q_var read_Q r Hr).
    - exists g1. intros f Hf. destruct (two f Hf) as (k & ->). apply Ok.
  Qed.
  Lemma quiet_steady : steady L keep.
  Proof.
    intros f f' w g Hf Hf' H. assert (H0 := H). unfold to_egraph in H0. destruct (force w) as [ss|] eqn:Fo; [|discriminate H0]. cbn [rbind] in H0.
    destruct (rmapM _ ss) as [rs|] eqn:Pa; [|discriminate H0]. clear H0. pose proof (parsed_read _ _ L ss rs Pa) as Fr.
    destruct (to_egraph_live L eqb_eq keep Qq qsem qvok qdok qP qokan qmu [] q_dok_vok q_Q_vok q_make_dok q_merge_dok q_P_make q_P_merge q_make_live q_merge_live custom_none q_const_op q_P_const q_const_one Q_var q_an0 w ss rs 0 [] Fo Pa) as (g1 & val & Ok & Lv); [|apply init_none|reflexivity|constructor|].
    - eapply Forall_impl; [|exact Fr]. intros r Hr. exact (read_term_ok L Qq Q_var read_Q r Hr).
    - destruct (two f Hf) as (k & ->). destruct (two f' Hf') as (k' & ->). rewrite Ok in *. exact H.
  Qed.
  Lemma quiet_reached : forall rs g, rewrites rs -> reached L keep rs g -> exists val, qlive val g.
  Proof.
    intros rs g F H. induction H as [|fuel w g Lf H|fuel g r g' i Lf _ IH Hr H|fuel rules g g' Lf _ IH Ic H|fuel g g' Lf _ IH H|fuel order part g out g' Lf _ IH Fa Ip Si H].
    - exact (reached_new L Qq qsem qdok qP qokan q_an0).
    - exact (quiet_workload fuel w g Lf H).
    - destruct IH as (val & Lv). exact (reached_add L eqb_eq keep Qq qsem qvok qdok qP qokan qmu [] q_dok_vok q_Q_vok q_make_dok q_merge_dok q_P_make q_P_merge q_make_live q_merge_live custom_none q_const_op q_P_const q_const_one Q_var read_Q fuel val g r g' i Lf Lv Hr H).
    - destruct IH as (val & Lv). exact (reached_runs L eqb_eq keep Qq qsem qvok qdok qP qokan qmu [] q_dok_vok q_Q_vok q_make_dok q_merge_dok q_P_make q_P_merge q_make_live q_merge_live custom_none q_const_op q_P_const q_const_one fuel rs rules val g g' Lf (q_good rs F) Lv Ic H).
    - destruct IH as (val & Lv). exact (reached_rebuild L eqb_eq keep Qq qsem qvok qdok qP qokan qmu [] q_dok_vok q_Q_vok q_make_dok q_merge_dok q_P_make q_P_merge q_make_live q_merge_live custom_none q_const_op q_P_const q_const_one fuel val g g' Lf Lv H).
    - destruct IH as (val & Lv). exact (reached_compress L eqb_eq keep Qq qsem qvok qdok qP qokan qmu [] q_dok_vok q_Q_vok q_make_dok q_merge_dok q_P_make q_P_merge q_make_live q_merge_live custom_none q_const_op q_P_const q_const_one fuel order part val g out g' Lf (q_good part (incl_Forall Ip F)) Lv Fa Si H).
  Qed.
  Theorem quiet_goes_on : forall rs, rewrites rs -> forall part g, incl part rs -> reached L keep rs g -> goes_on L keep part g.
  Proof. intros rs F part g Ip H. destruct (quiet_reached rs g F H) as (val & Lv). exact (live_goes_on L eqb_eq keep Qq qsem qvok qdok qP qokan qmu [] q_dok_vok q_Q_vok q_make_dok q_merge_dok q_P_make q_P_merge q_make_live q_merge_live custom_none q_const_op q_P_const q_const_one Q_var q_an0 read_Q part val g (q_good part (incl_Forall Ip F)) Lv). Qed.
End Quiet.
