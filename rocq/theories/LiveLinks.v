(* Languages without intervals and characteristic vectors that make terms equal to the
   variables of a workload. *)
From Coq Require Import NArith Permutation.
From Verif Require Import Base BaseProofs Sexp Lang LangProofs Syntax SyntaxProofs Workload Rule Ruleset Analysis AnalysisProofs Generalize Egraph EgraphSpec EgraphProofs EgraphSound Synth Apply Sched SynthSpec SynthProofs
  DeriveProofs InvProofs OpsSpec OpsProofs TotalSpec LiveSpec LiveProofs LivePower LiveQuiet.
Open Scope list_scope.

Section Links.
  Context {O C : Type}.
  Variable L : lang O C.
  Hypothesis eqb_eq : forall a b, l_eqb L a b = true <-> a = b.
  Variable keep : eg O C -> nat -> nat -> bool.
  Variable Qb : O -> nat -> bool.
  Local Notation Q := (Qq Qb).
  Hypothesis leaf0 : forall o k, is_leaf L o = true -> Q o k -> k = 0.
  Hypothesis eval_none : forall o cs, Q o (length cs) -> Forall (fun c => c = []) cs -> l_eval L 0 o cs = Val [].
  Hypothesis itv_none : forall o is, l_itv L o is = Val full.
  Hypothesis custom_none : forall g i, l_custom L g i = Val [].
  Hypothesis Q_var : forall v k, Q (l_mk_var L v) k <-> k = 0.
  Hypothesis read_Q : forall o k, read_op L o k -> Q o k.
  (* the terms linked with a variable can be added *)
  Definition linkable (t : recexpr O) : Prop := Forall (okn Q) t /\ exists u, tree t = Val u.
  Hypothesis init_links : forall vars, exists vs, l_init L vars = Val (0, vs) /\ Forall (fun e => snd (fst e) = [] /\ Forall linkable (snd e)) vs.

  Local Notation sem := (qsem Qb).
  Local Notation lv := (@live O C bool Q sem qdok qP qokan).
  Local Notation gr := (@grows O C bool Q sem qdok qP qokan).
  Local Notation mk := (q_make_dok L Qb leaf0 itv_none).
  Local Notation pm := (q_P_make L Qb eval_none itv_none).
  Local Notation ml := (q_make_live L Qb leaf0 eval_none itv_none).
  Local Notation mel := (q_merge_live L).
  Local Notation X f := (f L eqb_eq keep Q sem qvok qdok qP qokan (qmu L) [] q_dok_vok (q_Q_vok Qb) mk (q_merge_dok L) pm (q_P_merge L) ml mel custom_none
    (q_const_op L Qb) (q_P_const L Qb) (q_const_one L)) (only parsing).
  Lemma live_true : forall val g i, lv val g -> i < size g -> val i = true.
  Proof. intros val g i Lv Li. exact (live_vok Q sem qvok qdok qP qokan q_dok_vok val g i Lv Li). Qed.
  Lemma link_all_live : forall ts val g i, lv val g -> i < size g -> Forall linkable ts ->
    exists g' val', (forall k, link_all L keep (S (S k)) g i ts = Val g') /\ gr val g val' g'.
  Proof.
    induction ts as [|t ts IH]; intros val g i Lv Li F; [exists g, val; split; [reflexivity|now apply grows_refl]|]. inversion F as [|? ? [Ft (u & Tu)] F']; subst.
    destruct (X add_expr_live t u val g Lv Ft Tu) as (g1 & v1 & j & Ad & G1 & Lj & _). pose proof (gr_live _ _ _ _ _ _ _ _ _ G1) as L1.
    assert (Li1 : i < size g1) by (destruct (gr_ext _ _ _ _ _ _ _ _ _ G1) as (Sz & _); lia).
    destruct (X union_live v1 g1 i j L1 Li1 Lj) as (g2 & v2 & m & Un & G2 & _); [now rewrite (live_true v1 g1 i L1 Li1), (live_true v1 g1 j L1 Lj)|].
    assert (Li2 : i < size g2) by (destruct (gr_ext _ _ _ _ _ _ _ _ _ G2) as (Sz & _); lia).
    destruct (IH v2 g2 i (gr_live _ _ _ _ _ _ _ _ _ G2) Li2 F') as (g3 & v3 & Ln & G3). exists g3, v3.
    split; [|exact (grows_trans _ _ _ _ _ _ _ _ _ _ _ G1 (grows_trans _ _ _ _ _ _ _ _ _ _ _ G2 G3))]. intros k. cbn [link_all]. rewrite Ad. cbn [rbind]. rewrite Un. cbn [rbind]. apply Ln.
  Qed.
  Lemma init_vars_linked : forall vs val g, lv val g -> g_an g = 0 -> Forall (fun e => snd (fst e) = [] /\ Forall linkable (snd e)) vs ->
    exists g' val', (forall k, init_vars L keep (S (S k)) g vs = Val g') /\ gr val g val' g'.
  Proof.
    induction vs as [|[[v c] ts] vs IH]; intros val g Lv A0 F; [exists g, val; split; [reflexivity|now apply grows_refl]|].
    inversion F as [|x l [Hc Hl] F']; subst. cbn [fst snd] in *. subst c.
    destruct (X add_live val g (l_mk_var L v) [] Lv) as (g1 & v1 & i & Ad & G1 & Li & Ei); [now apply Q_var|constructor|].
    destruct (set_cvec_live Q sem qdok qP qokan v1 g1 i [] (gr_live _ _ _ _ _ _ _ _ _ G1) Li) as (g2 & Sc & G2).
    { intros d H. exact H. }
    { intros d (H1 & H2). split; [exact H1|]. intros _. reflexivity. }
    assert (Li2 : i < size g2) by (destruct (gr_ext _ _ _ _ _ _ _ _ _ G2) as (Sz & _); lia).
    destruct (link_all_live ts v1 g2 i (gr_live _ _ _ _ _ _ _ _ _ G2) Li2 Hl) as (g3 & v3 & Ln & G3).
    destruct (IH v3 g3 (gr_live _ _ _ _ _ _ _ _ _ G3)) as (g4 & v4 & Iv & G4); [rewrite (gr_an _ _ _ _ _ _ _ _ _ G3), (gr_an _ _ _ _ _ _ _ _ _ G2), (gr_an _ _ _ _ _ _ _ _ _ G1); exact A0|exact F'|].
    exists g4, v4. split; [|exact (grows_trans _ _ _ _ _ _ _ _ _ _ _ G1 (grows_trans _ _ _ _ _ _ _ _ _ _ _ G2 (grows_trans _ _ _ _ _ _ _ _ _ _ _ G3 G4)))].
    intros k. cbn [init_vars]. rewrite Ad. cbn [rbind]. rewrite Sc. cbn [rbind]. rewrite Ln. cbn [rbind]. apply Iv.
  Qed.
  Lemma linked_egraph : forall w ss rs, force w = Val ss -> rmapM (fun s => unwrap (parse_rec (l_from_op L) (display s))) ss = Val rs ->
    exists g val, (forall k, to_egraph L keep (S (S k)) w = Val g) /\ lv val g.
  Proof.
    intros w ss rs Fo Pa. destruct (init_links (all_vars L rs)) as (vs & In & Fv). assert (L0 : lv (fun _ => true) eg_default) by (apply live_default; exact q_an0).
    destruct (init_vars_linked vs _ eg_default L0 eq_refl Fv) as (g1 & v1 & Iv & G1).
    destruct (X add_all_exprs_live rs v1 g1 (gr_live _ _ _ _ _ _ _ _ _ G1)) as (g2 & v2 & Aa & G2).
    { eapply Forall_impl; [|exact (parsed_read _ _ L ss rs Pa)]. intros r Hr. exact (read_term_ok L Q Q_var read_Q r Hr). }
    exists g2, v2. split; [|exact (gr_live _ _ _ _ _ _ _ _ _ G2)]. intros k. unfold to_egraph. rewrite Fo. cbn [rbind]. rewrite Pa. cbn [rbind]. unfold initialize_vars. rewrite In. cbn [rbind].
    change (EG (g_reps eg_default) (g_nodes eg_default) (g_data eg_default) 0) with (@eg_default O C). rewrite Iv. cbn [rbind]. apply Aa.
  Qed.
  Lemma linked_workload : forall fuel w g, 2 <= fuel -> to_egraph L keep fuel w = Val g -> exists val, lv val g /\ forall f, 2 <= f -> to_egraph L keep f w = Val g.
  Proof.
    intros fuel w g Lf H. assert (H0 := H). unfold to_egraph in H0. destruct (force w) as [ss|] eqn:Fo; [|discriminate H0]. cbn [rbind] in H0.
    destruct (rmapM _ ss) as [rs|] eqn:Pa; [|discriminate H0]. clear H0. destruct (linked_egraph w ss rs Fo Pa) as (g1 & val & Ok & Lv).
    destruct (two fuel Lf) as (k & ->). rewrite Ok in H. injection H as <-. exists val. split; [exact Lv|]. intros f Hf. destruct (two f Hf) as (k' & ->). apply Ok.
  Qed.
  Lemma linked_start : forall w ss ts, force w = Val ss -> Forall2 (reads L) ss ts -> exists g, forall f, 2 <= f -> to_egraph L keep f w = Val g.
  Proof.
    intros w ss ts Fo Fr. assert (rmapM (fun s => unwrap (parse_rec (l_from_op L) (display s))) ss = Val (map to_rec ts)) as Pa.
    { clear Fo. induction Fr as [|s t ss ts H Fr IH]; [reflexivity|]. cbn [rmapM map]. unfold reads in H. rewrite H. cbn [unwrap rbind]. rewrite IH. reflexivity. }
    destruct (linked_egraph w ss _ Fo Pa) as (g1 & val & Ok & Lv). exists g1. intros f Hf. destruct (two f Hf) as (k & ->). apply Ok.
  Qed.
  Lemma linked_steady : steady L keep.
  Proof. intros f f' w g Hf Hf' H. destruct (linked_workload f w g Hf H) as (_ & _ & A). exact (A f' Hf'). Qed.
  Lemma linked_reached : forall rs g, rewrites L rs -> reached L keep rs g -> exists val, lv val g.
  Proof.
    intros rs g F H. pose proof (q_good L Qb Q_var read_Q rs F) as Gd.
    induction H as [|fuel w g Lf H|fuel g r g' i Lf _ IH Hr H|fuel rules g g' Lf _ IH Ic H|fuel g g' Lf _ IH H|fuel order part g out g' Lf _ IH Fa Ip Si H].
    - exact (reached_new L Q sem qdok qP qokan q_an0).
    - destruct (linked_workload fuel w g Lf H) as (val & Lv & _). eauto.
    - destruct IH as (val & Lv). exact (X reached_add Q_var read_Q fuel val g r g' i Lf Lv Hr H).
    - destruct IH as (val & Lv). exact (X reached_runs fuel rs rules val g g' Lf Gd Lv Ic H).
    - destruct IH as (val & Lv). exact (X reached_rebuild fuel val g g' Lf Lv H).
    - destruct IH as (val & Lv). exact (X reached_compress fuel order part val g out g' Lf (q_good L Qb Q_var read_Q part (incl_Forall Ip F)) Lv Fa Si H).
  Qed.
  Theorem linked_goes_on : forall rs, rewrites L rs -> forall part g, incl part rs -> reached L keep rs g -> goes_on L keep part g.
  Proof. intros rs F part g Ip H. destruct (linked_reached rs g F H) as (val & Lv). exact (X live_goes_on Q_var q_an0 read_Q part val g (q_good L Qb Q_var read_Q part (incl_Forall Ip F)) Lv). Qed.
End Links.
