(* Equalities found by saturation hold in every model; derivable rules are
   consequences. *)
From Coq Require Import Permutation.
From Verif Require Import Base BaseProofs Lang LangProofs Rule Ruleset Analysis Generalize
  Egraph EgraphSpec EgraphProofs EgraphSound Synth Apply Sched SynthSpec SynthProofs.
Open Scope list_scope.

Section Derive.
  Context {O C : Type}.
  Variable L : lang O C.
  Hypothesis eqb_eq : forall a b, l_eqb L a b = true <-> a = b.
  Variable keep : eg O C -> nat -> nat -> bool.

  Lemma made_moves : forall V (A : algebra O C V), interprets L A -> forall rs, all_hold L A rs ->
    forall g, made L keep rs g -> moves A eg_default g.
  Proof.
    intros V A In_alg rs Hr g M. induction M as [|fuel w g H|fuel g r g' i M IH H|fuel st g g' M IH F H].
    - apply moves_refl, wf_default.
    - exact (to_egraph_moves L eqb_eq keep fuel A In_alg w g H).
    - exact (moves_trans A _ _ _ IH (s_add_expr_moves L eqb_eq keep fuel A In_alg g r g' i (proj1 IH) H)).
    - exact (moves_trans A _ _ _ IH (proj1 (scheduled_moves L eqb_eq keep fuel A In_alg st rs g g' F Hr (proj1 IH) H))).
  Qed.
  (* the one-point algebra: structural facts need no model *)
  Definition unit_alg : algebra O C unit := Alg (fun _ _ => tt) (fun _ => True) (fun _ _ => True).
  Lemma unit_interprets : interprets L unit_alg.
  Proof.
    constructor; cbn; auto.
    - intros a b [] t _ _ _ _. now destruct (aval _ t).
    - intros val g i ts _ _ _ _ _ r t _ _. now destruct (aval _ t), (val i).
    - intros. now destruct (aval _ t).
  Qed.
  Definition readable (r : rule O) : Prop := exists tl tr, tree (rlhs r) = Val tl /\ tree (rrhs r) = Val tr.
  Lemma unit_holds : forall r, readable r -> holds L unit_alg r.
  Proof.
    intros r (tl & tr & Hl & Hr). exists tl, tr. split; [exact Hl|]. split; [exact Hr|]. intros s _ _.
    now destruct (paval _ s tl), (paval _ s tr).
  Qed.

  (* lookup_expr *)
  Lemma lookup_nodes_repr : forall r (g : eg O C) ids ts ids', wf g -> Forall2 (repr g) ts ids ->
    lookup_nodes (l_eqb L) g ids r = Val (Some ids') ->
    exists ts', run_buf (fun o ts => Val (T o ts)) r ts = Val ts' /\ Forall2 (repr g) ts' ids'.
  Proof.
    induction r as [|n r IH]; intros g ids ts ids' W F H; cbn in H.
    - inversion H; subst. exists ts. auto.
    - destruct (rmapM (index ids) (nch n)) as [ch|] eqn:Ec; [|discriminate H]. cbn in H.
      destruct (lookup_node (l_eqb L) g (Node (nop n) ch)) as [o|] eqn:El; [|discriminate H]. cbn in H.
      destruct o as [i|]; [|discriminate H].
      assert (exists us, rmapM (index ts) (nch n) = Val us /\ Forall2 (repr g) us ch) as (us & Eu & Fu).
      { clear - F Ec. revert ch Ec. generalize (nch n). induction l as [|c l IHl]; intros ch Ec; cbn in *.
        - inversion Ec. exists []. auto.
        - destruct (index ids c) as [x|] eqn:X; [|discriminate Ec]. cbn in Ec. destruct (rmapM (index ids) l) as [xs|] eqn:Xs; [|discriminate Ec].
          inversion Ec; subst. destruct (IHl xs eq_refl) as (us & E & F'). rewrite E.
          apply index_some in X as [_ X]. assert (exists t, nth_error ts c = Some t /\ repr g t x) as (t & Ht & R).
          { clear - F X. revert c X. induction F; intros [|c] X; cbn in *; try discriminate X; [inversion X; subst; eauto|auto]. }
          unfold index at 1. rewrite Ht. cbn. exists (t :: us). auto. }
      apply (IH g (ids ++ [i]) (ts ++ [T (nop n) us])) in H; [|exact W|].
      + cbn [run_buf]. rewrite Eu. exact H.
      + apply Forall2_app; [exact F|]. constructor; [|constructor]. apply Rp with ch; [exact Fu|].
        exact (lookup_node_some _ eqb_eq g _ i W El).
  Qed.
  Lemma lookup_expr_repr : forall r (g : eg O C) i, wf g -> lookup_expr (l_eqb L) g r = Val (Some i) ->
    exists t, tree r = Val t /\ repr g t i.
  Proof.
    intros r g i W H. unfold lookup_expr in H. destruct (lookup_nodes (l_eqb L) g [] r) as [o|] eqn:E; [|discriminate H]. cbn in H.
    destruct o as [ids|]; [|discriminate H].
    destruct (lookup_nodes_repr r g [] [] ids W (Forall2_nil _) E) as (ts & R & F).
    unfold tree, fold_rec. rewrite R. cbn. destruct (rev ids) as [|j l] eqn:Ei; [discriminate H|]. inversion H; subst j.
    apply (F2_pop _ _ _ _ ids i F). unfold pop_unwrap. now rewrite Ei.
  Qed.

  (* instantiation *)
  Fixpoint inst (t : term (eov O)) : term O := match t with T o ts => T (instantiate_op (l_mk_var L) o) (map inst ts) end.
  Lemma rmapM_index_map : forall X Y (f : X -> Y) l is, rmapM (index (map f l)) is = rmap (map f) (rmapM (index l) is).
  Proof.
    intros X Y f l is. induction is as [|i is IH]; cbn; [reflexivity|]. rewrite index_map, IH.
    destruct (index l i); cbn; [|reflexivity]. now destruct (rmapM (index l) is).
  Qed.
  Lemma run_buf_inst : forall p ts, run_buf (fun o ts => Val (T o ts)) (instantiate (l_mk_var L) p) (map inst ts) =
    rmap (map inst) (run_buf (fun o ts => Val (T o ts)) p ts).
  Proof.
    induction p as [|n p IH]; intros ts; [reflexivity|]. cbn [instantiate map run_buf nop nch].
    rewrite rmapM_index_map. destruct (rmapM (index ts) (nch n)) as [us|]; [|reflexivity]. cbn [rmap rbind].
    replace (map inst ts ++ [T (instantiate_op (l_mk_var L) (nop n)) (map inst us)]) with (map inst (ts ++ [T (nop n) us]))
      by (rewrite map_app; reflexivity).
    apply IH.
  Qed.
  Lemma tree_inst : forall p, tree (instantiate (l_mk_var L) p) = rmap inst (tree p).
  Proof.
    intros p. unfold tree, fold_rec. pose proof (run_buf_inst p []) as H. cbn [map] in H. rewrite H.
    destruct (run_buf _ p []) as [ts|]; [|reflexivity]. cbn. unfold pop_unwrap. rewrite <- map_rev.
    destruct (rev ts); reflexivity.
  Qed.
  Local Notation closed := (closed L).
  Lemma inst_val : forall V (A : algebra O C V) env, (forall v, l_to_var L (l_mk_var L v) = Some v) -> forall t, closed t ->
    aval (a_sem (set_vars L A env)) (inst t) = paval (a_sem A) env t.
  Proof.
    intros V A env Mv t. induction t as [[o|v] ts IH] using term_ind'; intros Cl; cbn [inst aval paval instantiate_op].
    - destruct Cl as [No Cl]. cbn. rewrite No. f_equal. rewrite map_map. revert Cl.
      induction IH as [|t ts H F IH2]; cbn; intros Cl; [reflexivity|]. destruct Cl as [C1 C2]. f_equal; auto.
    - cbn. now rewrite Mv.
  Qed.

  Lemma derive_start_made : forall fuel lo r rs g, derive_start L keep fuel lo r = Val g -> made L keep rs g.
  Proof.
    intros fuel lo r rs g H. unfold derive_start in H.
    destruct (s_add_expr L keep fuel eg_default _) as [[g1 i]|] eqn:A1; [|discriminate H]. cbn in H.
    pose proof (M_add L keep rs fuel _ _ _ _ (M_new L keep rs) A1) as M1.
    destruct lo; [now inversion H; subst|].
    destruct (s_add_expr L keep fuel g1 _) as [[g2 j]|] eqn:A2; [|discriminate H]. cbn in H. inversion H; subst.
    exact (M_add L keep rs fuel _ _ _ _ M1 A2).
  Qed.

  Lemma can_derive_holds : forall V (A : algebra O C V), (forall v, l_to_var L (l_mk_var L v) = Some v) ->
    forall rs, (forall env, (forall v, a_dom A (env v)) -> interprets L (set_vars L A env) /\ all_hold L (set_vars L A env) rs) ->
    (exists v, a_dom A v) -> forall fuel lo iter r, can_derive L keep fuel lo iter rs r true ->
    exists tl tr, tree (rlhs r) = Val tl /\ tree (rrhs r) = Val tr /\
      (closed tl -> closed tr -> forall s, (forall v, a_dom A (s v)) -> paval (a_sem A) s tl = paval (a_sem A) s tr).
  Proof.
    intros V A Mv rs Hm (v0 & Dv0) fuel lo iter r (g & out & Hg & Hs & Ha).
    assert (Mo : made L keep rs out). { apply (M_run L keep rs fuel (Saturating iter) g out); [exact (derive_start_made _ _ _ _ _ Hg)|exact I|exact Hs]. }
    destruct (Hm (fun _ => v0) (fun _ => Dv0)) as [I0 H0]. pose proof (proj1 (made_moves _ _ I0 rs H0 out Mo)) as W.
    unfold derive_answer in Ha.
    destruct (lookup_expr (l_eqb L) out (instantiate (l_mk_var L) (rlhs r))) as [[l|]|] eqn:El; try discriminate Ha. cbn in Ha.
    destruct (lookup_expr (l_eqb L) out (instantiate (l_mk_var L) (rrhs r))) as [[i|]|] eqn:Er; try discriminate Ha. cbn in Ha.
    inversion Ha as [Hi]. apply Nat.eqb_eq in Hi. subst i.
    destruct (lookup_expr_repr _ _ _ W El) as (t1 & T1 & R1). destruct (lookup_expr_repr _ _ _ W Er) as (t2 & T2 & R2).
    rewrite tree_inst in T1, T2. destruct (tree (rlhs r)) as [tl|]; [|discriminate T1]. destruct (tree (rrhs r)) as [tr|]; [|discriminate T2].
    inversion T1; inversion T2; subst t1 t2. exists tl, tr. split; [reflexivity|]. split; [reflexivity|].
    intros Cl Cr s Ds. destruct (Hm s Ds) as [Is Hr]. rewrite <- (inst_val V A s Mv tl Cl), <- (inst_val V A s Mv tr Cr).
    exact (default_moves _ out (made_moves V _ Is rs Hr out Mo) _ _ l R1 R2).
  Qed.
End Derive.
