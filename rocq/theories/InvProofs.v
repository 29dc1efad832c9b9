(* Invariants of e-graphs that tie the data of classes to the operators in use:
   which nodes may occur, what the data of every class satisfy, and that data only
   grow.  Some operators ([V]: the variables) are given their data from outside;
   they are in the e-graph from the start, so that make is never asked for the data
   of a new class of theirs. *)
From Coq Require Import Permutation.
From Verif Require RulesetProofs.
From Verif Require Import Base BaseProofs Lang Rule Ruleset Analysis Egraph EgraphSpec EgraphProofs EgraphSound Synth Apply Sched SynthSpec SynthProofs DeriveProofs DataProofs Workload.
Open Scope list_scope.

Lemma set_nth_other : forall X (l : list X) i j x, i <> j -> nth_error (set_nth l i x) j = nth_error l j.
Proof.
  intros X l. induction l as [|a l IH]; intros [|i] [|j] x N; try reflexivity; try congruence.
  unfold set_nth in *. cbn. apply IH. congruence.
Qed.
Lemma set_nth_same : forall X (l : list X) i x, i < length l -> nth_error (set_nth l i x) i = Some x.
Proof.
  intros X l. induction l as [|a l IH]; intros [|i] x H; cbn in *; try lia; [reflexivity|].
  unfold set_nth in *. cbn. apply IH. lia.
Qed.

Section Inv.
  Context {O D A : Type}.
  Local Notation egraph := (egraph O D A).
  Variable op_eqb : O -> O -> bool.
  Hypothesis op_eqb_eq : forall a b, op_eqb a b = true <-> a = b.
  Variable a_make : A -> node O -> list D -> res D.
  Variable a_merge : D -> D -> res (D * (bool * bool)).
  Variable keep : egraph -> nat -> nat -> bool.
  Variable Q : O -> nat -> Prop.           (* operators in use, with their number of children *)
  Variable V : O -> bool.
  Variables P P' : A -> D -> Prop.         (* data of classes; data of nodes *)
  Variable le : D -> D -> Prop.
  Hypothesis le_refl : forall d, le d d.
  Hypothesis le_trans : forall d e f, le d e -> le e f -> le d f.
  Hypothesis V_leaf : forall o k, V o = true -> Q o k -> k = 0.
  Hypothesis P_weak : forall a d, P a d -> P' a d.
  Hypothesis P_make : forall a n ds d, Q (nop n) (length (nch n)) -> length ds = length (nch n) -> Forall (P a) ds ->
    a_make a n ds = Val d -> P' a d /\ (V (nop n) = false -> P a d).
  Hypothesis P_merge : forall a x y d ch, P a x -> P' a y -> a_merge x y = Val (d, ch) -> P a d /\ le x d /\ (P a y -> le y d).

  Definition okn (n : node O) : Prop := Q (nop n) (length (nch n)).
  Definition inv (g : egraph) : Prop :=
    (forall n i, In (n, i) (g_nodes g) -> okn n) /\
    (forall o, V o = true -> exists i, In (Node o [], i) (g_nodes g)) /\
    Forall (P (g_an g)) (g_data g).
  Definition mono (g g' : egraph) : Prop :=
    forall i d, class_data g i = Val d -> exists d', class_data g' i = Val d' /\ le d d'.
  Record step (g g' : egraph) : Prop := {
    st_wf : wf g'; st_ext : ext g g'; st_an : g_an g' = g_an g; st_inv : inv g'; st_mono : mono g g' }.
  Lemma step_refl : forall g, wf g -> inv g -> step g g.
  Proof. intros g W I. constructor; auto using ext_refl. intros i d H. exists d. auto. Qed.
  Lemma step_trans : forall g h k, step g h -> step h k -> step g k.
  Proof.
    intros g h k [W1 E1 A1 I1 M1] [W2 E2 A2 I2 M2]. constructor; auto; [exact (ext_trans _ _ _ E1 E2)|congruence|].
    intros i d H. destruct (M1 i d H) as (d1 & H1 & L1). destruct (M2 i d1 H1) as (d2 & H2 & L2). exists d2. split; [exact H2|eauto].
  Qed.
  Lemma class_P : forall g i d, inv g -> class_data g i = Val d -> P (g_an g) d.
  Proof.
    intros g i d (_ & _ & H) E. exact (dat_class P g i d H E).
  Qed.
  Lemma classes_P : forall g ch ds, inv g -> rmapM (class_data g) ch = Val ds -> length ds = length ch /\ Forall (P (g_an g)) ds.
  Proof.
    intros g ch ds I E. apply rmapM_F2 in E. split; [symmetry; exact (Forall2_length _ _ _ E)|].
    induction E; constructor; auto. exact (class_P g _ _ I H).
  Qed.
  Definition md_inv (md : egraph -> nat -> res egraph) : Prop :=
    forall g i g', wf g -> inv g -> i < size g -> md g i = Val g' -> step g g'.

  Lemma new_class_inv : forall g n g' i, wf g -> inv g -> okn n -> Forall (fun c => c < size g) (nch n) -> get_node op_eqb (g_nodes g) n = None ->
    new_class a_make g n = Val (g', i) -> step g g' /\ i < size g'.
  Proof.
    intros g n g' i W I Hn Lt Gn H. destruct (new_class_ok a_make g n g' i W Lt H) as (W' & E & Sz & Ei & _). split; [|lia].
    unfold new_class in H. destruct (rmapM (class_data g) (nch n)) as [ds|] eqn:Ed; [|discriminate H]. cbn in H.
    destruct (a_make (g_an g) n ds) as [d|] eqn:Em; [|discriminate H]. cbn in H. injection H as <- _.
    destruct (classes_P g _ _ I Ed) as [Ln Fp]. destruct (P_make _ n ds d Hn Ln Fp Em) as [_ Hp].
    assert (Vn : V (nop n) = false).
    { destruct (V (nop n)) eqn:Ev; [|reflexivity]. destruct (proj1 (proj2 I) _ Ev) as [k Ik]. pose proof (V_leaf _ _ Ev Hn) as L0.
      destruct n as [o [|c ch]]; [|discriminate L0]. destruct (get_node_none _ op_eqb_eq _ _ Gn _ Ik). }
    constructor; [exact W'|exact E|reflexivity| |].
    - destruct I as (I1 & I2 & I3). split; [|split]; cbn.
      + intros m j J. apply in_app_or in J as [J|[J|[]]]; [exact (I1 m j J)|]. now inversion J; subst.
      + intros o Ho. destruct (I2 o Ho) as [j J]. exists j. apply in_or_app. now left.
      + apply Forall_app. split; [exact I3|]. constructor; [exact (Hp Vn)|constructor].
    - intros j e J. unfold class_data in *. destruct (find g j) as [r|] eqn:Fj; [|discriminate J]. cbn [rbind] in J.
      rewrite (find_app g (EG (g_reps g ++ [size g]) (g_nodes g ++ [(n, size g)]) (g_data g ++ [d]) (g_an g)) j eq_refl r Fj). cbn [rbind g_data].
      exists e. split; [now apply index_app_l|apply le_refl].
  Qed.

  Section Ops.
    Variable md : egraph -> nat -> res egraph.
    Hypothesis Md : md_inv md.
    Lemma add_inv : forall g n g' i, wf g -> inv g -> okn n -> add op_eqb a_make md g n = Val (g', i) -> step g g'.
    Proof.
      intros g n g' i W I Hn H. unfold add in H. destruct (lookup_node op_eqb g n) as [o|] eqn:Lk; [|discriminate H]. cbn in H.
      destruct o as [j|]; [inversion H; subst; now apply step_refl|].
      unfold lookup_node in Lk. destruct (canon g n) as [n'|] eqn:C; [|discriminate Lk]. cbn in Lk, H.
      assert (Gn : get_node op_eqb (g_nodes g) n' = None).
      { destruct (get_node op_eqb (g_nodes g) n') as [k|]; [|reflexivity]. destruct (find g k); discriminate Lk. }
      destruct (new_class a_make g n') as [[g1 k]|] eqn:Nc; [|discriminate H]. cbn in H.
      destruct (md g1 k) as [g2|] eqn:M; [|discriminate H]. cbn in H. inversion H; subst g2 k. clear H.
      pose proof (proj1 (canon_spec _ _ _) C) as [Eo Ec].
      assert (Hn' : okn n'). { unfold okn in *. rewrite Eo. now rewrite <- (Forall2_length _ _ _ Ec). }
      destruct (new_class_inv g n' g1 i W I Hn' (canon_lt g n n' W C) Gn Nc) as [S1 Li].
      exact (step_trans _ _ _ S1 (Md _ _ _ (st_wf _ _ S1) (st_inv _ _ S1) Li M)).
    Qed.
    Lemma merged_inv : forall g k d dk dd dm ch, wf g -> inv g -> find g k = Val k -> find g d = Val d -> k <> d ->
      index (g_data g) k = Val dk -> index (g_data g) d = Val dd -> a_merge dk dd = Val (dm, ch) ->
      step g (merged g k d (set_nth (g_data g) k dm)).
    Proof.
      intros g k d dk dd dm ch W I Fk Fd N Ek Ed Em.
      assert (Cd : forall i e, find g i = Val i -> index (g_data g) i = Val e -> P (g_an g) e).
      { intros i e Fi Ei. apply (class_P g i e I). unfold class_data. rewrite Fi. exact Ei. }
      pose proof (Cd _ _ Fk Ek) as Pk. pose proof (Cd _ _ Fd Ed) as Pd.
      destruct (P_merge _ _ _ _ _ Pk (P_weak _ _ Pd) Em) as (Pm & L1 & L2). specialize (L2 Pd).
      destruct (merged_ok g k d (set_nth (g_data g) k dm) W Fk Fd N) as (W' & E & _); [rewrite set_nth_length; apply (wf_data g W)|].
      pose proof (find_some _ _ _ Fk) as Lk. rewrite <- (wf_data g W) in Lk.
      constructor; [exact W'|exact E|reflexivity| |].
      - destruct I as (I1 & I2 & I3). split; [exact I1|]. split; [exact I2|]. exact (dat_set P g _ _ k dm I3 Pm).
      - intros i e H. unfold class_data in *. rewrite find_merged. destruct (find g i) as [r|]; [|discriminate H]. cbn [rbind rmap] in *. cbn.
        destruct (Nat.eqb_spec r d) as [->|Nr].
        + exists dm. split; [unfold index; now rewrite (set_nth_same _ _ _ _ Lk)|]. assert (e = dd) as -> by congruence. exact L2.
        + destruct (Nat.eq_dec k r) as [<-|Nk].
          * exists dm. split; [unfold index; now rewrite (set_nth_same _ _ _ _ Lk)|]. assert (e = dk) as -> by congruence. exact L1.
          * exists e. split; [|apply le_refl]. unfold index in *. now rewrite (set_nth_other _ _ _ _ _ Nk).
    Qed.
    Lemma union_inv : forall g a b g' m, wf g -> inv g -> union a_merge keep md g a b = Val (g', m) -> step g g'.
    Proof.
      intros g a b g' m W I H. unfold union in H. destruct (find g a) as [ra|] eqn:Ra; [|discriminate H]. cbn in H.
      destruct (find g b) as [rb|] eqn:Rb; [|discriminate H]. cbn in H.
      destruct (Nat.eqb_spec ra rb) as [->|N]; [inversion H; subst; now apply step_refl|].
      assert (Gen : forall k d, find g k = Val k -> find g d = Val d -> k <> d ->
          (let* dk := index (g_data g) k in let* dd := index (g_data g) d in let* (dm, _) := a_merge dk dd in
           let g1 := EG (map (fun r => if Nat.eqb r d then k else r) (g_reps g)) (g_nodes g) (set_nth (g_data g) k dm) (g_an g) in
           let* g2 := md g1 k in Val (g2, true)) = Val (g', m) -> step g g').
      { intros k d Hk Hd Ne X. destruct (index (g_data g) k) as [dk|] eqn:Ek; [|discriminate X]. cbn in X.
        destruct (index (g_data g) d) as [dd|] eqn:Ed; [|discriminate X]. cbn in X.
        destruct (a_merge dk dd) as [[dm ch]|] eqn:Em; [|discriminate X]. cbn in X.
        fold (merged g k d (set_nth (g_data g) k dm)) in X.
        destruct (md (merged g k d (set_nth (g_data g) k dm)) k) as [g2|] eqn:M; [|discriminate X]. cbn in X. inversion X; subst g2.
        pose proof (merged_inv g k d dk dd dm ch W I Hk Hd Ne Ek Ed Em) as S1.
        refine (step_trans _ _ _ S1 (Md _ _ _ (st_wf _ _ S1) (st_inv _ _ S1) _ M)). rewrite size_merged. exact (find_some _ _ _ Hk). }
      pose proof (wf_rep g W a ra Ra) as Fa. pose proof (wf_rep g W b rb Rb) as Fb.
      destruct (keep g ra rb); [apply (Gen ra rb)|apply (Gen rb ra)]; auto.
    Qed.
    Lemma add_nodes_inv : forall r g ids g' ids', wf g -> inv g -> Forall okn r -> add_nodes op_eqb a_make md g ids r = Val (g', ids') -> step g g'.
    Proof.
      induction r as [|n r IH]; intros g ids g' ids' W I F H; cbn in H; [inversion H; subst; now apply step_refl|].
      destruct (rmapM (index ids) (nch n)) as [ch|] eqn:C; [|discriminate H]. cbn in H.
      destruct (add op_eqb a_make md g (Node (nop n) ch)) as [[g1 i]|] eqn:E; [|discriminate H]. cbn in H. inversion F as [|x l Hn Fr]; subst.
      assert (S1 : step g g1). { refine (add_inv _ _ _ _ W I _ E). unfold okn in *. cbn. apply rmapM_F2 in C. now rewrite <- (Forall2_length _ _ _ C). }
      exact (step_trans _ _ _ S1 (IH _ _ _ _ (st_wf _ _ S1) (st_inv _ _ S1) Fr H)).
    Qed.
    Lemma add_expr_inv : forall r g g' i, wf g -> inv g -> Forall okn r -> add_expr op_eqb a_make md g r = Val (g', i) -> step g g'.
    Proof.
      intros r g g' i W I F H. unfold add_expr in H. destruct (add_nodes op_eqb a_make md g [] r) as [[g1 ids]|] eqn:E; [|discriminate H]. cbn in H.
      destruct (pop_unwrap ids); [|discriminate H]. cbn in H. inversion H; subst. exact (add_nodes_inv _ _ _ _ _ W I F E).
    Qed.
    Lemma canon_nodes_inv : forall g g', wf g -> inv g -> canon_nodes g = Val g' -> step g g'.
    Proof.
      intros g g' W I H. destruct (canon_nodes_ok g g' W H) as (W' & E & _ & R & Dt & _). unfold canon_nodes in H.
      destruct (rmapM _ (g_nodes g)) as [ns|] eqn:Er; [|discriminate H]. cbn in H. injection H as <-. apply rmapM_F2 in Er.
      constructor; [exact W'|exact E|reflexivity| |].
      - destruct I as (I1 & I2 & I3). split; [|split; [|exact I3]]; cbn.
        + clear - Er I1. induction Er as [|[n j] [n' j'] l l' H Er IH]; intros m i J; [contradiction|]. destruct J as [J|J].
          * inversion J; subst. cbn in H. destruct (canon g n) as [m'|] eqn:C; [|discriminate H]. cbn in H. injection H as <- <-.
            apply canon_spec in C as [C1 C2]. unfold okn. rewrite C1, <- (Forall2_length _ _ _ C2). apply (I1 n j). now left.
          * apply (IH (fun n i K => I1 n i (or_intror K)) m i J).
        + intros o Ho. destruct (I2 o Ho) as [i J]. exists i. clear - Er J. induction Er as [|[n j] [n' j'] l l' H Er IH]; [contradiction|]. destruct J as [J|J].
          * inversion J; subst. cbn in H. inversion H; subst. now left.
          * right. auto.
      - intros i d H. exists d. split; [exact H|apply le_refl].
    Qed.
    Lemma set_data_inv : forall g c dc d, wf g -> inv g -> find g c = Val c -> index (g_data g) c = Val dc -> P (g_an g) d -> le dc d ->
      step g (EG (g_reps g) (g_nodes g) (set_nth (g_data g) c d) (g_an g)).
    Proof.
      intros g c dc d W I Fc Ec Pd Ld. destruct (set_data_ok g (set_nth (g_data g) c d) W) as [W' E]; [rewrite set_nth_length; apply (wf_data g W)|].
      pose proof (find_some _ _ _ Fc) as Lk. rewrite <- (wf_data g W) in Lk.
      constructor; [exact W'|exact E|reflexivity| |].
      - destruct I as (I1 & I2 & I3). split; [exact I1|]. split; [exact I2|]. exact (dat_set P g _ _ c d I3 Pd).
      - intros i e H. unfold class_data, find in *. cbn. destruct (index (g_reps g) i) as [r|]; [|discriminate H]. cbn in *.
        destruct (Nat.eq_dec c r) as [<-|Nk].
        + exists d. split; [unfold index; now rewrite (set_nth_same _ _ _ _ Lk)|]. assert (e = dc) as -> by congruence. exact Ld.
        + exists e. split; [|apply le_refl]. unfold index in *. now rewrite (set_nth_other _ _ _ _ _ Nk).
    Qed.
    Lemma rebuild_inv : forall f g g', wf g -> inv g -> rebuild op_eqb a_make a_merge keep md f g = Val g' -> step g g'.
    Proof.
      induction f as [|k IH]; intros g g' W I H; cbn in H; [discriminate H|].
      destruct (canon_nodes g) as [g1|] eqn:C; [|discriminate H]. cbn in H. pose proof (canon_nodes_inv g g1 W I C) as S1.
      pose proof (st_wf _ _ S1) as W1. pose proof (st_inv _ _ S1) as I1.
      destruct (clash op_eqb g1 (g_nodes g1)) as [c|]; [|discriminate H]. cbn in H. destruct c as [[i j]|].
      - destruct (union a_merge keep md g1 i j) as [[g2 m]|] eqn:U; [|discriminate H]. cbn in H.
        pose proof (union_inv _ _ _ _ _ W1 I1 U) as S2. exact (step_trans _ _ _ S1 (step_trans _ _ _ S2 (IH _ _ (st_wf _ _ S2) (st_inv _ _ S2) H))).
      - destruct (stale a_make a_merge g1 (g_nodes g1)) as [s|] eqn:S; [|discriminate H]. cbn in H. destruct s as [[c d]|]; [|inversion H; now subst g1].
        destruct (md _ c) as [g2|] eqn:M in H; [|discriminate H]. cbn in H.
        destruct (stale_some a_make a_merge g1 (g_nodes g1) c d W1 (incl_refl _) S) as (Fc & n & i & ds & dn & dc & ch & In1 & Fi & Ed & Em & Ec & Eg).
        assert (Pc : P (g_an g1) dc). { apply (class_P g1 c dc I1). unfold class_data. rewrite Fc. exact Ec. }
        destruct (classes_P g1 _ _ I1 Ed) as [Ln Fp]. destruct (P_make _ n ds dn (proj1 I1 n i In1) Ln Fp Em) as [Pn _].
        destruct (P_merge _ _ _ _ _ Pc Pn Eg) as (Pd & Ld & _).
        pose proof (set_data_inv g1 c dc d W1 I1 Fc Ec Pd Ld) as S2.
        pose proof (Md _ _ _ (st_wf _ _ S2) (st_inv _ _ S2) (find_some _ _ _ Fc) M) as S3.
        exact (step_trans _ _ _ S1 (step_trans _ _ _ S2 (step_trans _ _ _ S3 (IH _ _ (st_wf _ _ S3) (st_inv _ _ S3) H)))).
    Qed.
    (* after a rebuild, making any node again adds nothing to its class *)
    Lemma rebuild_settled : forall f g g', rebuild op_eqb a_make a_merge keep md f g = Val g' ->
      stale a_make a_merge g' (g_nodes g') = Val None.
    Proof.
      induction f as [|k IH]; intros g g' H; cbn in H; [discriminate H|].
      destruct (canon_nodes g) as [g1|]; [|discriminate H]. cbn in H.
      destruct (clash op_eqb g1 (g_nodes g1)) as [c|]; [|discriminate H]. cbn in H. destruct c as [[i j]|].
      - destruct (union a_merge keep md g1 i j) as [[g2 m]|]; [|discriminate H]. cbn in H. exact (IH _ _ H).
      - destruct (stale a_make a_merge g1 (g_nodes g1)) as [s|] eqn:S; [|discriminate H]. cbn in H. destruct s as [[c d]|]; [|inversion H; now subst g1].
        destruct (md _ c) as [g2|] in H; [|discriminate H]. cbn in H. exact (IH _ _ H).
    Qed.
  End Ops.
  Lemma stale_none : forall (g : egraph) ns, stale a_make a_merge g ns = Val None -> forall n i, In (n, i) ns ->
    exists ds d dc dm ch, rmapM (class_data g) (nch n) = Val ds /\ a_make (g_an g) n ds = Val d /\ class_data g i = Val dc /\
      a_merge dc d = Val (dm, ch) /\ fst ch = false.
  Proof.
    intros g. induction ns as [|[n k] ns IH]; intros H m i J; cbn in H; [contradiction|].
    destruct (find g k) as [c'|] eqn:Fk; [|discriminate H]. cbn in H.
    destruct (rmapM (class_data g) (nch n)) as [ds|] eqn:Ed; [|discriminate H]. cbn in H.
    destruct (a_make (g_an g) n ds) as [dn|] eqn:Em; [|discriminate H]. cbn in H.
    destruct (index (g_data g) c') as [dc|] eqn:Ei; [|discriminate H]. cbn in H.
    destruct (a_merge dc dn) as [[dm ch]|] eqn:Eg; [|discriminate H]. cbn in H.
    destruct (fst ch) eqn:Ec; [discriminate H|]. destruct J as [J|J]; [|exact (IH H m i J)]. inversion J; subst.
    exists ds, dn, dc, dm, ch. repeat split; auto. unfold class_data. rewrite Fk. exact Ei.
  Qed.

  Lemma modify_inv : forall todo, (forall s g i ts, In s todo -> wf g -> inv g -> i < size g -> s g i = Val ts -> Forall (Forall okn) ts) ->
    forall f, md_inv (modify op_eqb a_make a_merge keep todo f).
  Proof.
    intros todo Ht. induction f as [|k IH]; intros g i g' W I Li H; cbn in H; [discriminate H|].
    remember (modify op_eqb a_make a_merge keep todo k) as md eqn:Em. clear Em.
    assert (J : forall ts h h', Forall (Forall okn) ts -> wf h -> inv h -> join_all (add_expr op_eqb a_make md) (union a_merge keep md) h i ts = Val h' -> step h h').
    { induction ts as [|t ts IHt]; intros h h' F Wh Ih Hj; cbn in Hj; [inversion Hj; subst; now apply step_refl|].
      destruct (add_expr op_eqb a_make md h t) as [[h1 j]|] eqn:E1; [|discriminate Hj]. cbn in Hj. destruct (union a_merge keep md h1 i j) as [[h2 m]|] eqn:E2; [|discriminate Hj]. cbn in Hj.
      inversion F as [|x l F1 F2]; subst. pose proof (add_expr_inv md IH _ _ _ _ Wh Ih F1 E1) as S1.
      pose proof (union_inv md IH _ _ _ _ _ (st_wf _ _ S1) (st_inv _ _ S1) E2) as S2.
      exact (step_trans _ _ _ S1 (step_trans _ _ _ S2 (IHt _ _ F2 (st_wf _ _ S2) (st_inv _ _ S2) Hj))). }
    clear IH. revert g H W I Li. induction todo as [|s ss IHs]; intros g H W I Li; cbn in H; [inversion H; subst; now apply step_refl|].
    destruct (s g i) as [ts|] eqn:Es; [|discriminate H]. cbn in H. destruct (join_all _ _ g i ts) as [g1|] eqn:E; [|discriminate H]. cbn in H.
    pose proof (J ts g g1 (Ht s g i ts (or_introl eq_refl) W I Li Es) W I E) as S1.
    refine (step_trans _ _ _ S1 (IHs _ _ H (st_wf _ _ S1) (st_inv _ _ S1) _)).
    - intros s' h j ts' Hs. apply Ht. now right.
    - pose proof (proj1 (st_ext _ _ S1)). lia.
  Qed.
End Inv.

Section Lang.
  Context {O C : Type}.
  Variable L : lang O C.
  Hypothesis eqb_eq : forall a b, l_eqb L a b = true <-> a = b.
  Variable keep : eg O C -> nat -> nat -> bool.
  Variable Q : O -> nat -> Prop.
  Variable V : O -> bool.
  Variables P P' : nat -> sig O C -> Prop.
  Variable le : sig O C -> sig O C -> Prop.
  Hypothesis le_refl : forall d, le d d.
  Hypothesis le_trans : forall d e f, le d e -> le e f -> le d f.
  Hypothesis V_leaf : forall o k, V o = true -> Q o k -> k = 0.
  Hypothesis P_weak : forall a d, P a d -> P' a d.
  Hypothesis P_make : forall a n ds d, Q (nop n) (length (nch n)) -> length ds = length (nch n) -> Forall (P a) ds ->
    s_make L a n ds = Val d -> P' a d /\ (V (nop n) = false -> P a d).
  Hypothesis P_merge : forall a x y d ch, P a x -> P' a y -> s_merge L x y = Val (d, ch) -> P a d /\ le x d /\ (P a y -> le y d).
  Local Notation inv := (@inv O (sig O C) nat Q V P).
  Local Notation step := (@step O (sig O C) nat Q V P le).
  Local Notation okn := (@okn O Q).
  Hypothesis custom_ok : forall g i ts, wf g -> inv g -> i < size g -> l_custom L g i = Val ts -> Forall (Forall okn) ts.
  Hypothesis const_ok : forall a d x y, P a d -> low (sg_itv d) = Some x -> high (sg_itv d) = Some y -> l_ceqb L x y = true -> Forall okn (l_const L x).
  (* the operators of a pattern *)
  Definition okpat (p : pat O) : Prop := Forall (fun n => match nop n with EN o => Q o (length (nch n)) | PV _ => True end) p.
  Definition okrule (r : rule O) : Prop := okpat (rrhs r).
  Definition okrules (rs : ruleset O) : Prop := Forall (fun e => okrule (snd e)) rs.
  Local Notation strans := (step_trans Q V P le le_trans _ _ _).
  Local Notation srefl := (step_refl Q V P le le_refl).

  Section Fuel.
    Variable fuel : nat.
    Lemma s_modify_inv : md_inv Q V P le (s_modify L keep fuel).
    Proof.
      apply (modify_inv (l_eqb L) eqb_eq _ _ keep Q V P P' le le_refl le_trans V_leaf P_weak P_make P_merge).
      intros s g i ts [<-|[<-|[]]] W I Li H; [exact (custom_ok g i ts W I Li H)|]. unfold const_stage in H.
      destruct (class_data g i) as [d|] eqn:Ed; [|discriminate H]. cbn [rbind] in H. injection H as <-.
      pose proof (class_P Q V P g i d I Ed) as Pd.
      destruct (low (sg_itv d)) as [x|] eqn:El; [|constructor]. destruct (high (sg_itv d)) as [y|] eqn:Eh; [|constructor].
      destruct (l_ceqb L x y) eqn:Ec; [|constructor]. constructor; [exact (const_ok _ d x y Pd El Eh Ec)|constructor].
    Qed.
    Lemma s_add_inv : forall g n g' i, wf g -> inv g -> okn n -> s_add L keep fuel g n = Val (g', i) -> step g g'.
    Proof. exact (add_inv _ eqb_eq _ Q V P P' le le_refl le_trans V_leaf P_make _ s_modify_inv). Qed.
    Lemma s_add_expr_inv : forall r g g' i, wf g -> inv g -> Forall okn r -> s_add_expr L keep fuel g r = Val (g', i) -> step g g'.
    Proof. exact (add_expr_inv _ eqb_eq _ Q V P P' le le_refl le_trans V_leaf P_make _ s_modify_inv). Qed.
    Lemma s_union_inv : forall g a b g' m, wf g -> inv g -> s_union L keep fuel g a b = Val (g', m) -> step g g'.
    Proof. exact (union_inv _ keep Q V P P' le le_refl le_trans P_weak P_merge _ s_modify_inv). Qed.
    Lemma s_rebuild_inv : forall g g', wf g -> inv g -> s_rebuild L keep fuel g = Val g' -> step g g'.
    Proof. exact (rebuild_inv _ _ _ keep Q V P P' le le_refl le_trans P_weak P_make P_merge _ s_modify_inv fuel). Qed.
    Lemma apply_nodes_inv : forall p g s ids g' ids', wf g -> inv g -> okpat p -> apply_nodes L keep fuel g s ids p = Val (g', ids') -> step g g'.
    Proof.
      induction p as [|n p IH]; intros g s ids g' ids' W I F H; cbn in H; [inversion H; subst; now apply srefl|]. inversion F as [|x l F1 F2]; subst. destruct (nop n) as [o|v].
      - destruct (rmapM (index ids) (nch n)) as [ch|] eqn:Ec; [|discriminate H]. cbn in H. destruct (s_add L keep fuel g (Node o ch)) as [[g1 i]|] eqn:E; [|discriminate H]. cbn in H.
        assert (S1 : step g g1). { refine (s_add_inv _ _ _ _ W I _ E). unfold InvProofs.okn. cbn. apply rmapM_F2 in Ec. now rewrite <- (Forall2_length _ _ _ Ec). }
        exact (strans S1 (IH _ _ _ _ _ (st_wf _ _ _ _ _ _ S1) (st_inv _ _ _ _ _ _ S1) F2 H)).
      - destruct (lookup s v) as [i|]; [|discriminate H]. cbn in H. exact (IH _ _ _ _ _ W I F2 H).
    Qed.
    Lemma apply_pat_inv : forall p g s g' i, wf g -> inv g -> okpat p -> apply_pat L keep fuel g s p = Val (g', i) -> step g g'.
    Proof.
      intros p g s g' i W I F H. unfold apply_pat in H. destruct (apply_nodes L keep fuel g s [] p) as [[g1 ids]|] eqn:E; [|discriminate H]. cbn in H.
      destruct (pop_unwrap ids); [|discriminate H]. cbn in H. inversion H; subst. exact (apply_nodes_inv _ _ _ _ _ _ W I F E).
    Qed.
    Lemma apply_one_inv : forall r g c s g' ids, wf g -> inv g -> okpat (rrhs r) -> apply_one L keep fuel r g c s = Val (g', ids) -> step g g'.
    Proof.
      intros r g c s g' ids W I F H.
      assert (Pl : apply_plain L keep fuel (rrhs r) g c s = Val (g', ids) -> step g g').
      { intros Hp. unfold apply_plain in Hp. destruct (apply_pat L keep fuel g s (rrhs r)) as [[g1 i]|] eqn:E; [|discriminate Hp]. cbn in Hp.
        destruct (s_union L keep fuel g1 i c) as [[g2 b]|] eqn:U; [|discriminate Hp]. cbn in Hp. inversion Hp; subst. pose proof (apply_pat_inv _ _ _ _ _ W I F E) as S1.
        exact (strans S1 (s_union_inv _ _ _ _ _ (st_wf _ _ _ _ _ _ S1) (st_inv _ _ _ _ _ _ S1) U)). }
      unfold apply_one in H. destruct (rkind r); [|exact (Pl H)|].
      - unfold apply_rhs in H. destruct (class_data g c) as [d|]; [|discriminate H]. cbn in H. destruct (is_defined d); cbn in H; [|inversion H; subst; now apply srefl].
        destruct (apply_pat L keep fuel g s (rrhs r)) as [[g1 i]|] eqn:E; [|discriminate H]. cbn in H. pose proof (apply_pat_inv _ _ _ _ _ W I F E) as S1.
        destruct (Nat.eqb i c); [inversion H; now subst|]. destruct (class_data g1 i) as [di|]; [|discriminate H]. cbn in H. destruct (is_defined di); cbn in H; [|inversion H; now subst].
        destruct (s_union L keep fuel g1 i c) as [[g2 b]|] eqn:U; [|discriminate H]. cbn in H. inversion H; subst.
        exact (strans S1 (s_union_inv _ _ _ _ _ (st_wf _ _ _ _ _ _ S1) (st_inv _ _ _ _ _ _ S1) U)).
      - destruct (guard L v g s) as [[|]|]; [exact (Pl H)| |discriminate H]. cbn in H. inversion H; subst. now apply srefl.
    Qed.
    Lemma rsteps_inv : forall rules x y, Forall okrule rules -> rsteps L keep fuel rules x y ->
      wf (fst x) -> inv (fst x) -> Forall (fun m => okrule (fst (fst m))) (snd x) -> step (fst x) (fst y).
    Proof.
      intros rules x y Fr H. induction H as [x|x y z S1 _ IH]; intros W I M; [now apply srefl|].
      assert (K : step (fst x) (fst y) /\ Forall (fun m => okrule (fst (fst m))) (snd y)).
      { destruct S1 as [g ms r c s Ir Hm|g ms r c s g' ids Im Ap|g ms g' Rb]; cbn [fst snd] in *.
        - split; [now apply srefl|]. constructor; [|exact M]. cbn. rewrite Forall_forall in Fr. auto.
        - split; [|exact M]. rewrite Forall_forall in M. exact (apply_one_inv _ _ _ _ _ _ W I (M _ Im) Ap).
        - split; [|exact M]. exact (s_rebuild_inv _ _ W I Rb). }
      destruct K as [K1 K2]. exact (strans K1 (IH (st_wf _ _ _ _ _ _ K1) (st_inv _ _ _ _ _ _ K1) K2)).
    Qed.
    Lemma runs_inv : forall rules g g', Forall okrule rules -> wf g -> inv g -> runs L keep fuel rules g g' -> step g g'.
    Proof. intros rules g g' F W I (ms & St). exact (rsteps_inv _ _ _ F St W I (Forall_nil _)). Qed.
    Lemma okrules_map : forall rs, okrules rs -> Forall okrule (map snd rs).
    Proof. intros rs H. apply Forall_map. exact H. Qed.
    Lemma simple_inv : forall rs g g', okrules rs -> wf g -> inv g -> simple L keep fuel rs g g' -> step g g'.
    Proof.
      intros rs g g' F W I (g1 & R & B). pose proof (runs_inv _ _ _ (okrules_map _ F) W I R) as S1.
      exact (strans S1 (s_rebuild_inv _ _ (st_wf _ _ _ _ _ _ S1) (st_inv _ _ _ _ _ _ S1) B)).
    Qed.
    Lemma union_groups_inv : forall gs g g', wf g -> inv g -> union_groups L keep fuel g gs = Val g' -> step g g'.
    Proof.
      assert (F : forall ids g f g', wf g -> inv g -> union_first L keep fuel g f ids = Val g' -> step g g').
      { induction ids as [|i ids IH]; intros g f g' W I H; cbn in H; [inversion H; subst; now apply srefl|].
        destruct (s_union L keep fuel g f i) as [[g1 b]|] eqn:U; [|discriminate H]. cbn in H. pose proof (s_union_inv _ _ _ _ _ W I U) as S1.
        exact (strans S1 (IH _ _ _ (st_wf _ _ _ _ _ _ S1) (st_inv _ _ _ _ _ _ S1) H)). }
      induction gs as [|[|i is] gs IH]; intros g g' W I H; cbn in H; [inversion H; subst; now apply srefl|exact (IH _ _ W I H)|].
      destruct (union_first L keep fuel g i is) as [g1|] eqn:U; [|discriminate H]. cbn in H. pose proof (F _ _ _ _ W I U) as S1.
      exact (strans S1 (IH _ _ (st_wf _ _ _ _ _ _ S1) (st_inv _ _ _ _ _ _ S1) H)).
    Qed.
    Lemma partition_ok : forall f rs a b, okrules rs -> partition f rs = Val (a, b) -> okrules a /\ okrules b.
    Proof.
      intros f rs a b F H. destruct (RulesetProofs.partition_sub f rs a b H) as [Sa Sb]. unfold okrules in *. rewrite Forall_forall in F.
      split; apply Forall_forall; intros e I; [apply Sa in I|apply Sb in I]; apply in_map_iff in I as (e' & <- & I); exact (F e' I).
    Qed.
    (* every scheduler ends with a rebuild *)
    Lemma scheduled_inv : forall st rs g g', okrules rs -> wf g -> inv g -> scheduled L keep fuel st rs g g' ->
      step g g' /\ exists g0, wf g0 /\ s_rebuild L keep fuel g0 = Val g'.
    Proof.
      intros [|iter|order] rs g g' F W I H; cbn in H.
      - destruct H as (g1 & R & B). pose proof (runs_inv _ _ _ (okrules_map _ F) W I R) as S1. pose proof (st_wf _ _ _ _ _ _ S1) as W1.
        split; [|eauto]. exact (strans S1 (s_rebuild_inv _ _ W1 (st_inv _ _ _ _ _ _ S1) B)).
      - destruct H as (sat & other & g1 & g2 & Pt & R & R2 & B). destruct (partition_ok _ _ _ _ F Pt) as [F1 F2]. apply okrules_map in F1, F2.
        assert (S1 : step g g1).
        { clear R2 B Pt. induction R as [g|n g h1 h2 k R1 R2 R3 IH]; [now apply srefl|]. pose proof (runs_inv _ _ _ F1 W I R1) as K1.
          pose proof (runs_inv _ _ _ F2 (st_wf _ _ _ _ _ _ K1) (st_inv _ _ _ _ _ _ K1) R2) as K2.
          exact (strans K1 (strans K2 (IH (st_wf _ _ _ _ _ _ K2) (st_inv _ _ _ _ _ _ K2)))). }
        pose proof (runs_inv _ _ _ F1 (st_wf _ _ _ _ _ _ S1) (st_inv _ _ _ _ _ _ S1) R2) as S2. pose proof (st_wf _ _ _ _ _ _ S2) as W2.
        split; [|eauto]. exact (strans S1 (strans S2 (s_rebuild_inv _ _ W2 (st_inv _ _ _ _ _ _ S2) B))).
      - destruct H as (out & _ & H). unfold compress_with in H. destruct (group_by out (class_ids g) []) as [m|]; [|discriminate H]. cbn in H.
        destruct (union_groups L keep fuel g (order (map snd m))) as [g1|] eqn:U; [|discriminate H]. cbn in H.
        pose proof (union_groups_inv _ _ _ W I U) as S1. pose proof (st_wf _ _ _ _ _ _ S1) as W1. split; [|eauto].
        exact (strans S1 (s_rebuild_inv _ _ W1 (st_inv _ _ _ _ _ _ S1) H)).
    Qed.
    Lemma add_all_exprs_inv : forall rs g g', Forall (Forall okn) rs -> wf g -> inv g -> add_all_exprs L keep fuel g rs = Val g' -> step g g'.
    Proof.
      induction rs as [|r rs IH]; intros g g' F W I H; cbn in H; [inversion H; subst; now apply srefl|].
      destruct (s_add_expr L keep fuel g r) as [[g1 i]|] eqn:Ad; [|discriminate H]. cbn in H. inversion F as [|x l F1 F2]; subst.
      pose proof (s_add_expr_inv _ _ _ _ W I F1 Ad) as S1. exact (strans S1 (IH _ _ F2 (st_wf _ _ _ _ _ _ S1) (st_inv _ _ _ _ _ _ S1) H)).
    Qed.
    Lemma s_rebuild_settled : forall g g', s_rebuild L keep fuel g = Val g' -> forall n i, In (n, i) (g_nodes g') ->
      exists ds d dc dm ch, rmapM (class_data g') (nch n) = Val ds /\ s_make L (g_an g') n ds = Val d /\ class_data g' i = Val dc /\
        s_merge L dc d = Val (dm, ch) /\ fst ch = false.
    Proof.
      intros g g' H n i I. exact (stale_none _ _ g' _ (rebuild_settled _ _ _ keep _ _ _ _ H) n i I).
    Qed.
  End Fuel.
End Lang.
