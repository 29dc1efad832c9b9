(* Proofs about e-class data: merge, make, cost. *)
From Coq Require Import NArith Permutation.
From Verif Require Import Base BaseProofs Lang LangProofs Analysis AnalysisSpec.
Open Scope list_scope.

(* ---- cost ---- *)
Lemma fold_rec_of_tree {O A} (f : O -> list A -> res A) r t : (forall o l, exists a, f o l = Val a) ->
  tree r = Val t -> exists a, fold_rec f r = Val a /\ fold_term f t = Val a.
Proof.
  intros Hf Ht. assert (exists a, fold_rec f r = Val a) as (a & Ha); [|exists a; eauto using fold_rec_tree].
  assert (forall r buf (ab : list A) out, length buf = length ab -> run_buf (fun o l => Val (T o l)) r buf = Val out ->
    exists b, run_buf f r ab = Val b /\ length b = length out) as G.
  { clear - Hf. induction r as [|n r IH]; intros buf ab out Hl H; cbn [run_buf] in *.
    - inversion H; subst. eauto.
    - apply rbind_val in H as (args & H1 & H2). cbn [rbind] in H2.
      assert (exists xs, rmapM (index ab) (nch n) = Val xs) as (xs & Hx).
      { apply rmapM_val in H1. clear - H1 Hl. induction H1 as [|i a l l' E _ IH]; [exists []; reflexivity|]. cbn [rmapM].
        apply index_val in E. assert (i < length ab) as Hi by (rewrite <- Hl; apply nth_error_Some; congruence).
        unfold index at 1. destruct (nth_error ab i) as [x|] eqn:Ex; [|apply nth_error_None in Ex; lia].
        cbn [rbind]. destruct IH as (xs & ->). cbn [rbind]. eauto. }
      rewrite Hx. cbn [rbind]. destruct (Hf (nop n) xs) as (a & Ha). rewrite Ha. cbn [rbind].
      apply IH with (buf := buf ++ [T (nop n) args]); [|exact H2]. rewrite !app_length. simpl. lia. }
  unfold tree, fold_rec in *. apply rbind_val in Ht as (b & H1 & H2).
  destruct (G r [] [] b eq_refl H1) as (ab & E & L). rewrite E. cbn [rbind]. unfold pop_unwrap in *.
  destruct (rev ab) as [|x l] eqn:E1; [|eauto]. apply (f_equal (@length _)) in E1. rewrite rev_length in E1. cbn in E1.
  destruct (rev b) eqn:E2; [discriminate|]. apply (f_equal (@length _)) in E2. rewrite rev_length in E2. cbn in E2. lia.
Qed.

Lemma tree_of_fold {O A} (f : O -> list A -> res A) r a : fold_rec f r = Val a -> exists t, tree r = Val t.
Proof.
  unfold tree, fold_rec. intros H. apply rbind_val in H as (b & H1 & H2).
  destruct (run_buf_has_tree f r [] [] b eq_refl H1) as (ts & E & L). rewrite E. cbn [rbind]. unfold pop_unwrap in *.
  destruct (rev ts) as [|x l] eqn:E1; [|eauto]. apply (f_equal (@length _)) in E1. rewrite rev_length in E1. cbn in E1.
  destruct (rev b) eqn:E2; [discriminate|]. apply (f_equal (@length _)) in E2. rewrite rev_length in E2. cbn in E2. lia.
Qed.

Lemma sat_add_l a b : sat_add (N.min usize_max a) b = N.min usize_max (a + b).
Proof. unfold sat_add. lia. Qed.
Lemma fold_sat l : forall a, (fold_left sat_add l (N.min usize_max a) = N.min usize_max (a + fold_right N.add 0 l))%N.
Proof.
  induction l as [|x l IH]; intros a; cbn [fold_left fold_right]; [f_equal; lia|].
  rewrite sat_add_l, IH. f_equal. lia.
Qed.
Lemma usize_pos : (0 < usize_max)%N.
Proof. reflexivity. Qed.

Section Cost.
  Context {O : Type}.
  Variable allowed : O -> bool.

  Lemma cost_term t : fold_term (ext_cost allowed) t =
    Val (if all_allowed allowed t then N.min usize_max (tsize t) else usize_max).
  Proof.
    pose proof usize_pos as Hu.
    induction t as [o ts IH] using term_ind'. cbn [fold_term all_allowed tsize].
    rewrite (rmapM_pure _ (fun t => if all_allowed allowed t then N.min usize_max (tsize t) else usize_max)).
    2:{ intros t Ht. rewrite Forall_forall in IH. auto. }
    cbn [rbind]. unfold ext_cost. destruct (allowed o); [|reflexivity]. cbn [andb]. f_equal.
    change 1%N with (N.min usize_max 1) at 1. rewrite fold_sat. clear IH.
    induction ts as [|t ts IH]; [reflexivity|]. cbn [map fold_right forallb].
    destruct (all_allowed allowed t); cbn [andb].
    - destruct (forallb (all_allowed allowed) ts); lia.
    - lia.
  Qed.
  Theorem cost_spec r t : tree r = Val t ->
    cost_rec allowed r = Val (if all_allowed allowed t then N.min usize_max (tsize t) else usize_max).
  Proof.
    intros Ht. destruct (fold_rec_of_tree (ext_cost allowed) r t) as (a & H1 & H2); [intros; eexists; reflexivity|exact Ht|].
    unfold cost_rec. rewrite H1, <- cost_term, H2. reflexivity.
  Qed.
End Cost.

(* ---- make ---- *)
Lemma run_buf_app' {O A} (f : O -> list A -> res A) r1 r2 : forall buf,
  run_buf f (r1 ++ r2) buf = let* b := run_buf f r1 buf in run_buf f r2 b.
Proof.
  induction r1 as [|n r1 IH]; intros buf; cbn [app run_buf]; [reflexivity|].
  destruct (rmapM (index buf) (nch n)); [|reflexivity]. cbn [rbind].
  destruct (f (nop n) a); [|reflexivity]. cbn [rbind]. apply IH.
Qed.
(* a shifted array behind a prefix gives the same trees *)
Lemma run_buf_shift {O A} (f : O -> list A -> res A) (r : recexpr O) pre : forall buf out, run_buf f r buf = Val out ->
  run_buf f (map (shift (length pre)) r) (pre ++ buf) = Val (pre ++ out).
Proof.
  induction r as [|n r IH]; intros buf out H; cbn [run_buf map] in *.
  - inversion H; subst; reflexivity.
  - apply rbind_val in H as (args & H1 & H2). apply rbind_val in H2 as (v & H2 & H3). cbn [shift nch nop].
    assert (rmapM (index (pre ++ buf)) (map (fun c => c + length pre) (nch n)) = Val args) as ->.
    { apply rmapM_val in H1. apply rmapM_val. clear - H1. induction H1 as [|c a l l' E _ IH]; constructor; auto.
      apply index_val in E. apply index_val. rewrite nth_error_app2 by lia. rewrite Nat.add_sub. exact E. }
    cbn [rbind]. rewrite H2. cbn [rbind]. rewrite <- app_assoc. apply IH. exact H3.
Qed.

Section Make.
  Context {O : Type}.
  Variable is_leaf_op : O -> bool.
  Notation mkT := (fun o l => Val (T o l)).

  Definition mp (trees : nat -> term O) (nodes : recexpr O) (m : list (nat * nat)) : Prop :=
    exists B, run_buf mkT nodes [] = Val B /\ length B = length nodes /\
      forall id j, nlookup m id = Some j -> nth_error B j = Some (trees id).

  Lemma run_buf_len (r : recexpr O) : forall buf out, run_buf mkT r buf = Val out -> length out = length buf + length r.
  Proof.
    induction r as [|n r IH]; intros buf out H; cbn [run_buf] in H; [inversion H; simpl; lia|].
    apply rbind_val in H as (a & _ & H). cbn [rbind] in H. apply IH in H. rewrite app_length in H. cbn [length] in *. lia.
  Qed.

  Lemma add_children_ok simplest trees ids : (forall i, In i ids -> tree (simplest i) = Val (trees i)) ->
    forall nodes m, mp trees nodes m ->
    exists nodes' m', add_children simplest ids nodes m = Val (nodes', m') /\ mp trees nodes' m' /\
      (forall i, nlookup m i <> None -> nlookup m' i <> None) /\ (forall i, In i ids -> nlookup m' i <> None).
  Proof.
    induction ids as [|id r IH]; intros Hs nodes m Hm; cbn [add_children].
    - exists nodes, m. split; [reflexivity|]. split; [exact Hm|]. split; [auto|]. intros i [].
    - destruct (nlookup m id) as [j|] eqn:E.
      + destruct (IH (fun i Hi => Hs i (or_intror Hi)) nodes m Hm) as (nodes' & m' & H1 & H2 & H3 & H4).
        exists nodes', m'. split; [exact H1|]. split; [exact H2|]. split; [exact H3|].
        intros i [<-|Hi]; [apply H3; congruence|auto].
      + destruct Hm as (B & B1 & B2 & B3).
        pose proof (Hs id (or_introl eq_refl)) as Ht. unfold tree, fold_rec in Ht. apply rbind_val in Ht as (b & T1 & T2).
        pose proof (run_buf_len _ _ _ T1) as Lb. cbn [length Nat.add] in Lb.
        unfold pop_unwrap in T2. destruct (rev b) as [|x l] eqn:Er; [discriminate|]. inversion T2; subst x.
        assert (b = rev l ++ [trees id]) as Eb by (rewrite <- (rev_involutive b), Er; reflexivity).
        pose proof (run_buf_shift mkT (simplest id) B [] b T1) as Sh. rewrite app_nil_r, B2 in Sh.
        assert (run_buf mkT (nodes ++ map (shift (length nodes)) (simplest id)) [] = Val (B ++ b)) as R.
        { rewrite run_buf_app', B1. cbn [rbind]. exact Sh. }
        assert (length (nodes ++ map (shift (length nodes)) (simplest id)) = length (B ++ b)) as L.
        { rewrite !app_length, map_length. lia. }
        rewrite L. assert (length b = S (length l)) as Lbl by (rewrite Eb, app_length, rev_length; simpl; lia).
        rewrite app_length, Lbl, Nat.add_succ_r.
        destruct (IH (fun i Hi => Hs i (or_intror Hi)) (nodes ++ map (shift (length nodes)) (simplest id)) ((id, length B + length l) :: m))
          as (nodes' & m' & H1 & H2 & H3 & H4).
        { exists (B ++ b). split; [exact R|]. split; [symmetry; exact L|]. intros i j. cbn [nlookup].
          destruct (Nat.eqb_spec i id) as [->|].
          - intros Ej. inversion Ej; subst j. rewrite nth_error_app2 by lia. replace (length B + length l - length B) with (length l) by lia.
            rewrite Eb, nth_error_app2 by (rewrite rev_length; lia). rewrite rev_length, Nat.sub_diag. reflexivity.
          - intros Ej. apply B3 in Ej. rewrite nth_error_app1; [exact Ej|]. apply nth_error_Some. congruence. }
        exists nodes', m'. split; [exact H1|]. split; [exact H2|]. split.
        * intros i Hi. apply H3. cbn [nlookup]. destruct (Nat.eqb i id); [discriminate|exact Hi].
        * intros i [<-|Hi]; [|auto]. apply H3. cbn [nlookup]. rewrite Nat.eqb_refl. discriminate.
  Qed.

  Theorem make_simplest_spec simplest trees n :
    (is_leaf_op (nop n) = true -> nch n = []) ->
    (forall i, In i (nch n) -> tree (simplest i) = Val (trees i)) ->
    exists r, make_simplest is_leaf_op simplest n = Val r /\ tree r = Val (T (nop n) (map trees (nch n))).
  Proof.
    intros Hl Hs. unfold make_simplest. destruct (is_leaf_op (nop n)).
    - exists [n]. split; [reflexivity|]. rewrite Hl by reflexivity. destruct n as [o c]. cbn [nch nop] in *.
      rewrite Hl by reflexivity. reflexivity.
    - destruct (add_children_ok simplest trees (nch n) Hs [] []) as (nodes & m & H1 & (B & B1 & B2 & B3) & _ & H4).
      { exists []. split; [reflexivity|]. split; [reflexivity|]. intros; discriminate. }
      rewrite H1. cbn [rbind].
      assert (exists ch, rmapM (fun id => unwrap (nlookup m id)) (nch n) = Val ch /\ rmapM (index B) ch = Val (map trees (nch n))) as (ch & C1 & C2).
      { clear - B3 H4. induction (nch n) as [|c l IH]; [exists []; auto|].
        destruct IH as (ch & I1 & I2); [intros i Hi; apply H4; right; exact Hi|]. cbn [rmapM map].
        pose proof (H4 c (or_introl eq_refl)) as Hc. destruct (nlookup m c) as [j|] eqn:E; [|congruence]. cbn [unwrap rbind].
        rewrite I1. cbn [rbind]. exists (j :: ch). split; [reflexivity|]. cbn [rmapM]. unfold index at 1. rewrite (B3 c j E). cbn [rbind].
        rewrite I2. reflexivity. }
      rewrite C1. cbn [rbind]. eexists. split; [reflexivity|]. unfold tree, fold_rec. rewrite run_buf_app', B1. cbn [rbind run_buf nch nop].
      rewrite C2. cbn [rbind]. unfold pop_unwrap. rewrite rev_app_distr. reflexivity.
  Qed.
End Make.

(* ---- merge ---- *)
Lemma below_refl {C} (x : option C) : below x x.
Proof. right; reflexivity. Qed.
Lemma below_anti {C} (x y : option C) : below x y -> below y x -> x = y.
Proof. unfold below. intros [->| ->] [?|?]; congruence. Qed.
Lemma cbelow_refl {C} (c : cvec C) : cbelow c c.
Proof. induction c; constructor; auto using below_refl. Qed.
Lemma cbelow_anti {C} (c d : cvec C) : cbelow c d -> cbelow d c -> c = d.
Proof.
  unfold cbelow. intros H. induction H as [|x y c d E _ IH]; intros H; [reflexivity|].
  inversion H; subst. f_equal; [apply below_anti; assumption|auto].
Qed.
Lemma cjoin_unique {C} (c d r r' : cvec C) : cjoin c d r -> cjoin c d r' -> r = r'.
Proof. intros (A1 & A2 & A3) (B1 & B2 & B3). apply cbelow_anti; [apply A3|apply B3]; assumption. Qed.
Lemma cjoin_comm {C} (c d r : cvec C) : cjoin c d r -> cjoin d c r.
Proof. intros (A1 & A2 & A3). split; [exact A2|]. split; [exact A1|]. auto. Qed.
Lemma cbelow_length {C} (c d : cvec C) : cbelow c d -> length c = length d.
Proof. apply Forall2_length. Qed.

Section Merge.
  Context {O C : Type}.
  Variable allowed : O -> bool.
  Variable ceqb : C -> C -> bool.
  Variable cleb : C -> C -> bool.
  Variable receqb : recexpr O -> recexpr O -> bool.
  Hypothesis Hc : is_eqb ceqb.
  Hypothesis Hr : is_eqb receqb.
  Hypothesis Ho : total_order cleb.

  Lemma merge_cvec_ok (c d : cvec C) : compatible c d ->
    exists r a b, merge_cvec ceqb c d = Val (r, a, b) /\ cjoin c d r /\ (a = true <-> r <> c) /\ (b = true <-> r <> d).
  Proof.
    intros (w & Wc & Wd). revert d Wd. unfold cbelow in *. induction Wc as [|x z c w Hx Hcw IH]; intros d Wd; inversion Wd as [|y ? d' ? Hy Hdw]; subst.
    - exists [], false, false. split; [reflexivity|]. split; [split; [constructor|split; [constructor|auto]]|]. split; split; congruence.
    - destruct (IH d' Hdw) as (r & a & b & M & (J1 & J2 & J3) & A & B). cbn [merge_cvec].
      assert (forall q, below x q -> below y q -> (forall w', below x w' -> below y w' -> below q w') -> cjoin (x :: c) (y :: d') (q :: r)) as J.
      { intros q Q1 Q2 Q3. split; [constructor; assumption|]. split; [constructor; assumption|].
        intros w' H1 H2. inversion H1; subst. inversion H2; subst. constructor; [apply Q3|apply J3]; assumption. }
      destruct x as [x|], y as [y|].
      + assert (x = y) as <- by (destruct Hx, Hy; congruence).
        rewrite (proj2 (Hc x x) eq_refl), M. cbn [rbind]. exists (Some x :: r), a, b. split; [reflexivity|].
        split; [apply J; auto using below_refl|]. split; [rewrite A|rewrite B]; split; congruence.
      + rewrite M. cbn [rbind]. exists (Some x :: r), a, true. split; [reflexivity|].
        split; [apply J; [apply below_refl|left; reflexivity|auto]|]. split; [rewrite A|]; split; congruence.
      + rewrite M. cbn [rbind]. exists (Some y :: r), true, b. split; [reflexivity|].
        split; [apply J; [left; reflexivity|apply below_refl|auto]|]. split; [|rewrite B]; split; congruence.
      + rewrite M. cbn [rbind]. exists (None :: r), a, b. split; [reflexivity|].
        split; [apply J; auto using below_refl|]. split; [rewrite A|rewrite B]; split; congruence.
  Qed.
  Lemma merge_cvec_panics (c d : cvec C) : length c = length d -> ~ compatible c d -> merge_cvec ceqb c d = Panic.
  Proof.
    revert d. induction c as [|x c IH]; intros [|y d] L H; try discriminate.
    - destruct H. exists []. split; constructor.
    - cbn [merge_cvec]. injection L as L.
      assert ((exists z, below x z /\ below y z) -> ~ compatible c d) as G.
      { intros (z & Z1 & Z2) (w & W1 & W2). apply H. exists (z :: w). split; constructor; assumption. }
      destruct x as [x|], y as [y|].
      + destruct (ceqb x y) eqn:E; [|reflexivity]. apply Hc in E. subst. rewrite IH; [reflexivity|exact L|].
        apply G. exists (Some y). auto using below_refl.
      + rewrite IH; [reflexivity|exact L|]. apply G. exists (Some x). split; [apply below_refl|left; reflexivity].
      + rewrite IH; [reflexivity|exact L|]. apply G. exists (Some y). split; [left; reflexivity|apply below_refl].
      + rewrite IH; [reflexivity|exact L|]. apply G. exists None. auto using below_refl.
  Qed.

  Lemma omax_comm a b : omax cleb a b = omax cleb b a.
  Proof.
    destruct a as [x|], b as [y|]; cbn [omax]; try reflexivity. f_equal.
    destruct (cleb x y) eqn:E1, (cleb y x) eqn:E2; try reflexivity.
    - apply (to_anti _ Ho); assumption.
    - destruct (to_total _ Ho x y); congruence.
  Qed.
  Lemma omin_comm a b : omin cleb a b = omin cleb b a.
  Proof.
    destruct a as [x|], b as [y|]; cbn [omin]; try reflexivity. f_equal.
    destruct (cleb x y) eqn:E1, (cleb y x) eqn:E2; try reflexivity.
    - apply (to_anti _ Ho); assumption.
    - destruct (to_total _ Ho x y); congruence.
  Qed.
  Lemma leb_false x y : cleb x y = false -> cleb y x = true.
  Proof. intros H. destruct (to_total _ Ho x y); congruence. Qed.

  Lemma in_meet i j x :
    in_itv cleb (Itv (omax cleb (low i) (low j)) (omin cleb (high i) (high j))) x <-> in_itv cleb i x /\ in_itv cleb j x.
  Proof.
    assert (forall a b, match omax cleb a b with Some a => cleb a x = true | None => True end <->
      match a with Some a => cleb a x = true | None => True end /\ match b with Some a => cleb a x = true | None => True end) as L.
    { intros [a|] [b|]; cbn [omax]; try tauto. destruct (cleb a b) eqn:E; [|apply leb_false in E].
      - split; [intros H; split; [eapply (to_trans _ Ho); eassumption|exact H]|tauto].
      - split; [intros H; split; [exact H|eapply (to_trans _ Ho); eassumption]|tauto]. }
    assert (forall a b, match omin cleb a b with Some a => cleb x a = true | None => True end <->
      match a with Some a => cleb x a = true | None => True end /\ match b with Some a => cleb x a = true | None => True end) as H.
    { intros [a|] [b|]; cbn [omin]; try tauto. destruct (cleb a b) eqn:E; [|apply leb_false in E].
      - split; [intros H; split; [exact H|eapply (to_trans _ Ho); eassumption]|tauto].
      - split; [intros H; split; [eapply (to_trans _ Ho); eassumption|exact H]|tauto]. }
    unfold in_itv. cbn [low high]. rewrite L, H. tauto.
  Qed.
  Lemma mk_itv_ok lo hi : (exists x, in_itv cleb (Itv lo hi) x) -> mk_itv cleb lo hi = Val (Itv lo hi).
  Proof.
    intros (x & H1 & H2). cbn [low high] in *. unfold mk_itv. destruct lo as [a|], hi as [b|]; try reflexivity.
    rewrite (to_trans _ Ho a x b H1 H2). reflexivity.
  Qed.
  Lemma mk_itv_panics (c0 : C) lo hi : ~ (exists x, in_itv cleb (Itv lo hi) x) -> mk_itv cleb lo hi = Panic.
  Proof.
    intros H. unfold mk_itv. destruct lo as [a|], hi as [b|].
    - destruct (cleb a b) eqn:E; [|reflexivity]. destruct H. exists a. split; cbn; [apply (to_refl _ Ho)|exact E].
    - destruct H. exists a. split; cbn; [apply (to_refl _ Ho)|exact I].
    - destruct H. exists b. split; cbn; [exact I|apply (to_refl _ Ho)].
    - destruct H. exists c0. split; exact I.
  Qed.
  Lemma oeqb_eq a b : oeqb ceqb a b = true <-> a = b.
  Proof.
    destruct a as [x|], b as [y|]; cbn [oeqb]; try (split; congruence). rewrite (Hc x y). split; congruence.
  Qed.
  Lemma ieqb_eq i j : ieqb ceqb i j = true <-> i = j.
  Proof.
    unfold ieqb. rewrite Bool.andb_true_iff, !oeqb_eq. destruct i as [a b], j as [c d]; cbn [low high]. split; [intros [-> ->]; reflexivity|].
    intros E; inversion E; auto.
  Qed.
  Lemma negb_ieqb i j : negb (ieqb ceqb i j) = true <-> i <> j.
  Proof. rewrite Bool.negb_true_iff. rewrite <- (ieqb_eq i j). destruct (ieqb ceqb i j); split; congruence. Qed.
  Lemma negb_receqb i j : negb (receqb i j) = true <-> i <> j.
  Proof. rewrite Bool.negb_true_iff. rewrite <- (Hr i j). destruct (receqb i j); split; congruence. Qed.

  Lemma cvec_part (to from : cvec C) : compatible to from ->
    exists r a b, merge_cvecs ceqb to from = Val (r, a, b) /\
      cjoin to from r /\ (a = true <-> r <> to) /\ (b = true <-> r <> from).
  Proof.
    intros H. destruct to as [|x to], from as [|y from].
    - exists [], false, false. split; [reflexivity|]. split; [split; [constructor|split; [constructor|auto]]|].
      split; split; congruence.
    - destruct H as (w & H1 & H2). inversion H1; subst; inversion H2.
    - destruct H as (w & H1 & H2). inversion H2; subst; inversion H1.
    - apply merge_cvec_ok. exact H.
  Qed.

  Notation costs r k := (cost_rec allowed r = Val k).

  (* the whole contract *)
  Theorem merge_ok (to from : sig O C) ct cf : compatible (sg_cvec to) (sg_cvec from) ->
    (exists x, in_itv cleb (sg_itv to) x /\ in_itv cleb (sg_itv from) x) ->
    costs (sg_simplest to) ct -> costs (sg_simplest from) cf ->
    exists s a b, merge allowed ceqb cleb receqb to from = Val (s, (a, b)) /\
      cjoin (sg_cvec to) (sg_cvec from) (sg_cvec s) /\
      (forall x, in_itv cleb (sg_itv s) x <-> in_itv cleb (sg_itv to) x /\ in_itv cleb (sg_itv from) x) /\
      sg_itv s = Itv (omax cleb (low (sg_itv to)) (low (sg_itv from))) (omin cleb (high (sg_itv to)) (high (sg_itv from))) /\
      sg_simplest s = (if N.ltb cf ct then sg_simplest from else sg_simplest to) /\
      (a = true <-> s <> to) /\ (b = true <-> s <> from).
  Proof.
    intros Hcomp (x & X1 & X2) Ct Cf. destruct (cvec_part _ _ Hcomp) as (r & a1 & b1 & M & J & A1 & B1).
    unfold merge. rewrite M. cbn [rbind]. rewrite mk_itv_ok by (exists x; apply in_meet; auto). cbn [rbind].
    rewrite Cf, Ct. cbn [rbind].
    set (itv := Itv (omax cleb (low (sg_itv to)) (low (sg_itv from))) (omin cleb (high (sg_itv to)) (high (sg_itv from)))).
    destruct (N.ltb_spec cf ct) as [Hlt|Hge]; eexists; eexists; eexists; (split; [reflexivity|]); cbn [sg_cvec sg_itv sg_simplest];
      (split; [exact J|]); (split; [intros y; apply in_meet|]); (split; [reflexivity|]); (split; [reflexivity|]);
      rewrite !Bool.orb_true_iff, !negb_ieqb, A1, B1.
    - assert (sg_simplest from <> sg_simplest to) as Hne by (intros E; rewrite E in Cf; rewrite Ct in Cf; inversion Cf; lia).
      split; split.
      + intros _ E. apply Hne. rewrite <- E. reflexivity.
      + intros _. left; right; reflexivity.
      + intros [[H|H]|H]; [|discriminate|]; intros E; apply H; rewrite <- E; reflexivity.
      + intros H. destruct (ieqb ceqb itv (sg_itv from)) eqn:E1.
        * apply ieqb_eq in E1. left; left. intros E2. apply H. rewrite E1, E2, ?E0. destruct from; reflexivity.
        * right. intros E2. rewrite E2 in E1. rewrite (proj2 (ieqb_eq _ _) eq_refl) in E1. discriminate.
    - rewrite negb_receqb. split; split.
      + intros [[H|H]|H]; [|discriminate|]; intros E; apply H; rewrite <- E; reflexivity.
      + intros H. destruct (ieqb ceqb (sg_itv to) itv) eqn:E1.
        * apply ieqb_eq in E1. left; left. intros E2. apply H. rewrite E2, <- E1. destruct to; reflexivity.
        * right. intros E2. rewrite <- E2 in E1. rewrite (proj2 (ieqb_eq _ _) eq_refl) in E1. discriminate.
      + intros [[H|H]|H] E; apply H; rewrite <- E; reflexivity.
      + intros H. destruct (receqb (sg_simplest to) (sg_simplest from)) eqn:E0.
        2:{ left; right. intros E. rewrite (proj2 (Hr _ _) E) in E0. discriminate. }
        apply Hr in E0. destruct (ieqb ceqb itv (sg_itv from)) eqn:E1.
        * apply ieqb_eq in E1. left; left. intros E2. apply H. rewrite E1, E2, ?E0. destruct from; reflexivity.
        * right. intros E2. rewrite E2 in E1. rewrite (proj2 (ieqb_eq _ _) eq_refl) in E1. discriminate.
  Qed.

  Theorem merge_panics (c0 : C) (to from : sig O C) ct cf : length (sg_cvec to) = length (sg_cvec from) ->
    costs (sg_simplest to) ct -> costs (sg_simplest from) cf ->
    (merge allowed ceqb cleb receqb to from = Panic <->
     ~ compatible (sg_cvec to) (sg_cvec from) \/ ~ exists x, in_itv cleb (sg_itv to) x /\ in_itv cleb (sg_itv from) x).
  Proof.
    intros L Ct Cf.
    assert ((compatible (sg_cvec to) (sg_cvec from) /\ exists x, in_itv cleb (sg_itv to) x /\ in_itv cleb (sg_itv from) x) \/
      (~ compatible (sg_cvec to) (sg_cvec from) \/ ~ exists x, in_itv cleb (sg_itv to) x /\ in_itv cleb (sg_itv from) x)) as Dec.
    { destruct (mk_itv cleb (omax cleb (low (sg_itv to)) (low (sg_itv from))) (omin cleb (high (sg_itv to)) (high (sg_itv from)))) as [i|] eqn:E.
      - destruct (merge_cvec ceqb (sg_cvec to) (sg_cvec from)) as [[[r a] b]|] eqn:M.
        + left. split.
          * clear - M L Hc. revert r a b M L. generalize (sg_cvec from). induction (sg_cvec to) as [|x c IH]; intros [|y d] r a b M L; try discriminate.
            { exists []; split; constructor. }
            injection L as L. cbn [merge_cvec] in M.
            assert (forall (z : option C), below x z -> below y z -> compatible c d -> compatible (x :: c) (y :: d)) as G.
            { intros z Z1 Z2 (w & W1 & W2). exists (z :: w). split; constructor; assumption. }
            destruct x as [x|], y as [y|].
            { destruct (ceqb x y) eqn:E; [|discriminate]. apply Hc in E. subst. apply rbind_val in M as ([[r' a'] b'] & M1 & _).
              apply (G (Some y)); eauto using below_refl. }
            { apply rbind_val in M as ([[r' a'] b'] & M1 & _). apply (G (Some x)); [apply below_refl|left; reflexivity|eauto]. }
            { apply rbind_val in M as ([[r' a'] b'] & M1 & _). apply (G (Some y)); [left; reflexivity|apply below_refl|eauto]. }
            { apply rbind_val in M as ([[r' a'] b'] & M1 & _). apply (G None); eauto using below_refl. }
          * set (lo := omax cleb _ _) in *. set (hi := omin cleb _ _) in *.
            assert (exists x, in_itv cleb (Itv lo hi) x) as (x & Hx); [|exists x; apply in_meet; exact Hx].
            unfold mk_itv in E. destruct lo as [l|], hi as [h|].
            { destruct (cleb l h) eqn:El; [|discriminate]. exists l. split; cbn; [apply (to_refl _ Ho)|exact El]. }
            { exists l. split; cbn; [apply (to_refl _ Ho)|exact I]. }
            { exists h. split; cbn; [exact I|apply (to_refl _ Ho)]. }
            { exists c0. split; exact I. }
        + right; left. intros H. destruct (merge_cvec_ok _ _ H) as (r & a & b & M' & _). congruence.
      - right; right. intros (x & Hx). apply in_meet in Hx. rewrite mk_itv_ok in E by (exists x; exact Hx). discriminate. }
    split.
    - intros P. destruct Dec as [[D1 D2]|D]; [|exact D]. exfalso.
      destruct (merge_ok to from ct cf D1 D2 Ct Cf) as (s & a & b & M & _). congruence.
    - intros [H|H]; unfold merge.
      + assert (merge_cvecs ceqb (sg_cvec to) (sg_cvec from) = Panic) as ->; [|reflexivity].
        destruct (sg_cvec to) as [|x c] eqn:E1, (sg_cvec from) as [|y d] eqn:E2; try discriminate.
        * destruct H. exists []. split; constructor.
        * apply merge_cvec_panics; assumption.
      + destruct (merge_cvecs ceqb (sg_cvec to) (sg_cvec from)) as [[[r a] b]|]; [|reflexivity].
        cbn [rbind]. rewrite (mk_itv_panics c0); [reflexivity|]. intros (x & Hx). apply H. exists x. apply in_meet. exact Hx.
  Qed.

  Notation merge_all := (merge_all allowed ceqb cleb receqb).

  (* [r] is the least upper bound of the samples of the list *)
  Definition lub (l : list (cvec C)) (r : cvec C) : Prop :=
    (forall c, In c l -> cbelow c r) /\ forall w, (forall c, In c l -> cbelow c w) -> cbelow r w.
  Definition is_low (l : list (option C)) (r : option C) : Prop :=
    In r l /\ forall o a, In o l -> o = Some a -> exists b, r = Some b /\ cleb a b = true.
  Definition is_high (l : list (option C)) (r : option C) : Prop :=
    In r l /\ forall o a, In o l -> o = Some a -> exists b, r = Some b /\ cleb b a = true.

  Lemma is_low_unique l r r' : is_low l r -> is_low l r' -> r = r'.
  Proof.
    intros [A1 A2] [B1 B2]. destruct r as [a|], r' as [b|].
    - destruct (A2 _ _ B1 eq_refl) as (x & X1 & X2). destruct (B2 _ _ A1 eq_refl) as (y & Y1 & Y2).
      inversion X1; inversion Y1; subst. f_equal. apply (to_anti _ Ho); assumption.
    - destruct (B2 _ _ A1 eq_refl) as (y & Y1 & _). discriminate.
    - destruct (A2 _ _ B1 eq_refl) as (y & Y1 & _). discriminate.
    - reflexivity.
  Qed.
  Lemma is_high_unique l r r' : is_high l r -> is_high l r' -> r = r'.
  Proof.
    intros [A1 A2] [B1 B2]. destruct r as [a|], r' as [b|].
    - destruct (A2 _ _ B1 eq_refl) as (x & X1 & X2). destruct (B2 _ _ A1 eq_refl) as (y & Y1 & Y2).
      inversion X1; inversion Y1; subst. f_equal. apply (to_anti _ Ho); assumption.
    - destruct (B2 _ _ A1 eq_refl) as (y & Y1 & _). discriminate.
    - destruct (A2 _ _ B1 eq_refl) as (y & Y1 & _). discriminate.
    - reflexivity.
  Qed.
  Lemma omax_low a b : is_low [a; b] (omax cleb a b).
  Proof.
    pose proof (to_refl _ Ho) as R.
    destruct a as [x|], b as [y|]; cbn [omax]; (split; [|intros o z Hin E]).
    - destruct (cleb x y); cbn; auto.
    - destruct (cleb x y) eqn:F; destruct Hin as [Hi|[Hi|[]]]; rewrite <- Hi in E; inversion E; subst; eexists; split; auto using leb_false.
    - cbn; auto.
    - destruct Hin as [Hi|[Hi|[]]]; rewrite <- Hi in E; inversion E; subst; eauto.
    - cbn; auto.
    - destruct Hin as [Hi|[Hi|[]]]; rewrite <- Hi in E; inversion E; subst; eauto.
    - cbn; auto.
    - destruct Hin as [Hi|[Hi|[]]]; rewrite <- Hi in E; inversion E.
  Qed.
  Lemma omin_high a b : is_high [a; b] (omin cleb a b).
  Proof.
    pose proof (to_refl _ Ho) as R.
    destruct a as [x|], b as [y|]; cbn [omin]; (split; [|intros o z Hin E]).
    - destruct (cleb x y); cbn; auto.
    - destruct (cleb x y) eqn:F; destruct Hin as [Hi|[Hi|[]]]; rewrite <- Hi in E; inversion E; subst; eexists; split; auto using leb_false.
    - cbn; auto.
    - destruct Hin as [Hi|[Hi|[]]]; rewrite <- Hi in E; inversion E; subst; eauto.
    - cbn; auto.
    - destruct Hin as [Hi|[Hi|[]]]; rewrite <- Hi in E; inversion E; subst; eauto.
    - cbn; auto.
    - destruct Hin as [Hi|[Hi|[]]]; rewrite <- Hi in E; inversion E.
  Qed.
  Lemma is_low_cons a b l r : is_low (omax cleb a b :: l) r -> is_low (a :: b :: l) r.
  Proof.
    destruct (omax_low a b) as [M1 M2]. intros [A1 A2]. split.
    - destruct A1 as [<-|A1]; [|right; right; exact A1]. destruct M1 as [E|[E|[]]]; rewrite <- E; cbn; auto.
    - intros o z Hin E. assert (forall o, In o [a; b] -> o = Some z -> exists b0, r = Some b0 /\ cleb z b0 = true) as G.
      { intros o' Ho' E'. destruct (M2 _ _ Ho' E') as (m & E1 & E2). destruct (A2 _ _ (or_introl eq_refl) E1) as (b0 & B1 & B2).
        exists b0. split; [exact B1|]. eapply (to_trans _ Ho); eassumption. }
      destruct Hin as [Hi|[Hi|Hi]]; [apply (G o); [left; exact Hi|exact E]|apply (G o); [right; left; exact Hi|exact E]|].
      apply (A2 o); [right; exact Hi|exact E].
  Qed.
  Lemma is_high_cons a b l r : is_high (omin cleb a b :: l) r -> is_high (a :: b :: l) r.
  Proof.
    destruct (omin_high a b) as [M1 M2]. intros [A1 A2]. split.
    - destruct A1 as [<-|A1]; [|right; right; exact A1]. destruct M1 as [E|[E|[]]]; rewrite <- E; cbn; auto.
    - intros o z Hin E. assert (forall o, In o [a; b] -> o = Some z -> exists b0, r = Some b0 /\ cleb b0 z = true) as G.
      { intros o' Ho' E'. destruct (M2 _ _ Ho' E') as (m & E1 & E2). destruct (A2 _ _ (or_introl eq_refl) E1) as (b0 & B1 & B2).
        exists b0. split; [exact B1|]. eapply (to_trans _ Ho); eassumption. }
      destruct Hin as [Hi|[Hi|Hi]]; [apply (G o); [left; exact Hi|exact E]|apply (G o); [right; left; exact Hi|exact E]|].
      apply (A2 o); [right; exact Hi|exact E].
  Qed.

  Definition cost_of (s : sig O C) (k : N) : Prop := cost_rec allowed (sg_simplest s) = Val k.

  Theorem merge_all_spec w x : forall l s,
    (forall y, In y (s :: l) -> cbelow (sg_cvec y) w /\ in_itv cleb (sg_itv y) x /\ exists k, cost_of y k) ->
    exists r, merge_all s l = Val r /\
      lub (map sg_cvec (s :: l)) (sg_cvec r) /\
      is_low (map (fun y => low (sg_itv y)) (s :: l)) (low (sg_itv r)) /\
      is_high (map (fun y => high (sg_itv y)) (s :: l)) (high (sg_itv r)) /\
      exists k, cost_of r k /\ (exists y, In y (s :: l) /\ sg_simplest r = sg_simplest y) /\
        forall y k', In y (s :: l) -> cost_of y k' -> (k <= k')%N.
  Proof.
    induction l as [|y l IH]; intros s H; cbn [merge_all].
    - exists s. split; [reflexivity|]. split; [split; cbn; [intros c [<-|[]]; apply cbelow_refl|auto]|].
      split; [split; cbn; [auto|intros o a [<-|[]] E; exists a; split; [exact E|apply (to_refl _ Ho)]]|].
      split; [split; cbn; [auto|intros o a [<-|[]] E; exists a; split; [exact E|apply (to_refl _ Ho)]]|].
      destruct (H s (or_introl eq_refl)) as (_ & _ & k & Hk). exists k. split; [exact Hk|].
      split; [exists s; cbn; auto|]. intros z k' [<-|[]] Hk'. unfold cost_of in *. rewrite Hk in Hk'. inversion Hk'; lia.
    - destruct (H s (or_introl eq_refl)) as (S1 & S2 & ks & S3). destruct (H y (or_intror (or_introl eq_refl))) as (Y1 & Y2 & ky & Y3).
      destruct (merge_ok s y ks ky) as (r & a & b & M & J & I1 & I2 & Si & _); try assumption.
      { exists w; auto. } { exists x; auto. }
      rewrite M. cbn [rbind].
      destruct (IH r) as (q & Q1 & Q2 & Q3 & Q4 & k & Q5 & (z & Z1 & Z2) & Q6).
      { intros z [<-|Hz]; [|apply H; right; right; exact Hz]. split; [apply J; assumption|]. split; [apply I1; auto|].
        exists (if N.ltb ky ks then ky else ks). unfold cost_of in *. rewrite Si. destruct (N.ltb ky ks); assumption. }
      exists q. split; [exact Q1|]. split.
      { destruct Q2 as [U1 U2]. destruct J as (J1 & J2 & J3).
        assert (forall c d e : cvec C, cbelow c d -> cbelow d e -> cbelow c e) as Tr.
        { clear. intros c d e H. revert e. induction H as [|u v c d E _ IH]; intros e He; inversion He as [|? q ? e' E2 He']; subst; constructor; [|apply IH; assumption].
          unfold below in *. destruct E as [->| ->]; [left; reflexivity|exact E2]. }
        split.
        - intros c [<-|[<-|Hi]]; [eapply Tr; [exact J1|]; apply U1; left; reflexivity|eapply Tr; [exact J2|]; apply U1; left; reflexivity|].
          apply U1. right. exact Hi.
        - intros w' Hw. apply U2. intros c [<-|Hi]; [apply J3; apply Hw; cbn; auto|apply Hw; cbn; auto]. }
      split; [cbn [map] in *; apply is_low_cons; rewrite I2 in Q3; exact Q3|].
      split; [cbn [map] in *; apply is_high_cons; rewrite I2 in Q4; exact Q4|].
      exists k. split; [exact Q5|]. 
      assert (cost_of r (if N.ltb ky ks then ky else ks)) as Cr.
      { unfold cost_of in *. rewrite Si. destruct (N.ltb ky ks); assumption. }
      pose proof (Q6 r _ (or_introl eq_refl) Cr) as Kr.
      split.
      { destruct Z1 as [<-|Z1]; [|exists z; cbn; auto]. rewrite Si in Z2. destruct (N.ltb ky ks); [exists y|exists s]; cbn; auto. }
      intros v k' [<-|[<-|Hv]] Hk'.
      + unfold cost_of in *. assert (k' = ks) as -> by congruence. destruct (N.ltb_spec ky ks); lia.
      + unfold cost_of in *. assert (k' = ky) as -> by congruence. destruct (N.ltb_spec ky ks); lia.
      + apply (Q6 v); [right; exact Hv|exact Hk'].
  Qed.

  (* merging in any order gives the same samples, the same interval and a term of
     the same cost *)
  Theorem merge_all_order w x s l s' l' : Permutation (s :: l) (s' :: l') ->
    (forall y, In y (s :: l) -> cbelow (sg_cvec y) w /\ in_itv cleb (sg_itv y) x /\ exists k, cost_of y k) ->
    exists r r' k, merge_all s l = Val r /\ merge_all s' l' = Val r' /\
      sg_cvec r = sg_cvec r' /\ sg_itv r = sg_itv r' /\ cost_of r k /\ cost_of r' k.
  Proof.
    intros P H.
    destruct (merge_all_spec w x l s H) as (r & R1 & R2 & R3 & R4 & k & R5 & (y & Y1 & Y2) & R6).
    destruct (merge_all_spec w x l' s') as (r' & R1' & R2' & R3' & R4' & k' & R5' & (y' & Y1' & Y2') & R6').
    { intros z Hz. apply H. eapply Permutation_in; [symmetry; exact P|exact Hz]. }
    exists r, r', k. split; [exact R1|]. split; [exact R1'|].
    assert (forall {A} (f : sig O C -> A) a, In a (map f (s :: l)) <-> In a (map f (s' :: l'))) as Pm.
    { intros A f a. split; intros Hi; (eapply Permutation_in; [|exact Hi]); apply Permutation_map; [|symmetry]; exact P. }
    split.
    { destruct R2 as [A1 A2], R2' as [B1 B2]. apply cbelow_anti.
      - apply A2. intros c Hi. apply B1. apply Pm. exact Hi.
      - apply B2. intros c Hi. apply A1. apply Pm. exact Hi. }
    split.
    { assert (forall i j : interval C, low i = low j -> high i = high j -> i = j) as E by (intros [? ?] [? ?]; cbn; congruence).
      apply E.
      - eapply is_low_unique; [exact R3|]. destruct R3' as [A1 A2]. split; [apply Pm; exact A1|].
        intros o a Hi. apply A2. apply Pm. exact Hi.
      - eapply is_high_unique; [exact R4|]. destruct R4' as [A1 A2]. split; [apply Pm; exact A1|].
        intros o a Hi. apply A2. apply Pm. exact Hi. }
    split; [exact R5|]. assert (k = k') as ->; [|exact R5'].
    assert (k <= k')%N.
    { apply (R6 y'); [eapply Permutation_in; [symmetry; exact P|exact Y1']|]. unfold cost_of in *. rewrite <- Y2'. exact R5'. }
    assert (k' <= k)%N.
    { apply (R6' y); [eapply Permutation_in; [exact P|exact Y1]|]. unfold cost_of in *. rewrite <- Y2. exact R5. }
    lia.
  Qed.
End Merge.
