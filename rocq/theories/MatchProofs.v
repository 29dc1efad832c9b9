(* Proofs about candidates. *)
From Coq Require Import NArith Permutation.
From Verif Require Import Base BaseProofs Lang LangProofs Syntax Rule Ruleset RuleSpec RulesetProofs Analysis AnalysisSpec AnalysisProofs Generalize GeneralizeProofs.
From Verif Require Import Egraph EgraphSpec EgraphProofs Synth SynthProofs Extract ExtractProofs Match MatchSpec.
Open Scope list_scope.

(* ---- pairs ---- *)
Lemma pairs_app {X} (a b : list X) x y : In (x, y) (pairs (a ++ b)) <-> In (x, y) (pairs a) \/ In (x, y) (pairs b) \/ (In x a /\ In y b).
Proof.
  induction a as [|z a IH]; cbn [app pairs In]; [tauto|]. rewrite !in_app_iff, !in_map_iff, IH. split.
  - intros [(w & E & H)|H].
    + injection E as <- ->. apply in_app_iff in H as [H|H]; [left; left; eauto|right; right; auto].
    + destruct H as [H|[H|[H1 H2]]]; auto 6.
  - intros [[(w & E & H)|H]|[H|[[<-|H1] H2]]]; auto 6.
    + injection E as <- ->. left. exists y. split; [reflexivity|]. apply in_app_iff. auto.
    + left. exists y. split; [reflexivity|]. apply in_app_iff. auto.
Qed.
Lemma pairs_filter {X} (f : X -> bool) l x y : In (x, y) (pairs (List.filter f l)) <-> In (x, y) (pairs l) /\ f x = true /\ f y = true.
Proof.
  induction l as [|z l IH]; cbn [List.filter pairs]; [cbn; tauto|]. destruct (f z) eqn:E; cbn [pairs]; rewrite ?in_app_iff, ?in_map_iff, IH; split.
  - intros [(w & Ew & H)|(H & H1 & H2)]; [|auto]. injection Ew as <- ->. apply filter_In in H as [H1 H2]. split; [left; eauto|auto].
  - intros ([(w & Ew & H)|H] & H1 & H2); [|auto]. injection Ew as <- ->. left. exists y. split; [reflexivity|]. apply filter_In. auto.
  - intros (H & H1 & H2). auto.
  - intros ([(w & Ew & H)|H] & H1 & H2); [|auto]. injection Ew as <- ->. congruence.
Qed.
Lemma pairs_map {X Y} (f : X -> Y) l x y : In (x, y) (pairs (map f l)) <-> exists a b, In (a, b) (pairs l) /\ x = f a /\ y = f b.
Proof.
  induction l as [|z l IH]; cbn [map pairs]; [cbn; firstorder|]. rewrite in_app_iff, IH. split.
  - intros [H|(a & b & H & -> & ->)]; [|exists a, b; rewrite in_app_iff; auto]. apply in_map_iff in H as (w & E & H). injection E as <- ->. apply in_map_iff in H as (b & <- & H).
    exists z, b. split; [|auto]. apply in_app_iff. left. apply in_map_iff. eauto.
  - intros (a & b & H & -> & ->). apply in_app_iff in H as [H|H]; [|right; exists a, b; auto]. apply in_map_iff in H as (w & E & H). injection E as <- ->.
    left. apply in_map_iff. exists (f b). split; [reflexivity|]. now apply in_map.
Qed.
Lemma pairs_in {X} (l : list X) x y : In (x, y) (pairs l) -> In x l /\ In y l.
Proof.
  induction l as [|z l IH]; cbn [pairs]; [intros []|]. rewrite in_app_iff, in_map_iff. intros [(w & E & H)|H].
  - injection E as <- ->. cbn. auto.
  - apply IH in H as [H1 H2]. cbn. auto.
Qed.
Lemma pairs_nodup {X} (l : list X) x y : NoDup l -> In (x, y) (pairs l) -> x <> y.
Proof.
  induction 1 as [|z l Hz N IH]; cbn [pairs]; [intros []|]. rewrite in_app_iff, in_map_iff. intros [(w & E & H)|H]; [|auto].
  injection E as <- ->. intros ->. auto.
Qed.
Lemma pairs_total {X} (l : list X) x y : In x l -> In y l -> x <> y -> In (x, y) (pairs l) \/ In (y, x) (pairs l).
Proof.
  induction l as [|z l IH]; cbn [pairs In]; [tauto|]. rewrite !in_app_iff, !in_map_iff. intros [->|Hx] [->|Hy] N; [congruence| | |].
  - left. left. eauto.
  - right. left. eauto.
  - destruct (IH Hx Hy N); auto.
Qed.
Lemma square_in {X} (l : list X) x y : In (x, y) (square l) <-> In x l /\ In y l.
Proof.
  unfold square. rewrite in_flat_map. split.
  - intros (z & Hz & H). apply in_map_iff in H as (w & E & Hw). injection E as <- ->. auto.
  - intros [Hx Hy]. exists x. split; [exact Hx|]. apply in_map_iff. eauto.
Qed.

(* ---- grouping ---- *)
Section Group.
  Context {K : Type}.
  Variable keqb : K -> K -> bool.
  Hypothesis keqb_eq : forall a b, keqb a b = true <-> a = b.
  Definition bucket (l : list (K * nat)) (k : K) : list nat := map snd (List.filter (fun p => keqb k (fst p)) l).
  Lemma keqb_refl k : keqb k k = true.
  Proof. now apply keqb_eq. Qed.
  Lemma keqb_neq a b : keqb a b = false <-> a <> b.
  Proof. destruct (keqb a b) eqn:E; [apply keqb_eq in E|]; split; intros; try congruence. intros X. apply keqb_eq in X. congruence. Qed.
  Definition ginv (m : list (K * list nat)) (l : list (K * nat)) : Prop :=
    NoDup (map fst m) /\ (forall k, In k (map fst m) <-> In k (map fst l)) /\ forall k b, In (k, b) m -> b = bucket l k.
  Lemma push_inv m l p : ginv m l -> ginv (push keqb m (fst p) (snd p)) (l ++ [p]).
  Proof.
    intros (N & Ks & B). destruct p as [k i]. cbn [fst snd].
    assert (P : (In k (map fst m) /\ map fst (push keqb m k i) = map fst m) \/ (~ In k (map fst m) /\ push keqb m k i = m ++ [(k, [i])])).
    { clear - keqb_eq. induction m as [|[k' b] m IH]; cbn; [right; auto|]. destruct (keqb k k') eqn:E.
      - apply keqb_eq in E. subst. left. auto.
      - apply keqb_neq in E. destruct IH as [[H1 H2]|[H1 H2]].
        + left. split; [auto|]. cbn. now rewrite H2.
        + right. split; [intros [X|X]; [congruence|auto]|]. now rewrite H2. }
    assert (Bu : forall k', bucket (l ++ [(k, i)]) k' = bucket l k' ++ if keqb k' k then [i] else []).
    { intros k'. unfold bucket. rewrite filter_app, map_app. cbn. destruct (keqb k' k); reflexivity. }
    split; [|split].
    - destruct P as [[_ ->]|[H ->]]; [exact N|]. rewrite map_app. cbn. apply (Permutation_NoDup (l := k :: map fst m)); [apply Permutation_cons_append|]. now constructor.
    - intros k'. rewrite map_app, in_app_iff. cbn. destruct P as [[H ->]|[H ->]].
      + rewrite Ks. split; [auto|]. intros [X|[<-|[]]]; [exact X|]. now apply Ks.
      + rewrite map_app, in_app_iff, Ks. cbn. tauto.
    - intros k' b H. rewrite Bu. destruct P as [[Hk _]|[Hk E]].
      + clear Ks Bu. revert N B Hk H. induction m as [|[k1 b1] m IH]; intros N B Hk H; [destruct Hk|]. cbn [push] in H.
        inversion N as [|? ? Nin N']; subst. destruct (keqb k k1) eqn:E.
        * apply keqb_eq in E. subst k1. destruct H as [H|H].
          -- injection H as <- <-. rewrite (B k b1 (or_introl eq_refl)), keqb_refl. reflexivity.
          -- rewrite (B k' b (or_intror H)). destruct (keqb k' k) eqn:E; [|now rewrite app_nil_r]. apply keqb_eq in E. subst.
             destruct Nin. apply (in_map fst) in H. exact H.
        * apply keqb_neq in E. destruct H as [H|H].
          -- injection H as <- <-. rewrite (B k1 b1 (or_introl eq_refl)). destruct (keqb k1 k) eqn:E'; [apply keqb_eq in E'; congruence|now rewrite app_nil_r].
          -- apply IH; auto. { intros; apply B; now right. } destruct Hk as [Hk|Hk]; [cbn in Hk; congruence|exact Hk].
      + rewrite E in H. apply in_app_iff in H as [H|[H|[]]].
        * rewrite (B k' b H). destruct (keqb k' k) eqn:E'; [|now rewrite app_nil_r]. apply keqb_eq in E'. subst. destruct Hk. apply (in_map fst) in H. exact H.
        * injection H as <- <-. rewrite keqb_refl. assert (bucket l k = []) as ->; [|reflexivity].
          unfold bucket. assert (List.filter (fun p => keqb k (fst p)) l = []) as ->; [|reflexivity].
          destruct (List.filter (fun p => keqb k (fst p)) l) as [|[k0 i0] r] eqn:Ef; [reflexivity|]. exfalso.
          assert (X : In (k0, i0) (List.filter (fun p => keqb k (fst p)) l)) by (rewrite Ef; now left). apply filter_In in X as [X1 X2]. cbn in X2. apply keqb_eq in X2. subst k0.
          apply Hk, Ks. apply (in_map fst) in X1. exact X1.
  Qed.
  Lemma group_inv l : ginv (group keqb l) l.
  Proof.
    unfold group. assert (forall l2 m l1, ginv m l1 -> ginv (fold_left (fun m p => push keqb m (fst p) (snd p)) l2 m) (l1 ++ l2)) as G.
    { induction l2 as [|p l2 IH]; intros m l1 H; cbn [fold_left]; [now rewrite app_nil_r|].
      replace (l1 ++ p :: l2) with ((l1 ++ [p]) ++ l2) by now rewrite <- app_assoc. apply IH. now apply push_inv. }
    apply (G l [] []). split; [constructor|]. split; [cbn; tauto|]. intros k b [].
  Qed.
  Lemma group_in l k b : In (k, b) (group keqb l) <-> In k (map fst l) /\ b = bucket l k.
  Proof.
    destruct (group_inv l) as (N & Ks & B). split.
    - intros H. split; [|exact (B k b H)]. apply Ks. apply (in_map fst) in H. exact H.
    - intros [H ->]. apply Ks in H. apply in_map_iff in H as ([k' b] & E & H). cbn in E. subst k'. now rewrite <- (B k b H).
  Qed.
  Lemma get_in m k : get keqb m k = match get keqb m k with Some b => Some b | None => None end.
  Proof. destruct (get keqb m k); reflexivity. Qed.
  Lemma get_group l k : (match get keqb (group keqb l) k with Some b => b | None => [] end) = bucket l k.
  Proof.
    destruct (get keqb (group keqb l) k) as [b|] eqn:E.
    - assert (In (k, b) (group keqb l)) as H.
      { clear - E keqb_eq. revert E. induction (group keqb l) as [|[k' b'] m IH]; cbn; [discriminate|]. destruct (keqb k k') eqn:Ek.
        - apply keqb_eq in Ek. intros H. injection H as ->. subst. now left.
        - intros H. right. auto. }
      now apply group_in in H as [_ ->].
    - assert (~ In k (map fst l)) as H.
      { intros H. pose proof (proj2 (group_in l k (bucket l k)) (conj H eq_refl)) as X. clear - E X keqb_eq. revert E X.
        induction (group keqb l) as [|[k' b'] m IH]; cbn; [tauto|]. destruct (keqb k k') eqn:Ek; [discriminate|]. intros E [X|X]; [|auto].
        injection X as -> _. rewrite keqb_refl in Ek. discriminate. }
      unfold bucket. symmetry. assert (List.filter (fun p => keqb k (fst p)) l = []) as ->; [|reflexivity].
      destruct (List.filter (fun p => keqb k (fst p)) l) as [|[k0 i0] r] eqn:Ef; [reflexivity|]. exfalso.
      assert (X : In (k0, i0) (List.filter (fun p => keqb k (fst p)) l)) by (rewrite Ef; now left). apply filter_In in X as [X1 X2]. cbn in X2. apply keqb_eq in X2. subst k0.
      apply H. apply (in_map fst) in X1. exact X1.
  Qed.
End Group.

Section Match.
  Context {O C : Type}.
  Variable L : lang O C.
  Variable ar : O -> nat.
  Hypothesis R : regular L ar.
  Local Notation eg := (eg O C).

  Lemma oeqb_eq a b : oeqb L a b = true <-> a = b.
  Proof.
    destruct a as [a|], b as [b|]; cbn; split; intros H; try discriminate; try reflexivity.
    - apply (rg_ceqb L ar R) in H. congruence.
    - injection H as ->. now apply (rg_ceqb L ar R).
  Qed.
  Lemma veqb_eq a : forall b, veqb L a b = true <-> a = b.
  Proof.
    induction a as [|x a IH]; intros [|y b]; cbn; split; intros H; try discriminate; try reflexivity.
    - apply andb_true_iff in H as [H1 H2]. apply oeqb_eq in H1. apply IH in H2. congruence.
    - injection H as -> ->. apply andb_true_iff. split; [now apply oeqb_eq|now apply IH].
  Qed.
  Lemma not_all_none_spec (v : cvec C) : not_all_none v = true <-> somewhere v.
  Proof.
    unfold not_all_none, somewhere. rewrite existsb_exists. split.
    - intros ([x|] & H & E); [|discriminate]. apply In_nth_error in H as [k H]. eauto.
    - intros (k & a & H). exists (Some a). split; [|reflexivity]. exact (nth_error_In _ _ H).
  Qed.
  Lemma compare_spec (a : cvec C) : forall b, compare L a b = true <-> agree a b.
  Proof.
    unfold agree, both. induction a as [|x a IH]; intros b.
    - assert (compare L [] b = true) as -> by (destruct b as [|[y|] b]; reflexivity). split; [|auto]. intros _ [|k] p q [H _]; discriminate H.
    - destruct b as [|y b].
      + assert (compare L (x :: a) [] = true) as -> by (destruct x; reflexivity). split; [|auto]. intros _ [|k] p q [_ H]; discriminate H.
      + assert (E : compare L (x :: a) (y :: b) = match x, y with Some p, Some q => l_ceqb L p q && compare L a b | _, _ => compare L a b end) by (destruct x, y; reflexivity).
        rewrite E. destruct x as [p|], y as [q|].
        * rewrite andb_true_iff, IH, (rg_ceqb L ar R). split.
          -- intros [-> H] [|k] u v [H1 H2]; cbn in *; [congruence|]. apply (H k); auto.
          -- intros H. split; [apply (H 0); auto|]. intros k u v Hb. apply (H (S k)); exact Hb.
        * rewrite IH. split; intros H.
          -- intros [|k] u v [H1 H2]; cbn in *; [congruence|]. apply (H k); auto.
          -- intros k u v Hb. apply (H (S k)); exact Hb.
        * rewrite IH. split; intros H.
          -- intros [|k] u v [H1 H2]; cbn in *; [congruence|]. apply (H k); auto.
          -- intros k u v Hb. apply (H (S k)); exact Hb.
        * rewrite IH. split; intros H.
          -- intros [|k] u v [H1 H2]; cbn in *; [congruence|]. apply (H k); auto.
          -- intros k u v Hb. apply (H (S k)); exact Hb.
  Qed.

  Section Pairs.
    Variable g : eg.
    Hypothesis W : wf g.
    Variable order : list nat.
    Hypothesis order_ok : Permutation (class_ids g) order.
    Lemma order_ids i : In i order <-> find g i = Val i.
    Proof.
      rewrite <- class_ids_spec. split; intros H; [exact (Permutation_in i (Permutation_sym order_ok) H)|exact (Permutation_in i order_ok H)].
    Qed.
    Lemma order_nodup : NoDup order.
    Proof. apply (Permutation_NoDup order_ok). unfold class_ids. apply NoDup_filter. apply seq_NoDup. Qed.
    Lemma class_data_val i : i < size g -> exists d, class_data g i = Val d.
    Proof.
      intros Hi. unfold class_data. destruct (find_val g i Hi) as [r E]. rewrite E. cbn. pose proof (find_some _ _ _ (wf_rep g W i r E)) as Hr.
      destruct (nth_error (g_data g) r) as [d|] eqn:Ed; [exists d; unfold index; now rewrite Ed|]. apply nth_error_None in Ed. rewrite (wf_data g W) in Ed. lia.
    Qed.
    Definition cv (i : nat) : cvec C := match cvec_of g i with Val v => v | Panic => [] end.
    Lemma cv_vec i : i < size g -> cvec_of g i = Val (cv i) /\ vec g i (cv i).
    Proof.
      intros Hi. unfold cv, cvec_of. destruct (class_data_val i Hi) as [d E]. rewrite E. cbn. split; [reflexivity|]. exists d. auto.
    Qed.
    Lemma vec_cv i v : vec g i v -> v = cv i.
    Proof. intros (d & E & <-). unfold cv, cvec_of. now rewrite E. Qed.
    Lemma with_cvec_map l : (forall i, In i l -> i < size g) -> with_cvec g l = Val (map (fun i => (i, cv i)) l).
    Proof. intros H. unfold with_cvec. apply rmapM_pure. intros i Hi. rewrite (proj1 (cv_vec i (H i Hi))). reflexivity. Qed.
    Lemma in_order_lt i : In i order -> i < size g.
    Proof. intros H. apply order_ids in H. exact (find_some _ _ _ H). Qed.

    Definition first (i : nat) : option C := hd None (cv i).
    Definition nn (i : nat) : bool := not_all_none (cv i).

    (* exactly which pairs of classes, and in which order *)
    Lemma cvec_pairs_spec : exists ps, cvec_pairs L order g = Val ps /\ forall i j, In (i, j) ps <->
      In i order /\ In j order /\ somewhere (cv i) /\ somewhere (cv j) /\ agree (cv i) (cv j) /\
      ((first i = first j /\ In (i, j) (pairs order)) \/ (first i <> None /\ first j = None) \/
       (first i = None /\ first j = None /\ In (i, j) (pairs order))).
    Proof.
      unfold cvec_pairs. rewrite with_cvec_map by exact in_order_lt. cbn [rbind].
      assert (Fm : forall (f : nat -> bool) l, List.filter (fun c : nat * cvec C => f (fst c)) (map (fun i => (i, cv i)) l) = map (fun i => (i, cv i)) (List.filter f l)).
      { intros f l. induction l as [|i l IH]; cbn; [reflexivity|]. destruct (f i); cbn; now rewrite IH. }
      assert (Fe : List.filter (fun c : nat * cvec C => not_all_none (snd c)) (map (fun i => (i, cv i)) order) = map (fun i => (i, cv i)) (List.filter nn order)).
      { clear. induction order as [|i l IH]; cbn [map List.filter snd]; [reflexivity|]. change (nn i) with (not_all_none (cv i)). rewrite IH. destruct (not_all_none (cv i)); reflexivity. }
      rewrite Fe. clear Fe Fm.
      assert (Ff : rmapM (fun c : nat * cvec C => let* x := index (snd c) 0 in Val (x, fst c)) (map (fun i => (i, cv i)) (List.filter nn order)) = Val (map (fun i => (first i, i)) (List.filter nn order))).
      { assert (forall l, (forall i, In i l -> nn i = true) -> rmapM (fun c : nat * cvec C => let* x := index (snd c) 0 in Val (x, fst c)) (map (fun i => (i, cv i)) l) = Val (map (fun i => (first i, i)) l)) as G.
        - induction l as [|i l IH]; intros H; [reflexivity|]. cbn [map rmapM snd fst]. rewrite IH by (intros; apply H; now right).
          assert (index (cv i) 0 = Val (first i)) as ->; [|reflexivity]. specialize (H i (or_introl eq_refl)). unfold nn, not_all_none in H. unfold first, index.
          destruct (cv i); [discriminate H|reflexivity].
        - apply G. intros i Hi. now apply filter_In in Hi. }
      match goal with |- context [rmapM ?f (map ?h (List.filter nn order))] => change (rmapM f (map h (List.filter nn order))) with (rmapM (fun c : nat * cvec C => let* x := index (snd c) 0 in Val (x, fst c)) (map (fun i => (i, cv i)) (List.filter nn order))) end.
      rewrite Ff. cbn [rbind]. clear Ff. rewrite (get_group (oeqb L) oeqb_eq).
      set (l := List.filter nn order). set (fs := map (fun i => (first i, i)) l).
      assert (Bk : forall k, bucket (oeqb L) fs k = List.filter (fun i => oeqb L k (first i)) l).
      { intros k. unfold bucket, fs. clear. induction l as [|i l IH]; cbn; [reflexivity|]. destruct (oeqb L k (first i)); cbn; now rewrite IH. }
      set (fn := bucket (oeqb L) fs None).
      set (all := fun b : option C * list nat => match fst b with Some _ => snd b ++ fn | None => snd b end).
      assert (Hall : forall k i, In i (all (k, bucket (oeqb L) fs k)) <-> In i l /\ (first i = k \/ first i = None)).
      { intros k i. unfold all, fn. cbn [fst snd]. destruct k as [c|].
        - rewrite in_app_iff, !Bk, !filter_In, !oeqb_eq. split; [intros [[H1 H2]|[H1 H2]]; auto|]. intros [H1 [H2|H2]]; auto.
        - rewrite Bk, filter_In, oeqb_eq. split; [intros [H1 H2]; auto|]. intros [H1 [H2|H2]]; auto. }
      assert (Hb : rmapM (bucket_pairs L g fn) (group (oeqb L) fs) = Val (map (fun b => map (fun p => (fst (fst p), fst (snd p))) (List.filter (fun p => compare L (snd (fst p)) (snd (snd p))) (pairs (map (fun i => (i, cv i)) (all b))))) (group (oeqb L) fs))).
      { apply rmapM_pure. intros [k b] Hin. apply (group_in (oeqb L) oeqb_eq) in Hin as [Hk ->]. unfold bucket_pairs. fold (all (k, bucket (oeqb L) fs k)).
        rewrite with_cvec_map; [reflexivity|]. intros i Hi. apply Hall in Hi as [Hi _]. unfold l in Hi. apply filter_In in Hi as [Hi _]. now apply in_order_lt. }
      rewrite Hb. cbn [rbind]. eexists. split; [reflexivity|]. intros i j. rewrite in_concat.
      assert (Hl : forall x, In x l <-> In x order /\ somewhere (cv x)).
      { intros x. unfold l. rewrite filter_In. unfold nn. now rewrite not_all_none_spec. }
      assert (Hp : forall x y, In (x, y) (pairs l) <-> In (x, y) (pairs order) /\ somewhere (cv x) /\ somewhere (cv y)).
      { intros x y. unfold l. rewrite pairs_filter. unfold nn. now rewrite !not_all_none_spec. }
      assert (Hone : forall k, In (i, j) (map (fun p : (nat * cvec C) * (nat * cvec C) => (fst (fst p), fst (snd p))) (List.filter (fun p => compare L (snd (fst p)) (snd (snd p))) (pairs (map (fun i => (i, cv i)) (all (k, bucket (oeqb L) fs k)))))) <->
        In (i, j) (pairs (all (k, bucket (oeqb L) fs k))) /\ agree (cv i) (cv j)).
      { intros k. rewrite in_map_iff. split.
        - intros ([a b] & E & H). apply filter_In in H as [H1 H2]. apply pairs_map in H1 as (x & y & H1 & -> & ->). cbn in *. injection E as -> ->. split; [exact H1|]. now apply compare_spec.
        - intros [H1 H2]. exists ((i, cv i), (j, cv j)). split; [reflexivity|]. apply filter_In. split; [|now apply compare_spec]. apply pairs_map. eauto. }
      split.
      - intros (ps & Hps & Hin). apply in_map_iff in Hps as ([k b] & <- & Hg). apply (group_in (oeqb L) oeqb_eq) in Hg as [Hk ->]. apply Hone in Hin as [Hin Hag].
        pose proof (pairs_in _ _ _ Hin) as [Hi Hj]. apply Hall in Hi as [Hi Fi]. apply Hall in Hj as [Hj Fj]. apply Hl in Hi as [Hi Si]. apply Hl in Hj as [Hj Sj].
        split; [exact Hi|]. split; [exact Hj|]. split; [exact Si|]. split; [exact Sj|]. split; [exact Hag|].
        unfold all, fn in Hin. cbn [fst snd] in Hin. destruct k as [c|].
        + apply pairs_app in Hin as [Hin|[Hin|[Hi' Hj']]].
          * rewrite Bk, pairs_filter in Hin. destruct Hin as (Hin & E1 & E2). apply oeqb_eq in E1, E2. apply Hp in Hin as [Hin _]. left. split; [congruence|exact Hin].
          * rewrite Bk, pairs_filter in Hin. destruct Hin as (Hin & E1 & E2). apply oeqb_eq in E1, E2. apply Hp in Hin as [Hin _]. right. right. auto.
          * rewrite Bk in Hi', Hj'. apply filter_In in Hi' as [_ E1]. apply filter_In in Hj' as [_ E2]. apply oeqb_eq in E1, E2. right. left. split; congruence.
        + rewrite Bk, pairs_filter in Hin. destruct Hin as (Hin & E1 & E2). apply oeqb_eq in E1, E2. apply Hp in Hin as [Hin _]. right. right. auto.
      - intros (Hi & Hj & Si & Sj & Hag & H).
        assert (G : forall k, In k (map fst fs) -> In (i, j) (pairs (all (k, bucket (oeqb L) fs k))) -> exists l0,
          In l0 (map (fun b => map (fun p => (fst (fst p), fst (snd p))) (List.filter (fun p => compare L (snd (fst p)) (snd (snd p))) (pairs (map (fun i => (i, cv i)) (all b))))) (group (oeqb L) fs)) /\ In (i, j) l0).
        { intros k Hk Hin. eexists. split; [apply in_map; apply (group_in (oeqb L) oeqb_eq); split; [exact Hk|reflexivity]|]. apply Hone. auto. }
        assert (Kf : forall x, In x order -> somewhere (cv x) -> In (first x) (map fst fs)).
        { intros x Hx Sx. unfold fs. rewrite map_map. cbn. apply in_map. apply Hl. auto. }
        destruct H as [[E H]|[[E1 E2]|(E1 & E2 & H)]].
        + apply (G (first i)); [now apply Kf|]. unfold all, fn. cbn [fst snd].
          assert (X : In (i, j) (pairs (bucket (oeqb L) fs (first i)))). { rewrite Bk, pairs_filter, !oeqb_eq. split; [apply Hp; auto|auto]. }
          destruct (first i); [apply pairs_app; auto|exact X].
        + apply (G (first i)); [now apply Kf|]. unfold all, fn. cbn [fst snd]. destruct (first i) as [c|] eqn:Ec; [|congruence].
          apply pairs_app. right. right. rewrite !Bk, !filter_In, !oeqb_eq, !Hl. auto.
        + apply (G None); [rewrite <- E1; now apply Kf|]. unfold all, fn. cbn [fst snd]. rewrite Bk, pairs_filter, !oeqb_eq. split; [apply Hp; auto|auto].
    Qed.

    Lemma is_defined_spec i d : class_data g i = Val d -> is_defined d = true <-> cv i = [] \/ somewhere (cv i).
    Proof.
      intros E. assert (cv i = sg_cvec d) as ->. { symmetry. apply vec_cv. exists d. auto. }
      unfold is_defined. rewrite <- not_all_none_spec. unfold not_all_none. destruct (sg_cvec d); [cbn; tauto|]. split; [auto|]. intros [H|H]; [discriminate|exact H].
    Qed.
    Definition df (i : nat) : bool := match class_data g i with Val d => is_defined d | Panic => false end.
    Lemma fast_pairs_spec : exists ps, fast_pairs L order g = Val ps /\ forall i j, In (i, j) ps <->
      In (i, j) (pairs order) /\ (cv i = [] \/ somewhere (cv i)) /\ cv i = cv j.
    Proof.
      unfold fast_pairs. set (da := fun i => match class_data g i with Val d => d | Panic => Sig [] [] (Itv None None) end).
      assert (rmapM (fun i => let* d := class_data g i in Val (i, d)) order = Val (map (fun i => (i, da i)) order)) as ->.
      { apply rmapM_pure. intros i Hi. destruct (class_data_val i (in_order_lt i Hi)) as [d E]. unfold da. rewrite E. reflexivity. }
      cbn [rbind]. assert (map (fun c : nat * sig O C => (sg_cvec (snd c), fst c)) (List.filter (fun c => is_defined (snd c)) (map (fun i => (i, da i)) order)) = map (fun i => (cv i, i)) (List.filter df order)) as ->.
      { assert (forall l, (forall i, In i l -> i < size g) -> map (fun c : nat * sig O C => (sg_cvec (snd c), fst c)) (List.filter (fun c => is_defined (snd c)) (map (fun i => (i, da i)) l)) = map (fun i => (cv i, i)) (List.filter df l)) as G.
        - induction l as [|i l IH]; intros H; [reflexivity|]. cbn [map List.filter snd]. destruct (class_data_val i (H i (or_introl eq_refl))) as [d E].
          assert (da i = d) as -> by (unfold da; now rewrite E). assert (df i = is_defined d) as -> by (unfold df; now rewrite E).
          specialize (IH (fun x Hx => H x (or_intror Hx))). destruct (is_defined d); [|exact IH]. cbn [map fst snd]. f_equal; [|exact IH]. f_equal. apply vec_cv. exists d. auto.
        - apply G. exact in_order_lt. }
      eexists. split; [reflexivity|]. intros i j. rewrite in_flat_map. set (fs := map (fun i => (cv i, i)) (List.filter df order)).
      assert (Bk : forall k, bucket (veqb L) fs k = List.filter (fun i => veqb L k (cv i)) (List.filter df order)).
      { intros k. unfold bucket, fs. clear. induction (List.filter df order) as [|x l IH]; cbn; [reflexivity|]. destruct (veqb L k (cv x)); cbn; now rewrite IH. }
      assert (Df : forall x, In x order -> df x = true <-> cv x = [] \/ somewhere (cv x)).
      { intros x Hx. destruct (class_data_val x (in_order_lt x Hx)) as [d E]. unfold df. rewrite E. now apply is_defined_spec. }
      split.
      - intros ([k b] & Hg & Hin). apply (group_in (veqb L) veqb_eq) in Hg as [Hk ->]. cbn [snd] in Hin. rewrite Bk, !pairs_filter, !veqb_eq in Hin.
        destruct Hin as ((Hin & D1 & D2) & E1 & E2). pose proof (pairs_in _ _ _ Hin) as [Hi Hj]. split; [exact Hin|]. split; [now apply Df|congruence].
      - intros (Hin & D & E). pose proof (pairs_in _ _ _ Hin) as [Hi Hj]. exists (cv i, bucket (veqb L) fs (cv i)). split.
        + apply (group_in (veqb L) veqb_eq). split; [|reflexivity]. unfold fs. rewrite map_map. cbn. apply (in_map cv). apply filter_In. split; [exact Hi|now apply Df].
        + cbn [snd]. rewrite Bk, !pairs_filter, !veqb_eq. split; [|auto]. split; [exact Hin|]. split; apply Df; auto. rewrite <- E. exact D.
    Qed.
  End Pairs.

  Lemma merged_pairs_spec (g1 g2 : eg) order uorder : Permutation (class_ids g1) order -> (forall l, Permutation l (uorder l)) -> size g1 <= size g2 ->
    exists ps, merged_pairs order uorder g2 = Val ps /\ forall i j, In (i, j) ps <-> find g1 i = Val i /\ find g1 j = Val j /\ eqv g2 i j.
  Proof.
    intros Po Pu Sz. unfold merged_pairs. set (fd := fun i => match find g2 i with Val r => r | Panic => 0 end).
    assert (Fd : forall i, find g1 i = Val i -> find g2 i = Val (fd i)).
    { intros i H. apply find_some in H. destruct (find_val g2 i) as [r E]; [lia|]. unfold fd. now rewrite E. }
    assert (Oi : forall i, In i order <-> find g1 i = Val i) by (intros; now apply order_ids).
    assert (rmapM (fun i => let* r := find g2 i in Val (r, i)) order = Val (map (fun i => (fd i, i)) order)) as ->.
    { apply rmapM_pure. intros i Hi. apply Oi in Hi. now rewrite (Fd i Hi). }
    cbn [rbind]. eexists. split; [reflexivity|]. intros i j. rewrite in_flat_map.
    assert (Bk : forall k x, In x (bucket Nat.eqb (map (fun i => (fd i, i)) order) k) <-> In x order /\ fd x = k).
    { intros k x. unfold bucket. rewrite in_map_iff. split.
      - intros ([a b] & E & H). cbn in E. subst b. apply filter_In in H as [H1 H2]. cbn in H2. apply Nat.eqb_eq in H2. apply in_map_iff in H1 as (y & E & H1). injection E as <- ->. auto.
      - intros [H <-]. exists (fd x, x). split; [reflexivity|]. apply filter_In. split; [|cbn; apply Nat.eqb_refl]. apply in_map_iff. eauto. }
    split.
    - intros (b & Hb & Hin). apply (Permutation_in _ (Permutation_sym (Pu _))) in Hb. apply in_map_iff in Hb as ([k b'] & <- & Hg). cbn [snd] in Hin.
      apply (group_in Nat.eqb Nat.eqb_eq) in Hg as [_ ->]. apply square_in in Hin as [H1 H2]. apply Bk in H1 as [H1 E1]. apply Bk in H2 as [H2 E2]. apply Oi in H1, H2.
      split; [exact H1|]. split; [exact H2|]. exists k. rewrite (Fd i H1), (Fd j H2). split; congruence.
    - intros (H1 & H2 & (r & E1 & E2)). exists (bucket Nat.eqb (map (fun i => (fd i, i)) order) r). split.
      + apply (Permutation_in _ (Pu _)). apply in_map_iff. exists (r, bucket Nat.eqb (map (fun i => (fd i, i)) order) r). split; [reflexivity|].
        apply (group_in Nat.eqb Nat.eqb_eq). split; [|reflexivity]. rewrite map_map. cbn. apply in_map_iff. exists i. split; [|now apply Oi]. pose proof (Fd i H1). congruence.
      + apply square_in. rewrite !Bk, !Oi. pose proof (Fd i H1). pose proof (Fd j H2). split; split; auto; congruence.
  Qed.

  (* ---- from pairs of classes to rules ---- *)
  Lemma at_most_incl {X} (eq_dec : forall a b : X, {a = b} + {a <> b}) n (l vs : list X) : length vs <= n -> incl l vs -> at_most n l.
  Proof. intros Hl Hi ws Nw Iw. pose proof (NoDup_incl_length Nw (fun x H => Hi x (Iw x H))). lia. Qed.

  Lemma ready_wf_rec (g : eg) : ready L ar g -> forall e, Forall (from_g g) e -> wf_rec ar e.
  Proof.
    intros Rd e F. unfold wf_rec. eapply Forall_impl; [|exact F]. intros n (m & i & Hm & Eo & El). cbn. rewrite El, Eo. exact (rd_arity L ar g Rd m i Hm).
  Qed.
  Lemma repr_tall (g : eg) (P : O -> Prop) : (forall n i, In (n, i) (g_nodes g) -> P (nop n)) -> forall t i, repr g t i -> tall P t.
  Proof.
    intros H t. induction t as [o ts IH] using term_ind'. intros i Rt. inversion Rt as [? ? ch ? F (n & j & Hn & En & _) ]; subst.
    apply tall_T; [exact (H n j Hn)|]. clear - IH F. induction F; inversion IH; subst; constructor; eauto.
  Qed.
  Lemma repr_vars (g : eg) vs : (forall n i x, In (n, i) (g_nodes g) -> l_to_var L (nop n) = Some x -> In x vs) -> forall t i, repr g t i -> incl (tvars (l_to_var L) t) vs.
  Proof.
    intros H t. induction t as [o ts IH] using term_ind'. intros i Rt. inversion Rt as [? ? ch ? F (n & j & Hn & En & _) ]; subst. cbn [tvars].
    intros x Hx. apply in_app_iff in Hx as [Hx|Hx].
    - destruct (l_to_var L (nop n)) as [y|] eqn:Ey; [|destruct Hx]. destruct Hx as [<-|[]]. exact (H n j y Hn Ey).
    - apply in_flat_map in Hx as (u & Hu & Hx). rewrite Forall_forall in IH.
      assert (exists c, repr g u c) as [c Rc]. { clear - F Hu. induction F; [destruct Hu|]. destruct Hu as [->|Hu]; eauto. }
      exact (IH u Hu c Rc x Hx).
  Qed.

  (* terms the e-graph can propose *)
  Definition usable (g : eg) (e : recexpr O) : Prop := exists t i, tree e = Val t /\ repr g t i /\ Forall (from_g g) e.
  Lemma propose_spec (g : eg) : ready L ar g -> forall l m, ruleset_ok (l_from_op L) (l_name L) ar m ->
    (forall e1 e2, In (e1, e2) l -> usable g e1 /\ usable g e2) ->
    exists m', propose L m l = Val m' /\ ruleset_ok (l_from_op L) (l_name L) ar m' /\
      forall k, In k (map fst m') <-> In k (map fst m) \/ exists e1 e2, In (e1, e2) l /\ named L e1 e2 k.
  Proof.
    intros Rd. induction l as [|[e1 e2] l IH]; intros m Hm Hl; cbn [propose].
    - exists m. split; [reflexivity|]. split; [exact Hm|]. intros k. split; [auto|]. intros [H|(e1 & e2 & [] & _)]. exact H.
    - destruct (Hl e1 e2 (or_introl eq_refl)) as [(t1 & i1 & T1 & R1 & F1) (t2 & i2 & T2 & R2 & F2)].
      destruct (rd_vars L ar g Rd) as (vs & Lv & Hv).
      assert (TA : forall t i, repr g t i -> tall (fun o => l_to_var L o = None -> eov_ok (l_from_op L) (l_name L) ar (EN o)) t).
      { intros t i Rt. eapply repr_tall; [|exact Rt]. cbn. intros n j Hn. exact (rd_text L ar g Rd n j Hn). }
      destruct (add_from_recexprs_ok (l_eqb L) (l_to_var L) (l_mk_var L) (l_from_op L) (l_name L) ar (fun a b => proj1 (rg_eqb L ar R a b)) (rg_var L ar R) (rg_leaf L ar R)
        m e1 t1 e2 t2 Hm (ready_wf_rec g Rd e1 F1) (ready_wf_rec g Rd e2 F2) T1 T2 (TA t1 i1 R1) (TA t2 i2 R2)) as (m1 & E1 & Ok1).
      { apply (at_most_incl string_dec 26 _ vs Lv). intros x Hx. apply in_app_iff in Hx as [Hx|Hx]; [exact (repr_vars g vs Hv t1 i1 R1 x Hx)|exact (repr_vars g vs Hv t2 i2 R2 x Hx)]. }
      rewrite E1. cbn [rbind]. destruct (IH m1 Ok1 (fun a b H => Hl a b (or_intror H))) as (m' & E' & Ok' & K). exists m'. split; [exact E'|]. split; [exact Ok'|].
      destruct (add_from_recexprs_keys _ _ _ _ _ _ _ _ E1) as (fw & bw & Cp & K1). intros k. rewrite K, K1. split.
      + intros [[H|(x & Hx & ->)]|(a & b & H1 & H2)]; [auto| |].
        * right. exists e1, e2. split; [now left|]. exists fw, bw, x. auto.
        * right. exists a, b. split; [now right|exact H2].
      + intros [H|(a & b & [H1|H1] & H2)]; [auto| |].
        * injection H1 as <- <-. destruct H2 as (fw' & bw' & x & Cp' & Hx & ->). rewrite Cp in Cp'. injection Cp' as <- <-. left. right. eauto.
        * right. eauto.
  Qed.

  Lemma best_all (g : eg) (W : wf g) allowed arrange (arrange_ok : forall l, Permutation l (arrange l)) order (order_ok : Permutation (class_ids g) order) :
    exists f0 t best cost, (forall f, f0 <= f -> extractor allowed arrange g f order = Val t) /\
      (forall f i, f0 <= f -> i < size g -> find_best (l_eqb L) g f t i = Val (cost i, best i)) /\
      forall i, i < size g -> smallest allowed g i (best i) /\ usable g (best i) /\ exists u, tree (best i) = Val u /\ cost i = tcost allowed u.
  Proof.
    destruct (extractor_spec (l_eqb L) (rg_eqb L ar R) allowed arrange arrange_ok g W order (order_ids g order order_ok)) as (f0 & t & E & F).
    set (best := fun i => match find_best (l_eqb L) g f0 t i with Val (_, e) => e | Panic => [] end).
    set (cost := fun i => match find_best (l_eqb L) g f0 t i with Val (k, _) => k | Panic => 0%N end).
    exists f0, t, best, cost. split; [exact E|]. split.
    - intros f i Hf Hi. destruct (F i Hi) as (e & u & H & _). unfold best, cost. rewrite (H f0 (le_n _)). now apply H.
    - intros i Hi. destruct (F i Hi) as (e & u & H & T & Rp & Mn & Fg). assert (best i = e) as -> by (unfold best; now rewrite (H f0 (le_n _))).
      assert (cost i = tcost allowed u) as -> by (unfold cost; now rewrite (H f0 (le_n _))).
      split; [exists u; auto|]. split; [exists u, i; auto|]. exists u. auto.
  Qed.
  Lemma best_pairs (g : eg) fuel t (best : nat -> recexpr O) cost ps :
    (forall i, i < size g -> find_best (l_eqb L) g fuel t i = Val (cost i, best i)) -> (forall i j, In (i, j) ps -> i < size g /\ j < size g) ->
    rmapM (best_pair L fuel g t) ps = Val (map (fun p => ((cost (fst p), best (fst p)), (cost (snd p), best (snd p)))) ps).
  Proof.
    intros H Hp. apply rmapM_pure. intros [i j] Hin. destruct (Hp i j Hin) as [Hi Hj]. unfold best_pair. cbn [fst snd]. rewrite (H i Hi). cbn [rbind]. rewrite (H j Hj). reflexivity.
  Qed.

  Lemma ok_nil : ruleset_ok (l_from_op L) (l_name L) ar [].
  Proof. split; constructor. Qed.

  Section Whole.
    Variable g : eg.
    Hypothesis W : wf g.
    Hypothesis Rd : ready L ar g.
    Variable arrange : list (node O) -> list (node O).
    Hypothesis arrange_ok : forall l, Permutation l (arrange l).
    Variable order : list nat.
    Hypothesis order_ok : Permutation (class_ids g) order.

    (* both matchers on one e-graph *)
    Lemma matches_spec : exists f0 best, (forall i, i < size g -> smallest (fun _ => true) g i (best i)) /\
      exists ps fs, cvec_pairs L order g = Val ps /\ fast_pairs L order g = Val fs /\
      forall f, f0 <= f -> exists rs rf, cvec_match L f arrange order g = Val rs /\ fast_cvec_match L f arrange order g = Val rf /\
        ruleset_ok (l_from_op L) (l_name L) ar rs /\ ruleset_ok (l_from_op L) (l_name L) ar rf /\
        (forall k, In k (map fst rs) <-> exists i j, In (i, j) ps /\ named L (best i) (best j) k) /\
        (forall k, In k (map fst rf) <-> exists i j, In (i, j) fs /\ named L (best i) (best j) k).
    Proof.
      destruct (best_all g W (fun _ => true) arrange arrange_ok order order_ok) as (f0 & t & best & cost & E & F & B).
      destruct (cvec_pairs_spec g W order order_ok) as (ps & Eps & Hps). destruct (fast_pairs_spec g W order order_ok) as (fs & Efs & Hfs).
      exists f0, best. split; [intros i Hi; apply B; exact Hi|]. exists ps, fs. split; [exact Eps|]. split; [exact Efs|]. intros f Hf.
      assert (G : forall l, (forall i j, In (i, j) l -> i < size g /\ j < size g) -> exists rs,
        (let* es := rmapM (best_pair L f g t) l in propose L [] (map (fun p => (snd (fst p), snd (snd p))) es)) = Val rs /\ ruleset_ok (l_from_op L) (l_name L) ar rs /\
        (forall k, In k (map fst rs) <-> exists i j, In (i, j) l /\ named L (best i) (best j) k)).
      { intros l Hl. rewrite (best_pairs g f t best cost l (fun i Hi => F f i Hf Hi) Hl). cbn [rbind]. rewrite map_map. cbn [fst snd].
        destruct (propose_spec g Rd (map (fun p => (best (fst p), best (snd p))) l) [] ok_nil) as (rs & Ers & Ok & K).
        { intros e1 e2 H. apply in_map_iff in H as ([i j] & Ex & H). cbn in Ex. injection Ex as <- <-. destruct (Hl i j H) as [Hi Hj]. split; apply B; assumption. }
        exists rs. split; [exact Ers|]. split; [exact Ok|]. intros k. rewrite K. split.
        - intros [[]|(e1 & e2 & H & N)]. apply in_map_iff in H as ([i j] & Ex & H). cbn in Ex. injection Ex as <- <-. eauto.
        - intros (i & j & H & N). right. exists (best i), (best j). split; [|exact N]. apply in_map_iff. exists (i, j). auto. }
      destruct (G ps) as (rs & Ers & Ok & K). { intros i j H. apply Hps in H as (Hi & Hj & _). split; eapply in_order_lt; eassumption. }
      destruct (G fs) as (rf & Erf & Okf & Kf). { intros i j H. apply Hfs in H as (H & _). apply pairs_in in H as [Hi Hj]. split; eapply in_order_lt; eassumption. }
      exists rs, rf. split; [|split; [|split; [exact Ok|split; [exact Okf|auto]]]].
      - unfold cvec_match. rewrite (E f Hf). cbn [rbind]. rewrite Eps. exact Ers.
      - unfold fast_cvec_match. rewrite (E f Hf). cbn [rbind]. rewrite Efs. exact Erf.
    Qed.

    Theorem cvec_match_spec : exists f0 best, (forall i, i < size g -> smallest (fun _ => true) g i (best i)) /\
      forall f, f0 <= f -> exists rs props, cvec_match L f arrange order g = Val rs /\ ruleset_ok (l_from_op L) (l_name L) ar rs /\
        (forall k, In k (map fst rs) <-> exists i j, In (i, j) props /\ named L (best i) (best j) k) /\
        (forall i j, In (i, j) props \/ In (j, i) props <->
          find g i = Val i /\ find g j = Val j /\ i <> j /\ exists v w, vec g i v /\ vec g j w /\ somewhere v /\ somewhere w /\ agree v w).
    Proof.
      destruct matches_spec as (f0 & best & B & ps & fs & Eps & _ & H). exists f0, best. split; [exact B|]. intros f Hf.
      destruct (H f Hf) as (rs & _ & E & _ & Ok & _ & K & _). exists rs, ps. split; [exact E|]. split; [exact Ok|]. split; [exact K|].
      destruct (cvec_pairs_spec g W order order_ok) as (ps' & Eps' & Hps). assert (ps' = ps) by congruence. subst ps'.
      pose proof (order_nodup g order order_ok) as Nd.
      assert (Hv : forall x, In x order -> vec g x (cv g x)) by (intros x Hx; apply cv_vec; [exact W|eapply in_order_lt; eassumption]).
      assert (One : forall i j, In (i, j) ps -> find g i = Val i /\ find g j = Val j /\ i <> j /\ exists v w, vec g i v /\ vec g j w /\ somewhere v /\ somewhere w /\ agree v w).
      { intros i j Hij. apply Hps in Hij as (Hi & Hj & Si & Sj & Ag & X). split; [eapply order_ids; eassumption|]. split; [eapply order_ids; eassumption|]. split.
        - destruct X as [[_ X]|[[X1 X2]|(_ & _ & X)]]; [exact (pairs_nodup _ _ _ Nd X)| |exact (pairs_nodup _ _ _ Nd X)]. intros ->. congruence.
        - exists (cv g i), (cv g j). split; [now apply Hv|]. split; [now apply Hv|]. auto. }
      intros i j. split.
      - intros [X|X]; [exact (One i j X)|]. destruct (One j i X) as (H1 & H2 & H3 & v & w & V1 & V2 & S1 & S2 & Ag). split; [exact H2|]. split; [exact H1|]. split; [auto|].
        exists w, v. split; [exact V2|]. split; [exact V1|]. split; [exact S2|]. split; [exact S1|]. intros k a b [K1 K2]. symmetry. apply (Ag k). split; assumption.
      - intros (H1 & H2 & H3 & v & w & V1 & V2 & S1 & S2 & Ag). apply vec_cv in V1, V2. subst v w.
        assert (Ag' : agree (cv g j) (cv g i)). { intros k a b [K1 K2]. symmetry. apply (Ag k). split; assumption. }
        assert (Hi : In i order) by (eapply order_ids; eassumption). assert (Hj : In j order) by (eapply order_ids; eassumption).
        rewrite !Hps. pose proof (pairs_total order i j Hi Hj H3) as Tot.
        assert (Fx : forall x, first g x = None \/ exists c, first g x = Some c) by (intros x; destruct (first g x); eauto).
        assert (Nth : forall x c, first g x = Some c -> nth_error (cv g x) 0 = Some (Some c)). { intros x c Hx. unfold first in Hx. destruct (cv g x); cbn in *; congruence. }
        destruct (Fx i) as [Fi|[c Fi]], (Fx j) as [Fj|[d Fj]].
        + destruct Tot as [X|X]; [left|right]; auto 10.
        + right. split; [exact Hj|]. split; [exact Hi|]. split; [exact S2|]. split; [exact S1|]. split; [exact Ag'|]. right. left. split; congruence.
        + left. split; [exact Hi|]. split; [exact Hj|]. split; [exact S1|]. split; [exact S2|]. split; [exact Ag|]. right. left. split; congruence.
        + assert (c = d) by (apply (Ag 0); split; auto). subst d. assert (first g i = first g j) by congruence.
          destruct Tot as [X|X]; [left|right]; auto 10.
    Qed.

    Theorem fast_match_spec : exists f0 best, (forall i, i < size g -> smallest (fun _ => true) g i (best i)) /\
      forall f, f0 <= f -> exists rs props, fast_cvec_match L f arrange order g = Val rs /\ ruleset_ok (l_from_op L) (l_name L) ar rs /\
        (forall k, In k (map fst rs) <-> exists i j, In (i, j) props /\ named L (best i) (best j) k) /\
        (forall i j, In (i, j) props \/ In (j, i) props <->
          find g i = Val i /\ find g j = Val j /\ i <> j /\ exists v, vec g i v /\ vec g j v /\ (v = [] \/ somewhere v)).
    Proof.
      destruct matches_spec as (f0 & best & B & ps & fs & _ & Efs & H). exists f0, best. split; [exact B|]. intros f Hf.
      destruct (H f Hf) as (_ & rf & _ & E & _ & Ok & _ & K). exists rf, fs. split; [exact E|]. split; [exact Ok|]. split; [exact K|].
      destruct (fast_pairs_spec g W order order_ok) as (fs' & Efs' & Hfs). assert (fs' = fs) by congruence. subst fs'.
      pose proof (order_nodup g order order_ok) as Nd.
      assert (Hv : forall x, In x order -> vec g x (cv g x)) by (intros x Hx; apply cv_vec; [exact W|eapply in_order_lt; eassumption]).
      assert (One : forall i j, In (i, j) fs -> find g i = Val i /\ find g j = Val j /\ i <> j /\ exists v, vec g i v /\ vec g j v /\ (v = [] \/ somewhere v)).
      { intros i j Hij. apply Hfs in Hij as (Hp & S & Ev). destruct (pairs_in _ _ _ Hp) as [Hi Hj]. split; [eapply order_ids; eassumption|]. split; [eapply order_ids; eassumption|].
        split; [exact (pairs_nodup _ _ _ Nd Hp)|]. exists (cv g i). split; [now apply Hv|]. split; [rewrite Ev; now apply Hv|exact S]. }
      intros i j. split.
      - intros [X|X]; [exact (One i j X)|]. destruct (One j i X) as (H1 & H2 & H3 & v & V1 & V2 & S). split; [exact H2|]. split; [exact H1|]. split; [auto|]. exists v. auto.
      - intros (H1 & H2 & H3 & v & V1 & V2 & S). apply vec_cv in V1, V2.
        assert (Hi : In i order) by (eapply order_ids; eassumption). assert (Hj : In j order) by (eapply order_ids; eassumption).
        rewrite !Hfs. rewrite <- V1, <- V2. destruct (pairs_total order i j Hi Hj H3); auto.
    Qed.

    (* fast matching never proposes a rule that matching does not *)
    Theorem fast_within : exists f0, forall f, f0 <= f -> exists rs rf, cvec_match L f arrange order g = Val rs /\ fast_cvec_match L f arrange order g = Val rf /\
      ((forall i, find g i = Val i -> ~ vec g i []) -> incl (map fst rf) (map fst rs)) /\
      ((forall i j v w, find g i = Val i -> find g j = Val j -> vec g i v -> vec g j w -> v <> [] /\ everywhere v /\ length v = length w) -> incl (map fst rs) (map fst rf)).
    Proof.
      destruct matches_spec as (f0 & best & B & ps & fs & Eps & Efs & H). exists f0. intros f Hf.
      destruct (H f Hf) as (rs & rf & E1 & E2 & _ & _ & K1 & K2). exists rs, rf. split; [exact E1|]. split; [exact E2|].
      destruct (cvec_pairs_spec g W order order_ok) as (ps' & Eps' & Hps). assert (ps' = ps) by congruence. subst ps'.
      destruct (fast_pairs_spec g W order order_ok) as (fs' & Efs' & Hfs). assert (fs' = fs) by congruence. subst fs'.
      assert (Hv : forall x, In x order -> vec g x (cv g x)) by (intros x Hx; apply cv_vec; [exact W|eapply in_order_lt; eassumption]).
      split.
      - intros Ne k Hk. apply K2 in Hk as (i & j & Hij & N). apply K1. exists i, j. split; [|exact N]. apply Hfs in Hij as (Hp & S & Ev). apply Hps.
        destruct (pairs_in _ _ _ Hp) as [Hi Hj]. split; [exact Hi|]. split; [exact Hj|].
        assert (S1 : somewhere (cv g i)). { destruct S as [S|S]; [|exact S]. exfalso. apply (Ne i); [eapply order_ids; eassumption|]. rewrite <- S. now apply Hv. }
        split; [exact S1|]. split; [now rewrite <- Ev|]. split.
        + rewrite <- Ev. intros x a b [X1 X2]. congruence.
        + left. split; [unfold first; now rewrite Ev|exact Hp].
      - intros Full k Hk. apply K1 in Hk as (i & j & Hij & N). apply K2. exists i, j. split; [|exact N]. apply Hps in Hij as (Hi & Hj & Si & Sj & Ag & X). apply Hfs.
        destruct (Full i j (cv g i) (cv g j)) as (Ni & Ei & El); auto; try (eapply order_ids; eassumption).
        destruct (Full j i (cv g j) (cv g i)) as (Nj & Ej & _); auto; try (eapply order_ids; eassumption).
        assert (Fn : forall x, cv g x <> [] -> everywhere (cv g x) -> first g x <> None). { intros x Nx Ex. unfold first. inversion Ex; cbn; [congruence|assumption]. }
        split; [|split; [auto|]].
        + destruct X as [[_ X]|[[X1 X2]|(X1 & _ & _)]]; [exact X| |]; exfalso; [exact (Fn j Nj Ej X2)|exact (Fn i Ni Ei X1)].
        + clear - Ag Ei Ej El. revert Ag Ei Ej El. generalize (cv g i) (cv g j). intros v. induction v as [|x v IH]; intros [|y w] Ag Ei Ej El; try discriminate; [reflexivity|].
          inversion Ei as [|? ? Hx Ei']; subst. inversion Ej as [|? ? Hy Ej']; subst. destruct x as [x|]; [|congruence]. destruct y as [y|]; [|congruence].
          f_equal; [f_equal; apply (Ag 0); split; reflexivity|]. apply IH; auto. intros k a b Hb. exact (Ag (S k) a b Hb).
    Qed.
  End Whole.

  Lemma rec_eqb_eq (a b : recexpr O) : rec_eqb L a b = true <-> a = b.
  Proof.
    unfold rec_eqb. rewrite andb_true_iff, Nat.eqb_eq, forallb_forall. split.
    - intros [El H]. revert b El H. induction a as [|n a IH]; intros [|m b] El H; try discriminate; [reflexivity|]. f_equal.
      + specialize (H (n, m) (or_introl eq_refl)). cbn in H. now apply (node_eqb_eq O (l_eqb L) (rg_eqb L ar R)) in H.
      + apply IH; [now injection El|]. intros p Hp. apply H. now right.
    - intros <-. split; [reflexivity|]. intros [n m] Hp. cbn. apply (node_eqb_eq O (l_eqb L) (rg_eqb L ar R)). clear - Hp. induction a as [|x a IH]; [destruct Hp|]. destruct Hp as [Hp|Hp]; [congruence|auto].
  Qed.
  Lemma tcost_max allowed (t : term O) : (tcost allowed t < usize_max)%N <-> all_allowed allowed t = true /\ (tsize t < usize_max)%N.
  Proof. unfold tcost. destruct (all_allowed allowed t); split; [intros; split; [reflexivity|lia]|intros [_ H]; lia|lia|intros [H _]; discriminate]. Qed.

  Theorem extract_candidates_spec (g1 g2 : eg) : wf g1 -> congruent g1 -> ready L ar g1 -> size g1 <= size g2 ->
    forall arrange order uorder, (forall l, Permutation l (arrange l)) -> Permutation (class_ids g1) order -> (forall l, Permutation l (uorder l)) ->
    exists f0 best, (forall i, i < size g1 -> smallest (l_allowed L) g1 i (best i)) /\
      forall f, f0 <= f -> exists rs, extract_candidates L f arrange order uorder g1 g2 = Val rs /\ ruleset_ok (l_from_op L) (l_name L) ar rs /\
        (forall k, In k (map fst rs) <-> exists i j, find g1 i = Val i /\ find g1 j = Val j /\ i <> j /\ eqv g2 i j /\
          (exists t, repr g1 t i /\ all_allowed (l_allowed L) t = true /\ (tsize t < usize_max)%N) /\
          (exists t, repr g1 t j /\ all_allowed (l_allowed L) t = true /\ (tsize t < usize_max)%N) /\
          named L (best i) (best j) k).
  Proof.
    intros W Cg Rd Sz arrange order uorder arrange_ok order_ok uorder_ok.
    destruct (best_all g1 W (l_allowed L) arrange arrange_ok order order_ok) as (f0 & t & best & cost & E & F & B).
    destruct (merged_pairs_spec g1 g2 order uorder order_ok uorder_ok Sz) as (ps & Eps & Hps).
    exists f0, best. split; [intros i Hi; apply B; exact Hi|]. intros f Hf. unfold extract_candidates. rewrite (E f Hf). cbn [rbind]. rewrite Eps. cbn [rbind].
    assert (Hl : forall i j, In (i, j) ps -> i < size g1 /\ j < size g1). { intros i j H. apply Hps in H as (H1 & H2 & _). split; eapply find_some; eassumption. }
    rewrite (best_pairs g1 f t best cost ps (fun i Hi => F f i Hf Hi) Hl). cbn [rbind].
    set (q := fun p : nat * nat => wanted L (cost (fst p), best (fst p), (cost (snd p), best (snd p)))).
    assert (Fq : forall l, map (fun p : (N * recexpr O) * (N * recexpr O) => (snd (fst p), snd (snd p))) (List.filter (wanted L) (map (fun p => (cost (fst p), best (fst p), (cost (snd p), best (snd p)))) l)) =
      map (fun p => (best (fst p), best (snd p))) (List.filter q l)).
    { induction l as [|p l IH]; cbn [map List.filter]; [reflexivity|]. fold (q p). destruct (q p); cbn [map fst snd]; now rewrite IH. }
    rewrite Fq. destruct (propose_spec g1 Rd (map (fun p => (best (fst p), best (snd p))) (List.filter q ps)) [] ok_nil) as (rs & Ers & Ok & K).
    { intros e1 e2 H. apply in_map_iff in H as ([i j] & Ex & H). cbn in Ex. injection Ex as <- <-. apply filter_In in H as [H _]. destruct (Hl i j H) as [Hi Hj]. split; apply B; assumption. }
    exists rs. split; [exact Ers|]. split; [exact Ok|].
    assert (Cost : forall i, i < size g1 -> cost i <> usize_max <-> exists t, repr g1 t i /\ all_allowed (l_allowed L) t = true /\ (tsize t < usize_max)%N).
    { intros i Hi. destruct (B i Hi) as ((u & Tu & Ru & Mu) & _ & (u' & Tu' & ->)). assert (u' = u) by congruence. subst u'.
      assert (tcost (l_allowed L) u <= usize_max)%N by (unfold tcost; destruct (all_allowed _ u); lia).
      split.
      - intros Nm. exists u. split; [exact Ru|]. apply tcost_max. lia.
      - intros (v & Rv & Hv). apply tcost_max in Hv. specialize (Mu v Rv). lia. }
    assert (Same : forall i j, find g1 i = Val i -> find g1 j = Val j -> best i = best j -> i = j).
    { intros i j Hi Hj Eb. destruct (B i (find_some _ _ _ Hi)) as ((u & Tu & Ru & _) & _). destruct (B j (find_some _ _ _ Hj)) as ((v & Tv & Rv & _) & _).
      assert (u = v) by congruence. subst v. destruct (repr_cong g1 Cg u i Ru j Rv) as (r & E1 & E2). congruence. }
    intros k. rewrite K. split.
    - intros [[]|(e1 & e2 & H & N)]. apply in_map_iff in H as ([i j] & Ex & H). cbn in Ex. injection Ex as <- <-. apply filter_In in H as [H Hq].
      apply Hps in H as (H1 & H2 & H3). unfold q, wanted in Hq. cbn [fst snd] in Hq. apply andb_true_iff in Hq as [Q1 Q2]. apply negb_true_iff, orb_false_iff in Q1 as [Q1 Q1']. apply N.eqb_neq in Q1, Q1'.
      apply negb_true_iff in Q2. exists i, j. split; [exact H1|]. split; [exact H2|]. split.
      + intros ->. rewrite (proj2 (rec_eqb_eq _ _) eq_refl) in Q2. discriminate.
      + split; [exact H3|]. split; [apply Cost; [eapply find_some; eassumption|exact Q1]|]. split; [apply Cost; [eapply find_some; eassumption|exact Q1']|exact N].
    - intros (i & j & H1 & H2 & Ne & H3 & A1 & A2 & N). right. exists (best i), (best j). split; [|exact N]. apply in_map_iff. exists (i, j). split; [reflexivity|].
      apply filter_In. split; [apply Hps; auto|]. unfold q, wanted. cbn [fst snd]. apply Cost in A1, A2; try (eapply find_some; eassumption).
      apply N.eqb_neq in A1, A2. rewrite A1, A2. cbn [orb negb andb]. apply negb_true_iff. destruct (rec_eqb L (best i) (best j)) eqn:Er; [|reflexivity].
      apply rec_eqb_eq in Er. destruct Ne. exact (Same i j H1 H2 Er).
  Qed.
End Match.
