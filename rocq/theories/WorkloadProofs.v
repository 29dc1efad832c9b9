From Coq Require Import Permutation.
From Verif Require Import Base BaseProofs Sexp Pattern Filter Workload EnumSpec SexpProofs CanonProofs PatternProofs FilterProofs.

Section WInd.
  Variable P : workload -> Prop.
  Hypothesis H1 : forall l, P (WSet l).
  Hypothesis H2 : forall w a p, P w -> P p -> P (WPlug w a p).
  Hypothesis H3 : forall f w, P w -> P (WFilter f w).
  Hypothesis H4 : forall ws, Forall P ws -> P (WAppend ws).
  Fixpoint workload_ind' (w : workload) : P w :=
    match w with
    | WSet l => H1 l
    | WPlug w a p => H2 w a p (workload_ind' w) (workload_ind' p)
    | WFilter f w => H3 f w (workload_ind' w)
    | WAppend ws => H4 ws ((fix go (l : list workload) : Forall P l :=
                        match l with
                        | [] => Forall_nil _
                        | t :: r => Forall_cons _ (workload_ind' t) (go r)
                        end) ws)
    end.
End WInd.

(* total version of force, used only in proofs *)
Fixpoint pforce (w : workload) : list sexp :=
  match w with
  | WSet l => l
  | WPlug w name pegs => flat_map (plug name (pforce pegs)) (pforce w)
  | WFilter f w => List.filter (ptest f) (pforce w)
  | WAppend ws => concat (map pforce ws)
  end.

Lemma force_pforce w ts : force w = Val ts -> ts = pforce w.
Proof.
  revert ts; induction w as [l|w a p IHw IHp|f w IH|ws IH] using workload_ind'; intros ts H; cbn [force pforce] in *.
  - now inversion H.
  - inv_bind H. inv_bind H. apply IHp in E. apply IHw in E0. subst. now inversion H.
  - inv_bind H. apply IH in E. subst. eapply rfilter_pure_inv; [|eassumption].
    intros x b _ Hx. now apply test_ptest.
  - inv_bind H. inversion H; subst. f_equal. rewrite Forall_forall in IH.
    eapply rmapM_pure_inv; [|eassumption]. intros x y Hx Hy. now apply IH.
Qed.

Lemma in_plug_proper a pegs t t' :
  Forall (fun t => proper t = true) pegs -> proper t = true -> In t' (plug a pegs t) -> proper t' = true.
Proof.
  intros Hp Ht H. apply plug_sound in H. eapply fill_proper; [|eassumption|eassumption].
  intros q Hq. rewrite Forall_forall in Hp. auto.
Qed.

Lemma force_proper w :
  wproper w -> force w = Val (pforce w) /\ Forall (fun t => proper t = true) (pforce w).
Proof.
  induction w as [l|w a p IHw IHp|f w IH|ws IH] using workload_ind'; cbn [wproper force pforce]; intros H.
  - auto.
  - destruct H as [Hw Hp]. destruct (IHw Hw) as [-> Fw], (IHp Hp) as [-> Fp]. split; [reflexivity|].
    apply Forall_forall. intros t Ht. apply in_flat_map in Ht as [s [Hs Ht]].
    rewrite Forall_forall in Fw. eapply in_plug_proper; eauto.
  - destruct (IH H) as [-> F]. cbn [rbind]. split.
    + apply rfilter_pure. intros t Ht. apply test_proper. rewrite Forall_forall in F; auto.
    + apply Forall_forall. intros t Ht. apply filter_In in Ht as [Ht _]. rewrite Forall_forall in F; auto.
  - assert (Hws : forall w, In w ws -> force w = Val (pforce w) /\ Forall (fun t => proper t = true) (pforce w)).
    { induction IH as [|w ws Hw Hws IHws]; [intros w []|]. simpl in H. destruct H as [H1 H2].
      intros w' [<-|Hw']; auto. }
    split.
    + rewrite (rmapM_pure force pforce); [reflexivity|]. intros w Hw. now apply Hws.
    + apply Forall_forall. intros t Ht. apply in_concat in Ht as [l [Hl Ht]].
      apply in_map_iff in Hl as [w [<- Hw]]. destruct (Hws w Hw) as [_ F]. rewrite Forall_forall in F; auto.
Qed.

(* ---- filtering commutes with cartesian products ---- *)

Lemma filter_idem {A} (T : A -> bool) l : List.filter T (List.filter T l) = List.filter T l.
Proof.
  induction l as [|x l IH]; [reflexivity|]. simpl. destruct (T x) eqn:E; simpl; rewrite ?E; congruence.
Qed.

Lemma filter_refine {A} (T T' : A -> bool) l :
  (forall x, In x l -> T x = true -> T' x = true) ->
  List.filter T (List.filter T' l) = List.filter T l.
Proof.
  induction l as [|x l IH]; intros H; [reflexivity|]. simpl.
  assert (Hl : forall y, In y l -> T y = true -> T' y = true) by (intros; apply H; simpl; auto).
  destruct (T' x) eqn:E'.
  - simpl. rewrite IH by assumption. reflexivity.
  - destruct (T x) eqn:E; [|auto]. rewrite (H x) in E'; simpl; auto; discriminate.
Qed.

Lemma filter_map {A B} (T : B -> bool) (f : A -> B) l :
  List.filter T (map f l) = map f (List.filter (fun x => T (f x)) l).
Proof. induction l as [|x l IH]; [reflexivity|]. simpl. destruct (T (f x)); simpl; congruence. Qed.

Lemma filter_flat_map {A B} (T : B -> bool) (f : A -> list B) l :
  List.filter T (flat_map f l) = flat_map (fun x => List.filter T (f x)) l.
Proof. induction l as [|x l IH]; [reflexivity|]. simpl. now rewrite filter_app, IH. Qed.

Lemma filter_cart {A} (T : A -> bool) ls :
  List.filter (forallb T) (cart ls) = cart (map (List.filter T) ls).
Proof.
  induction ls as [|l ls IH]; [reflexivity|]. cbn [cart map]. rewrite <- IH.
  rewrite filter_flat_map. clear IH. induction l as [|x l IH]; [reflexivity|].
  cbn [flat_map List.filter]. rewrite filter_map. cbn [forallb].
  destruct (T x) eqn:E; cbn [flat_map andb].
  - now rewrite IH.
  - rewrite IH. replace (List.filter (fun _ => false) (cart ls)) with (@nil (list A)); [reflexivity|].
    clear. induction (cart ls); auto.
Qed.

Lemma plug_filter_hereditary (T : sexp -> bool) a pegs t :
  (forall s u, subterm s u -> T u = true -> T s = true) ->
  List.filter T (plug a (List.filter T pegs) t) = List.filter T (plug a pegs t).
Proof.
  intros Hh. induction t as [s|l IH] using sexp_ind'.
  - simpl. destruct (String.eqb s a); [apply filter_idem|reflexivity].
  - destruct l as [|x l]; [reflexivity|]. rewrite !plug_list by congruence.
    remember (x :: l) as ls eqn:E; clear E x l. rewrite !filter_map. f_equal.
    rewrite <- (filter_refine (fun x => T (Lst x)) (forallb T)).
    + rewrite <- (filter_refine (fun x => T (Lst x)) (forallb T) (cart (map (plug a pegs) ls))).
      * rewrite !filter_cart. do 2 f_equal. rewrite !map_map. apply map_ext_in.
        rewrite Forall_forall in IH. auto.
      * intros ts _ HT. apply forallb_forall. intros u Hu. apply (Hh u (Lst ts)); [|assumption].
        eapply sub_in; [eassumption|constructor].
    + intros ts _ HT. apply forallb_forall. intros u Hu. apply (Hh u (Lst ts)); [|assumption].
      eapply sub_in; [eassumption|constructor].
Qed.

Lemma filter_andb {A} (T T' : A -> bool) l :
  List.filter (fun x => T x && T' x) l = List.filter T' (List.filter T l).
Proof.
  induction l as [|x l IH]; [reflexivity|]. simpl. destruct (T x); simpl; [destruct (T' x)|]; congruence.
Qed.

Lemma pforce_wfilter w : forall f, pforce (wfilter w f) = List.filter (ptest f) (pforce w).
Proof.
  induction w as [l|w a p IHw IHp|g w IH|ws IH] using workload_ind'; intros f; cbn [wfilter]; try reflexivity.
  - destruct (is_monotonic f) eqn:Hm; [|reflexivity]. cbn [pforce]. rewrite IHp.
    rewrite !filter_flat_map. apply flat_map_ext. intros t.
    apply plug_filter_hereditary. intros s u Hs Hu. eapply is_monotonic_ptest; eauto.
  - rewrite IH. cbn [pforce]. rewrite <- filter_andb. apply filter_ext. intros t. apply fand_ptest.
Qed.

Lemma wproper_wfilter w f : wproper w -> wproper (wfilter w f).
Proof.
  revert f; induction w as [l|w a p IHw IHp|g w IH|ws IH] using workload_ind'; intros f H; cbn [wfilter]; try exact H.
  - destruct (is_monotonic f); cbn [wproper] in *; intuition.
  - apply IH. exact H.
Qed.

Lemma wfilter_exact w f ts us :
  force (wfilter w f) = Val us -> force w = Val ts -> us = List.filter (ptest f) ts.
Proof.
  intros H1 H2. apply force_pforce in H1, H2. subst. apply pforce_wfilter.
Qed.

Lemma wfilter_agrees w f ts us :
  force (wfilter w f) = Val us -> force (WFilter f w) = Val ts -> us = ts.
Proof.
  intros H1 H2. apply force_pforce in H1, H2. subst. cbn [pforce]. apply pforce_wfilter.
Qed.

(* ---- append ---- *)

Lemma pforce_wappend a b : Permutation (pforce (wappend a b)) (pforce a ++ pforce b).
Proof.
  assert (Hap : forall xs ys, concat (map pforce (xs ++ ys)) = concat (map pforce xs) ++ concat (map pforce ys))
    by (intros; rewrite map_app, concat_app; reflexivity).
  destruct a, b; cbn [wappend pforce]; rewrite ?Hap; cbn [map concat pforce];
    rewrite ?app_nil_r; try reflexivity; try apply Permutation_app_comm.
Qed.

Definition not_append (w : workload) : bool := match w with WAppend _ => false | _ => true end.

Lemma pforce_wappend_order a b :
  not_append a = false \/ not_append b = true -> pforce (wappend a b) = pforce a ++ pforce b.
Proof.
  assert (Hap : forall xs ys, concat (map pforce (xs ++ ys)) = concat (map pforce xs) ++ concat (map pforce ys))
    by (intros; rewrite map_app, concat_app; reflexivity).
  intros H; destruct a, b; cbn [wappend pforce not_append] in *; rewrite ?Hap; cbn [map concat pforce];
    rewrite ?app_nil_r; try reflexivity; destruct H; discriminate.
Qed.

Definition flist (ws : list workload) : res (list sexp) :=
  let* tss := rmapM force ws in Val (concat tss).
Definition app_list (w : workload) : list workload :=
  match w with WAppend ws => ws | _ => [w] end.

Lemma flist_app l1 l2 :
  flist (l1 ++ l2) = let* x := flist l1 in let* y := flist l2 in Val (x ++ y).
Proof.
  unfold flist. induction l1 as [|w l1 IH].
  - simpl. destruct (rmapM force l2); reflexivity.
  - cbn [app rmapM]. destruct (force w) as [v|]; [|reflexivity]. cbn [rbind].
    destruct (rmapM force (l1 ++ l2)) as [v12|], (rmapM force l1) as [v1|], (rmapM force l2) as [v2|];
      cbn [rbind] in *; try discriminate; try reflexivity.
    inversion IH as [E]. f_equal. cbn [concat]. rewrite E. now rewrite app_assoc.
Qed.

Lemma flist_app_list w : flist (app_list w) = force w.
Proof.
  destruct w; try reflexivity; unfold flist, app_list; cbn [rmapM];
    match goal with |- context [force ?w] => destruct (force w) end; cbn [rbind concat]; rewrite ?app_nil_r; reflexivity.
Qed.

Lemma wappend_cases a b :
  (exists xs ys, a = WSet xs /\ b = WSet ys /\ wappend a b = WSet (xs ++ ys)) \/
  wappend a b = WAppend (app_list a ++ app_list b) \/
  (not_append a = true /\ not_append b = false /\ wappend a b = WAppend (app_list b ++ app_list a)).
Proof. destruct a, b; simpl; eauto 10. Qed.

Lemma force_wappend a b xs ys :
  force a = Val xs -> force b = Val ys ->
  exists zs, force (wappend a b) = Val zs /\ Permutation zs (xs ++ ys) /\
    (not_append a = false \/ not_append b = true -> zs = xs ++ ys).
Proof.
  intros Ha Hb.
  destruct (wappend_cases a b) as [[l1 [l2 [-> [-> ->]]]]|[->|[Hna [Hnb ->]]]].
  - cbn [force] in *. inversion Ha; inversion Hb; subst. eauto.
  - exists (xs ++ ys). split; [|auto].
    change (flist (app_list a ++ app_list b) = Val (xs ++ ys)).
    rewrite flist_app, !flist_app_list, Ha, Hb. reflexivity.
  - exists (ys ++ xs). split; [|split].
    + change (flist (app_list b ++ app_list a) = Val (ys ++ xs)).
      rewrite flist_app, !flist_app_list, Ha, Hb. reflexivity.
    + apply Permutation_app_comm.
    + rewrite Hna, Hnb. intros [H|H]; discriminate.
Qed.

(* append introduces no panic of its own *)
Lemma force_wappend_val a b zs :
  force (wappend a b) = Val zs -> (exists xs, force a = Val xs) /\ (exists ys, force b = Val ys).
Proof.
  destruct (wappend_cases a b) as [[l1 [l2 [-> [-> ->]]]]|[->|[Hna [Hnb ->]]]].
  - cbn; eauto.
  - change (force (WAppend (app_list a ++ app_list b))) with (flist (app_list a ++ app_list b)).
    rewrite flist_app, !flist_app_list. intros H. inv_bind H. inv_bind H. rewrite E, E0. eauto.
  - change (force (WAppend (app_list b ++ app_list a))) with (flist (app_list b ++ app_list a)).
    rewrite flist_app, !flist_app_list. intros H. inv_bind H. inv_bind H. rewrite E, E0. eauto.
Qed.

(* ---- plug ---- *)

Lemma force_WPlug w a pegs ts ps :
  force w = Val ts -> force pegs = Val ps -> force (WPlug w a pegs) = Val (flat_map (plug a ps) ts).
Proof. intros Hw Hp. cbn [force]. now rewrite Hp, Hw. Qed.

Lemma contains_lit a t : contains (PLit a) t = true <-> occurs a t.
Proof.
  rewrite contains_iff. unfold occurs. split.
  - intros [s [sigma [Hs Hi]]]. inversion Hi; subst.
    induction t as [x|l IH] using sexp_ind'.
    + apply subterm_atom in Hs. inversion Hs; subst. now left.
    + apply subterm_list in Hs as [Hs|[u [Hu Hs]]]; [discriminate|].
      simpl. apply in_flat_map. exists u. split; [assumption|]. rewrite Forall_forall in IH. auto.
  - intros H. exists (Atom a), (fun _ => Atom ""). split; [|constructor].
    induction t as [x|l IH] using sexp_ind'; simpl in H.
    + destruct H as [->|[]]. constructor.
    + apply in_flat_map in H as [u [Hu H]]. rewrite Forall_forall in IH. eapply sub_in; eauto.
Qed.

Lemma plug_nil a t :
  proper t = true -> plug a [] t = if contains (PLit a) t then [] else [t].
Proof.
  intros Hp. destruct (contains (PLit a) t) eqn:E.
  - apply contains_lit in E. destruct (plug a [] t) as [|u us] eqn:Eu; [reflexivity|].
    assert (H : In u (plug a [] t)) by (rewrite Eu; now left).
    apply plug_sound in H. destruct (fill_hole_exists _ _ _ _ E H) as [q [[] _]].
  - assert (Ho : ~ occurs a t) by (rewrite <- contains_lit; congruence).
    assert (Hall : forall u, In u (plug a [] t) <-> u = t).
    { intros u. rewrite plug_exact by assumption. split.
      - intros H. eapply fill_no_hole; eauto.
      - intros ->. now apply fill_id. }
    assert (Hlen : length (plug a [] t) = 1).
    { rewrite plug_length by assumption. unfold occurrences.
      assert (count_occ string_dec (leaves t) a = 0) as ->; [|reflexivity].
      now apply count_occ_not_In. }
    destruct (plug a [] t) as [|u [|v us]]; try discriminate.
    f_equal. apply Hall. now left.
Qed.

Lemma flat_map_plug_nil a ts :
  Forall (fun t => proper t = true) ts ->
  flat_map (plug a []) ts = List.filter (fun t => negb (contains (PLit a) t)) ts.
Proof.
  induction 1 as [|t ts Ht Hts IH]; [reflexivity|]. cbn [flat_map List.filter].
  rewrite plug_nil by assumption. destruct (contains (PLit a) t); simpl; now rewrite IH.
Qed.

Lemma keeps_filter {A} (P : A -> Prop) (T : A -> bool) l :
  (forall x, In x l -> (T x = true <-> P x)) -> keeps P l (List.filter T l).
Proof.
  induction l as [|x l IH]; intros H; [constructor|]. simpl.
  assert (Hl : forall y, In y l -> (T y = true <-> P y)) by (intros; apply H; simpl; auto).
  pose proof (H x (or_introl eq_refl)) as Hx. destruct (T x).
  - constructor; [now apply Hx|auto].
  - constructor; [|auto]. intros Px. apply Hx in Px. discriminate.
Qed.

Lemma wfilter_keeps w f :
  wproper w -> syms_ok f ->
  exists ts us, force w = Val ts /\ force (wfilter w f) = Val us /\ keeps (sat f) ts us.
Proof.
  intros Hw Hok. exists (pforce w), (pforce (wfilter w f)).
  split; [now apply force_proper|]. split; [now apply force_proper, wproper_wfilter|].
  rewrite pforce_wfilter. apply keeps_filter. intros t _. now apply ptest_sat.
Qed.

Lemma wfilter_test w f :
  wproper w ->
  exists ts us, force w = Val ts /\ force (wfilter w f) = Val us /\
    us = List.filter (fun t => match test f t with Val b => b | Panic => false end) ts /\
    (forall t, In t ts -> exists b, test f t = Val b).
Proof.
  intros Hw. exists (pforce w), (pforce (wfilter w f)). destruct (force_proper w Hw) as [H1 H2].
  split; [assumption|]. split; [now apply force_proper, wproper_wfilter|].
  rewrite pforce_wfilter. rewrite Forall_forall in H2. split.
  - apply filter_ext_in. intros t Ht. now rewrite test_proper by auto.
  - intros t Ht. rewrite test_proper by auto. eauto.
Qed.

Lemma wplug_exact w name pegs w' ts ps :
  wproper w -> wproper pegs -> force w = Val ts -> force pegs = Val ps ->
  (pegs = WSet [] -> pattern_from_str name = Val (PLit name)) ->
  wplug w name pegs = Val w' ->
  force w' = Val (flat_map (plug name ps) ts).
Proof.
  intros Hw Hp Hfw Hfp Hn E.
  destruct pegs as [[|x l]| | |]; try (inversion E; subst; now apply force_WPlug).
  unfold wplug in E. rewrite Hn in E by reflexivity. cbn in E. inversion E; subst.
  cbn in Hfp. inversion Hfp; subst.
  destruct (force_proper _ (wproper_wfilter w (Excludes (PLit name)) Hw)) as [-> _]. f_equal.
  rewrite pforce_wfilter. apply force_pforce in Hfw. subst.
  rewrite flat_map_plug_nil by now apply force_proper. reflexivity.
Qed.
