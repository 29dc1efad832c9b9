(* E-graph operations go through: when the data of the classes are true of values and
   the rules that are run are true, nothing that is done to the e-graph panics, and
   rebuilding ends.  The operations either leave the e-graph as it is or bring the
   potential (classes, and constants that are not there yet) down; between two such
   steps the data of the classes only get better. *)
From Coq Require Import Permutation.
From Verif Require Import Base BaseProofs Lang LangProofs Rule Ruleset Analysis Generalize Egraph EgraphSpec EgraphProofs EgraphSound Synth Apply Sched SynthSpec SynthProofs DeriveProofs InvProofs RuleTextProofs OpsSpec LiveSpec.
Open Scope list_scope.

Lemma filter_length_le {X} (p q : X -> bool) l : (forall x, In x l -> p x = true -> q x = true) -> length (List.filter p l) <= length (List.filter q l).
Proof.
  induction l as [|a l IH]; intros H; [cbn; lia|]. cbn. assert (IH' := IH (fun x I => H x (or_intror I))). specialize (H a (or_introl eq_refl)).
  destruct (p a), (q a); cbn; try lia; discriminate (H eq_refl).
Qed.
Lemma filter_length_lt {X} (p q : X -> bool) l y : (forall x, In x l -> p x = true -> q x = true) -> In y l -> p y = false -> q y = true ->
  length (List.filter p l) < length (List.filter q l).
Proof.
  induction l as [|a l IH]; intros H I Py Qy; [destruct I|]. cbn. pose proof (filter_length_le p q l (fun x I => H x (or_intror I))) as Le.
  destruct I as [->|I].
  - rewrite Py, Qy. cbn. lia.
  - pose proof (IH (fun x I => H x (or_intror I)) I Py Qy). specialize (H a (or_introl eq_refl)). destruct (p a), (q a); cbn; try lia; discriminate (H eq_refl).
Qed.
Lemma sum_set_nth {X} (mu : X -> nat) l i x y : nth_error l i = Some y -> list_sum (map mu (set_nth l i x)) + mu y = list_sum (map mu l) + mu x.
Proof.
  revert i. induction l as [|a l IH]; intros [|i] H; cbn in H; try discriminate H.
  - injection H as ->. unfold set_nth. cbn. lia.
  - specialize (IH i H). change (set_nth (a :: l) (S i) x) with (a :: set_nth l i x). cbn [map]. unfold list_sum in *. cbn [fold_right]. lia.
Qed.

Section Live.
  Context {O C V : Type}.
  Variable L : lang O C.
  Hypothesis eqb_eq : forall a b, l_eqb L a b = true <-> a = b.
  Variable keep : eg O C -> nat -> nat -> bool.
  Variable Q : O -> nat -> Prop.             (* operators in use *)
  Variable sem : O -> list V -> V.
  Variable vok : V -> Prop.
  Variable dok : V -> sig O C -> Prop.       (* the data are true of the value *)
  Variable P : nat -> sig O C -> Prop.       (* lengths of vectors, ends of intervals *)
  Variable okan : nat -> Prop.
  Variable mu : sig O C -> nat.
  Variable KL : list O.                      (* the operators of constants *)
  Hypothesis dok_vok : forall v d, dok v d -> vok v.
  Hypothesis Q_vok : forall o vs, Q o (length vs) -> Forall vok vs -> vok (sem o vs).
  Hypothesis make_dok : forall a n ds d val, Forall2 (fun c x => dok (val c) x) (nch n) ds -> vok (sem (nop n) (map val (nch n))) ->
    s_make L a n ds = Val d -> dok (sem (nop n) (map val (nch n))) d.
  Hypothesis merge_dok : forall v d1 d2 d c, dok v d1 -> dok v d2 -> s_merge L d1 d2 = Val (d, c) -> dok v d.
  Hypothesis P_make : forall a n ds d, Q (nop n) (length (nch n)) -> length ds = length (nch n) -> Forall (P a) ds -> s_make L a n ds = Val d -> P a d.
  Hypothesis P_merge : forall a x y d ch, P a x -> P a y -> s_merge L x y = Val (d, ch) -> P a d.
  Hypothesis make_live : forall a n ds val, okan a -> Q (nop n) (length (nch n)) -> Forall2 (fun c d => dok (val c) d) (nch n) ds -> Forall (P a) ds ->
    exists d, s_make L a n ds = Val d.
  Hypothesis merge_live : forall a v x y, okan a -> dok v x -> dok v y -> P a x -> P a y ->
    exists d ch, s_merge L x y = Val (d, ch) /\ (fst ch = true -> mu d < mu x).
  Hypothesis custom_none : forall g i, l_custom L g i = Val [].
  Hypothesis const_op : forall v d a b, dok v d -> low (sg_itv d) = Some a -> high (sg_itv d) = Some b -> l_ceqb L a b = true ->
    exists o, l_const L a = [Node o []] /\ sem o [] = v /\ In o KL.
  Hypothesis P_const : forall a d x y, P a d -> low (sg_itv d) = Some x -> high (sg_itv d) = Some y -> l_ceqb L x y = true -> Forall (okn Q) (l_const L x).
  Hypothesis const_one : forall v d a b d' a' b', dok v d -> low (sg_itv d) = Some a -> high (sg_itv d) = Some b -> l_ceqb L a b = true ->
    dok v d' -> low (sg_itv d') = Some a' -> high (sg_itv d') = Some b' -> l_ceqb L a' b' = true -> l_const L a = l_const L a'.

  Local Notation nv := (fun _ : O => false).
  Local Notation ole := (fun _ _ : sig O C => True).
  Local Notation inv := (@InvProofs.inv O (sig O C) nat Q nv P).
  Local Notation step := (@InvProofs.step O (sig O C) nat Q nv P ole).
  Local Notation snd_ := (sound sem dok).
  Lemma lP_make : forall a n ds d, Q (nop n) (length (nch n)) -> length ds = length (nch n) -> Forall (P a) ds ->
    s_make L a n ds = Val d -> P a d /\ (nv (nop n) = false -> P a d).
  Proof. intros. split; eauto. Qed.
  Lemma lP_merge : forall a x y d ch, P a x -> P a y -> s_merge L x y = Val (d, ch) -> P a d /\ ole x d /\ (P a y -> ole y d).
  Proof. intros. split; eauto. Qed.
  Lemma l_refl : forall d, ole d d. Proof. intros; exact Logic.I. Qed.
  Lemma l_trans : forall d e f, ole d e -> ole e f -> ole d f. Proof. intros; exact Logic.I. Qed.
  Lemma l_leaf : forall o k, nv o = true -> Q o k -> k = 0. Proof. intros o k H. discriminate H. Qed.
  Lemma l_weak : forall a d, P a d -> P a d. Proof. auto. Qed.
  Lemma l_custom_ok : forall (g : eg O C) i ts, wf g -> inv g -> i < size g -> l_custom L g i = Val ts -> Forall (Forall (okn Q)) ts.
  Proof. intros g i ts _ _ _ E. rewrite custom_none in E. injection E as <-. constructor. Qed.
  Local Notation INV f := (f L eqb_eq keep Q nv P P ole l_refl l_trans l_leaf l_weak lP_make lP_merge l_custom_ok P_const).

  (* an e-graph whose classes have values *)
  Record live (val : nat -> V) (g : eg O C) : Prop := {
    lv_wf : wf g; lv_inv : inv g; lv_sound : snd_ val g; lv_an : okan (g_an g) }.
  Record grows (val : nat -> V) (g : eg O C) (val' : nat -> V) (g' : eg O C) : Prop := {
    gr_live : live val' g'; gr_ext : ext g g'; gr_val : forall i, i < size g -> val' i = val i; gr_an : g_an g' = g_an g }.
  Lemma grows_refl : forall val g, live val g -> grows val g val g.
  Proof. intros val g Lv. constructor; auto using ext_refl. Qed.
  Lemma grows_trans : forall v1 g1 v2 g2 v3 g3, grows v1 g1 v2 g2 -> grows v2 g2 v3 g3 -> grows v1 g1 v3 g3.
  Proof.
    intros v1 g1 v2 g2 v3 g3 [L1 E1 V1 A1] [L2 E2 V2 A2]. constructor; [exact L2|exact (ext_trans _ _ _ E1 E2)| |congruence].
    intros i Li. rewrite V2, V1; auto. destruct E1 as (Sz & _). lia.
  Qed.
  (* the invariant and the values carry over separately *)
  Lemma grown : forall val g g', live val g -> step g g' -> carries sem dok val g g' -> exists val', grows val g val' g'.
  Proof.
    intros val g g' Lv [W E A I _] (val' & Ag & S). exists val'. constructor; auto. constructor; auto. rewrite A. exact (lv_an _ _ Lv).
  Qed.
  Lemma class_data_val : forall (g : eg O C) i, wf g -> i < size g -> exists d, class_data g i = Val d.
  Proof.
    intros g i W Li. destruct (find_val g i Li) as (r & F). unfold class_data. rewrite F. cbn [rbind].
    destruct (index_lt _ (g_data g) r) as (d & E & _); [|eauto]. rewrite (wf_data g W). exact (find_some _ _ _ (wf_rep g W _ _ F)).
  Qed.
  Lemma live_dok : forall val g i d, live val g -> class_data g i = Val d -> dok (val i) d /\ P (g_an g) d.
  Proof.
    intros val g i d Lv H. split; [exact (proj2 (lv_sound _ _ Lv) i d H)|]. exact (class_P Q nv P g i d (lv_inv _ _ Lv) H).
  Qed.
  Lemma live_vok : forall val g i, live val g -> i < size g -> vok (val i).
  Proof. intros val g i Lv Li. exact (sound_vok sem dok vok dok_vok val g i (lv_wf _ _ Lv) (lv_sound _ _ Lv) Li). Qed.
  Lemma live_voks : forall val g l, live val g -> Forall (fun c => c < size g) l -> Forall vok (map val l).
  Proof. intros val g l Lv F. induction F as [|c l H F IH]; cbn; constructor; auto. exact (live_vok val g c Lv H). Qed.
  Lemma live_eqv : forall val g i j, live val g -> eqv g i j -> val i = val j.
  Proof. intros val g i j Lv. exact (proj1 (proj1 (lv_sound _ _ Lv)) i j). Qed.
  Lemma datas_val : forall val g l, live val g -> Forall (fun c => c < size g) l ->
    exists ds, rmapM (class_data g) l = Val ds /\ Forall2 (fun c d => dok (val c) d) l ds /\ Forall (P (g_an g)) ds.
  Proof.
    intros val g l Lv F. induction F as [|c l H F (ds & E & F1 & F2)]; [exists []; repeat constructor|].
    destruct (class_data_val g c (lv_wf _ _ Lv) H) as (d & Ed). destruct (live_dok val g c d Lv Ed) as [Dk Pd].
    exists (d :: ds). cbn [rmapM]. rewrite Ed. cbn [rbind]. rewrite E. cbn [rbind]. repeat split; constructor; auto.
  Qed.

  (* ---- the potential ---- *)
  Definition there (g : eg O C) (o : O) : bool := match get_node (l_eqb L) (g_nodes g) (Node o []) with Some _ => true | None => false end.
  Definition missing (g : eg O C) : nat := length (List.filter (fun o => negb (there g o)) KL).
  Definition pot (g : eg O C) : nat := number_of_classes g + missing g.
  Definition weight (g : eg O C) : nat := list_sum (map mu (g_data g)).
  Lemma there_in : forall g o, there g o = true <-> exists i, In (Node o [], i) (g_nodes g).
  Proof.
    intros g o. unfold there. destruct (get_node (l_eqb L) (g_nodes g) (Node o [])) as [i|] eqn:E.
    - split; [|reflexivity]. intros _. exists i. exact (get_node_in _ eqb_eq _ _ _ E).
    - split; [discriminate|]. intros (i & I). destruct (get_node_none _ eqb_eq _ _ E i I).
  Qed.
  Lemma missing_le : forall g g', (forall o i, In (Node o [], i) (g_nodes g) -> exists j, In (Node o [], j) (g_nodes g')) -> missing g' <= missing g.
  Proof.
    intros g g' H. apply filter_length_le. intros o _ X. apply negb_true_iff in X. apply negb_true_iff. destruct (there g o) eqn:E; [|reflexivity].
    apply there_in in E as (i & I). destruct (H o i I) as (j & J). rewrite (proj2 (there_in g' o)) in X; [discriminate X|eauto].
  Qed.
  Lemma missing_lt : forall g g' o, (forall o i, In (Node o [], i) (g_nodes g) -> exists j, In (Node o [], j) (g_nodes g')) -> In o KL ->
    there g o = false -> there g' o = true -> missing g' < missing g.
  Proof.
    intros g g' o H I F T. apply (filter_length_lt _ _ KL o); [|exact I|now rewrite T|now rewrite F].
    intros x _ X. apply negb_true_iff in X. apply negb_true_iff. destruct (there g x) eqn:E; [|reflexivity].
    apply there_in in E as (i & J). destruct (H x i J) as (j & J'). rewrite (proj2 (there_in g' x)) in X; [discriminate X|eauto].
  Qed.
  Lemma classes_new : forall (g : eg O C) n d, wf g -> number_of_classes (EG (g_reps g ++ [size g]) (g_nodes g ++ [(n, size g)]) (g_data g ++ [d]) (g_an g)) = S (number_of_classes g).
  Proof.
    intros g n d W. unfold number_of_classes, class_ids. set (g' := EG _ _ _ _).
    assert (Sz : size g' = S (size g)) by (unfold size; cbn; rewrite app_length; cbn; lia). rewrite Sz, seq_S, filter_app, app_length. cbn [Nat.add List.filter].
    rewrite (find_new g g' eq_refl), Nat.eqb_refl. cbn [length]. rewrite Nat.add_1_r. f_equal. f_equal. apply filter_ext_in. intros i I. apply in_seq in I.
    destruct (find_val g i) as (r & F); [lia|]. now rewrite F, (find_app g g' i eq_refl r F).
  Qed.
  Lemma classes_merged : forall (g : eg O C) k d dt, wf g -> find g k = Val k -> find g d = Val d -> k <> d -> number_of_classes (merged g k d dt) < number_of_classes g.
  Proof.
    intros g k d dt W Fk Fd N. unfold number_of_classes, class_ids. rewrite size_merged. apply (filter_length_lt _ _ _ d).
    - intros i I H. rewrite find_merged in H. destruct (find g i) as [r|] eqn:Fi; [|discriminate H]. cbn in H |- *. destruct (Nat.eqb_spec r d) as [E|_]; [|exact H].
      apply Nat.eqb_eq in H. subst. congruence.
    - apply in_seq. pose proof (find_some _ _ _ Fd). lia.
    - rewrite find_merged, Fd. cbn. rewrite Nat.eqb_refl. now apply Nat.eqb_neq.
    - rewrite Fd. apply Nat.eqb_refl.
  Qed.

  (* ---- modify ---- *)
  Local Notation md k := (s_modify L keep k).
  Definition told (g : eg O C) (i : nat) : Prop := forall d a b o, class_data g i = Val d -> low (sg_itv d) = Some a -> high (sg_itv d) = Some b -> l_ceqb L a b = true ->
    l_const L a = [Node o []] -> exists j, get_node (l_eqb L) (g_nodes g) (Node o []) = Some j /\ eqv g j i.
  Lemma add_single : forall k (g : eg O C) o g' r, s_add L keep k g (Node o []) = Val (g', r) -> s_add_expr L keep k g [Node o []] = Val (g', r).
  Proof. intros k g o g' r H. unfold s_add_expr, add_expr, add_nodes. cbn [nch nop rmapM rbind]. unfold s_add in H. rewrite H. reflexivity. Qed.
  Lemma add_found : forall k (g : eg O C) o j r, get_node (l_eqb L) (g_nodes g) (Node o []) = Some j -> find g j = Val r -> s_add L keep k g (Node o []) = Val (g, r).
  Proof. intros k g o j r H F. unfold s_add, add, lookup_node, canon. cbn [nch nop rmapM rbind]. rewrite H, F. reflexivity. Qed.
  Lemma modify_eq : forall k (g : eg O C) i d, class_data g i = Val d -> md (S k) g i =
    join_all (s_add_expr L keep k) (s_union L keep k) g i (match low (sg_itv d), high (sg_itv d) with
         | Some a, Some b => if l_ceqb L a b then [l_const L a] else []
         | _, _ => []
         end).
  Proof.
    intros k g i d Hd. unfold s_modify at 1. cbn [modify stages]. rewrite custom_none. cbn [rbind join_all].
    unfold const_stage at 1. rewrite Hd. cbn [rbind]. unfold s_add_expr, s_union, s_modify.
    match goal with |- (let* x := ?y in Val x) = _ => destruct y; reflexivity end.
  Qed.
  Lemma modify_told : forall val k g i, live val g -> i < size g -> told g i -> md (S k) g i = Val g.
  Proof.
    intros val k g i Lv Li T. pose proof (lv_wf _ _ Lv) as W. destruct (class_data_val g i W Li) as (d & Hd). rewrite (modify_eq k g i d Hd).
    destruct (low (sg_itv d)) as [a|] eqn:El; [|reflexivity]. destruct (high (sg_itv d)) as [b|] eqn:Eh; [|reflexivity].
    destruct (l_ceqb L a b) eqn:Eq; [|reflexivity].
    destruct (const_op _ _ a b (proj1 (live_dok _ _ _ _ Lv Hd)) El Eh Eq) as (o & Eo & _).
    destruct (T d a b o Hd El Eh Eq Eo) as (j & Gj & r & Fj & Fi). rewrite Eo. cbn [join_all].
    pose proof (add_single k g o g r (add_found k g o j r Gj Fj)) as As. rewrite As. cbn [rbind].
    unfold s_union, union. rewrite Fi, (wf_rep g W _ _ Fj). cbn [rbind]. now rewrite Nat.eqb_refl.
  Qed.

  (* a new node *)
  Lemma new_live : forall val g m, live val g -> Q (nop m) (length (nch m)) -> Forall (fun c => c < size g) (nch m) -> get_node (l_eqb L) (g_nodes g) m = None ->
    exists d val', let g' := EG (g_reps g ++ [size g]) (g_nodes g ++ [(m, size g)]) (g_data g ++ [d]) (g_an g) in
      new_class (s_make L) g m = Val (g', size g) /\ grows val g val' g' /\ class_data g' (size g) = Val d.
  Proof.
    intros val g m Lv Hq Lt Gn. pose proof (lv_wf _ _ Lv) as W. destruct (datas_val val g (nch m) Lv Lt) as (ds & Ed & F1 & F2).
    destruct (make_live (g_an g) m ds val (lv_an _ _ Lv) Hq F1 F2) as (d & Em).
    assert (Nc : new_class (s_make L) g m = Val (EG (g_reps g ++ [size g]) (g_nodes g ++ [(m, size g)]) (g_data g ++ [d]) (g_an g), size g)).
    { unfold new_class. rewrite Ed. cbn [rbind]. rewrite Em. reflexivity. }
    assert (Vk : vok (sem (nop m) (map val (nch m)))). { apply Q_vok; [now rewrite map_length|]. exact (live_voks val g _ Lv Lt). }
    destruct (new_class_inv (l_eqb L) eqb_eq (s_make L) Q nv P P ole l_refl l_leaf lP_make g m _ _ W (lv_inv _ _ Lv) Hq Lt Gn Nc) as [S1 _].
    destruct (grown val g _ Lv S1 (new_class_carries (s_make L) sem dok vok make_dok val g m _ _ W Lt (lv_sound _ _ Lv) Vk Nc)) as (val' & G).
    exists d, val'. split; [exact Nc|]. split; [exact G|]. unfold class_data. rewrite (find_new g) by reflexivity. cbn [rbind g_data]. rewrite <- (wf_data g W). apply index_last.
  Qed.
  Lemma live_entry : forall val g n i, live val g -> In (n, i) (g_nodes g) -> val i = sem (nop n) (map val (nch n)).
  Proof. intros val g n i Lv. exact (proj2 (proj1 (lv_sound _ _ Lv)) n i). Qed.

  (* merging two classes with the same value *)
  Lemma merged_live : forall val g k d, live val g -> find g k = Val k -> find g d = Val d -> k <> d -> val k = val d ->
    exists xk xd dm ch, index (g_data g) k = Val xk /\ index (g_data g) d = Val xd /\ s_merge L xk xd = Val (dm, ch) /\
      let g' := merged g k d (set_nth (g_data g) k dm) in grows val g val g' /\ class_data g' k = Val dm /\ pot g' < pot g.
  Proof.
    intros val g k d Lv Fk Fd N Ev. pose proof (lv_wf _ _ Lv) as W.
    destruct (class_data_val g k W (find_some _ _ _ Fk)) as (xk & Dk). destruct (class_data_val g d W (find_some _ _ _ Fd)) as (xd & Dd).
    destruct (live_dok _ _ _ _ Lv Dk) as [Kk Pk]. destruct (live_dok _ _ _ _ Lv Dd) as [Kd Pd]. rewrite <- Ev in Kd.
    assert (Ik : index (g_data g) k = Val xk) by (unfold class_data in Dk; rewrite Fk in Dk; exact Dk).
    assert (Id : index (g_data g) d = Val xd) by (unfold class_data in Dd; rewrite Fd in Dd; exact Dd).
    destruct (merge_live (g_an g) (val k) xk xd (lv_an _ _ Lv) Kk Kd Pk Pd) as (dm & ch & Em & _).
    exists xk, xd, dm, ch. split; [exact Ik|]. split; [exact Id|]. split; [exact Em|].
    pose proof (merged_inv (s_merge L) Q nv P P ole l_refl l_weak lP_merge g k d xk xd dm ch W (lv_inv _ _ Lv) Fk Fd N Ik Id Em) as S1.
    pose proof (merged_carries (s_merge L) sem dok merge_dok val g k d xk xd dm ch W (lv_sound _ _ Lv) Fk Fd N Ev Ik Id Em) as S2. cbn zeta.
    split; [|split].
    - destruct S1 as [W1 E1 A1 I1 _]. constructor; auto. constructor; auto. exact (lv_an _ _ Lv).
    - unfold class_data. rewrite find_merged, Fk. cbn. destruct (Nat.eqb_spec k d) as [->|]; [now destruct N|]. unfold index. rewrite set_nth_same; [reflexivity|].
      rewrite (wf_data g W). exact (find_some _ _ _ Fk).
    - unfold pot. pose proof (classes_merged g k d (set_nth (g_data g) k dm) W Fk Fd N). assert (missing (merged g k d (set_nth (g_data g) k dm)) = missing g) by reflexivity. lia.
  Qed.
  (* the union of two classes with the same value, up to its call of modify *)
  Lemma union_eq : forall val g a b ra rb, live val g -> find g a = Val ra -> find g b = Val rb -> ra <> rb -> val a = val b ->
    exists k d dm, (k = ra /\ d = rb \/ k = rb /\ d = ra) /\ let g' := merged g k d (set_nth (g_data g) k dm) in grows val g val g' /\ class_data g' k = Val dm /\ k < size g' /\
      (forall i j, eqv g i a -> eqv g j b -> eqv g' i k /\ eqv g' j k) /\ pot g' < pot g /\
      forall f, s_union L keep f g a b = (let* g2 := md f g' k in Val (g2, true)).
  Proof.
    intros val g a b ra rb Lv Fa Fb N Ev. pose proof (lv_wf _ _ Lv) as W. pose proof (wf_rep g W _ _ Fa) as Ra. pose proof (wf_rep g W _ _ Fb) as Rb.
    pose proof (eqv_find g a ra W Fa) as Qa. pose proof (eqv_find g b rb W Fb) as Qb.
    assert (Er : val ra = val rb). { rewrite <- (live_eqv _ _ _ _ Lv Qa), <- (live_eqv _ _ _ _ Lv Qb). exact Ev. }
    set (kd := if keep g ra rb then (ra, rb) else (rb, ra)).
    assert (exists k d, kd = (k, d) /\ (k = ra /\ d = rb \/ k = rb /\ d = ra) /\ find g k = Val k /\ find g d = Val d /\ k <> d /\ val k = val d) as (k & d & Ekd & Or & Fk & Fd & Nk & Ek).
    { unfold kd. destruct (keep g ra rb); eexists; eexists; (split; [reflexivity|]); split; auto 10. }
    destruct (merged_live val g k d Lv Fk Fd Nk Ek) as (xk & xd & dm & ch & Ik & Id & Em & G & Cd & Pt).
    exists k, d, dm. split; [exact Or|]. cbn zeta. split; [exact G|]. split; [exact Cd|]. split; [rewrite size_merged; exact (find_some _ _ _ Fk)|].
    split; [|split; [exact Pt|]].
    - intros i j Hi Hj. destruct (merged_ok g k d (set_nth (g_data g) k dm) W Fk Fd Nk) as (_ & _ & Qm); [rewrite set_nth_length; exact (wf_data g W)|].
      pose proof (eqv_trans _ _ _ _ Hi Qa) as Hi'. pose proof (eqv_trans _ _ _ _ Hj Qb) as Hj'.
      assert (eqv g k k) as Kk by (apply eqv_refl; exact (find_some _ _ _ Fk)).
      destruct Or as [[-> ->]|[-> ->]]; split; apply Qm; auto.
    - intros f. unfold s_union at 1, union. rewrite Fa, Fb. cbn [rbind]. rewrite (proj2 (Nat.eqb_neq _ _) N). fold kd. rewrite Ekd, Ik, Id. cbn [rbind]. rewrite Em. reflexivity.
  Qed.

  Lemma get_node_new : forall (m : list (node O * nat)) x i, get_node (l_eqb L) m x = None -> get_node (l_eqb L) (m ++ [(x, i)]) x = Some i.
  Proof.
    induction m as [|[y j] m IH]; intros x i H; cbn in *.
    - now rewrite (proj2 (node_eqb_eq O (l_eqb L) eqb_eq x x) eq_refl).
    - destruct (node_eqb (l_eqb L) x y); [discriminate H|auto].
  Qed.
  (* the constant a class is known to be: found or made *)
  Lemma const_live : forall val g i d a b o, live val g -> i < size g -> class_data g i = Val d -> low (sg_itv d) = Some a -> high (sg_itv d) = Some b -> l_ceqb L a b = true ->
    l_const L a = [Node o []] -> In o KL -> sem o [] = val i ->
    exists g1 val1 j r, (forall k, s_add_expr L keep (S k) g [Node o []] = Val (g1, r)) /\ grows val g val1 g1 /\ get_node (l_eqb L) (g_nodes g1) (Node o []) = Some j /\
      find g1 j = Val r /\ val1 r = val i /\ pot g1 <= pot g /\ (forall x, eqv g1 x i -> x < size g -> eqv g x i) /\ (g1 = g \/ ~ eqv g1 j i).
  Proof.
    intros val g i d a b o Lv Li Hd El Eh Eq Eo Ik Ev. pose proof (lv_wf _ _ Lv) as W. destruct (live_dok _ _ _ _ Lv Hd) as [Dk Pd].
    destruct (get_node (l_eqb L) (g_nodes g) (Node o [])) as [j|] eqn:Gj.
    - pose proof (get_node_in _ eqb_eq _ _ _ Gj) as Ij. destruct (wf_nodes g W _ _ Ij) as [Lj _]. destruct (find_val g j Lj) as (r & Fj).
      exists g, val, j, r. split; [intros k; exact (add_single _ _ _ _ _ (add_found _ _ _ _ _ Gj Fj))|]. split; [now apply grows_refl|]. split; [exact Gj|]. split; [exact Fj|].
      split; [|split; [lia|split; [auto|now left]]]. rewrite <- (live_eqv _ _ _ _ Lv (eqv_find g j r W Fj)), (live_entry _ _ _ _ Lv Ij). exact Ev.
    - pose proof (P_const _ _ _ _ Pd El Eh Eq) as Hq. rewrite Eo in Hq. inversion Hq as [|x l Hq1 _]; subst x l. clear Hq.
      destruct (new_live val g (Node o []) Lv Hq1 (Forall_nil _) Gj) as (d1 & val1 & Nc & G & Cd). set (g1 := EG _ _ _ _) in *.
      pose proof (gr_live _ _ _ _ G) as Lv1.
      assert (Fj : find g1 (size g) = Val (size g)) by (apply find_new; reflexivity).
      assert (Gj1 : get_node (l_eqb L) (g_nodes g1) (Node o []) = Some (size g)) by (cbn; now apply get_node_new).
      assert (Ls : size g < size g1) by exact (find_some _ _ _ Fj).
      assert (Ev1 : val1 (size g) = val i). { rewrite (live_entry _ _ _ _ Lv1 (get_node_in _ eqb_eq _ _ _ Gj1)). exact Ev. }
      assert (T : told g1 (size g)).
      { intros d' a' b' o' Hd' El' Eh' Eq' Eo'. destruct (live_dok _ _ _ _ Lv1 Hd') as [Dk' _]. rewrite Ev1 in Dk'.
        rewrite <- (const_one _ _ _ _ _ _ _ Dk El Eh Eq Dk' El' Eh' Eq'), Eo in Eo'. injection Eo' as <-. exists (size g). split; [exact Gj1|]. now apply eqv_refl. }
      exists g1, val1, (size g), (size g). split; [|split; [exact G|split; [exact Gj1|split; [exact Fj|split; [exact Ev1|split; [|split]]]]]].
      + intros k. apply add_single. unfold s_add, add, lookup_node, canon. cbn [nch nop rmapM rbind]. rewrite Gj. cbn [rbind]. rewrite Nc. cbn [rbind].
        rewrite (modify_told val1 k g1 (size g) Lv1 Ls T). reflexivity.
      + unfold pot. unfold g1 at 1. rewrite (classes_new g _ _ W).
        assert (missing g1 < missing g); [|lia]. apply (missing_lt g g1 o); [|exact Ik|unfold there; now rewrite Gj|unfold there; now rewrite Gj1].
        intros o' j J. exists j. cbn. apply in_or_app. now left.
      + intros x (r & F1 & F2) Lx. apply (find_app_inv g g1) in F1, F2; try reflexivity. destruct F1 as [[_ F1]|[-> _]]; [|lia]. destruct F2 as [[_ F2]|[-> _]]; [|lia]. exists r. auto.
      + right. intros (r & F1 & F2). rewrite Fj in F1. injection F1 as <-. apply (find_app_inv g g1) in F2; [|reflexivity]. destruct F2 as [[_ F2]|[-> _]]; [|lia].
        pose proof (find_some _ _ _ (wf_rep g W _ _ F2)). lia.
  Qed.
  Lemma modify_live : forall val g i, live val g -> i < size g ->
    exists g' val', (forall k, md (S (S k)) g i = Val g') /\ grows val g val' g' /\ (g' = g \/ pot g' < pot g).
  Proof.
    intros val g i Lv Li. pose proof (lv_wf _ _ Lv) as W. destruct (class_data_val g i W Li) as (d & Hd).
    assert (Done : exists g' val', (forall k : nat, Val g = Val g') /\ grows val g val' g' /\ (g' = g \/ pot g' < pot g)) by (exists g, val; split; [reflexivity|split; [now apply grows_refl|now left]]).
    assert (Go : exists g' val', (forall k, join_all (s_add_expr L keep (S k)) (s_union L keep (S k)) g i (match low (sg_itv d), high (sg_itv d) with
         | Some a, Some b => if l_ceqb L a b then [l_const L a] else []
         | _, _ => [] end) = Val g') /\ grows val g val' g' /\ (g' = g \/ pot g' < pot g)).
    2:{ destruct Go as (g' & val' & E & R). exists g', val'. split; [|exact R]. intros k. rewrite (modify_eq (S k) g i d Hd). apply E. }
    destruct (low (sg_itv d)) as [a|] eqn:El; [|exact Done]. destruct (high (sg_itv d)) as [b|] eqn:Eh; [|exact Done].
    destruct (l_ceqb L a b) eqn:Eq; [|exact Done]. clear Done.
    destruct (live_dok _ _ _ _ Lv Hd) as [Dk Pd]. destruct (const_op _ _ a b Dk El Eh Eq) as (o & Eo & Ev & Ik). rewrite Eo. cbn [join_all].
    destruct (const_live val g i d a b o Lv Li Hd El Eh Eq Eo Ik Ev) as (g1 & val1 & j & r & As & G1 & Gj & Fj & Ev1 & Pt & _ & Or).
    pose proof (gr_live _ _ _ _ G1) as Lv1. pose proof (lv_wf _ _ Lv1) as W1. assert (Li1 : i < size g1) by (destruct (gr_ext _ _ _ _ G1) as (Sz & _); lia).
    assert (Vi : val1 i = val i) by (apply (gr_val _ _ _ _ G1); exact Li).
    destruct (find_val g1 i Li1) as (ri & Fi). destruct (Nat.eq_dec ri r) as [->|Ne].
    - exists g1, val1. split; [|split; [exact G1|]].
      + intros k. rewrite As. cbn [rbind]. unfold s_union, union. rewrite Fi, (wf_rep g1 W1 _ _ Fj). cbn [rbind]. rewrite Nat.eqb_refl. reflexivity.
      + destruct Or as [->|No]; [now left|]. destruct No. exists r. auto.
    - destruct (union_eq val1 g1 i r ri r Lv1 Fi (wf_rep g1 W1 _ _ Fj) Ne) as (k0 & d0 & dm & _ & G2 & Cd & Lk & Qv & Pt2 & Un); [congruence|]. cbn zeta in *. set (g2 := merged _ _ _ _) in *.
      exists g2, val1. split; [|split; [exact (grows_trans _ _ _ _ _ _ G1 G2)|right; lia]].
      intros k. rewrite As. cbn [rbind]. rewrite Un. pose proof (gr_live _ _ _ _ G2) as Lv2.
      destruct (Qv i j) as [Qi Qj]; [now apply eqv_refl|now apply eqv_find|].
      rewrite (modify_told val1 k g2 k0 Lv2 Lk); [reflexivity|]. intros d' a' b' o' Hd' El' Eh' Eq' Eo'. destruct (live_dok _ _ _ _ Lv2 Hd') as [Dk' _].
      rewrite <- (live_eqv _ _ _ _ Lv2 Qi), Vi in Dk'. rewrite <- (const_one _ _ _ _ _ _ _ Dk El Eh Eq Dk' El' Eh' Eq'), Eo in Eo'. injection Eo' as <-.
      exists j. split; [exact Gj|exact Qj].
  Qed.

  (* ---- add, union ---- *)
  Lemma add_live : forall val g o ch, live val g -> Q o (length ch) -> Forall (fun c => c < size g) ch ->
    exists g' val' i, (forall k, s_add L keep (S (S k)) g (Node o ch) = Val (g', i)) /\ grows val g val' g' /\ i < size g' /\ val' i = sem o (map val ch).
  Proof.
    intros val g o ch Lv Hq Lt. pose proof (lv_wf _ _ Lv) as W. destruct (lookup_node_val _ eqb_eq g (Node o ch) W Lt) as (lk & Hl).
    assert (Fin : forall g' val' i, (forall k, s_add L keep (S (S k)) g (Node o ch) = Val (g', i)) -> grows val g val' g' -> i < size g' /\ val' i = sem o (map val ch)).
    { intros g' val' i E G. destruct (add_ok _ eqb_eq _ _ (s_md_ok L eqb_eq keep 2) _ _ _ _ W (E 0)) as (_ & _ & Hh). cbn [nop nch] in Hh.
      pose proof Hh as (n & j & _ & _ & _ & Qj). split; [exact (proj2 (eqv_lt _ _ _ Qj))|].
      rewrite (models_has _ _ _ _ _ _ _ (proj1 (lv_sound _ _ (gr_live _ _ _ _ G))) Hh). f_equal. apply map_ext_in. intros c Ic. apply (gr_val _ _ _ _ G).
      rewrite Forall_forall in Lt. auto. }
    destruct lk as [i|].
    - assert (E : forall k, s_add L keep (S (S k)) g (Node o ch) = Val (g, i)) by (intros k; unfold s_add, add; rewrite Hl; reflexivity).
      exists g, val, i. split; [exact E|]. split; [now apply grows_refl|]. apply (Fin g val i E). now apply grows_refl.
    - destruct (canon_val g (Node o ch) Lt) as (m & Hc). pose proof (proj1 (canon_spec g _ m) Hc) as [Eo Fm]. cbn [nop nch] in Eo, Fm.
      assert (Gn : get_node (l_eqb L) (g_nodes g) m = None).
      { unfold lookup_node in Hl. rewrite Hc in Hl. cbn [rbind] in Hl. destruct (get_node (l_eqb L) (g_nodes g) m) as [k|]; [|reflexivity]. destruct (find g k); discriminate Hl. }
      destruct (new_live val g m Lv) as (d & val1 & Nc & G1 & Cd); [|exact (canon_lt g _ m W Hc)|exact Gn|].
      { rewrite Eo, <- (Forall2_length _ _ _ Fm). exact Hq. }
      cbn zeta in *. set (g1 := EG _ _ _ _) in *.
      assert (Ls : size g < size g1) by (unfold size; cbn; rewrite app_length; cbn; lia).
      destruct (modify_live val1 g1 (size g) (gr_live _ _ _ _ G1) Ls) as (g2 & val2 & M & G2 & _).
      assert (E : forall k, s_add L keep (S (S k)) g (Node o ch) = Val (g2, size g)).
      { intros k. unfold s_add, add. rewrite Hl. cbn [rbind]. rewrite Hc. cbn [rbind]. rewrite Nc. cbn [rbind]. rewrite M. reflexivity. }
      exists g2, val2, (size g). split; [exact E|]. pose proof (grows_trans _ _ _ _ _ _ G1 G2) as G. split; [exact G|]. exact (Fin g2 val2 (size g) E G).
  Qed.
  Lemma union_live : forall val g a b, live val g -> a < size g -> b < size g -> val a = val b ->
    exists g' val' m, (forall k, s_union L keep (S (S k)) g a b = Val (g', m)) /\ grows val g val' g' /\ (eqv g a b /\ g' = g \/ pot g' < pot g).
  Proof.
    intros val g a b Lv La Lb Ev. pose proof (lv_wf _ _ Lv) as W. destruct (find_val g a La) as (ra & Fa). destruct (find_val g b Lb) as (rb & Fb).
    destruct (Nat.eq_dec ra rb) as [->|N].
    - exists g, val, false. split; [|split; [now apply grows_refl|left; split; [exists rb; auto|reflexivity]]].
      intros k. unfold s_union, union. rewrite Fa, Fb. cbn [rbind]. now rewrite Nat.eqb_refl.
    - destruct (union_eq val g a b ra rb Lv Fa Fb N Ev) as (k0 & d0 & dm & _ & G1 & Cd & Lk & _ & Pt & Un). cbn zeta in *. set (g1 := merged _ _ _ _) in *.
      destruct (modify_live val g1 k0 (gr_live _ _ _ _ G1) Lk) as (g2 & val2 & M & G2 & Or).
      exists g2, val2, true. split; [|split; [exact (grows_trans _ _ _ _ _ _ G1 G2)|right; destruct Or as [->|]; lia]].
      intros k. rewrite Un, M. reflexivity.
  Qed.

  (* ---- rebuild ---- *)
  Lemma canon_nodes_val : forall g : eg O C, wf g -> exists g1, canon_nodes g = Val g1.
  Proof.
    intros g W. unfold canon_nodes. assert (exists ns, rmapM (fun e : node O * nat => let* n := canon g (fst e) in Val (n, snd e)) (g_nodes g) = Val ns) as (ns & ->); [|cbn; eauto].
    pose proof (wf_nodes g W) as Wn. induction (g_nodes g) as [|[n i] l IH]; [exists []; reflexivity|].
    destruct IH as (ns & E); [intros m j J; apply (Wn m j); now right|]. destruct (canon_val g n (proj2 (Wn n i (or_introl eq_refl)))) as (n' & En).
    exists ((n', i) :: ns). cbn [rmapM fst snd]. rewrite En. cbn [rbind]. rewrite E. reflexivity.
  Qed.
  Lemma canon_nodes_live : forall val g g1, live val g -> canon_nodes g = Val g1 -> grows val g val g1 /\ pot g1 = pot g /\ weight g1 = weight g.
  Proof.
    intros val g g1 Lv H. pose proof (lv_wf _ _ Lv) as W. destruct (canon_nodes_ok g g1 W H) as (W1 & E1 & _ & R1 & D1 & Hb).
    pose proof (canon_nodes_inv Q nv P ole l_refl g g1 W (lv_inv _ _ Lv) H) as [_ _ A1 I1 _].
    assert (Lf : forall o i, In (Node o [], i) (g_nodes g) <-> In (Node o [], i) (g_nodes g1)).
    { intros o i. unfold canon_nodes in H. destruct (rmapM _ (g_nodes g)) as [ns|] eqn:E; [|discriminate H]. cbn in H. injection H as <-. cbn. apply rmapM_F2 in E. clear - E.
      induction E as [|[n j] [n' j'] l l' H E IH]; [reflexivity|]. cbn [fst snd] in H. destruct (canon g n) as [m|] eqn:C1; [|discriminate H]. cbn [rbind] in H. injection H as <- <-.
      apply canon_spec in C1 as [Eo F]. cbn [In]. rewrite IH.
      assert ((n, j) = (Node o [], i) <-> (m, j) = (Node o [], i)) as ->; [|reflexivity]. destruct n as [on cn], m as [om cm]. cbn [nop nch] in *. subst om.
      split; intros X; injection X as -> -> ->; inversion F; subst; reflexivity. }
    split; [|split].
    - constructor; auto. constructor; auto; [|rewrite A1; exact (lv_an _ _ Lv)]. destruct (lv_sound _ _ Lv) as [[S1 S2] S3]. split; [split|].
      + intros i j (r & X & Y). apply S1. exists r. unfold find in *. now rewrite <- R1.
      + intros n i I. exact (models_has _ _ _ _ _ _ _ (conj S1 S2) (Hb _ _ _ (has_in g1 n i W1 I))).
      + intros i d X. apply S3. unfold class_data, find in *. now rewrite <- R1, <- D1.
    - unfold pot. f_equal; [unfold number_of_classes, class_ids, size, find; now rewrite R1|].
      apply Nat.le_antisymm; apply missing_le; intros o i I; exists i; now apply Lf.
    - unfold weight. now rewrite D1.
  Qed.
  Lemma clash_live : forall (g : eg O C) ns, incl ns (g_nodes g) -> wf g -> exists c, clash (l_eqb L) g ns = Val c /\
    forall i j, c = Some (i, j) -> i < size g /\ j < size g /\ ~ eqv g i j.
  Proof.
    intros g ns H W. induction ns as [|[n i] ns IH]; cbn [clash]; [exists None; split; [reflexivity|discriminate]|].
    specialize (IH (fun x X => H x (or_intror X))). destruct (get_node (l_eqb L) ns n) as [j|] eqn:G; [|exact IH].
    apply (get_node_in _ eqb_eq) in G. destruct (wf_nodes g W n i (H _ (or_introl eq_refl))) as [Li _]. destruct (wf_nodes g W n j (H _ (or_intror G))) as [Lj _].
    destruct (find_val g i Li) as (a & Fa). destruct (find_val g j Lj) as (b & Fb). rewrite Fa, Fb. cbn [rbind]. destruct (Nat.eqb_spec a b) as [->|N]; [exact IH|].
    exists (Some (i, j)). split; [reflexivity|]. intros i' j' E. injection E as <- <-. split; [exact Li|]. split; [exact Lj|]. intros (r & X & Y). congruence.
  Qed.
  Lemma stale_live : forall val g ns, live val g -> incl ns (g_nodes g) -> exists s, stale (s_make L) (s_merge L) g ns = Val s /\
    forall c d, s = Some (c, d) -> let g' := EG (g_reps g) (g_nodes g) (set_nth (g_data g) c d) (g_an g) in grows val g val g' /\ c < size g' /\ weight g' < weight g.
  Proof.
    intros val g ns Lv H. pose proof (lv_wf _ _ Lv) as W. induction ns as [|[n i] ns IH]; cbn [stale]; [exists None; split; [reflexivity|discriminate]|].
    specialize (IH (fun x X => H x (or_intror X))). pose proof (H _ (or_introl eq_refl)) as In1. destruct (wf_nodes g W n i In1) as [Li Lc].
    destruct (find_val g i Li) as (c & Fi). rewrite Fi. cbn [rbind]. destruct (datas_val val g (nch n) Lv Lc) as (ds & Ed & F1 & F2). rewrite Ed. cbn [rbind].
    pose proof (proj1 (lv_inv _ _ Lv) n i In1) as Hq.
    destruct (make_live (g_an g) n ds val (lv_an _ _ Lv) Hq F1 F2) as (d & Em). rewrite Em. cbn [rbind].
    pose proof (wf_rep g W _ _ Fi) as Fc. destruct (class_data_val g c W (find_some _ _ _ Fc)) as (dc & Dc). destruct (live_dok _ _ _ _ Lv Dc) as [Kc Pc].
    assert (Ic : index (g_data g) c = Val dc) by (unfold class_data in Dc; rewrite Fc in Dc; exact Dc). rewrite Ic. cbn [rbind].
    assert (Kd : dok (val c) d).
    { rewrite <- (live_eqv _ _ _ _ Lv (eqv_find g i c W Fi)), (live_entry _ _ _ _ Lv In1). refine (make_dok _ _ _ _ val F1 _ Em).
      rewrite <- (live_entry _ _ _ _ Lv In1). exact (live_vok _ _ _ Lv Li). }
    assert (Pd : P (g_an g) d). { apply (P_make _ n ds); auto. symmetry. exact (Forall2_length _ _ _ F1). }
    destruct (merge_live (g_an g) (val c) dc d (lv_an _ _ Lv) Kc Kd Pc Pd) as (dm & [c1 c2] & Eg & Dec). rewrite Eg. cbn [rbind fst]. destruct c1; [|exact IH].
    exists (Some (c, dm)). split; [reflexivity|]. intros c' d' E. injection E as <- <-. cbn zeta.
    pose proof (P_merge _ _ _ _ _ Pc Pd Eg) as Pm. pose proof (merge_dok _ _ _ _ _ Kc Kd Eg) as Km.
    pose proof (set_data_inv Q nv P ole l_refl g c dc dm W (lv_inv _ _ Lv) Fc Ic Pm Logic.I) as [W1 E1 A1 I1 _].
    split; [|split].
    - constructor; auto. constructor; auto; [|exact (lv_an _ _ Lv)]. exact (set_data_carries sem dok val g c dm W (lv_sound _ _ Lv) Fc Km).
    - exact (find_some _ _ _ Fc).
    - unfold weight. cbn [g_data]. apply index_some in Ic as [_ Ic]. pose proof (sum_set_nth mu (g_data g) c dm dc Ic). pose proof (Dec eq_refl). lia.
  Qed.
  Lemma rebuild_live : forall val g, live val g -> exists f0 g' val', (forall k f, rebuild (l_eqb L) (s_make L) (s_merge L) keep (md (S (S k))) f g = if Nat.leb f0 f then Val g' else Panic) /\ grows val g val' g' /\ pot g' <= pot g.
  Proof.
    intros val g. remember (pot g) as p eqn:Ep. remember (weight g) as w eqn:Ew. revert w val g Ep Ew. induction p as [p IHp] using lt_wf_ind. intros w. induction w as [w IHw] using lt_wf_ind.
    intros val g Ep Ew Lv. destruct (canon_nodes_val g (lv_wf _ _ Lv)) as (g1 & Cn). destruct (canon_nodes_live val g g1 Lv Cn) as (G1 & P1 & W1).
    pose proof (gr_live _ _ _ _ G1) as Lv1. destruct (clash_live g1 (g_nodes g1) (incl_refl _) (lv_wf _ _ Lv1)) as (c & Cl & Hc). destruct c as [[i j]|].
    - destruct (Hc i j eq_refl) as (Li & Lj & Ne). destruct (clash_some _ eqb_eq g1 _ i j Cl) as (n & Ii & Ij).
      destruct (union_live val g1 i j Lv1 Li Lj) as (g2 & val2 & m & Un & G2 & [[Eq _]|Pt]); [|now destruct Ne|].
      { now rewrite (live_entry _ _ _ _ Lv1 Ii), (live_entry _ _ _ _ Lv1 Ij). }
      destruct (IHp (pot g2) ltac:(lia) (weight g2) val2 g2 eq_refl eq_refl (gr_live _ _ _ _ G2)) as (f0 & g' & val' & Rb & G3 & P3).
      exists (S f0), g', val'. split; [|split; [exact (grows_trans _ _ _ _ _ _ G1 (grows_trans _ _ _ _ _ _ G2 G3))|lia]].
      intros k f. destruct f as [|f]; [reflexivity|]. cbn [rebuild Nat.leb]. rewrite Cn. cbn [rbind]. rewrite Cl. cbn [rbind]. fold (s_union L keep (S (S k))). rewrite Un. cbn [rbind]. apply Rb.
    - destruct (stale_live val g1 (g_nodes g1) Lv1 (incl_refl _)) as (s & St & Hs). destruct s as [[c d]|].
      + destruct (Hs c d eq_refl) as (G2 & Lc & Wt). cbn zeta in *. set (g2 := EG (g_reps g1) _ _ _) in *.
        assert (P2 : pot g2 = pot g1) by reflexivity.
        destruct (modify_live val g2 c (gr_live _ _ _ _ G2) Lc) as (g3 & val3 & M & G3 & Or).
        assert (exists f0 g' val', (forall k f, rebuild (l_eqb L) (s_make L) (s_merge L) keep (md (S (S k))) f g3 = if Nat.leb f0 f then Val g' else Panic) /\ grows val3 g3 val' g' /\ pot g' <= p) as (f0 & g' & val' & Rb & G4 & P4).
        { destruct Or as [->|Pt].
          - destruct (IHw (weight g2) ltac:(lia) val3 g2 ltac:(lia) eq_refl (gr_live _ _ _ _ G3)) as (f0 & g' & val' & R). exists f0, g', val'. exact R.
          - destruct (IHp (pot g3) ltac:(lia) (weight g3) val3 g3 eq_refl eq_refl (gr_live _ _ _ _ G3)) as (f0 & g' & val' & R1 & R2 & R3). exists f0, g', val'. split; [exact R1|]. split; [exact R2|lia]. }
        exists (S f0), g', val'. split; [|split; [exact (grows_trans _ _ _ _ _ _ G1 (grows_trans _ _ _ _ _ _ G2 (grows_trans _ _ _ _ _ _ G3 G4)))|exact P4]].
        intros k f. destruct f as [|f]; [reflexivity|]. cbn [rebuild Nat.leb]. rewrite Cn. cbn [rbind]. rewrite Cl. cbn [rbind]. rewrite St. cbn [rbind]. fold g2. rewrite M. cbn [rbind]. apply Rb.
      + exists 1, g1, val. split; [|split; [exact G1|lia]]. intros k f. destruct f as [|f]; [reflexivity|]. cbn [rebuild Nat.leb]. rewrite Cn. cbn [rbind]. rewrite Cl. cbn [rbind]. rewrite St. reflexivity.
  Qed.
  Lemma s_rebuild_live : forall val g, live val g -> exists f0 g' val', (forall k, s_rebuild L keep (S (S k)) g = if Nat.leb f0 (S (S k)) then Val g' else Panic) /\ grows val g val' g'.
  Proof.
    intros val g Lv. destruct (rebuild_live val g Lv) as (f0 & g' & val' & Rb & G & _). exists f0, g', val'. split; [|exact G].
    intros k. unfold s_rebuild. apply Rb.
  Qed.

  (* ---- terms and patterns ---- *)
  Lemma picks : forall X (R : X -> nat -> Prop) ts ids nc us, Forall2 R ts ids -> rmapM (index ts) nc = Val us ->
    exists ch, rmapM (index ids) nc = Val ch /\ Forall2 R us ch.
  Proof.
    intros X R ts ids nc us F E. apply rmapM_F2 in E. induction E as [|c u nc us Hc E (ch & Ec & Fc)]; [exists []; split; [reflexivity|constructor]|].
    assert (exists i, index ids c = Val i /\ R u i) as (i & Ei & Hi).
    { apply index_some in Hc as [_ Hc]. unfold index. clear - F Hc. revert c Hc. induction F as [|t i ts ids H F IH]; intros [|c] Hc; cbn in *; try discriminate Hc; eauto. injection Hc as <-. eauto. }
    exists (i :: ch). cbn [rmapM]. rewrite Ei. cbn [rbind]. rewrite Ec. split; [reflexivity|constructor; auto].
  Qed.
  Lemma pop_some : forall X (R : X -> nat -> Prop) ts ids t, Forall2 R ts ids -> pop_unwrap ts = Val t -> exists i, pop_unwrap ids = Val i /\ R t i.
  Proof.
    intros X R ts ids t F H. unfold pop_unwrap in *. assert (G : Forall2 R (rev ts) (rev ids)) by (clear H; induction F; cbn; [constructor|]; apply Forall2_app; auto).
    destruct G as [|a b la lb Hab G]; [discriminate H|]. injection H as <-. eauto.
  Qed.
  Definition denotes (val : nat -> V) (g : eg O C) (t : term O) (c : nat) : Prop := c < size g /\ val c = aval sem t.
  Lemma add_nodes_live : forall r val g ids ts ts', live val g -> Forall (okn Q) r -> Forall2 (denotes val g) ts ids -> run_buf (fun o ts => Val (T o ts)) r ts = Val ts' ->
    exists g' val' ids', (forall k, add_nodes (l_eqb L) (s_make L) (md (S (S k))) g ids r = Val (g', ids')) /\ grows val g val' g' /\ Forall2 (denotes val' g') ts' ids'.
  Proof.
    induction r as [|n r IH]; intros val g ids ts ts' Lv F Fd R; cbn in R.
    - injection R as <-. exists g, val, ids. split; [reflexivity|]. split; [now apply grows_refl|exact Fd].
    - destruct (rmapM (index ts) (nch n)) as [us|] eqn:Eu; [|discriminate R]. cbn in R. destruct (picks _ _ _ _ _ _ Fd Eu) as (ch & Ec & Fc). inversion F as [|x l Hn Fr]; subst.
      assert (Ln : length (nch n) = length ch) by (apply rmapM_F2 in Ec; exact (Forall2_length _ _ _ Ec)).
      assert (Lt : Forall (fun c => c < size g) ch) by (clear - Fc; induction Fc as [|u c us ch [H _] Fc IH]; constructor; auto).
      unfold okn in Hn. rewrite Ln in Hn. destruct (add_live val g (nop n) ch Lv Hn Lt) as (g1 & val1 & i & Ad & G1 & Li & Ei).
      assert (Sz : size g <= size g1) by (destruct (gr_ext _ _ _ _ G1) as (H & _); lia).
      assert (Up : forall t c, denotes val g t c -> denotes val1 g1 t c) by (intros t c [H1 H2]; split; [lia|]; now rewrite (gr_val _ _ _ _ G1) by exact H1).
      destruct (IH val1 g1 (ids ++ [i]) (ts ++ [T (nop n) us]) ts' (gr_live _ _ _ _ G1) Fr) as (g' & val' & ids' & An & G2 & F2); [| exact R |].
      { apply Forall2_app; [|constructor; [|constructor]].
        - clear - Fd Up. induction Fd; constructor; auto.
        - split; [exact Li|]. rewrite Ei. cbn. f_equal. clear - Fc. induction Fc as [|u c us ch [_ H] Fc IH]; cbn; f_equal; auto. }
      exists g', val', ids'. split; [|split; [exact (grows_trans _ _ _ _ _ _ G1 G2)|exact F2]].
      intros k. cbn [add_nodes]. rewrite Ec. cbn [rbind]. change (add (l_eqb L) (s_make L) (md (S (S k)))) with (s_add L keep (S (S k))). rewrite Ad. cbn [rbind]. apply An.
  Qed.
  Lemma add_expr_live : forall r t val g, live val g -> Forall (okn Q) r -> tree r = Val t ->
    exists g' val' i, (forall k, s_add_expr L keep (S (S k)) g r = Val (g', i)) /\ grows val g val' g' /\ denotes val' g' t i.
  Proof.
    intros r t val g Lv F Tr. unfold tree, fold_rec in Tr. destruct (run_buf _ r []) as [ts|] eqn:R; [|discriminate Tr]. cbn in Tr.
    destruct (add_nodes_live r val g [] [] ts Lv F (Forall2_nil _) R) as (g' & val' & ids & An & G & F2).
    destruct (pop_some _ _ _ _ _ F2 Tr) as (i & Ei & Hi). exists g', val', i. split; [|split; auto].
    intros k. unfold s_add_expr, add_expr. rewrite An. cbn [rbind]. rewrite Ei. reflexivity.
  Qed.
  Definition binds (val : nat -> V) (g : eg O C) (s : subst) (e : string -> V) : Prop := forall v i, lookup s v = Some i -> i < size g /\ val i = e v.
  Definition pdenotes (e : string -> V) (val : nat -> V) (g : eg O C) (t : term (eov O)) (c : nat) : Prop := c < size g /\ val c = paval sem e t.
  Lemma binds_grows : forall val g val' g' s e, grows val g val' g' -> binds val g s e -> binds val' g' s e.
  Proof.
    intros val g val' g' s e G B v i H. destruct (B v i H) as [B1 B2]. split; [destruct (gr_ext _ _ _ _ G) as (Sz & _); lia|]. now rewrite (gr_val _ _ _ _ G) by exact B1.
  Qed.
  Lemma apply_nodes_live : forall p val g s e ids ts ts', live val g -> okpat Q p -> binds val g s e -> (forall n v, In n p -> nop n = PV v -> exists i, lookup s v = Some i) ->
    Forall2 (pdenotes e val g) ts ids -> run_buf (fun o ts => Val (T o ts)) p ts = Val ts' ->
    exists g' val' ids', (forall k, apply_nodes L keep (S (S k)) g s ids p = Val (g', ids')) /\ grows val g val' g' /\ Forall2 (pdenotes e val' g') ts' ids'.
  Proof.
    induction p as [|n p IH]; intros val g s e ids ts ts' Lv F B Bv Fd R; cbn in R.
    - injection R as <-. exists g, val, ids. split; [reflexivity|]. split; [now apply grows_refl|exact Fd].
    - destruct (rmapM (index ts) (nch n)) as [us|] eqn:Eu; [|discriminate R]. cbn in R. destruct (picks _ _ _ _ _ _ Fd Eu) as (ch & Ec & Fc). inversion F as [|x l Hn Fr]; subst.
      assert (Bv' : forall m v, In m p -> nop m = PV v -> exists i, lookup s v = Some i) by (intros m v I; apply Bv; now right).
      destruct (nop n) as [o|v] eqn:En.
      + assert (Ln : length (nch n) = length ch) by (apply rmapM_F2 in Ec; exact (Forall2_length _ _ _ Ec)).
        assert (Lt : Forall (fun c => c < size g) ch) by (clear - Fc; induction Fc as [|u c us ch [H _] Fc IH]; constructor; auto).
        rewrite Ln in Hn. destruct (add_live val g o ch Lv Hn Lt) as (g1 & val1 & i & Ad & G1 & Li & Ei).
        assert (Sz : size g <= size g1) by (destruct (gr_ext _ _ _ _ G1) as (H & _); lia).
        assert (Up : forall t c, pdenotes e val g t c -> pdenotes e val1 g1 t c) by (intros t c [H1 H2]; split; [lia|]; now rewrite (gr_val _ _ _ _ G1) by exact H1).
        destruct (IH val1 g1 s e (ids ++ [i]) (ts ++ [T (EN o) us]) ts' (gr_live _ _ _ _ G1) Fr (binds_grows _ _ _ _ _ _ G1 B) Bv') as (g' & val' & ids' & An & G2 & F2); [| exact R |].
        { apply Forall2_app; [|constructor; [|constructor]].
          - clear - Fd Up. induction Fd; constructor; auto.
          - split; [exact Li|]. rewrite Ei. cbn. f_equal. clear - Fc. induction Fc as [|u c us ch [_ H] Fc IH]; cbn; f_equal; auto. }
        exists g', val', ids'. split; [|split; [exact (grows_trans _ _ _ _ _ _ G1 G2)|exact F2]].
        intros k. cbn [apply_nodes]. rewrite En, Ec. cbn [rbind]. rewrite Ad. cbn [rbind]. apply An.
      + destruct (Bv n v (or_introl eq_refl) En) as (i & Ei).
        destruct (IH val g s e (ids ++ [i]) (ts ++ [T (PV v) us]) ts' Lv Fr B Bv') as (g' & val' & ids' & An & G2 & F2); [| exact R |].
        { apply Forall2_app; [exact Fd|constructor; [|constructor]]. exact (B v i Ei). }
        exists g', val', ids'. split; [|split; [exact G2|exact F2]]. intros k. cbn [apply_nodes]. rewrite En, Ei. cbn [unwrap rbind]. apply An.
  Qed.
  Lemma apply_pat_live : forall p t val g s e, live val g -> okpat Q p -> binds val g s e -> (forall v, In v (pvars p) -> exists i, lookup s v = Some i) -> tree p = Val t ->
    exists g' val' i, (forall k, apply_pat L keep (S (S k)) g s p = Val (g', i)) /\ grows val g val' g' /\ pdenotes e val' g' t i.
  Proof.
    intros p t val g s e Lv F B Bv Tr. unfold tree, fold_rec in Tr. destruct (run_buf _ p []) as [ts|] eqn:R; [|discriminate Tr]. cbn in Tr.
    destruct (apply_nodes_live p val g s e [] [] ts Lv F B) as (g' & val' & ids & An & G & F2); [|constructor|exact R|].
    { intros n v I E. apply Bv. apply pvars_in. eauto. }
    destruct (pop_some _ _ _ _ _ F2 Tr) as (i & Ei & Hi). exists g', val', i. split; [|split; auto].
    intros k. unfold apply_pat. rewrite An. cbn [rbind]. rewrite Ei. reflexivity.
  Qed.

  (* ---- rules ---- *)
  (* a rule that holds, with all its variables on the left *)
  Definition sure (r : rule O) : Prop :=
    okpat Q (rrhs r) /\ (forall v, rkind r <> KGuard v) /\
    exists tl tr, tree (rlhs r) = Val tl /\ tree (rrhs r) = Val tr /\ (forall v, In v (pvars (rrhs r)) -> occurs v tl) /\
      forall e, (forall v, vok (e v)) -> paval sem e tl = paval sem e tr.
  Lemma pmatch_vals : forall val (g : eg O C) s d t c, models sem val g -> pmatch g s t c -> paval sem (sval val s d) t = val c.
  Proof.
    intros val g s d t c M. revert t c. apply (pmatch_ind' g s (fun t c => paval sem (sval val s d) t = val c)).
    - intros v ts i c Hl He. cbn. unfold sval. rewrite Hl. now apply M.
    - intros o ts ch c F IH Hh. cbn. rewrite (models_has _ _ _ _ _ _ _ M Hh). f_equal. clear - IH. induction IH; cbn; f_equal; auto.
  Qed.
  Lemma pmatch_bound : forall (g : eg O C) s v t c, pmatch g s t c -> occurs v t -> exists i, lookup s v = Some i.
  Proof.
    intros g s v. apply (pmatch_ind' g s (fun t c => occurs v t -> exists i, lookup s v = Some i)).
    - intros w ts i c El _ H. cbn in H. subst. eauto.
    - intros o ts ch c _ IH _ H. cbn in H. clear - IH H. induction IH as [|t c ts ch Hc F IHF]; [destruct H|]. cbn in H. destruct H as [H|H]; auto.
  Qed.
  Lemma apply_one_live : forall r val g c s, live val g -> sure r -> matches g r c s ->
    exists g' val' ids, (forall k, apply_one L keep (S (S k)) r g c s = Val (g', ids)) /\ grows val g val' g'.
  Proof.
    intros r val g c s Lv (Qr & Kd & tl & tr & Tl & Tr & Oc & Ho) [(t & Tt & M) Fs]. assert (t = tl) as -> by congruence.
    pose proof (pmatch_lt g s tl c M) as Lc. set (e := sval val s (val c)).
    assert (B : binds val g s e).
    { intros v i H. unfold e, sval. rewrite H. split; [|reflexivity]. clear - H Fs. induction Fs as [|[k j] s Hj Fs IHs]; cbn in H; [discriminate H|].
      destruct (String.eqb v k); [inversion H; subst; exact Hj|auto]. }
    assert (Ev : forall v, vok (e v)).
    { intros v. unfold e, sval. destruct (lookup s v) as [i|] eqn:El; [|exact (live_vok _ _ _ Lv Lc)]. exact (live_vok _ _ _ Lv (proj1 (B v i El))). }
    assert (Vc : paval sem e tl = val c) by exact (pmatch_vals val g s (val c) tl c (proj1 (lv_sound _ _ Lv)) M).
    destruct (apply_pat_live (rrhs r) tr val g s e Lv Qr B) as (g1 & val1 & i & Ap & G1 & Li & Ei); [|exact Tr|].
    { intros v I. exact (pmatch_bound g s v tl c M (Oc v I)). }
    assert (Lc1 : c < size g1) by (destruct (gr_ext _ _ _ _ G1) as (Sz & _); lia).
    assert (Eq : val1 i = val1 c). { rewrite Ei, <- (Ho e Ev), Vc. symmetry. now apply (gr_val _ _ _ _ G1). }
    destruct (union_live val1 g1 i c (gr_live _ _ _ _ G1) Li Lc1 Eq) as (g2 & val2 & m & Un & G2 & _).
    pose proof (grows_trans _ _ _ _ _ _ G1 G2) as G12. destruct (rkind r) as [| |v] eqn:Ek.
    - destruct (class_data_val g c (lv_wf _ _ Lv) Lc) as (d & Ed). destruct (class_data_val g1 i (lv_wf _ _ (gr_live _ _ _ _ G1)) Li) as (d1 & Ed1).
      destruct (is_defined d) eqn:Df.
      2: { exists g, val, []. split; [|now apply grows_refl]. intros k. unfold apply_one. rewrite Ek. unfold apply_rhs. rewrite Ed. cbn [rbind]. now rewrite Df. }
      destruct (Nat.eqb i c) eqn:Eic.
      { exists g1, val1, []. split; [|exact G1]. intros k. unfold apply_one. rewrite Ek. unfold apply_rhs. rewrite Ed. cbn [rbind]. rewrite Df. cbn [negb]. rewrite Ap. cbn [rbind]. now rewrite Eic. }
      destruct (is_defined d1) eqn:Df1.
      2: { exists g1, val1, []. split; [|exact G1]. intros k. unfold apply_one. rewrite Ek. unfold apply_rhs. rewrite Ed. cbn [rbind]. rewrite Df. cbn [negb]. rewrite Ap. cbn [rbind]. rewrite Eic, Ed1. cbn [rbind]. now rewrite Df1. }
      exists g2, val2, [i]. split; [|exact G12]. intros k. unfold apply_one. rewrite Ek. unfold apply_rhs. rewrite Ed. cbn [rbind]. rewrite Df. cbn [negb]. rewrite Ap. cbn [rbind]. rewrite Eic, Ed1. cbn [rbind]. rewrite Df1. cbn [negb].
      rewrite Un. reflexivity.
    - exists g2, val2, (if m then [i] else []). split; [|exact G12]. intros k. unfold apply_one. rewrite Ek. unfold apply_plain. rewrite Ap. cbn [rbind]. rewrite Un. reflexivity.
    - destruct (Kd v eq_refl).
  Qed.

  (* ---- the runner ---- *)
  Definition found (g : eg O C) (m : rule O * nat * subst) : Prop := sure (fst (fst m)) /\ matches g (fst (fst m)) (Datatypes.snd (fst m)) (Datatypes.snd m).
  Lemma found_ext : forall g h ms, ext g h -> Forall (found g) ms -> Forall (found h) ms.
  Proof. intros g h ms E F. eapply Forall_impl; [|exact F]. intros m [H1 H2]. split; [exact H1|]. exact (matches_ext g h _ _ _ E H2). Qed.
  Lemma rsteps_live : forall rules k x y, Forall sure rules -> rsteps L keep (S (S k)) rules x y -> forall val, live val (fst x) -> Forall (found (fst x)) (Datatypes.snd x) ->
    exists val', grows val (fst x) val' (fst y) /\ Forall (found (fst y)) (Datatypes.snd y).
  Proof.
    intros rules k x y Fr H. induction H as [x|x y z S1 _ IH]; intros val Lv M; [exists val; split; [now apply grows_refl|exact M]|].
    assert (K : exists val', grows val (fst x) val' (fst y) /\ Forall (found (fst y)) (Datatypes.snd y)).
    { destruct S1 as [g ms r c s Ir Hm|g ms r c s g' ids Im Ap|g ms g' Rb]; cbn [fst Datatypes.snd] in *.
      - exists val. split; [now apply grows_refl|]. constructor; [|exact M]. split; [|exact Hm]. cbn. rewrite Forall_forall in Fr. auto.
      - pose proof M as M'. rewrite Forall_forall in M'. destruct (M' _ Im) as [Sr Mt]. cbn [fst Datatypes.snd] in *.
        destruct (apply_one_live r val g c s Lv Sr Mt) as (g2 & val2 & ids2 & Ao & G). rewrite Ao in Ap. injection Ap as <- _. exists val2. split; [exact G|]. exact (found_ext _ _ _ (gr_ext _ _ _ _ G) M).
      - destruct (s_rebuild_live val g Lv) as (f0 & g2 & val2 & Rl & G). rewrite Rl in Rb. destruct (Nat.leb f0 (S (S k))); [|discriminate Rb]. injection Rb as <-. exists val2. split; [exact G|]. exact (found_ext _ _ _ (gr_ext _ _ _ _ G) M). }
    destruct K as (val1 & G1 & M1). destruct (IH val1 (gr_live _ _ _ _ G1) M1) as (val2 & G2 & M2). exists val2. split; [exact (grows_trans _ _ _ _ _ _ G1 G2)|exact M2].
  Qed.
  Lemma runs_live : forall rules k g g', Forall sure rules -> runs L keep (S (S k)) rules g g' -> forall val, live val g -> exists val', grows val g val' g'.
  Proof.
    intros rules k g g' Fr (ms & St) val Lv. destruct (rsteps_live rules k _ _ Fr St val Lv (Forall_nil _)) as (val' & G & _). exists val'. exact G.
  Qed.
  (* a run that has started can go on: every match that was found can be applied, and
     rebuilding ends *)
  Lemma runs_on : forall rules k g g1 ms, Forall sure rules -> rsteps L keep (S (S k)) rules (g, []) (g1, ms) -> forall val, live val g ->
    (forall r c s, In (r, c, s) ms -> exists g2 ids, forall j, apply_one L keep (S (S j)) r g1 c s = Val (g2, ids)) /\
    (exists f0 g2, forall f, f0 <= f -> s_rebuild L keep f g1 = Val g2).
  Proof.
    intros rules k g g1 ms Fr St val Lv. destruct (rsteps_live rules k _ _ Fr St val Lv (Forall_nil _)) as (val1 & G & M). cbn [fst Datatypes.snd] in *. pose proof (gr_live _ _ _ _ G) as Lv1. split.
    - intros r c s I. rewrite Forall_forall in M. destruct (M _ I) as [Sr Mt]. destruct (apply_one_live r val1 g1 c s Lv1 Sr Mt) as (g2 & val2 & ids & Ao & _). eauto.
    - destruct (s_rebuild_live val1 g1 Lv1) as (f0 & g2 & val2 & Rl & _). exists (S (S f0)), g2. intros f Lf. destruct f as [|[|f]]; try lia. rewrite Rl. replace (Nat.leb f0 (S (S f))) with true; [reflexivity|]. symmetry. apply Nat.leb_le. lia.
  Qed.

  (* ---- schedulers ---- *)
  Lemma rebuild_big : forall val g, live val g -> exists f0 g' val', (forall f, f0 <= f -> s_rebuild L keep f g = Val g') /\ grows val g val' g'.
  Proof.
    intros val g Lv. destruct (s_rebuild_live val g Lv) as (f0 & g' & val' & Rl & G). exists (S (S f0)), g', val'. split; [|exact G].
    intros f Lf. destruct f as [|[|f]]; try lia. rewrite Rl. replace (Nat.leb f0 (S (S f))) with true; [reflexivity|]. symmetry. apply Nat.leb_le. lia.
  Qed.
  Lemma rebuild_small : forall val k g g', live val g -> s_rebuild L keep (S (S k)) g = Val g' -> exists val', grows val g val' g'.
  Proof.
    intros val k g g' Lv H. destruct (s_rebuild_live val g Lv) as (f0 & g2 & val2 & Rl & G). rewrite Rl in H. destruct (Nat.leb f0 (S (S k))); [|discriminate H]. injection H as <-. eauto.
  Qed.
  Lemma group_by_val : forall (out : eg O C) ids m, Forall (fun i => i < size out) ids -> exists m', group_by out ids m = Val m'.
  Proof.
    intros out ids. induction ids as [|i ids IH]; intros m F; cbn; [eauto|]. inversion F as [|x l Hi F']; subst. destruct (find_val out i Hi) as (r & ->). cbn [rbind]. auto.
  Qed.
  Lemma union_first_live : forall ids val g f, live val g -> f < size g -> (forall i, In i ids -> i < size g /\ val i = val f) ->
    exists g' val', (forall k, union_first L keep (S (S k)) g f ids = Val g') /\ grows val g val' g'.
  Proof.
    induction ids as [|i ids IH]; intros val g f Lv Lf H; [exists g, val; split; [reflexivity|now apply grows_refl]|].
    destruct (H i (or_introl eq_refl)) as [Li Ei]. destruct (union_live val g f i Lv Lf Li (eq_sym Ei)) as (g1 & val1 & m & Un & G1 & _).
    assert (Sz : size g <= size g1) by (destruct (gr_ext _ _ _ _ G1) as (Sz & _); lia).
    destruct (IH val1 g1 f (gr_live _ _ _ _ G1)) as (g2 & val2 & Uf & G2); [lia| |].
    { intros j J. destruct (H j (or_intror J)) as [Lj Ej]. split; [lia|]. now rewrite !(gr_val _ _ _ _ G1) by assumption. }
    exists g2, val2. split; [|exact (grows_trans _ _ _ _ _ _ G1 G2)]. intros k. cbn [union_first]. rewrite Un. cbn [rbind]. apply Uf.
  Qed.
  Lemma union_groups_live : forall gs val g, live val g -> Forall (fun is => forall i j, In i is -> In j is -> i < size g /\ val i = val j) gs ->
    exists g' val', (forall k, union_groups L keep (S (S k)) g gs = Val g') /\ grows val g val' g'.
  Proof.
    induction gs as [|[|f ids] gs IH]; intros val g Lv F; [exists g, val; split; [reflexivity|now apply grows_refl]| |]; inversion F as [|x l F1 F2]; subst.
    - exact (IH val g Lv F2).
    - destruct (union_first_live ids val g f Lv) as (g1 & val1 & Uf & G1); [exact (proj1 (F1 f f (or_introl eq_refl) (or_introl eq_refl)))| |].
      { intros i I. exact (F1 i f (or_intror I) (or_introl eq_refl)). }
      assert (Sz : size g <= size g1) by (destruct (gr_ext _ _ _ _ G1) as (Sz & _); lia).
      destruct (IH val1 g1 (gr_live _ _ _ _ G1)) as (g2 & val2 & Ug & G2).
      { eapply Forall_impl; [|exact F2]. intros is H i j I J. destruct (H i j I J) as [Li Ei]. destruct (H j i J I) as [Lj _]. split; [lia|]. now rewrite !(gr_val _ _ _ _ G1) by assumption. }
      exists g2, val2. split; [|exact (grows_trans _ _ _ _ _ _ G1 G2)]. intros k. cbn [union_groups]. rewrite Uf. cbn [rbind]. apply Ug.
  Qed.
  Lemma compress_live : forall order val g valo out, (forall l, Permutation l (order l)) -> live val g -> grows val g valo out ->
    exists g1 val1, (forall k, compress_with L keep (S (S k)) order g out = s_rebuild L keep (S (S k)) g1) /\ grows val g val1 g1.
  Proof.
    intros order val g valo out Po Lv G. assert (Sz : size g <= size out) by (destruct (gr_ext _ _ _ _ G) as (Sz & _); lia).
    assert (Fi : Forall (fun i => i < size g) (class_ids g)). { apply Forall_forall. intros i I. apply class_ids_spec in I. exact (find_some _ _ _ I). }
    destruct (group_by_val out (class_ids g) []) as (m & Gb); [eapply Forall_impl; [|exact Fi]; cbn; intros; lia|].
    destruct (union_groups_live (order (map Datatypes.snd m)) val g Lv) as (g1 & val1 & Ug & G1).
    { apply Forall_forall. intros is Iis. apply (Permutation_in _ (Permutation_sym (Po _))) in Iis. apply in_map_iff in Iis as (e & <- & Ie).
      pose proof (group_by_ok _ _ _ _ Gb (Forall_nil _)) as F. rewrite Forall_forall in F. specialize (F e Ie). rewrite Forall_forall in F.
      assert (Lt : forall i, In i (Datatypes.snd e) -> i < size g).
      { intros i I. destruct (group_by_mem _ _ _ _ _ _ Gb Ie I) as [X|(e' & [] & _)]. rewrite Forall_forall in Fi. auto. }
      intros i j I J. split; [auto|]. rewrite <- !(gr_val _ _ _ _ G) by auto. apply (live_eqv _ _ _ _ (gr_live _ _ _ _ G)). exists (fst e). auto. }
    exists g1, val1. split; [|exact G1]. intros k. unfold compress_with. rewrite Gb. cbn [rbind]. rewrite Ug. reflexivity.
  Qed.

  (* ---- whether a rule is saturating ---- *)
  Hypothesis Q_var : forall v k, Q (l_mk_var L v) k <-> k = 0.
  Hypothesis an0 : okan 0.
  Definition over (r : rule O) : Prop := Forall (okn Q) (instantiate (l_mk_var L) (rlhs r)) /\ Forall (okn Q) (instantiate (l_mk_var L) (rrhs r)) /\
    exists tl tr, tree (rlhs r) = Val tl /\ tree (rrhs r) = Val tr.
  Definition venv (v : string) : V := sem (l_mk_var L v) [].
  Lemma venv_vok : forall v, vok (venv v).
  Proof. intros v. apply Q_vok; [now apply Q_var|constructor]. Qed.
  Lemma live_default : forall val, live val eg_default.
  Proof.
    intros val. constructor; [apply wf_default| | |exact an0].
    - split; [intros n i []|]. split; [intros o H; discriminate H|constructor].
    - split; [split|].
      + intros i j (r & H & _). destruct i; discriminate H.
      + intros n i [].
      + intros i d H. destruct i; discriminate H.
  Qed.
  Lemma inst_vals : forall p ts ts', Forall (okn Q) (instantiate (l_mk_var L) p) -> Forall (fun t => aval sem (inst L t) = paval sem venv t) ts ->
    run_buf (fun o ts => Val (T o ts)) p ts = Val ts' -> Forall (fun t => aval sem (inst L t) = paval sem venv t) ts'.
  Proof.
    induction p as [|n p IH]; intros ts ts' F Ft R; cbn in R; [injection R as <-; exact Ft|].
    destruct (rmapM (index ts) (nch n)) as [us|] eqn:Eu; [|discriminate R]. cbn in R. inversion F as [|x l Hn Fr]; subst. refine (IH _ _ Fr _ R). apply Forall_app. split; [exact Ft|]. constructor; [|constructor].
    apply rmapM_F2 in Eu. assert (Ln := Forall2_length _ _ _ Eu). unfold okn in Hn. cbn [nop nch] in Hn.
    assert (Fu : Forall (fun t => aval sem (inst L t) = paval sem venv t) us).
    { rewrite Forall_forall in Ft. clear - Eu Ft. induction Eu as [|c u nc us Hc E IH]; constructor; auto. apply index_some in Hc as [_ Hc]. apply Ft. exact (nth_error_In _ _ Hc). }
    destruct (nop n) as [o|v]; cbn [inst aval paval instantiate_op] in *.
    - f_equal. rewrite map_map. clear - Fu. induction Fu; cbn; f_equal; auto.
    - apply Q_var in Hn. destruct us; [reflexivity|]. cbn in Ln. lia.
  Qed.
  Lemma inst_value : forall p t, Forall (okn Q) (instantiate (l_mk_var L) p) -> tree p = Val t -> aval sem (inst L t) = paval sem venv t.
  Proof.
    intros p t F Tr. unfold tree, fold_rec in Tr. destruct (run_buf _ p []) as [ts|] eqn:R; [|discriminate Tr]. cbn in Tr.
    pose proof (inst_vals p [] ts F (Forall_nil _) R) as Fv. rewrite Forall_forall in Fv. apply Fv. unfold pop_unwrap in Tr.
    destruct (rev ts) as [|x l] eqn:Er; [discriminate Tr|]. injection Tr as <-. apply in_rev. rewrite Er. now left.
  Qed.
  Lemma is_saturating_live : forall r, sure r -> over r -> exists f0 b, forall f, f0 <= f -> is_saturating L keep f r = Val b.
  Proof.
    intros r (_ & _ & tl & tr & Tl & Tr & _ & Ho) (Fl & Fr & _). pose proof (live_default (fun _ => venv ""%string)) as L0.
    destruct (add_expr_live (instantiate (l_mk_var L) (rlhs r)) (inst L tl) _ _ L0 Fl) as (g1 & v1 & l & A1 & G1 & Ll & El); [now rewrite tree_inst, Tl|].
    destruct (add_expr_live (instantiate (l_mk_var L) (rrhs r)) (inst L tr) _ _ (gr_live _ _ _ _ G1) Fr) as (g2 & v2 & i & A2 & G2 & Li & Ei); [now rewrite tree_inst, Tr|].
    assert (Sz : size g1 <= size g2) by (destruct (gr_ext _ _ _ _ G2) as (Sz & _); lia).
    destruct (union_live v2 g2 l i (gr_live _ _ _ _ G2)) as (g3 & v3 & m & Un & G3 & _); [lia|exact Li| |].
    { rewrite Ei, (gr_val _ _ _ _ G2), El by exact Ll. rewrite (inst_value _ _ Fl Tl), (inst_value _ _ Fr Tr). apply Ho. exact venv_vok. }
    destruct (rebuild_big v3 g3 (gr_live _ _ _ _ G3)) as (f0 & g4 & v4 & Rb & _).
    exists (S (S f0)), (Nat.leb (number_of_classes g4) (number_of_classes g1)). intros f Lf. destruct f as [|[|f]]; try lia.
    unfold is_saturating. rewrite A1. cbn [rbind]. rewrite A2. cbn [rbind]. rewrite Un. cbn [rbind]. rewrite Rb by lia. reflexivity.
  Qed.
  Definition good_rules (rs : ruleset O) : Prop := Forall (fun e => sure (Datatypes.snd e) /\ over (Datatypes.snd e)) rs.
  Lemma partition_live : forall rs, good_rules rs -> exists f0 a b, (forall f, f0 <= f -> partition (is_saturating L keep f) rs = Val (a, b)).
  Proof.
    intros rs F. assert (exists f0 bs, forall f, f0 <= f -> rmapM (is_saturating L keep f) (map Datatypes.snd rs) = Val bs) as (f0 & bs & H).
    { induction F as [|e rs [S1 O1] F (f0 & bs & IH)]; [exists 0, []; reflexivity|]. destruct (is_saturating_live _ S1 O1) as (f1 & b & Hb).
      exists (f0 + f1), (b :: bs). intros f Lf. cbn [map rmapM]. rewrite Hb by lia. cbn [rbind]. rewrite IH by lia. reflexivity. }
    exists f0. eexists _, _. intros f Lf. unfold partition. rewrite H by exact Lf. reflexivity.
  Qed.
  Lemma partition_good : forall f rs a b, good_rules rs -> partition f rs = Val (a, b) -> good_rules a /\ good_rules b.
  Proof.
    intros f rs a b F H. destruct (RulesetProofs.partition_sub f rs a b H) as [Sa Sb]. unfold good_rules in *. rewrite Forall_forall in F.
    split; apply Forall_forall; intros e I; [apply Sa in I|apply Sb in I]; apply in_map_iff in I as (e' & <- & I); exact (F e' I).
  Qed.
  Lemma good_sure : forall rs, good_rules rs -> Forall sure (map Datatypes.snd rs).
  Proof. intros rs F. apply Forall_map. eapply Forall_impl; [|exact F]. intros e [H _]. exact H. Qed.
  Lemma sat_rounds_live : forall a b n k g g', Forall sure a -> Forall sure b -> sat_rounds L keep (S (S k)) a b n g g' -> forall val, live val g -> exists val', grows val g val' g'.
  Proof.
    intros a b n k g g' Fa Fb H. induction H as [g|n g g1 g2 g' R1 R2 _ IH]; intros val Lv; [exists val; now apply grows_refl|].
    destruct (runs_live a k g g1 Fa R1 val Lv) as (v1 & G1). destruct (runs_live b k g1 g2 Fb R2 v1 (gr_live _ _ _ _ G1)) as (v2 & G2). destruct (IH v2 (gr_live _ _ _ _ G2)) as (v3 & G3).
    exists v3. exact (grows_trans _ _ _ _ _ _ G1 (grows_trans _ _ _ _ _ _ G2 G3)).
  Qed.
  Lemma scheduled_live : forall st rs k g g', fair st -> good_rules rs -> scheduled L keep (S (S k)) st rs g g' -> forall val, live val g -> exists val', grows val g val' g'.
  Proof.
    intros st rs k g g' Fa F H val Lv. destruct st as [|iter|order]; cbn in H.
    - destruct H as (g1 & R & B). destruct (runs_live _ k g g1 (good_sure _ F) R val Lv) as (v1 & G1). destruct (rebuild_small v1 k g1 g' (gr_live _ _ _ _ G1) B) as (v2 & G2). exists v2. exact (grows_trans _ _ _ _ _ _ G1 G2).
    - destruct H as (sat & other & g1 & g2 & Pt & R & R2 & B). destruct (partition_good _ _ _ _ F Pt) as [F1 F2].
      destruct (sat_rounds_live _ _ _ k g g1 (good_sure _ F1) (good_sure _ F2) R val Lv) as (v1 & G1). destruct (runs_live _ k g1 g2 (good_sure _ F1) R2 v1 (gr_live _ _ _ _ G1)) as (v2 & G2).
      destruct (rebuild_small v2 k g2 g' (gr_live _ _ _ _ G2) B) as (v3 & G3). exists v3. exact (grows_trans _ _ _ _ _ _ G1 (grows_trans _ _ _ _ _ _ G2 G3)).
    - destruct H as (out & (o1 & R & B) & H). destruct (runs_live _ k g o1 (good_sure _ F) R val Lv) as (v1 & G1). destruct (rebuild_small v1 k o1 out (gr_live _ _ _ _ G1) B) as (v2 & G2).
      destruct (compress_live order val g v2 out Fa Lv (grows_trans _ _ _ _ _ _ G1 G2)) as (g1 & v3 & Cw & G3). rewrite Cw in H. destruct (rebuild_small v3 k g1 g' (gr_live _ _ _ _ G3) H) as (v4 & G4).
      exists v4. exact (grows_trans _ _ _ _ _ _ G3 G4).
  Qed.
  (* the end of every scheduler comes: the rules are sorted, the last rebuild ends,
     and so does compressing *)
  Lemma simple_ends : forall rs k g g1, good_rules rs -> runs L keep (S (S k)) (map Datatypes.snd rs) g g1 -> forall val, live val g ->
    exists f0 g', forall f, f0 <= f -> s_rebuild L keep f g1 = Val g'.
  Proof.
    intros rs k g g1 F R val Lv. destruct (runs_live _ k g g1 (good_sure _ F) R val Lv) as (v1 & G1). destruct (rebuild_big v1 g1 (gr_live _ _ _ _ G1)) as (f0 & g' & v2 & Rb & _). eauto.
  Qed.
  Lemma compress_ends : forall order rs k g out, (forall l, Permutation l (order l)) -> good_rules rs -> simple L keep (S (S k)) rs g out -> forall val, live val g ->
    exists f0 g', forall f, f0 <= f -> compress_with L keep f order g out = Val g'.
  Proof.
    intros order rs k g out Po F (o1 & R & B) val Lv. destruct (runs_live _ k g o1 (good_sure _ F) R val Lv) as (v1 & G1). destruct (rebuild_small v1 k o1 out (gr_live _ _ _ _ G1) B) as (v2 & G2).
    destruct (compress_live order val g v2 out Po Lv (grows_trans _ _ _ _ _ _ G1 G2)) as (g1 & v3 & Cw & G3). destruct (rebuild_big v3 g1 (gr_live _ _ _ _ G3)) as (f0 & g' & v4 & Rb & _).
    exists (S (S f0)), g'. intros f Lf. destruct f as [|[|f]]; try lia. rewrite Cw. apply Rb. lia.
  Qed.
  Lemma scheduled_ends : forall st rs g, fair st -> good_rules rs -> forall val, live val g -> exists f0 g', forall f, f0 <= f -> scheduled L keep f st rs g g'.
  Proof.
    intros st rs g Fa F val Lv. destruct (rebuild_big val g Lv) as (f0 & g' & v' & Rb & G). assert (R0 : forall f l, runs L keep f l g g) by (intros; exists []; constructor).
    destruct st as [|iter|order].
    - exists f0, g'. intros f Lf. exists g. auto.
    - destruct (partition_live rs F) as (f1 & a & b & Pt). exists (f0 + f1), g'. intros f Lf. exists a, b, g, g. split; [apply Pt; lia|]. split; [|split; [apply R0|apply Rb; lia]].
      clear - R0. induction iter as [|n IH]; [constructor|]. econstructor; [apply R0|apply R0|exact IH].
    - destruct (compress_live order val g v' g' Fa Lv G) as (g1 & v1 & Cw & G1). destruct (rebuild_big v1 g1 (gr_live _ _ _ _ G1)) as (f1 & g2 & v2 & Rb1 & _).
      exists (S (S (f0 + f1))), g2. intros f Lf. destruct f as [|[|f]]; try lia. exists g'. split; [exists g; split; [apply R0|apply Rb; lia]|]. rewrite Cw. apply Rb1. lia.
  Qed.
  Lemma partition_ends : forall rs, good_rules rs -> exists f0 a b, forall f, f0 <= f -> partition (is_saturating L keep f) rs = Val (a, b).
  Proof. exact partition_live. Qed.

  (* ---- derivability ---- *)
  Lemma lookup_nodes_val : forall r (g : eg O C) ids (ts ts' : list (term O)), wf g -> Forall2 (fun _ c => c < size g) ts ids -> run_buf (fun o ts => Val (T o ts)) r ts = Val ts' ->
    exists o, lookup_nodes (l_eqb L) g ids r = Val o.
  Proof.
    induction r as [|n r IH]; intros g ids ts ts' W F R; cbn [lookup_nodes]; [eauto|]. cbn in R. destruct (rmapM (index ts) (nch n)) as [us|] eqn:Eu; [|discriminate R]. cbn in R.
    destruct (picks _ _ _ _ _ _ F Eu) as (ch & -> & Fc). cbn [rbind].
    assert (Lt : Forall (fun c => c < size g) ch) by (clear - Fc; induction Fc; constructor; auto).
    destruct (lookup_node_val _ eqb_eq g (Node (nop n) ch) W Lt) as ([i|] & El); rewrite El; cbn [rbind]; [|eauto].
    pose proof (lookup_node_some _ eqb_eq g _ i W El) as (n' & j & _ & _ & _ & Hj). apply (IH g (ids ++ [i]) (ts ++ [T (nop n) us]) ts' W); [|exact R].
    apply Forall2_app; [exact F|]. constructor; [|constructor]. eapply eqv_lt; eauto.
  Qed.
  Lemma lookup_node_has : forall (g : eg O C) o ch c, wf g -> canonical g -> has g o ch c -> exists i, lookup_node (l_eqb L) g (Node o ch) = Val (Some i).
  Proof.
    intros g o ch c W Cn (n & i & I & <- & F & Ei). pose proof (Cn n i I) as Fn.
    assert (Fc : Forall2 (fun c c' => find g c = Val c') ch (nch n)).
    { clear - F Fn. induction F as [|a b l l' (r & Ha & Hb) F IH]; constructor; inversion Fn as [|x y Hx Hy]; subst; [congruence|auto]. }
    assert (Ec : canon g (Node (nop n) ch) = Val n) by (apply canon_spec; auto).
    unfold lookup_node. rewrite Ec. cbn [rbind]. destruct (get_node (l_eqb L) (g_nodes g) n) as [j|] eqn:Gn; [|destruct (get_node_none _ eqb_eq _ _ Gn i I)].
    apply (get_node_in _ eqb_eq) in Gn. destruct (find_val g j) as (k & ->); [apply (wf_nodes g W _ _ Gn)|]. cbn [rbind]. eauto.
  Qed.
  Lemma lookup_nodes_all : forall r (g : eg O C) ids ts ts', wf g -> congruent g -> canonical g -> Forall2 (repr g) ts ids -> run_buf (fun o ts => Val (T o ts)) r ts = Val ts' ->
    Forall (fun t => exists c, repr g t c) ts' -> exists ids', lookup_nodes (l_eqb L) g ids r = Val (Some ids') /\ Forall2 (repr g) ts' ids'.
  Proof.
    induction r as [|n r IH]; intros g ids ts ts' W Cg Cn F R Ft; cbn [lookup_nodes]; cbn in R; [injection R as <-; eauto|]. destruct (rmapM (index ts) (nch n)) as [us|] eqn:Eu; [|discriminate R]. cbn in R.
    destruct (picks _ _ _ _ _ _ F Eu) as (ch & -> & Fc). cbn [rbind].
    assert (exists c, repr g (T (nop n) us) c) as (c & Rc). { rewrite Forall_forall in Ft. apply Ft. apply (run_buf_in r _ _ _ R). apply in_or_app. right. now left. }
    assert (Hc : has g (nop n) ch c).
    { inversion Rc as [o us' ch0 c0 F0 H0]; subst. apply (has_eqv g _ ch0 ch c c H0); [|destruct H0 as (m & j & _ & _ & _ & E); apply eqv_refl; eapply eqv_lt; eauto].
      clear - F0 Fc Cg. revert ch Fc. induction F0 as [|u c0 us ch0 Hu F0 IH]; intros ch Fc; inversion Fc as [|x y l l' Hx Hl]; subst; constructor; auto. exact (repr_cong g Cg u c0 Hu y Hx). }
    destruct (lookup_node_has g _ _ _ W Cn Hc) as (i & El). rewrite El. cbn [rbind]. apply (IH g (ids ++ [i]) (ts ++ [T (nop n) us]) ts' W Cg Cn); [|exact R|exact Ft].
    apply Forall2_app; [exact F|]. constructor; [|constructor]. apply Rp with ch; [exact Fc|]. exact (lookup_node_some _ eqb_eq g _ i W El).
  Qed.
  Lemma derive_start_live : forall lo r, over r -> exists g val, (forall k, derive_start L keep (S (S k)) lo r = Val g) /\ live val g /\
    forall ts, run_buf (fun o ts => Val (T o ts)) (instantiate (l_mk_var L) (rlhs r)) [] = Val ts -> Forall (fun t => exists c, repr g t c) ts.
  Proof.
    intros lo r (Fl & Fr & tl & tr & Tl & Tr). pose proof (live_default (fun _ => venv ""%string)) as L0.
    destruct (add_expr_live (instantiate (l_mk_var L) (rlhs r)) (inst L tl) _ _ L0 Fl) as (g1 & v1 & l & A1 & G1 & Ll & El); [now rewrite tree_inst, Tl|].
    destruct (add_expr_live (instantiate (l_mk_var L) (rrhs r)) (inst L tr) _ _ (gr_live _ _ _ _ G1) Fr) as (g2 & v2 & i & A2 & G2 & Li & Ei); [now rewrite tree_inst, Tr|].
    assert (R1 : forall ts, run_buf (fun o ts => Val (T o ts)) (instantiate (l_mk_var L) (rlhs r)) [] = Val ts -> Forall (fun t => exists c, repr g1 t c) ts).
    { intros ts R. pose proof (A1 0) as A. unfold s_add_expr, add_expr in A. destruct (add_nodes (l_eqb L) (s_make L) (md 2) eg_default [] _) as [[g1' ids]|] eqn:An; [|discriminate A]. cbn in A.
      destruct (pop_unwrap ids) as [j|]; [|discriminate A]. cbn in A. injection A as -> ->.
      destruct (add_nodes_ok _ eqb_eq _ _ (s_md_ok L eqb_eq keep 2) _ _ _ _ _ _ wf_default (Forall2_nil _) An) as (_ & _ & ts' & R' & F). assert (ts' = ts) as -> by congruence.
      clear - F. induction F; constructor; eauto. }
    destruct lo.
    - exists g1, v1. split; [|split; [exact (gr_live _ _ _ _ G1)|exact R1]]. intros k. unfold derive_start. rewrite A1. reflexivity.
    - exists g2, v2. split; [|split; [exact (gr_live _ _ _ _ G2)|]].
      + intros k. unfold derive_start. rewrite A1. cbn [rbind]. rewrite A2. reflexivity.
      + intros ts R. eapply Forall_impl; [|exact (R1 ts R)]. intros t (c & Rc). exists c. exact (repr_ext g1 g2 (gr_ext _ _ _ _ G2) t c Rc).
  Qed.
  Lemma derive_answer_live : forall r (g out : eg O C), over r -> wf out -> congruent out -> canonical out -> ext g out ->
    (forall ts, run_buf (fun o ts => Val (T o ts)) (instantiate (l_mk_var L) (rlhs r)) [] = Val ts -> Forall (fun t => exists c, repr g t c) ts) ->
    exists b, derive_answer L r out = Val b.
  Proof.
    intros r g out (_ & _ & tl & tr & Tl & Tr) W Cg Cn E Rp.
    assert (Tl' : tree (instantiate (l_mk_var L) (rlhs r)) = Val (inst L tl)) by now rewrite tree_inst, Tl.
    assert (Tr' : tree (instantiate (l_mk_var L) (rrhs r)) = Val (inst L tr)) by now rewrite tree_inst, Tr.
    unfold tree, fold_rec in Tl', Tr'. destruct (run_buf _ (instantiate (l_mk_var L) (rlhs r)) []) as [ts|] eqn:Rl; [|discriminate Tl']. destruct (run_buf _ (instantiate (l_mk_var L) (rrhs r)) []) as [us|] eqn:Rr; [|discriminate Tr']. cbn in Tl', Tr'.
    destruct (lookup_nodes_all _ out [] [] ts W Cg Cn (Forall2_nil _) Rl) as (ids & Ln & Fi).
    { eapply Forall_impl; [|exact (Rp ts eq_refl)]. intros t (c & Rc). exists c. exact (repr_ext g out E t c Rc). }
    destruct (pop_some _ _ _ _ _ Fi Tl') as (l & Pl & _). unfold derive_answer, lookup_expr. rewrite Ln. cbn [rbind]. unfold pop_unwrap in Pl. destruct (rev ids) as [|x xs]; [discriminate Pl|]. cbn [rbind unwrap].
    destruct (lookup_nodes_val _ out [] [] us W (Forall2_nil _) Rr) as (o & ->). cbn [rbind]. destruct o as [ids'|]; [|eexists; reflexivity]. destruct (rev ids'); eexists; reflexivity.
  Qed.
  Lemma saturating_end : forall k iter rs g g' val, good_rules rs -> live val g -> saturating L keep (S (S k)) iter rs g g' ->
    (exists val', grows val g val' g') /\ congruent g' /\ canonical g'.
  Proof.
    intros k iter rs g g' val F Lv H. split; [exact (scheduled_live (Saturating iter) rs k g g' Logic.I F H val Lv)|]. destruct H as (sat & other & g1 & g2 & Pt & R & R2 & B).
    destruct (partition_good _ _ _ _ F Pt) as [F1 F2]. destruct (sat_rounds_live _ _ _ k g g1 (good_sure _ F1) (good_sure _ F2) R val Lv) as (v1 & G1). destruct (runs_live _ k g1 g2 (good_sure _ F1) R2 v1 (gr_live _ _ _ _ G1)) as (v2 & G2).
    exact (proj2 (proj2 (rebuild_ok _ eqb_eq _ _ keep _ (s_md_ok L eqb_eq keep (S (S k))) _ _ _ (lv_wf _ _ (gr_live _ _ _ _ G2)) B))).
  Qed.
  Lemma can_derive_live : forall lo iter rs r, good_rules rs -> over r -> exists g val, (forall k, derive_start L keep (S (S k)) lo r = Val g) /\ live val g /\
    (forall k out, saturating L keep (S (S k)) iter rs g out -> exists b, derive_answer L r out = Val b) /\
    (exists f0 b, forall f, f0 <= f -> can_derive L keep f lo iter rs r b).
  Proof.
    intros lo iter rs r F Ov. destruct (derive_start_live lo r Ov) as (g & val & Ds & Lv & Rp). exists g, val. split; [exact Ds|]. split; [exact Lv|].
    assert (An : forall k out, saturating L keep (S (S k)) iter rs g out -> exists b, derive_answer L r out = Val b).
    { intros k out H. destruct (saturating_end k iter rs g out val F Lv H) as ((v' & G) & Cg & Cn). exact (derive_answer_live r g out Ov (lv_wf _ _ (gr_live _ _ _ _ G)) Cg Cn (gr_ext _ _ _ _ G) Rp). }
    split; [exact An|]. destruct (scheduled_ends (Saturating iter) rs g Logic.I F val Lv) as (f0 & out & Sc). destruct (An f0 out) as (b & Hb); [apply Sc; lia|]. exists (S (S f0)), b. intros f Lf. destruct f as [|[|f]]; try lia.
    exists g, out. split; [apply Ds|]. split; [apply Sc; lia|exact Hb].
  Qed.

  (* ---- e-graphs of workloads ---- *)
  Definition with_cvec (c : cvec C) (d : sig O C) : sig O C := Sig c (sg_simplest d) (sg_itv d).
  Lemma set_cvec_live : forall val g i c, live val g -> i < size g -> (forall d, dok (val i) d -> dok (val i) (with_cvec c d)) ->
    (forall d, P (g_an g) d -> P (g_an g) (with_cvec c d)) -> exists g', set_cvec g i c = Val g' /\ grows val g val g'.
  Proof.
    intros val g i c Lv Li Hd Hp. pose proof (lv_wf _ _ Lv) as W. destruct (find_val g i Li) as (r & F). pose proof (wf_rep g W i r F) as Fr.
    destruct (index_lt _ (g_data g) r) as (d & Ed & _); [rewrite (wf_data g W); exact (find_some _ _ _ Fr)|].
    assert (Cd : class_data g r = Val d) by (unfold class_data; rewrite Fr; exact Ed). destruct (live_dok val g r d Lv Cd) as [Dk Pd].
    assert (Ev : val r = val i) by (apply (live_eqv _ _ _ _ Lv); exists r; auto). rewrite Ev in Dk.
    unfold set_cvec. rewrite F. cbn [rbind]. rewrite Ed. cbn [rbind]. eexists. split; [reflexivity|].
    pose proof (set_data_inv Q nv P ole l_refl g r d (with_cvec c d) W (lv_inv _ _ Lv) Fr Ed (Hp d Pd) Logic.I) as [W1 E1 A1 I1 _].
    constructor; auto. constructor; auto; [|exact (lv_an _ _ Lv)]. apply (set_data_carries sem dok val g r (with_cvec c d) W (lv_sound _ _ Lv) Fr). rewrite Ev. auto.
  Qed.
  Definition suits (a : nat) (v : string) (c : cvec C) : Prop :=
    (forall d, dok (venv v) d -> dok (venv v) (with_cvec c d)) /\ (forall d, P a d -> P a (with_cvec c d)).
  Lemma init_vars_live : forall vs val g, live val g -> Forall (fun e => Datatypes.snd e = [] /\ suits (g_an g) (fst (fst e)) (Datatypes.snd (fst e))) vs ->
    exists g' val', (forall k, init_vars L keep (S (S k)) g vs = Val g') /\ grows val g val' g'.
  Proof.
    induction vs as [|[[v c] ts] vs IH]; intros val g Lv F; [exists g, val; split; [reflexivity|now apply grows_refl]|].
    inversion F as [|x l [Hl [H1 H2]] F']; subst. cbn [fst Datatypes.snd] in *. subst ts.
    destruct (add_live val g (l_mk_var L v) [] Lv) as (g1 & v1 & i & Ad & G1 & Li & Ei); [now apply Q_var|constructor|].
    destruct (set_cvec_live v1 g1 i c (gr_live _ _ _ _ G1) Li) as (g2 & Sc & G2).
    { rewrite Ei. exact H1. }
    { rewrite (gr_an _ _ _ _ G1). exact H2. }
    destruct (IH v1 g2 (gr_live _ _ _ _ G2)) as (g3 & v3 & Iv & G3); [rewrite (gr_an _ _ _ _ G2), (gr_an _ _ _ _ G1); exact F'|].
    exists g3, v3. split; [|exact (grows_trans _ _ _ _ _ _ G1 (grows_trans _ _ _ _ _ _ G2 G3))]. intros k. cbn [init_vars]. rewrite Ad. cbn [rbind]. rewrite Sc. cbn [rbind link_all]. apply Iv.
  Qed.
  Lemma add_all_exprs_live : forall rs val g, live val g -> Forall (fun r => Forall (okn Q) r /\ exists t, tree r = Val t) rs ->
    exists g' val', (forall k, add_all_exprs L keep (S (S k)) g rs = Val g') /\ grows val g val' g'.
  Proof.
    induction rs as [|r rs IH]; intros val g Lv F; [exists g, val; split; [reflexivity|now apply grows_refl]|]. inversion F as [|x l [Fr (t & Tr)] F']; subst.
    destruct (add_expr_live r t val g Lv Fr Tr) as (g1 & v1 & i & Ad & G1 & _). destruct (IH v1 g1 (gr_live _ _ _ _ G1) F') as (g2 & v2 & Aa & G2).
    exists g2, v2. split; [|exact (grows_trans _ _ _ _ _ _ G1 G2)]. intros k. cbn [add_all_exprs]. rewrite Ad. cbn [rbind]. apply Aa.
  Qed.
  Lemma to_egraph_live : forall w ss rs a vs, Workload.force w = Val ss -> rmapM (fun s => unwrap (Syntax.parse_rec (l_from_op L) (Sexp.display s))) ss = Val rs ->
    Forall (fun r => Forall (okn Q) r /\ exists t, tree r = Val t) rs -> l_init L (all_vars L rs) = Val (a, vs) -> okan a ->
    Forall (fun e => Datatypes.snd e = [] /\ suits a (fst (fst e)) (Datatypes.snd (fst e))) vs ->
    exists g val, (forall k, to_egraph L keep (S (S k)) w = Val g) /\ live val g.
  Proof.
    intros w ss rs a vs Fo Pa Fr In Oa Fv. set (g0 := EG (g_reps (@eg_default O C)) (g_nodes (@eg_default O C)) (g_data (@eg_default O C)) a).
    assert (L0 : live (fun _ => venv ""%string) g0).
    { pose proof (live_default (fun _ => venv ""%string)) as [W I S _]. constructor; [| | |exact Oa].
      - destruct W as [W1 W2 W3 W4 W5]. constructor; [exact W1|exact W2|exact W3|exact W4|exact W5].
      - split; [exact (proj1 I)|]. split; [exact (proj1 (proj2 I))|constructor].
      - exact S. }
    destruct (init_vars_live vs _ g0 L0 Fv) as (g1 & v1 & Iv & G1). destruct (add_all_exprs_live rs v1 g1 (gr_live _ _ _ _ G1) Fr) as (g2 & v2 & Aa & G2).
    exists g2, v2. split; [|exact (gr_live _ _ _ _ G2)]. intros k. unfold to_egraph. rewrite Fo. cbn [rbind]. rewrite Pa. cbn [rbind]. unfold initialize_vars. rewrite In. cbn [rbind].
    fold g0. rewrite Iv. cbn [rbind]. apply Aa.
  Qed.

  (* ---- put together ---- *)
  Hypothesis read_Q : forall o k, read_op L o k -> Q o k.
  Lemma two : forall f, 2 <= f -> exists k, f = S (S k).
  Proof. intros [|[|k]] H; try lia. eauto. Qed.
  Lemma read_term_ok : forall r, read_term L r -> Forall (okn Q) r /\ exists t, tree r = Val t.
  Proof. intros r [F T]. split; [|exact T]. eapply Forall_impl; [|exact F]. intros n [H|(v & ->)]; [exact (read_Q _ _ H)|]. unfold okn. cbn. now apply Q_var. Qed.
  Lemma read_pat_inst : forall p, read_pat L p -> Forall (okn Q) (instantiate (l_mk_var L) p) /\ exists t, tree p = Val t.
  Proof.
    intros p [F T]. split; [|exact T]. unfold instantiate. apply Forall_map. eapply Forall_impl; [|exact F]. intros [[o|v] ch] H; unfold okn; cbn in *; [exact (read_Q _ _ H)|]. subst ch. now apply Q_var.
  Qed.
  Lemma read_over_ : forall r, read_pat L (rlhs r) -> read_pat L (rrhs r) -> over r.
  Proof. intros r Hl Hr. destruct (read_pat_inst _ Hl) as [F1 (tl & T1)], (read_pat_inst _ Hr) as [F2 (tr & T2)]. split; [exact F1|]. split; [exact F2|eauto]. Qed.
  Lemma read_sure : forall r, rewrite_rule L r -> (forall tl tr, tree (rlhs r) = Val tl -> tree (rrhs r) = Val tr -> forall e, (forall v, vok (e v)) -> paval sem e tl = paval sem e tr) -> sure r /\ over r.
  Proof.
    intros r (Hl & Hr & Oc & Kd) H. split; [|now apply read_over_]. destruct Hl as [Fl (tl & Tl)], Hr as [Fr (tr & Tr)]. split; [|split; [exact Kd|]].
    - eapply Forall_impl; [|exact Fr]. intros [[o|v] ch] X; cbn in *; [exact (read_Q _ _ X)|exact Logic.I].
    - exists tl, tr. split; [exact Tl|]. split; [exact Tr|]. split; [intros v I; exact (Oc v tl I Tl)|auto].
  Qed.
  Lemma some_sure : forall rs rules, good_rules rs -> incl rules (map Datatypes.snd rs) -> Forall sure rules.
  Proof. intros rs rules F I. apply good_sure in F. rewrite Forall_forall in *. auto. Qed.
  Lemma live_goes_on : forall rs val g, good_rules rs -> live val g -> goes_on L keep rs g.
  Proof.
    intros rs val g F Lv. constructor.
    - intros r Hr. destruct (read_term_ok r Hr) as [Fr (t & Tr)]. destruct (add_expr_live r t val g Lv Fr Tr) as (g' & val' & i & Ad & _). exists g', i. intros f Lf. destruct (two f Lf) as (k & ->). apply Ad.
    - intros fuel rules g1 ms Lf Ic St. destruct (two fuel Lf) as (k & ->). destruct (runs_on rules k g g1 ms (some_sure rs rules F Ic) St val Lv) as [H1 H2]. split; [|exact H2].
      intros r c s I. destruct (H1 r c s I) as (g2 & ids & H). exists g2, ids. intros f Lf'. destruct (two f Lf') as (j & ->). apply H.
    - intros fuel order out Lf Fa Si. destruct (two fuel Lf) as (k & ->). exact (compress_ends order rs k g out Fa F Si val Lv).
    - intros st Fa. exact (scheduled_ends st rs g Fa F val Lv).
  Qed.
  Lemma reached_new : exists val, live val eg_default. Proof. exists (fun _ => venv ""%string). apply live_default. Qed.
  Lemma reached_add : forall fuel val g r g' i, 2 <= fuel -> live val g -> read_term L r -> s_add_expr L keep fuel g r = Val (g', i) -> exists val', live val' g'.
  Proof.
    intros fuel val g r g' i Lf Lv Hr H. destruct (two fuel Lf) as (k & ->). destruct (read_term_ok r Hr) as [Fr (t & Tr)]. destruct (add_expr_live r t val g Lv Fr Tr) as (g1 & val' & j & Ad & G & _).
    rewrite Ad in H. injection H as -> ->. exists val'. exact (gr_live _ _ _ _ G).
  Qed.
  Lemma reached_runs : forall fuel rs rules val g g', 2 <= fuel -> good_rules rs -> live val g -> incl rules (map Datatypes.snd rs) -> runs L keep fuel rules g g' -> exists val', live val' g'.
  Proof. intros fuel rs rules val g g' Lf F Lv Ic R. destruct (two fuel Lf) as (k & ->). destruct (runs_live rules k g g' (some_sure rs rules F Ic) R val Lv) as (v & G). exists v. exact (gr_live _ _ _ _ G). Qed.
  Lemma reached_rebuild : forall fuel val g g', 2 <= fuel -> live val g -> s_rebuild L keep fuel g = Val g' -> exists val', live val' g'.
  Proof. intros fuel val g g' Lf Lv R. destruct (two fuel Lf) as (k & ->). destruct (rebuild_small val k g g' Lv R) as (v & G). exists v. exact (gr_live _ _ _ _ G). Qed.
  Lemma reached_compress : forall fuel order rs val g out g', 2 <= fuel -> good_rules rs -> live val g -> (forall l, Permutation l (order l)) -> simple L keep fuel rs g out ->
    compress_with L keep fuel order g out = Val g' -> exists val', live val' g'.
  Proof.
    intros fuel order rs val g out g' Lf F Lv Fa Si H. destruct (two fuel Lf) as (k & ->). destruct (scheduled_live (Compress order) rs k g g' Fa F) with (val := val) as (v & G); [exists out; auto|exact Lv|]. exists v. exact (gr_live _ _ _ _ G).
  Qed.
  Lemma good_answers : forall rs, good_rules rs -> answers L keep rs.
  Proof.
    intros rs F. constructor; [exact (partition_live rs F)|]. intros lo iter r Hl Hr. destruct (can_derive_live lo iter rs r F (read_over_ r Hl Hr)) as (g & val & Ds & Lv & An & Ex). split; [|exact Ex].
    exists g. split; [intros f Lf; destruct (two f Lf) as (k & ->); apply Ds|]. intros fuel out Lf S. destruct (two fuel Lf) as (k & ->). exact (An k out S).
  Qed.
End Live.
