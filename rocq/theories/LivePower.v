(* Values for e-graphs: classes mean vectors, with an entry for each of several
   assignments to the variables.  The characteristic vectors of the classes agree
   with the values wherever both have an entry. *)
From Coq Require Import NArith Permutation.
From Verif Require Import Base BaseProofs Util UtilProofs Sexp Reader Lang LangProofs Syntax SyntaxProofs Workload Rule Ruleset Analysis AnalysisProofs Generalize Egraph EgraphSpec EgraphProofs EgraphSound Synth Apply Sched SynthSpec SynthProofs
  DeriveProofs InvProofs OpsSpec OpsProofs PlainSpec PlainProofs Domains LiveSpec LiveProofs.
Open Scope list_scope.

Lemma nth_map1 {C} (f : C -> option C) a j x : nth_error (map1 f a) j = Some x -> exists y, nth_error a j = Some y /\ x = match y with Some y => f y | None => None end.
Proof. unfold map1. rewrite nth_error_map. destruct (nth_error a j) as [y|]; [|discriminate]. cbn. intros [= <-]. eauto. Qed.
Lemma nth_combine {X Y} (a : list X) (b : list Y) j x y : nth_error (combine a b) j = Some (x, y) -> nth_error a j = Some x /\ nth_error b j = Some y.
Proof.
  revert b j. induction a as [|u a IH]; intros [|v b] [|j] H; cbn in *; try discriminate H; [injection H as -> ->; auto|auto].
Qed.
Lemma nth_map2 {C} (f : C -> C -> option C) a b j x : nth_error (map2 f a b) j = Some x ->
  exists y z, nth_error a j = Some y /\ nth_error b j = Some z /\ x = match y, z with Some y, Some z => f y z | _, _ => None end.
Proof.
  unfold map2. rewrite nth_error_map. destruct (nth_error (combine a b) j) as [[y z]|] eqn:E; [|discriminate]. cbn. intros [= <-].
  apply nth_combine in E as [E1 E2]. exists y, z. auto.
Qed.
Lemma len_map1 {C} (f : C -> option C) a : length (map1 f a) = length a.
Proof. unfold map1. apply map_length. Qed.
Lemma len_map2 {C} (f : C -> C -> option C) a b : length (map2 f a b) = Nat.min (length a) (length b).
Proof. unfold map2. now rewrite map_length, combine_length. Qed.
Lemma nth_repeat' {X} (c x : X) a j : nth_error (repeat c a) j = Some x -> x = c.
Proof. revert j. induction a as [|a IH]; intros [|j] H; cbn in H; try discriminate H; [congruence|eauto]. Qed.

Lemma nth_all {X} (a b : list X) : (forall j, nth_error a j = nth_error b j) -> a = b.
Proof. revert b. induction a as [|x a IH]; intros [|y b] H; try reflexivity; try discriminate (H 0). injection (H 0) as ->. f_equal. apply IH. intros j. exact (H (S j)). Qed.

(* flat terms *)
Lemma tree_fits {O} (Q : O -> nat -> Prop) r t : Forall (fun n => Q (nop n) (length (nch n))) r -> tree r = Val t -> fits Q t.
Proof.
  intros Hr H. assert (G : forall r buf ts, Forall (fun n => Q (nop n) (length (nch n))) r -> Forall (fits Q) buf -> run_buf (fun o l => Val (T o l)) r buf = Val ts -> Forall (fits Q) ts).
  { clear. induction r as [|n r IH]; intros buf ts Hr Hb H; cbn in H; [congruence|]. apply rbind_val in H as (args & H1 & H2). cbn in H2. inversion Hr as [|x l Hn Hr']; subst.
    apply rmapM_val in H1. eapply IH; [exact Hr'| |exact H2]. apply Forall_app. split; [exact Hb|]. constructor; [|constructor]. constructor.
    - rewrite <- (Forall2_length _ _ _ H1). exact Hn.
    - clear - Hb H1. induction H1 as [|i a l l' E _ IH]; constructor; auto. apply index_val in E. apply nth_error_In in E. rewrite Forall_forall in Hb. auto. }
  unfold tree, fold_rec in H. apply rbind_val in H as (ts & H1 & H2). pose proof (G r [] ts Hr (Forall_nil _) H1) as Ht.
  unfold pop_unwrap in H2. apply Forall_rev in Ht. destruct (rev ts); [discriminate H2|]. inversion H2; subst. inversion Ht; assumption.
Qed.
Lemma read_fits : forall O C (L : lang O C) x t, term_of_sexp (l_from_op L) x = Some t -> fits (read_op L) t.
Proof.
  intros O C L. fix IH 1. intros [w|l] t H.
  - cbn in H. destruct (l_from_op L w 0) as [o|] eqn:E; [|discriminate H]. cbn in H. injection H as <-. constructor; [exists w; exact E|constructor].
  - destruct l as [|[w|l'] l]; cbn in H; try discriminate H.
    match type of H with match ?f l with _ => _ end = _ => assert (forall ts, f l = Some ts -> Forall (fits (read_op L)) ts) as G end.
    { clear H. induction l as [|x l IHl]; intros ts H; [injection H as <-; constructor|].
      destruct (term_of_sexp (l_from_op L) x) as [t'|] eqn:E; [|discriminate H].
      match type of H with match ?g with _ => _ end = _ => destruct g as [us|] eqn:E2; [|discriminate H] end. injection H as <-.
      constructor; [exact (IH x t' E)|exact (IHl us eq_refl)]. }
    match type of H with match ?f with _ => _ end = _ => destruct f as [ts|]; [|discriminate H] end.
    destruct (l_from_op L w (length ts)) as [o|] eqn:E; [|discriminate H]. cbn in H. injection H as <-. constructor; [exists w; exact E|now apply G].
Qed.
Lemma parse_read : forall O C (L : lang O C) s r, parse_rec (l_from_op L) s = Some r -> read_term L r.
Proof.
  intros O C L s r H. unfold parse_rec in H. destruct (parse_str s) as [x|]; [|discriminate H]. destruct (term_of_sexp (l_from_op L) x) as [t|] eqn:E; [|discriminate H]. cbn in H. injection H as <-.
  split; [eapply Forall_impl; [|exact (fits_uses (read_op L) t (read_fits _ _ L x t E))]; intros n H'; left; exact H'|]. exists t. apply tree_to_rec.
Qed.
Lemma parsed_read : forall O C (L : lang O C) ss rs, rmapM (fun s => unwrap (parse_rec (l_from_op L) (display s))) ss = Val rs -> Forall (read_term L) rs.
Proof.
  intros O C L ss rs H. apply rmapM_val in H. induction H as [|s r ss rs Hs F IH]; constructor; [|exact IH]. destruct (parse_rec (l_from_op L) (display s)) as [r'|] eqn:E; [|discriminate Hs]. cbn in Hs. injection Hs as <-. exact (parse_read _ _ L _ _ E).
Qed.

Lemma init_entries {C} (consts : list (option C)) vars n ws v c : NoDup vars -> init_product consts vars = Val (n, ws) -> In (v, c) ws -> In v vars /\ var_cvec ws v = c.
Proof.
  intros Nd H I. unfold init_product in H. apply rbind_val in H as (cols & _ & H). apply rbind_val in H as (c0 & _ & H). apply rbind_val in H as (cs & _ & H). injection H as _ <-.
  split; [exact (in_combine_l _ _ _ _ I)|]. unfold var_cvec. apply In_nth_error in I as (j & E). apply nth_combine in E as [E1 E2]. assert (El : @lookup (cvec C) (combine vars cs) v = Some c) by exact (lookup_combine vars cs j v c Nd E1 E2). now rewrite El.
Qed.
Lemma init_keys {C} (consts : list (option C)) vars n ws v c : init_product consts vars = Val (n, ws) -> lookup ws v = Some c -> In v vars.
Proof.
  intros H El. unfold init_product in H. apply rbind_val in H as (cols & _ & H). apply rbind_val in H as (c0 & _ & H). apply rbind_val in H as (cs & _ & H). injection H as _ <-.
  apply lookup_some_in in El. exact (in_combine_l _ _ _ _ El).
Qed.

Section Power.
  Context {O C : Type}.
  Variable L : lang O C.
  Hypothesis eqb_eq : forall a b, l_eqb L a b = true <-> a = b.
  Variable keep : eg O C -> nat -> nat -> bool.
  Variable Qb : O -> nat -> bool.            (* operators in use, with their number of children *)
  Variable sem0 : O -> list C -> C.
  Variable dom0 : C -> Prop.
  Variable says0 : interval C -> C -> Prop.
  Variable pI : interval C -> Prop.
  Variable hgt : interval C -> nat.
  Variable KL : list O.
  Variable d0 : C.
  Variable n : nat.
  Variable env : nat -> string -> C.
  Hypothesis n_pos : 0 < n.
  Hypothesis env_dom : forall j x, dom0 (env j x).
  Hypothesis ceqb_refl : forall c, l_ceqb L c c = true.
  Hypothesis leaf0 : forall o k, is_leaf L o = true -> Qb o k = true -> k = 0.
  Hypothesis sem0_dom : forall o vs, Qb o (length vs) = true -> Forall dom0 vs -> l_to_var L o = None -> dom0 (sem0 o vs).
  Hypothesis eval_live : forall a o cs, Qb o (length cs) = true -> exists c, l_eval L a o cs = Val c /\
    (Forall (fun c : cvec C => length c = 0 \/ length c = a) cs -> length c = 0 \/ length c = a) /\
    (forall j x, nth_error c j = Some x -> l_to_var L o = None /\ exists xs, Forall2 (fun (c : cvec C) x => nth_error c j = Some x) cs xs /\
       forall ys, xs = map Some ys -> Forall dom0 ys -> x = Some (sem0 o ys)).
  Hypothesis itv_live : forall o is, Qb o (length is) = true -> Forall pI is -> (exists vs, Forall2 says0 is vs /\ Forall dom0 vs) -> exists i, l_itv L o is = Val i.
  Hypothesis itv_pI : forall o is i, Qb o (length is) = true -> Forall pI is -> l_itv L o is = Val i -> pI i.
  Hypothesis itv_says : forall o is i vs, Qb o (length is) = true -> Forall2 says0 is vs -> Forall dom0 vs -> l_itv L o is = Val i ->
    match l_to_var L o with Some _ => forall x, dom0 x -> says0 i x | None => says0 i (sem0 o vs) end.
  Hypothesis mk_live : forall i j v, dom0 v -> says0 i v -> says0 j v -> pI i -> pI j ->
    exists k, mk_itv (l_cleb L) (omax (l_cleb L) (low i) (low j)) (omin (l_cleb L) (high i) (high j)) = Val k /\ hgt k <= hgt i /\ (ieqb (l_ceqb L) i k = false -> hgt k < hgt i).
  Hypothesis mk_pI : forall i j k, pI i -> pI j -> mk_itv (l_cleb L) (omax (l_cleb L) (low i) (low j)) (omin (l_cleb L) (high i) (high j)) = Val k -> pI k.
  Hypothesis mk_says : forall i j k v, dom0 v -> says0 i v -> says0 j v -> mk_itv (l_cleb L) (omax (l_cleb L) (low i) (low j)) (omin (l_cleb L) (high i) (high j)) = Val k -> says0 k v.
  Hypothesis custom_none : forall g i, l_custom L g i = Val [].
  Hypothesis const_says : forall i v a b, dom0 v -> says0 i v -> low i = Some a -> high i = Some b -> l_ceqb L a b = true ->
    exists o, l_const L a = [Node o []] /\ l_to_var L o = None /\ Qb o 0 = true /\ sem0 o [] = v /\ In o KL.
  Hypothesis const_pI : forall i a b, pI i -> low i = Some a -> high i = Some b -> l_ceqb L a b = true -> Forall (okn (fun o k => Qb o k = true)) (l_const L a).
  Hypothesis const_same : forall i i' v a b a' b', dom0 v -> says0 i v -> says0 i' v -> low i = Some a -> high i = Some b -> l_ceqb L a b = true ->
    low i' = Some a' -> high i' = Some b' -> l_ceqb L a' b' = true -> l_const L a = l_const L a'.

  Definition Qp (o : O) (k : nat) : Prop := Qb o k = true.
  Definition ent (j : nat) (v : list C) : C := nth j v d0.
  Definition sem_at (j : nat) (o : O) (vs : list C) : C := match l_to_var L o with Some x => env j x | None => sem0 o vs end.
  Definition psem (o : O) (vs : list (list C)) : list C := if Qb o (length vs) then map (fun j => sem_at j o (map (ent j) vs)) (seq 0 n) else [].
  Definition pvok (v : list C) : Prop := length v = n /\ Forall dom0 v.
  Definition pagree (c : cvec C) (v : list C) : Prop := forall j x y, nth_error c j = Some x -> nth_error v j = Some y -> x = Some y.
  Definition pdok (v : list C) (d : sig O C) : Prop := pvok v /\ Forall (says0 (sg_itv d)) v /\ pagree (sg_cvec d) v /\ exists t, tree (sg_simplest d) = Val t.
  Definition pP (a : nat) (d : sig O C) : Prop := (length (sg_cvec d) = 0 \/ length (sg_cvec d) = a) /\ pI (sg_itv d).
  Definition cost_n (d : sig O C) : nat := match cost_rec (l_allowed L) (sg_simplest d) with Val c => N.to_nat c | Panic => 0 end.
  Definition pmu (d : sig O C) : nat := hgt (sg_itv d) + cost_n d.

  Lemma psem_nth : forall o vs j, Qb o (length vs) = true -> j < n -> nth_error (psem o vs) j = Some (sem_at j o (map (ent j) vs)).
  Proof.
    intros o vs j H Lj. unfold psem. rewrite H. rewrite nth_error_map. replace (nth_error (seq 0 n) j) with (Some j); [reflexivity|].
    symmetry. rewrite (nth_error_nth' (seq 0 n) 0) by (rewrite seq_length; exact Lj). now rewrite seq_nth.
  Qed.
  Lemma psem_len : forall o vs, Qb o (length vs) = true -> length (psem o vs) = n.
  Proof. intros o vs H. unfold psem. rewrite H, map_length. apply seq_length. Qed.
  Lemma ent_nth : forall j v, length v = n -> j < n -> nth_error v j = Some (ent j v).
  Proof. intros j v H Lj. unfold ent. apply nth_error_nth'. rewrite H. exact Lj. Qed.
  Lemma ent_dom : forall j v, pvok v -> j < n -> dom0 (ent j v).
  Proof. intros j v [H F] Lj. rewrite Forall_forall in F. apply F. exact (nth_error_In _ _ (ent_nth j v H Lj)). Qed.
  Lemma ents_dom : forall j vs, Forall pvok vs -> j < n -> Forall dom0 (map (ent j) vs).
  Proof. intros j vs F Lj. apply Forall_map. eapply Forall_impl; [|exact F]. intros v H. now apply ent_dom. Qed.
  Lemma p_dok_vok : forall v d, pdok v d -> pvok v. Proof. intros v d H. exact (proj1 H). Qed.
  Lemma sem_at_dom : forall j o vs, Qb o (length vs) = true -> Forall dom0 vs -> dom0 (sem_at j o vs).
  Proof. intros j o vs H F. unfold sem_at. destruct (l_to_var L o) eqn:E; [apply env_dom|auto]. Qed.
  Lemma p_Q_vok : forall o vs, Qp o (length vs) -> Forall pvok vs -> pvok (psem o vs).
  Proof.
    intros o vs H F. split; [exact (psem_len o vs H)|]. apply Forall_forall. intros x I. apply In_nth_error in I as (j & E).
    assert (Lj : j < n). { rewrite <- (psem_len o vs H). apply nth_error_Some. congruence. }
    rewrite (psem_nth o vs j H Lj) in E. injection E as <-. apply sem_at_dom; [now rewrite map_length|now apply ents_dom].
  Qed.
  Lemma p_vok_Q : forall o vs, pvok (psem o vs) -> Qb o (length vs) = true.
  Proof. intros o vs [H _]. unfold psem in H. destruct (Qb o (length vs)); [reflexivity|]. cbn in H. lia. Qed.

  (* the data of the children, by child *)
  Local Notation dof nn ds := (fun i => match slookup (combine (nch nn) ds) i with Some d => d | None => Sig [] [] full end).
  Lemma dof_ok : forall (R : nat -> sig O C -> Prop) (nn : node O) ds, Forall2 R (nch nn) ds -> forall i, In i (nch nn) -> R i (dof nn ds i) /\ In (dof nn ds i) ds.
  Proof.
    intros R nn ds F i I.
    assert (F' : Forall2 (fun i d => R i d /\ In d ds) (nch nn) ds).
    { clear - F. assert (G : forall l l', Forall2 R l l' -> incl l' ds -> Forall2 (fun i d => R i d /\ In d ds) l l').
      { induction 1 as [|x y l l' H F' IH]; intros Ic; constructor; [split; [exact H|apply Ic; now left]|apply IH; intros z Z; apply Ic; now right]. }
      apply G; [exact F|apply incl_refl]. }
    destruct (slookup_combine _ _ _ F' i I) as (d & -> & H). exact H.
  Qed.
  Lemma make_parts : forall a (nn : node O) ds val, Qp (nop nn) (length (nch nn)) -> Forall2 (fun c d => pdok (val c) d) (nch nn) ds ->
    exists s t c, make_simplest (is_leaf L) (fun i => sg_simplest (dof nn ds i)) nn = Val s /\ tree s = Val t /\
      l_eval L a (nop nn) (map (fun i => sg_cvec (dof nn ds i)) (nch nn)) = Val c.
  Proof.
    intros a nn ds val H F. pose proof (dof_ok _ nn ds F) as D.
    assert (exists trees, forall i, In i (nch nn) -> tree (sg_simplest (dof nn ds i)) = Val (trees i)) as (trees & Tr).
    { exists (fun i => match tree (sg_simplest (dof nn ds i)) with Val t => t | Panic => T (nop nn) [] end). intros i I. destruct (D i I) as [(_ & _ & _ & t & E) _]. now rewrite E. }
    destruct (make_simplest_spec (is_leaf L) (fun i => sg_simplest (dof nn ds i)) trees nn) as (s & Ms & Ts).
    { intros Hl. pose proof (leaf0 _ _ Hl H) as Ln. destruct (nch nn); [reflexivity|discriminate Ln]. }
    { exact Tr. }
    destruct (eval_live a (nop nn) (map (fun i => sg_cvec (dof nn ds i)) (nch nn))) as (c & Ec & _); [rewrite map_length; exact H|]. eauto 8.
  Qed.
  Lemma make_inv : forall a (nn : node O) ds d, s_make L a nn ds = Val d -> make_simplest (is_leaf L) (fun i => sg_simplest (dof nn ds i)) nn = Val (sg_simplest d) /\
    l_eval L a (nop nn) (map (fun i => sg_cvec (dof nn ds i)) (nch nn)) = Val (sg_cvec d) /\ l_itv L (nop nn) (map (fun i => sg_itv (dof nn ds i)) (nch nn)) = Val (sg_itv d).
  Proof.
    intros a nn ds d H. unfold s_make, make in H. destruct (make_simplest _ _ nn) as [s|]; [|discriminate H]. cbn [rbind] in H.
    destruct (l_eval L a (nop nn) _) as [c|]; [|discriminate H]. cbn [rbind] in H.
    match type of H with (let* i := ?x in _) = _ => destruct x as [iv|] eqn:E; [|discriminate H] end. cbn [rbind] in H. injection H as <-. auto.
  Qed.
  Lemma dof_P : forall a (nn : node O) ds, length ds = length (nch nn) -> Forall (pP a) ds -> forall i, In i (nch nn) -> pP a (dof nn ds i).
  Proof.
    intros a nn ds Ln F i I. assert (F2 : Forall2 (fun (_ : nat) d => pP a d) (nch nn) ds).
    { clear I. revert ds Ln F. generalize (nch nn) as l. induction l as [|c l IH]; intros [|d ds] Ln F; try discriminate Ln; constructor; inversion F; subst; auto. }
    exact (proj1 (dof_ok _ nn ds F2 i I)).
  Qed.
  Lemma says_at : forall val (nn : node O) ds j, (forall i, In i (nch nn) -> pdok (val i) (dof nn ds i) /\ In (dof nn ds i) ds) -> j < n ->
    Forall2 says0 (map (fun i => sg_itv (dof nn ds i)) (nch nn)) (map (ent j) (map val (nch nn))).
  Proof.
    intros val nn ds j D Lj. rewrite map_map. assert (G : forall l, incl l (nch nn) -> Forall2 says0 (map (fun i => sg_itv (dof nn ds i)) l) (map (fun i => ent j (val i)) l)).
    { induction l as [|c l IH]; intros Ic; cbn [map]; constructor; [|apply IH; intros z Z; apply Ic; now right].
      destruct (D c (Ic c (or_introl eq_refl))) as [(V1 & S1 & _) _]. rewrite Forall_forall in S1. apply S1. exact (nth_error_In _ _ (ent_nth j _ (proj1 V1) Lj)). }
    apply G, incl_refl.
  Qed.
  Lemma p_make_dok : forall a (nn : node O) ds d val, Forall2 (fun c x => pdok (val c) x) (nch nn) ds -> pvok (psem (nop nn) (map val (nch nn))) ->
    s_make L a nn ds = Val d -> pdok (psem (nop nn) (map val (nch nn))) d.
  Proof.
    intros a nn ds d val F Vk H. pose proof (p_vok_Q _ _ Vk) as Hq. rewrite map_length in Hq. destruct (make_inv a nn ds d H) as (Ms & Ev & It).
    destruct (make_parts a nn ds val Hq F) as (s & t & c & Ms' & Ts & Ev'). pose proof (dof_ok _ nn ds F) as D. split; [exact Vk|].
    assert (Vs : Forall pvok (map val (nch nn))). { apply Forall_map, Forall_forall. intros i I. exact (proj1 (proj1 (D i I))). }
    split; [|split; [|exists t; congruence]].
    - apply Forall_forall. intros x I. apply In_nth_error in I as (j & Ej). assert (Lj : j < n). { rewrite <- (proj1 Vk). apply nth_error_Some. congruence. }
      rewrite psem_nth in Ej by (rewrite ?map_length; assumption). injection Ej as <-.
      pose proof (itv_says (nop nn) _ (sg_itv d) (map (ent j) (map val (nch nn))) ltac:(rewrite map_length; exact Hq) (says_at val nn ds j D Lj) (ents_dom j _ Vs Lj) It) as K.
      unfold sem_at. destruct (l_to_var L (nop nn)); [apply K, env_dom|exact K].
    - intros j x y Ex Ey. assert (Lj : j < n). { rewrite <- (proj1 Vk). apply nth_error_Some. congruence. }
      rewrite psem_nth in Ey by (rewrite ?map_length; assumption). injection Ey as <-.
      destruct (eval_live a (nop nn) (map (fun i => sg_cvec (dof nn ds i)) (nch nn))) as (c' & Ec & _ & He); [rewrite map_length; exact Hq|].
      assert (c' = sg_cvec d) as -> by congruence. destruct (He j x Ex) as (Nv & xs & Fx & Hx). unfold sem_at. rewrite Nv. apply Hx; [|exact (ents_dom j _ Vs Lj)].
      clear - D Lj Fx. revert xs Fx. assert (G : forall l xs, incl l (nch nn) -> Forall2 (fun (c : cvec C) x => nth_error c j = Some x) (map (fun i => sg_cvec (dof nn ds i)) l) xs -> xs = map Some (map (ent j) (map val l))).
      { induction l as [|c l IH]; intros xs Ic Fx; inversion Fx as [|u v l1 l2 Hu Fl E1 E2]; subst; [reflexivity|]. cbn [map]. f_equal; [|apply IH; [intros z Z; apply Ic; now right|exact Fl]].
        destruct (D c (Ic c (or_introl eq_refl))) as [(V1 & _ & A1 & _) _]. exact (A1 j v _ Hu (ent_nth j _ (proj1 V1) Lj)). }
      intros xs Fx. exact (G (nch nn) xs (incl_refl _) Fx).
  Qed.
  Lemma p_make_live : forall a (nn : node O) ds val, a <= n -> Qp (nop nn) (length (nch nn)) -> Forall2 (fun c d => pdok (val c) d) (nch nn) ds -> Forall (pP a) ds ->
    exists d, s_make L a nn ds = Val d.
  Proof.
    intros a nn ds val La Hq F Fp. destruct (make_parts a nn ds val Hq F) as (s & t & c & Ms & Ts & Ev). pose proof (dof_ok _ nn ds F) as D.
    destruct (itv_live (nop nn) (map (fun i => sg_itv (dof nn ds i)) (nch nn))) as (iv & It).
    - rewrite map_length. exact Hq.
    - apply Forall_map, Forall_forall. intros i I. rewrite Forall_forall in Fp. exact (proj2 (Fp _ (proj2 (D i I)))).
    - exists (map (ent 0) (map val (nch nn))). split; [exact (says_at val nn ds 0 D n_pos)|]. apply ents_dom; [|exact n_pos]. apply Forall_map, Forall_forall. intros i I. exact (proj1 (proj1 (D i I))).
    - unfold s_make, make. rewrite Ms. cbn [rbind]. rewrite Ev. cbn [rbind]. rewrite It. cbn [rbind]. eauto.
  Qed.
  Lemma p_P_make : forall a (nn : node O) ds d, Qp (nop nn) (length (nch nn)) -> length ds = length (nch nn) -> Forall (pP a) ds -> s_make L a nn ds = Val d -> pP a d.
  Proof.
    intros a nn ds d Hq Ln Fp H. destruct (make_inv a nn ds d H) as (_ & Ev & It). pose proof (dof_P a nn ds Ln Fp) as D. split.
    - destruct (eval_live a (nop nn) (map (fun i => sg_cvec (dof nn ds i)) (nch nn))) as (c' & Ec & Hl & _); [rewrite map_length; exact Hq|].
      assert (c' = sg_cvec d) as -> by congruence. apply Hl. apply Forall_map, Forall_forall. intros i I. exact (proj1 (D i I)).
    - eapply itv_pI; [| |exact It]; [rewrite map_length; exact Hq|]. apply Forall_map, Forall_forall. intros i I. exact (proj2 (D i I)).
  Qed.

  (* merging *)
  Lemma merge_cvec_same : forall c1 c2 v, length c1 = length c2 -> length c1 <= length v -> pagree c1 v -> pagree c2 v -> merge_cvec (l_ceqb L) c1 c2 = Val (c1, false, false).
  Proof.
    induction c1 as [|x c1 IH]; intros [|y c2] v Le Lv A1 A2; try discriminate Le; [reflexivity|]. destruct v as [|z v]; [cbn in Lv; lia|].
    pose proof (A1 0 x z eq_refl eq_refl) as ->. pose proof (A2 0 y z eq_refl eq_refl) as ->. cbn [merge_cvec]. rewrite ceqb_refl.
    rewrite (IH c2 v); [reflexivity|cbn in Le; lia|cbn in Lv; lia|intros j; exact (A1 (S j))|intros j; exact (A2 (S j))].
  Qed.
  Lemma merge_inv : forall x y d ch, s_merge L x y = Val (d, ch) -> (exists a1 b1, merge_cvecs (l_ceqb L) (sg_cvec x) (sg_cvec y) = Val (sg_cvec d, a1, b1)) /\
    mk_itv (l_cleb L) (omax (l_cleb L) (low (sg_itv x)) (low (sg_itv y))) (omin (l_cleb L) (high (sg_itv x)) (high (sg_itv y))) = Val (sg_itv d) /\ (sg_simplest d = sg_simplest x \/ sg_simplest d = sg_simplest y).
  Proof.
    intros x y d ch H. unfold s_merge, merge in H. destruct (merge_cvecs _ _ _) as [[[cv a1] b1]|]; [|discriminate H]. cbn [rbind] in H.
    destruct (mk_itv _ _ _) as [iv|]; [|discriminate H]. cbn [rbind] in H. destruct (cost_rec _ (sg_simplest y)) as [cf|]; [|discriminate H]. cbn [rbind] in H.
    destruct (cost_rec _ (sg_simplest x)) as [ct|]; [|discriminate H]. cbn [rbind] in H. destruct (N.ltb cf ct); injection H as <- <-; cbn; eauto 8.
  Qed.
  Lemma p_merge_dok : forall v d1 d2 d c, pdok v d1 -> pdok v d2 -> s_merge L d1 d2 = Val (d, c) -> pdok v d.
  Proof.
    intros v d1 d2 d c (V1 & S1 & A1 & t1 & T1) (_ & S2 & A2 & t2 & T2) H. destruct (merge_inv _ _ _ _ H) as ((a1 & b1 & Mc) & Mi & Sm). split; [exact V1|]. split; [|split].
    - apply Forall_forall. intros x I. destruct V1 as [_ Fd]. rewrite Forall_forall in S1, S2, Fd. exact (mk_says _ _ _ _ (Fd x I) (S1 x I) (S2 x I) Mi).
    - assert (G : forall c1 c2 c3 v a b, pagree c1 v -> pagree c2 v -> merge_cvec (l_ceqb L) c1 c2 = Val (c3, a, b) -> pagree c3 v).
      { clear. induction c1 as [|x c1 IH]; intros [|y c2] c3 v a b A1 A2 M; cbn [merge_cvec] in M; try discriminate M; [injection M as <- <- <-; exact A1|injection M as <- <- <-; exact A1|].
        destruct v as [|z v]; [intros j u w _ E; destruct j; discriminate E|].
        assert (B1 : pagree c1 v) by (intros j; exact (A1 (S j))). assert (B2 : pagree c2 v) by (intros j; exact (A2 (S j))). pose proof (A1 0 x z eq_refl eq_refl) as ->. pose proof (A2 0 y z eq_refl eq_refl) as ->.
        destruct (l_ceqb L z z); [|discriminate M]. destruct (merge_cvec (l_ceqb L) c1 c2) as [[[r ma] mb]|] eqn:E; [|discriminate M]. cbn in M. injection M as <- <- <-.
        intros [|j] u w Eu Ew; cbn in Eu, Ew; [congruence|]. exact (IH _ _ _ _ _ B1 B2 E j u w Eu Ew). }
      unfold merge_cvecs in Mc. destruct (sg_cvec d1) as [|x1 c1] eqn:E1; [injection Mc as <- _ _; exact A1|]. destruct (sg_cvec d2) as [|x2 c2] eqn:E2; [injection Mc as <- _ _; exact A1|].
      exact (G _ _ _ _ _ _ A1 A2 Mc).
    - destruct Sm as [-> | ->]; eauto.
  Qed.
  Lemma p_P_merge : forall a x y d ch, pP a x -> pP a y -> s_merge L x y = Val (d, ch) -> pP a d.
  Proof.
    intros a x y d ch [L1 I1] [L2 I2] H. destruct (merge_inv _ _ _ _ H) as ((a1 & b1 & Mc) & Mi & _). split; [|exact (mk_pI _ _ _ I1 I2 Mi)].
    assert (G : forall c1 c2 c3 a b, merge_cvec (l_ceqb L) c1 c2 = Val (c3, a, b) -> length c3 = length c1).
    { clear. induction c1 as [|u c1 IH]; intros [|w c2] c3 a b M; cbn [merge_cvec] in M; try discriminate M; [injection M as <- <- <-; reflexivity|injection M as <- <- <-; reflexivity|].
      destruct u as [u|], w as [w|].
      - destruct (l_ceqb L u w); [|discriminate M]. destruct (merge_cvec (l_ceqb L) c1 c2) as [[[r ma] mb]|] eqn:E; [|discriminate M]. cbn in M. injection M as <- <- <-. cbn. f_equal. eauto.
      - destruct (merge_cvec (l_ceqb L) c1 c2) as [[[r ma] mb]|] eqn:E; [|discriminate M]. cbn in M. injection M as <- <- <-. cbn. f_equal. eauto.
      - destruct (merge_cvec (l_ceqb L) c1 c2) as [[[r ma] mb]|] eqn:E; [|discriminate M]. cbn in M. injection M as <- <- <-. cbn. f_equal. eauto.
      - destruct (merge_cvec (l_ceqb L) c1 c2) as [[[r ma] mb]|] eqn:E; [|discriminate M]. cbn in M. injection M as <- <- <-. cbn. f_equal. eauto. }
    unfold merge_cvecs in Mc. destruct (sg_cvec x) as [|x1 c1] eqn:E1; [injection Mc as <- _ _; exact L1|]. destruct (sg_cvec y) as [|x2 c2] eqn:E2; [injection Mc as <- _ _; exact L1|].
    rewrite (G _ _ _ _ _ Mc). exact L1.
  Qed.
  Lemma p_merge_live : forall a v x y, a <= n -> pdok v x -> pdok v y -> pP a x -> pP a y -> exists d ch, s_merge L x y = Val (d, ch) /\ (fst ch = true -> pmu d < pmu x).
  Proof.
    intros a v x y La (V1 & S1 & A1 & t1 & T1) (_ & S2 & A2 & t2 & T2) [L1 I1] [L2 I2].
    assert (Mc : merge_cvecs (l_ceqb L) (sg_cvec x) (sg_cvec y) = Val (sg_cvec x, false, false)).
    { unfold merge_cvecs. destruct (sg_cvec x) as [|x1 c1] eqn:E1; [reflexivity|]. destruct (sg_cvec y) as [|x2 c2] eqn:E2; [reflexivity|]. destruct V1 as [Lv _].
      apply (merge_cvec_same _ _ v); [cbn in *; lia|cbn in *; lia|exact A1|exact A2]. }
    assert (exists z, dom0 z /\ says0 (sg_itv x) z /\ says0 (sg_itv y) z) as (z & Dz & Z1 & Z2).
    { exists (ent 0 v). destruct V1 as [Lv Fd]. pose proof (nth_error_In _ _ (ent_nth 0 v Lv n_pos)) as I. rewrite Forall_forall in Fd, S1, S2. auto. }
    destruct (mk_live _ _ z Dz Z1 Z2 I1 I2) as (k & Mk & Le & Lt). unfold s_merge, merge. rewrite Mc. cbn [rbind]. rewrite Mk. cbn [rbind].
    pose proof (cost_spec (l_allowed L) (sg_simplest y) t2 T2) as Cy. pose proof (cost_spec (l_allowed L) (sg_simplest x) t1 T1) as Cx. rewrite Cy. cbn [rbind]. rewrite Cx. cbn [rbind].
    match type of Cy with _ = Val ?c => remember c as cf eqn:Ef end. match type of Cx with _ = Val ?c => remember c as ct eqn:Et end. clear Ef Et.
    destruct (N.ltb cf ct) eqn:El; eexists _, _; (split; [reflexivity|]); cbn [fst]; unfold pmu, cost_n; cbn [sg_itv sg_simplest].
    - intros _. rewrite Cx, Cy. apply N.ltb_lt in El. lia.
    - cbn. intros H. destruct (ieqb (l_ceqb L) (sg_itv x) k); [discriminate H|]. specialize (Lt eq_refl). lia.
  Qed.
  Lemma p_const_op : forall v d a b, pdok v d -> low (sg_itv d) = Some a -> high (sg_itv d) = Some b -> l_ceqb L a b = true ->
    exists o, l_const L a = [Node o []] /\ psem o [] = v /\ In o KL.
  Proof.
    intros v d a b ((Lv & Fd) & S & _) La Hb E. rewrite Forall_forall in Fd, S.
    assert (H : forall j, j < n -> exists o, l_const L a = [Node o []] /\ l_to_var L o = None /\ Qb o 0 = true /\ sem0 o [] = ent j v /\ In o KL).
    { intros j Lj. pose proof (nth_error_In _ _ (ent_nth j v Lv Lj)) as I. exact (const_says _ _ _ _ (Fd _ I) (S _ I) La Hb E). }
    destruct (H 0 n_pos) as (o & Ho & Nv & Hq & _ & Ko). exists o. split; [exact Ho|]. split; [|exact Ko]. apply nth_all. intros j. destruct (Nat.lt_ge_cases j n) as [Lj|Lj].
    - rewrite psem_nth by assumption. rewrite (ent_nth j v Lv Lj). unfold sem_at. rewrite Nv. cbn. destruct (H j Lj) as (o' & Ho' & _ & _ & Ev & _). congruence.
    - rewrite !(proj2 (nth_error_None _ _)); [reflexivity|lia|]. rewrite psem_len by exact Hq. exact Lj.
  Qed.
  Lemma p_P_const : forall a d x y, pP a d -> low (sg_itv d) = Some x -> high (sg_itv d) = Some y -> l_ceqb L x y = true -> Forall (okn Qp) (l_const L x).
  Proof. intros a d x y [_ I] Lx Hy E. exact (const_pI _ _ _ I Lx Hy E). Qed.
  Lemma p_const_one : forall v d a b d' a' b', pdok v d -> low (sg_itv d) = Some a -> high (sg_itv d) = Some b -> l_ceqb L a b = true ->
    pdok v d' -> low (sg_itv d') = Some a' -> high (sg_itv d') = Some b' -> l_ceqb L a' b' = true -> l_const L a = l_const L a'.
  Proof.
    intros v d a b d' a' b' ((Lv & Fd) & S & _) La Hb E (_ & S' & _) La' Hb' E'. rewrite Forall_forall in Fd, S, S'. pose proof (nth_error_In _ _ (ent_nth 0 v Lv n_pos)) as I.
    exact (const_same _ _ _ _ _ _ _ (Fd _ I) (S _ I) (S' _ I) La Hb E La' Hb' E').
  Qed.

  (* rules *)
  Hypothesis Q_var : forall v k, Qb (l_mk_var L v) k = true <-> k = 0.
  Hypothesis mk_var_var : forall v, l_to_var L (l_mk_var L v) = Some v.
  Hypothesis read_Q : forall o k, read_op L o k -> Qb o k = true.
  Definition pokan (a : nat) : Prop := a <= n.
  Definition plive (val : nat -> list C) (g : eg O C) : Prop := live Qp psem pdok pP pokan val g.
  (* the rule is true, and has no variable of the language *)
  Definition pairs_up (r : rule O) : Prop := forall tl tr, tree (rlhs r) = Val tl -> tree (rrhs r) = Val tr ->
    closed L tl /\ closed L tr /\ forall s, (forall v, dom0 (s v)) -> paval sem0 s tl = paval sem0 s tr.
  Definition all_pair (rs : ruleset O) : Prop := Forall (fun e => rewrite_rule L (snd e) /\ pairs_up (snd e)) rs.
  Lemma paval_at : forall e t, (forall v, pvok (e v)) -> fits (fun o k => match o with EN o => Qb o k = true | PV _ => True end) t -> closed L t ->
    pvok (paval psem e t) /\ forall j, j < n -> ent j (paval psem e t) = paval sem0 (fun v => ent j (e v)) t.
  Proof.
    intros e t He. induction t as [[o|v] ts IH] using term_ind'; intros Ft Cl; cbn [paval].
    - inversion Ft as [o' ts' Ho Fts]; subst. destruct Cl as [No Cl]. assert (G : Forall (fun t => pvok (paval psem e t) /\ forall j, j < n -> ent j (paval psem e t) = paval sem0 (fun v => ent j (e v)) t) ts).
      { clear Ho No Ft. induction ts as [|t ts IHt]; constructor; inversion IH; inversion Fts; subst; destruct Cl; auto. }
      assert (Hv : Forall pvok (map (paval psem e) ts)). { apply Forall_map. eapply Forall_impl; [|exact G]. intros t [H _]. exact H. }
      assert (Ho' : Qb o (length (map (paval psem e) ts)) = true) by now rewrite map_length. split; [exact (p_Q_vok o _ Ho' Hv)|].
      intros j Lj. unfold ent at 1. rewrite (nth_error_nth _ _ d0 (psem_nth o _ j Ho' Lj)). unfold sem_at. rewrite No. f_equal. rewrite map_map.
      clear - G Lj. induction G as [|t ts [_ H] G IHt]; cbn; f_equal; auto.
    - split; [apply He|reflexivity].
  Qed.
  Lemma pairs_sure : forall r, rewrite_rule L r -> pairs_up r -> forall tl tr, tree (rlhs r) = Val tl -> tree (rrhs r) = Val tr ->
    forall e, (forall v, pvok (e v)) -> paval psem e tl = paval psem e tr.
  Proof.
    intros r (Hl & Hr & _) H tl tr Tl Tr e He. destruct (H tl tr Tl Tr) as (Cl & Cr & Eq).
    assert (Ft : forall p t, read_pat L p -> tree p = Val t -> fits (fun o k => match o with EN o => Qb o k = true | PV _ => True end) t).
    { intros p t [F _] Tp. apply (tree_fits _ p t); [|exact Tp]. eapply Forall_impl; [|exact F]. intros [[o|v] ch] X; cbn in *; [exact (read_Q _ _ X)|exact Logic.I]. }
    destruct (paval_at e tl He (Ft _ _ Hl Tl) Cl) as [[L1 _] E1]. destruct (paval_at e tr He (Ft _ _ Hr Tr) Cr) as [[L2 _] E2].
    apply nth_all. intros j. destruct (Nat.lt_ge_cases j n) as [Lj|Lj].
    - rewrite (ent_nth j _ L1 Lj), (ent_nth j _ L2 Lj), E1, E2 by exact Lj. f_equal. apply Eq. intros v. now apply ent_dom.
    - rewrite !(proj2 (nth_error_None _ _)); [reflexivity|lia|lia].
  Qed.
  Lemma pairs_good : forall rs, all_pair rs -> good_rules L Qp psem pvok rs.
  Proof.
    intros rs F. eapply Forall_impl; [|exact F]. intros [k r] [H1 H2]. apply (read_sure L Qp psem pvok Q_var read_Q r H1). exact (pairs_sure r H1 H2).
  Qed.
  Lemma p_an0 : pokan 0. Proof. unfold pokan. lia. Qed.
  Lemma p_goes_on : forall rs val g, all_pair rs -> plive val g -> goes_on L keep rs g.
  Proof. intros rs val g F Lv. exact (live_goes_on L eqb_eq keep Qp psem pvok pdok pP pokan pmu KL p_dok_vok p_Q_vok p_make_dok p_merge_dok p_P_make p_P_merge p_make_live p_merge_live custom_none p_const_op p_P_const p_const_one Q_var p_an0 read_Q rs val g (pairs_good rs F) Lv). Qed.
  Lemma p_answers : forall rs, all_pair rs -> answers L keep rs.
  Proof. intros rs F. exact (good_answers L eqb_eq keep Qp psem pvok pdok pP pokan pmu KL p_dok_vok p_Q_vok p_make_dok p_merge_dok p_P_make p_P_merge p_make_live p_merge_live custom_none p_const_op p_P_const p_const_one Q_var p_an0 read_Q rs (pairs_good rs F)). Qed.
  Lemma p_new : exists val, plive val eg_default.
  Proof. exact (reached_new L Qp psem pdok pP pokan p_an0). Qed.
  Lemma p_add : forall fuel val g r g' i, 2 <= fuel -> plive val g -> read_term L r -> s_add_expr L keep fuel g r = Val (g', i) -> exists val', plive val' g'.
  Proof. exact (reached_add L eqb_eq keep Qp psem pvok pdok pP pokan pmu KL p_dok_vok p_Q_vok p_make_dok p_merge_dok p_P_make p_P_merge p_make_live p_merge_live custom_none p_const_op p_P_const p_const_one Q_var read_Q). Qed.
  Lemma p_runs : forall fuel rs rules val g g', 2 <= fuel -> all_pair rs -> plive val g -> incl rules (map snd rs) -> runs L keep fuel rules g g' -> exists val', plive val' g'.
  Proof. intros fuel rs rules val g g' Lf F. exact (reached_runs L eqb_eq keep Qp psem pvok pdok pP pokan pmu KL p_dok_vok p_Q_vok p_make_dok p_merge_dok p_P_make p_P_merge p_make_live p_merge_live custom_none p_const_op p_P_const p_const_one fuel rs rules val g g' Lf (pairs_good rs F)). Qed.
  Lemma p_rebuild : forall fuel val g g', 2 <= fuel -> plive val g -> s_rebuild L keep fuel g = Val g' -> exists val', plive val' g'.
  Proof. exact (reached_rebuild L eqb_eq keep Qp psem pvok pdok pP pokan pmu KL p_dok_vok p_Q_vok p_make_dok p_merge_dok p_P_make p_P_merge p_make_live p_merge_live custom_none p_const_op p_P_const p_const_one). Qed.
  Lemma p_compress : forall fuel order rs val g out g', 2 <= fuel -> all_pair rs -> plive val g -> (forall l, Permutation l (order l)) -> simple L keep fuel rs g out ->
    compress_with L keep fuel order g out = Val g' -> exists val', plive val' g'.
  Proof. intros fuel order rs val g out g' Lf F. exact (reached_compress L eqb_eq keep Qp psem pvok pdok pP pokan pmu KL p_dok_vok p_Q_vok p_make_dok p_merge_dok p_P_make p_P_merge p_make_live p_merge_live custom_none p_const_op p_P_const p_const_one fuel order rs val g out g' Lf (pairs_good rs F)). Qed.
  (* workloads *)
  Lemma p_workload : forall fuel w ss rs vs g, 2 <= fuel -> force w = Val ss -> rmapM (fun s => unwrap (parse_rec (l_from_op L) (display s))) ss = Val rs ->
    Forall (read_term L) rs -> l_init L (all_vars L rs) = Val (n, vs) ->
    Forall (fun e : string * cvec C * list (recexpr O) => snd e = [] /\ length (snd (fst e)) = n /\ forall j, j < n -> nth_error (snd (fst e)) j = Some (Some (env j (fst (fst e))))) vs ->
    (to_egraph L keep fuel w = Val g -> exists val, plive val g) /\ exists g', forall f, 2 <= f -> to_egraph L keep f w = Val g'.
  Proof.
    intros fuel w ss rs vs g Lf Fo Pa Fr Hi Fv.
    destruct (to_egraph_live L eqb_eq keep Qp psem pvok pdok pP pokan pmu KL p_dok_vok p_Q_vok p_make_dok p_merge_dok p_P_make p_P_merge p_make_live p_merge_live custom_none p_const_op p_P_const p_const_one Q_var p_an0 w ss rs n vs Fo Pa) as (g1 & val & Ok & Lv).
    - eapply Forall_impl; [|exact Fr]. intros r Hr. exact (read_term_ok L Qp Q_var read_Q r Hr).
    - exact Hi.
    - unfold pokan. lia.
    - eapply Forall_impl; [|exact Fv]. intros [[v c] ts] (H1 & H2 & H3). cbn [fst snd] in *. split; [exact H1|]. split.
      + intros d (V1 & S1 & _ & T1). split; [exact V1|]. split; [exact S1|]. split; [|exact T1]. intros j x y Ex Ey. cbn in Ex. assert (Lj : j < n). { rewrite <- H2. apply nth_error_Some. congruence. }
        rewrite H3 in Ex by exact Lj. injection Ex as <-. unfold venv in Ey. rewrite psem_nth in Ey; [|now apply Q_var|exact Lj]. injection Ey as <-. unfold sem_at. rewrite mk_var_var. reflexivity.
      + intros d [_ Pd]. split; [right; exact H2|exact Pd].
    - split; [|exists g1; intros f Hf; destruct (two f Hf) as (k & ->); apply Ok].
      intros Hg. destruct (two fuel Lf) as (k & ->). rewrite Ok in Hg. injection Hg as <-. exists val. exact Lv.
  Qed.
End Power.

Section Vectors.
  Context {O C : Type}.
  Variable L : lang O C.
  Hypothesis eqb_eq : forall a b, l_eqb L a b = true <-> a = b.
  Variable keep : eg O C -> nat -> nat -> bool.
  Variable Qb : O -> nat -> bool.            (* operators in use, with their number of children *)
  Variable sem0 : O -> list C -> C.
  Variable dom0 : C -> Prop.
  Variable says0 : interval C -> C -> Prop.
  Variable pI : interval C -> Prop.
  Variable hgt : interval C -> nat.
  Variable KL : list O.
  Variable d0 : C.
  Hypothesis ceqb_refl : forall c, l_ceqb L c c = true.
  Hypothesis leaf0 : forall o k, is_leaf L o = true -> Qb o k = true -> k = 0.
  Hypothesis sem0_dom : forall o vs, Qb o (length vs) = true -> Forall dom0 vs -> l_to_var L o = None -> dom0 (sem0 o vs).
  Hypothesis eval_live : forall a o cs, Qb o (length cs) = true -> exists c, l_eval L a o cs = Val c /\
    (Forall (fun c : cvec C => length c = 0 \/ length c = a) cs -> length c = 0 \/ length c = a) /\
    (forall j x, nth_error c j = Some x -> l_to_var L o = None /\ exists xs, Forall2 (fun (c : cvec C) x => nth_error c j = Some x) cs xs /\
       forall ys, xs = map Some ys -> Forall dom0 ys -> x = Some (sem0 o ys)).
  Hypothesis itv_live : forall o is, Qb o (length is) = true -> Forall pI is -> (exists vs, Forall2 says0 is vs /\ Forall dom0 vs) -> exists i, l_itv L o is = Val i.
  Hypothesis itv_pI : forall o is i, Qb o (length is) = true -> Forall pI is -> l_itv L o is = Val i -> pI i.
  Hypothesis itv_says : forall o is i vs, Qb o (length is) = true -> Forall2 says0 is vs -> Forall dom0 vs -> l_itv L o is = Val i ->
    match l_to_var L o with Some _ => forall x, dom0 x -> says0 i x | None => says0 i (sem0 o vs) end.
  Hypothesis mk_live : forall i j v, dom0 v -> says0 i v -> says0 j v -> pI i -> pI j ->
    exists k, mk_itv (l_cleb L) (omax (l_cleb L) (low i) (low j)) (omin (l_cleb L) (high i) (high j)) = Val k /\ hgt k <= hgt i /\ (ieqb (l_ceqb L) i k = false -> hgt k < hgt i).
  Hypothesis mk_pI : forall i j k, pI i -> pI j -> mk_itv (l_cleb L) (omax (l_cleb L) (low i) (low j)) (omin (l_cleb L) (high i) (high j)) = Val k -> pI k.
  Hypothesis mk_says : forall i j k v, dom0 v -> says0 i v -> says0 j v -> mk_itv (l_cleb L) (omax (l_cleb L) (low i) (low j)) (omin (l_cleb L) (high i) (high j)) = Val k -> says0 k v.
  Hypothesis custom_none : forall g i, l_custom L g i = Val [].
  Hypothesis const_says : forall i v a b, dom0 v -> says0 i v -> low i = Some a -> high i = Some b -> l_ceqb L a b = true ->
    exists o, l_const L a = [Node o []] /\ l_to_var L o = None /\ Qb o 0 = true /\ sem0 o [] = v /\ In o KL.
  Hypothesis const_pI : forall i a b, pI i -> low i = Some a -> high i = Some b -> l_ceqb L a b = true -> Forall (okn (fun o k => Qb o k = true)) (l_const L a).
  Hypothesis const_same : forall i i' v a b a' b', dom0 v -> says0 i v -> says0 i' v -> low i = Some a -> high i = Some b -> l_ceqb L a b = true ->
    low i' = Some a' -> high i' = Some b' -> l_ceqb L a' b' = true -> l_const L a = l_const L a'.

  Hypothesis Q_var : forall v k, Qb (l_mk_var L v) k = true <-> k = 0.
  Hypothesis mk_var_var : forall v, l_to_var L (l_mk_var L v) = Some v.
  Hypothesis read_Q : forall o k, read_op L o k -> Qb o k = true.
  Variable samples : list C.
  Hypothesis samples_dom : Forall dom0 samples.
  Hypothesis d0_in : In d0 samples.
  Hypothesis init_prod : forall vars, l_init L vars = no_links (init_product (map Some samples) vars).

  Definition alive (g : eg O C) : Prop := exists n env val, 0 < n /\ (forall j x, dom0 (env j x)) /\ plive L Qb sem0 dom0 says0 pI d0 n env val g.
  Lemma all_vars_nodup : forall rs, NoDup (all_vars L rs).
  Proof. intros rs. rewrite all_vars_fold, addv_first. cbn [app]. rewrite mem_nil. apply first_seen_nodup. Qed.
  Lemma d0_dom : dom0 d0. Proof. rewrite Forall_forall in samples_dom. auto. Qed.
  Lemma init_rows : forall vars n vs, NoDup vars -> l_init L vars = Val (n, vs) -> exists env, 0 < n /\ (forall j x, dom0 (env j x)) /\
    Forall (fun e : string * cvec C * list (recexpr O) => snd e = [] /\ length (snd (fst e)) = n /\ forall j, j < n -> nth_error (snd (fst e)) j = Some (Some (env j (fst (fst e))))) vs.
  Proof.
    intros vars n vs Nd H. rewrite init_prod in H. unfold no_links in H. destruct (init_product (map Some samples) vars) as [[m ws]|] eqn:E; [|discriminate H]. cbn in H. injection H as -> <-.
    exists (fun j x => match nth j (var_cvec ws x) None with Some y => y | None => d0 end). split; [|split].
    - destruct (init_product_row samples vars n ws (fun _ => d0) Nd E) as (r & Hr & _); [intros _; exact d0_in|]. lia.
    - intros j x. destruct (in_dec string_dec x vars) as [Ix|Ix].
      + destruct (Nat.lt_ge_cases j n) as [Lj|Lj].
        * destruct (init_product_row_env samples d0 vars n ws j Nd d0_in E Lj) as (e & He & Hn). rewrite (Hn x Ix). rewrite Forall_forall in samples_dom. auto.
        * rewrite nth_overflow; [apply d0_dom|]. rewrite (init_product_length _ _ _ _ x Nd E Ix). exact Lj.
      + assert (var_cvec ws x = []) as ->. { unfold var_cvec. destruct (lookup ws x) as [c|] eqn:El; [|reflexivity]. exfalso. apply Ix. exact (init_keys _ _ _ _ x c E El). }
        destruct j; apply d0_dom.
    - apply Forall_map, Forall_forall. intros [v c] I. cbn [fst snd]. split; [reflexivity|]. destruct (init_entries _ _ _ _ v c Nd E I) as [Iv Ev].
      pose proof (init_product_length _ _ _ _ v Nd E Iv) as Lc. rewrite Ev in Lc. split; [exact Lc|]. intros j Lj. rewrite Ev. destruct (init_product_row_env samples d0 vars n ws j Nd d0_in E Lj) as (e & _ & Hn).
      specialize (Hn v Iv). rewrite Ev in Hn. rewrite Hn. rewrite <- Hn. apply nth_error_nth'. lia.
  Qed.
  Lemma alive_workload : forall fuel w g, 2 <= fuel -> to_egraph L keep fuel w = Val g -> alive g.
  Proof.
    intros fuel w g Lf H. assert (H0 := H). unfold to_egraph in H0. destruct (force w) as [ss|] eqn:Fo; [|discriminate H0]. cbn [rbind] in H0.
    destruct (rmapM _ ss) as [rs|] eqn:Pa; [|discriminate H0]. cbn [rbind] in H0. unfold initialize_vars in H0. destruct (l_init L (all_vars L rs)) as [[n vs]|] eqn:Hi; [|discriminate H0]. clear H0.
    destruct (init_rows _ n vs (all_vars_nodup rs) Hi) as (env & Pn & De & Fv).
    destruct (p_workload L eqb_eq keep Qb sem0 dom0 says0 pI hgt KL d0 n env Pn De ceqb_refl leaf0 sem0_dom eval_live itv_live itv_pI itv_says mk_live mk_pI mk_says custom_none const_says const_pI const_same Q_var mk_var_var read_Q fuel w ss rs vs g Lf Fo Pa (parsed_read _ _ L ss rs Pa) Hi Fv) as [(val & Lv) _]; [exact H|].
    exists n, env, val. auto.
  Qed.
  Local Notation pairs := (all_pair L sem0 dom0).
  Lemma reached_alive : forall rs g, pairs rs -> reached L keep rs g -> alive g.
  Proof.
    intros rs g F H. induction H as [|fuel w g Lf H|fuel g r g' i Lf _ IH Hr H|fuel rules g g' Lf _ IH Ic H|fuel g g' Lf _ IH H|fuel order part g out g' Lf _ IH Fa Ip Si H].
    - set (n := 1). set (env := fun (_ : nat) (_ : string) => d0). assert (Pn : 0 < n) by (unfold n; lia). assert (De : forall j x, dom0 (env j x)) by (intros; apply d0_dom).
      destruct (p_new L Qb sem0 dom0 says0 pI d0 n env Pn) as (val & Lv). exists n, env, val. auto.
    - exact (alive_workload fuel w g Lf H).
    - destruct IH as (n & env & val & Pn & De & Lv). destruct (p_add L eqb_eq keep Qb sem0 dom0 says0 pI hgt KL d0 n env Pn De ceqb_refl leaf0 sem0_dom eval_live itv_live itv_pI itv_says mk_live mk_pI mk_says custom_none const_says const_pI const_same Q_var read_Q fuel val g r g' i Lf Lv Hr H) as (v & Lv'). exists n, env, v. auto.
    - destruct IH as (n & env & val & Pn & De & Lv). destruct (p_runs L eqb_eq keep Qb sem0 dom0 says0 pI hgt KL d0 n env Pn De ceqb_refl leaf0 sem0_dom eval_live itv_live itv_pI itv_says mk_live mk_pI mk_says custom_none const_says const_pI const_same Q_var read_Q fuel rs rules val g g' Lf F Lv Ic H) as (v & Lv'). exists n, env, v. auto.
    - destruct IH as (n & env & val & Pn & De & Lv). destruct (p_rebuild L eqb_eq keep Qb sem0 dom0 says0 pI hgt KL d0 n env Pn De ceqb_refl leaf0 sem0_dom eval_live itv_live itv_pI itv_says mk_live mk_pI mk_says custom_none const_says const_pI const_same fuel val g g' Lf Lv H) as (v & Lv'). exists n, env, v. auto.
    - destruct IH as (n & env & val & Pn & De & Lv). destruct (p_compress L eqb_eq keep Qb sem0 dom0 says0 pI hgt KL d0 n env Pn De ceqb_refl leaf0 sem0_dom eval_live itv_live itv_pI itv_says mk_live mk_pI mk_says custom_none const_says const_pI const_same Q_var read_Q fuel order part val g out g' Lf (incl_Forall Ip F) Lv Fa Si H) as (v & Lv'). exists n, env, v. auto.
  Qed.
  Lemma vectors_steady : steady L keep.
  Proof.
    intros f f' w g Hf Hf' H. assert (H0 := H). unfold to_egraph in H0. destruct (force w) as [ss|] eqn:Fo; [|discriminate H0]. cbn [rbind] in H0.
    destruct (rmapM _ ss) as [rs|] eqn:Pa; [|discriminate H0]. cbn [rbind] in H0. unfold initialize_vars in H0. destruct (l_init L (all_vars L rs)) as [[n vs]|] eqn:Hi; [|discriminate H0]. clear H0.
    destruct (init_rows _ n vs (all_vars_nodup rs) Hi) as (env & Pn & De & Fv).
    destruct (p_workload L eqb_eq keep Qb sem0 dom0 says0 pI hgt KL d0 n env Pn De ceqb_refl leaf0 sem0_dom eval_live itv_live itv_pI itv_says mk_live mk_pI mk_says custom_none const_says const_pI const_same Q_var mk_var_var read_Q f w ss rs vs g Hf Fo Pa (parsed_read _ _ L ss rs Pa) Hi Fv) as [_ (g' & E)].
    rewrite (E f Hf) in H. rewrite (E f' Hf'). exact H.
  Qed.
  Theorem vectors_go_on : forall rs, pairs rs -> (forall part g, incl part rs -> reached L keep rs g -> goes_on L keep part g) /\ answers L keep rs /\ steady L keep.
  Proof.
    intros rs F. split.
    - intros part g Ip H. destruct (reached_alive rs g F H) as (n & env & val & Pn & De & Lv). exact (p_goes_on L eqb_eq keep Qb sem0 dom0 says0 pI hgt KL d0 n env Pn De ceqb_refl leaf0 sem0_dom eval_live itv_live itv_pI itv_says mk_live mk_pI mk_says custom_none const_says const_pI const_same Q_var read_Q part val g (incl_Forall Ip F) Lv).
    - split; [|exact vectors_steady]. set (n := 1). set (env := fun (_ : nat) (_ : string) => d0). assert (Pn : 0 < n) by (unfold n; lia). assert (De : forall j x, dom0 (env j x)) by (intros; apply d0_dom).
      exact (p_answers L eqb_eq keep Qb sem0 dom0 says0 pI hgt KL d0 n env Pn De ceqb_refl leaf0 sem0_dom eval_live itv_live itv_pI itv_says mk_live mk_pI mk_says custom_none const_says const_pI const_same Q_var read_Q rs F).
  Qed.
End Vectors.
