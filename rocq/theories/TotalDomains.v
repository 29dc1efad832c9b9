(* Workloads of bitvectors, booleans, rationals, Halide and Pos make e-graphs. *)
From Coq Require Import NArith ZArith QArith Qcanon.
From Verif Require Import Base BaseProofs Sexp Reader Lang LangProofs Util UtilProofs Syntax SyntaxProofs Rule Ruleset Analysis Generalize Workload MatchSpec
  Egraph EgraphSpec EgraphProofs Synth SynthSpec SynthProofs CalmSpec Calm CalmRun CalmDomains PlainSpec PlainProofs PlainDomains PartsProofs TotalProofs.
From Verif Require Import BV BoolDom PosDom Rational RationalProofs Halide Domains DomainAlg VectorSpec VectorProofs MinimizeSpec TotalSpec.
Open Scope list_scope.
Open Scope nat_scope.

Lemma fold_subterms : forall O A (f : O -> list A -> res A) t v, fold_term f t = Val v -> forall u, In u (subterms t) -> exists w, fold_term f u = Val w.
Proof.
  intros O A f t. induction t as [o ts IH] using term_ind'. intros v H u [<-|I]; [eauto|]. cbn [fold_term] in H.
  destruct (rmapM (fold_term f) ts) as [vs|] eqn:E; [|discriminate H]. clear H. apply rmapM_F2 in E.
  induction E as [|t w ts vs Ht E IHE]; cbn in I; [destruct I|]. inversion IH as [|? ? I1 I2]; subst. apply in_app_or in I as [I|I]; [exact (I1 w Ht u I)|auto].
Qed.
Lemma fold_typed : forall O A (f : O -> list A -> res A) (ar : O -> nat), (forall o l, length l = ar o -> exists a, f o l = Val a) ->
  forall t, wf_term ar t -> exists v, fold_term f t = Val v.
Proof.
  intros O A f ar Hf t. induction t as [o ts IH] using term_ind'. intros W. inversion W as [o' ts' Len W']; subst. cbn [fold_term].
  assert (exists vs, rmapM (fold_term f) ts = Val vs) as (vs & Ev).
  { clear - IH W'. induction ts as [|t ts IHt]; [exists []; reflexivity|]. inversion IH; inversion W'; subst. destruct IHt as (vs & E); auto.
    match goal with X : wf_term ar t -> _ |- _ => destruct X as (v & Ev); [assumption|] end. exists (v :: vs). cbn. rewrite Ev. cbn. now rewrite E. }
  rewrite Ev. cbn [rbind]. apply Hf. apply rmapM_F2 in Ev. rewrite <- Len. symmetry. exact (Forall2_length _ _ _ Ev).
Qed.
Lemma subterms_typed : forall O (ar : O -> nat) t, wf_term ar t -> forall o us, In (T o us) (subterms t) -> length us = ar o.
Proof.
  intros O ar t. induction t as [o ts IH] using term_ind'. intros W o' us [E|I]; inversion W as [? ? Len W']; subst; [inversion E; now subst|].
  clear Len W. induction ts as [|t ts IHt]; cbn in I; [destruct I|]. inversion IH; inversion W'; subst. apply in_app_or in I as [I|I]; auto.
Qed.
Lemma var_tvars : forall O (tv : O -> option string) t o us s, In (T o us) (subterms t) -> tv o = Some s -> In s (tvars tv t).
Proof.
  intros O tv t. induction t as [o ts IH] using term_ind'. intros o' us s [E|I] Hv.
  - inversion E; subst. cbn. rewrite Hv. now left.
  - cbn. apply in_or_app. right. induction ts as [|t ts IHt]; cbn in *; [destruct I|]. inversion IH as [|? ? I1 I2]; subst. apply in_or_app. apply in_app_or in I as [I|I]; [left; exact (I1 o' us s I Hv)|right; auto].
Qed.

Section Whole.
  Context {O C : Type}.
  Variable L : lang O C.
  Variable ar : O -> nat.
  Variable keep : eg O C -> nat -> nat -> bool.
  Hypothesis Vr : plain_vars L.
  Hypothesis Fo : forall s n o, l_from_op L s n = Some o -> ar o = n.
  Hypothesis Va : forall s, ar (l_mk_var L s) = 0.

  Lemma term_of_sexp_typed : forall x t, term_of_sexp (l_from_op L) x = Some t -> wf_term ar t.
  Proof.
    fix IH 1. intros [w|l] t H.
    - cbn in H. destruct (l_from_op L w 0) as [o|] eqn:E; [|discriminate H]. cbn in H. inversion H; subst. constructor; [|constructor].
      cbn. symmetry. exact (Fo _ _ _ E).
    - destruct l as [|[w|l'] l]; cbn in H; try discriminate H.
      match type of H with match ?f l with _ => _ end = _ => assert (forall ts, f l = Some ts -> Forall (wf_term ar) ts) as G end.
      { clear H. induction l as [|x l IHl]; intros ts H; [inversion H; constructor|].
        destruct (term_of_sexp (l_from_op L) x) as [t'|] eqn:E; [|discriminate H].
        match type of H with match ?g with _ => _ end = _ => destruct g as [us|] eqn:E2; [|discriminate H] end. inversion H; subst.
        constructor; [exact (IH x t' E)|exact (IHl us eq_refl)]. }
      match type of H with match ?f with _ => _ end = _ => destruct f as [ts|]; [|discriminate H] end.
      destruct (l_from_op L w (length ts)) as [o|] eqn:E; [|discriminate H]. cbn in H. inversion H; subst.
      constructor; [symmetry; exact (Fo _ _ _ E)|now apply G].
  Qed.
  Lemma parse_rec_typed : forall s r, parse_rec (l_from_op L) s = Some r -> exists t, r = to_rec t /\ wf_term ar t.
  Proof.
    intros s r H. unfold parse_rec in H. destruct (parse_str s) as [x|]; [|discriminate H].
    destruct (term_of_sexp (l_from_op L) x) as [t|] eqn:E; [|discriminate H]. cbn in H. inversion H. exists t. split; [reflexivity|]. exact (term_of_sexp_typed x t E).
  Qed.
  Local Notation reads := (fun s t => parse_rec (l_from_op L) (display s) = Some (to_rec t)).
  Lemma reads_typed : forall ss ts, Forall2 reads ss ts -> Forall (wf_term ar) ts.
  Proof.
    intros ss ts F. induction F as [|s t ss ts H F IH]; constructor; [|exact IH]. destruct (parse_rec_typed _ _ H) as (t' & E & W).
    assert (tree (to_rec t) = tree (to_rec t')) as E' by congruence. rewrite !tree_to_rec in E'. inversion E'. now subst.
  Qed.
  Lemma to_egraph_eq : forall fuel w ss ts, force w = Val ss -> Forall2 reads ss ts ->
    to_egraph L keep fuel w = let* g := initialize_vars L keep fuel eg_default (first_seen (flat_map (tvars (l_to_var L)) ts)) in add_all_exprs L keep fuel g (map to_rec ts).
  Proof.
    intros fuel w ss ts Hf F. unfold to_egraph. rewrite Hf. cbn [rbind].
    assert (rmapM (fun s => unwrap (parse_rec (l_from_op L) (display s))) ss = Val (map to_rec ts)) as ->.
    { apply rmapM_F2. clear - F. induction F as [|s t ss ts H F IH]; cbn; constructor; [rewrite H; reflexivity|exact IH]. }
    cbn [rbind]. rewrite (all_vars_spec L ar); [reflexivity| |exact (reads_typed ss ts F)]. intros o s E. rewrite (pv_only L Vr o s E). apply Va.
  Qed.

  Lemma to_egraph_total : forall k w ss ts n vs ivar S0,
    force w = Val ss -> Forall2 reads ss ts -> l_init L (first_seen (flat_map (tvars (l_to_var L)) ts)) = Val (n, vs) ->
    agrees L ar n ivar S0 -> (forall v c us, In (v, c, us) vs -> us = [] /\ S0 ivar c) -> (vs = [] -> S0 ivar []) ->
    Forall (fun t => exists v, cvec_term (l_eval L) (l_to_var L) n (var_cvec (map fst vs)) t = Val v) ts ->
    exists g, to_egraph L keep (S (S k)) w = Val g.
  Proof.
    intros k w ss ts n vs ivar S0 Hf F Hi Ag Hv Hn Ev. rewrite (to_egraph_eq _ _ _ _ Hf F). unfold initialize_vars. rewrite Hi. cbn [rbind].
    pose proof (reads_typed ss ts F) as Wt. set (vars := first_seen (flat_map (tvars (l_to_var L)) ts)) in *.
    assert (Nd : NoDup (map (@vname O C) vs)). { destruct (pv_init L Vr _ _ _ Hi) as [->|E]; [constructor|]. unfold vname. rewrite E. apply first_seen_nodup. }
    set (vc := var_cvec (map fst vs)) in *.
    assert (X0 : exact L n vc S0 (EG (g_reps (@eg_default O C)) (g_nodes (@eg_default O C)) (g_data (@eg_default O C)) n)).
    { constructor.
      - constructor; cbn; intros; try contradiction; try lia; try reflexivity. unfold find, index in H. cbn in H. destruct i; discriminate H.
      - reflexivity.
      - intros i d H. unfold class_data, find, index in H. cbn in H. destruct i; discriminate H.
      - intros m i []. }
    destruct (init_exact L ar keep n vc ivar S0 Ag Vr (S k) vs _ X0) as (g1 & I1 & X1 & _ & P1).
    - intros v c us I. destruct (Hv v c us I) as [E S1]. split; [exact E|]. split; [exact S1|]. unfold vc, var_cvec.
      rewrite (lookup_nodup _ (map fst vs) v c); [reflexivity| |exact (in_map fst _ _ I)]. rewrite map_map. exact Nd.
    - intros v c us i _ [].
    - exact Nd.
    - rewrite I1. cbn [rbind]. destruct (add_all_exact L ar keep n vc ivar S0 Ag Vr k ts g1 X1) as (g2 & A2 & _); [|eauto].
      intros t [o us] It Iu. rewrite Forall_forall in Ev, Wt. destruct (Ev t It) as (v & Evt). split; [exact (fold_subterms _ _ _ t v Evt _ Iu)|].
      split; [exact (subterms_typed _ ar t (Wt t It) o us Iu)|]. intros s Es. destruct (pv_init L Vr _ _ _ Hi) as [E|E].
      + right. split; [unfold vc; rewrite E; reflexivity|auto].
      + left. assert (In s (map (fun e => fst (fst e)) vs)) as Is.
        { rewrite E. apply (proj2 (first_seen_in _ _)). apply in_flat_map. exists t. split; [exact It|]. exact (var_tvars _ _ t o us s Iu Es). }
        apply in_map_iff in Is as ([[v' c'] ts'] & Ev' & Is). cbn in Ev'. subst v'. destruct (P1 _ _ _ Is) as (i & Ii). exists i. now rewrite (pv_only L Vr o s Es).
  Qed.
End Whole.

(* initial vectors *)
Lemma product_full : forall O C (samples : list C) vars, vars <> [] -> samples <> [] ->
  exists n vs, @no_links O C (init_product (map Some samples) vars) = Val (n, vs) /\ 0 < n /\ vs <> [] /\
    forall x c ts, In (x, c, ts) vs -> ts = [] /\ length c = n /\ forall y, In y c -> exists a, y = Some a.
Proof.
  intros O C samples vars Nv Ns. destruct (self_product_shape (map Some samples) (length vars)) as (cols & E & Lc & Hc).
  unfold no_links. rewrite (init_product_val _ _ _ Nv E). cbn [rbind]. eexists. eexists. split; [reflexivity|]. rewrite map_length in *. split; [|split].
  - assert (length samples <> 0) as Hs by (destruct samples; [congruence|discriminate]). pose proof (Nat.pow_nonzero (length samples) (length vars) Hs). lia.
  - intros H. apply map_eq_nil in H. destruct vars; [congruence|]. destruct cols; [discriminate Lc|discriminate H].
  - intros x c ts I. apply in_map_iff in I as ([x' c'] & Ev & I). inversion Ev; subst. apply in_combine_r in I. destruct (Hc _ I) as [L1 L2].
    split; [reflexivity|]. split; [exact L1|]. intros y Iy. apply L2 in Iy. apply in_map_iff in Iy as (a & <- & _). eauto.
Qed.
Lemma first_seen_some : forall l, l <> [] -> first_seen l <> [].
Proof. intros [|x l] H; [congruence|discriminate]. Qed.

(* Intervals are open, or one constant, which is then the value everywhere. *)
Definition open_or_point {C} (n : nat) (i : interval C) (v : cvec C) : Prop :=
  length v = n /\ 0 < n /\ (i = full \/ exists c, i = point c /\ v = repeat (Some c) n).
Definition open_only {C} (i : interval C) (v : cvec C) : Prop := i = full.
Lemma repeat_same : forall C n (c d : C), 0 < n -> repeat (Some c) n = repeat (Some d) n -> c = d.
Proof. intros C [|n] c d H E; [lia|]. cbn in E. congruence. Qed.
Lemma open_merge : forall C (leb : C -> C -> bool) n (i j : interval C) v, (forall c, leb c c = true) -> open_or_point n i v -> open_or_point n j v ->
  exists k, mk_itv leb (omax leb (low i) (low j)) (omin leb (high i) (high j)) = Val k /\ open_or_point n k v.
Proof.
  intros C leb n i j v Rf (Ln & Pn & Hi) (_ & _ & Hj).
  destruct Hi as [->|(c & -> & Ec)], Hj as [->|(d & -> & Ed)].
  - exists full. split; [reflexivity|]. split; auto.
  - exists (point d). cbn. rewrite Rf. split; [reflexivity|]. split; [exact Ln|]. split; [exact Pn|]. right. exists d. auto.
  - exists (point c). cbn. rewrite Rf. split; [reflexivity|]. split; [exact Ln|]. split; [exact Pn|]. right. exists c. auto.
  - assert (c = d) as <- by (rewrite Ec in Ed; exact (repeat_same _ _ _ _ Pn Ed)). exists (point c). cbn. rewrite !Rf. split; [reflexivity|]. split; [exact Ln|]. split; [exact Pn|]. right. exists c. auto.
Qed.
Lemma map1_len : forall C (f : C -> option C) v n, length v = n -> length (map1 f v) = n.
Proof. intros. unfold map1. now rewrite map_length. Qed.
Lemma map2_len : forall C (f : C -> C -> option C) v w n, length v = n -> length w = n -> length (map2 f v w) = n.
Proof. intros. unfold map2. rewrite map_length, combine_length. lia. Qed.
Lemma map2_repeat : forall C (f : C -> C -> option C) c d n, map2 f (repeat (Some c) n) (repeat (Some d) n) = repeat (f c d) n.
Proof. intros. unfold map2. induction n as [|n IH]; cbn in *; [reflexivity|]. now rewrite IH. Qed.
Lemma map1_repeat : forall C (f : C -> option C) c n, map1 f (repeat (Some c) n) = repeat (f c) n.
Proof. intros. unfold map1. induction n as [|n IH]; cbn in *; [reflexivity|]. now rewrite IH. Qed.

Ltac args3 cs Len := destruct cs as [|? [|? [|? [|? ?]]]]; try discriminate Len.
Ltac f2 := repeat match goal with H : Forall2 _ _ (_ :: _) |- _ => inversion H; subst; clear H | H : Forall2 _ _ [] |- _ => inversion H; subst; clear H end.

Lemma bv_eval_typed : forall w n o cs, length cs = bv_arity o -> exists v, bv_eval w n o cs = Val v.
Proof. intros w n o cs Len. destruct o; cbn in Len; args3 cs Len; cbn; eauto. Qed.
Lemma bool_eval_typed : forall n o cs, length cs = bool_arity o -> exists v, bool_eval n o cs = Val v.
Proof. intros n o cs Len. destruct o; cbn in Len; args3 cs Len; cbn; eauto. Qed.

Lemma bv_agrees : forall w check n, 0 < n -> agrees (bv_lang w check) bv_arity n full (open_or_point n).
Proof.
  intros w check n Pn. constructor; cbn.
  - exact bv_eqb_eq.
  - apply N.eqb_refl.
  - reflexivity.
  - intros o H. unfold is_leaf in H. cbn in H. destruct o; try discriminate H; reflexivity.
  - intros o is cs v Hv Len F Ev. destruct o; cbn in Len, Hv; try discriminate Hv; args3 cs Len; f2; cbn in Ev; inversion Ev; subst; clear Ev;
      repeat match goal with H : open_or_point _ _ _ |- _ => destruct H as (? & _ & _) end;
      cbn; try (exists full; split; [reflexivity|]; split; [first [now apply map1_len|now apply map2_len]|split; [exact Pn|now left]]).
    unfold mk_itv. rewrite N.leb_refl. exists (point c). split; [reflexivity|]. split; [apply repeat_length|]. split; [exact Pn|]. right. eauto.
  - intros i v a b (_ & _ & [->|(c & -> & Ev)]) El Eh _; [discriminate El|]. cbn in El; injection El as <-. split; [exact Ev|]. split; [exact Pn|].
    eexists. split; [reflexivity|]. auto.
  - intros i j v. apply open_merge. apply N.leb_refl.
  - auto.
  - discriminate.
Qed.
Lemma hal_agrees : forall check n, agrees (hal_lang check) hal_arity n full open_only.
Proof.
  intros check n. constructor; cbn.
  - exact hal_eqb_eq.
  - apply Z.eqb_refl.
  - reflexivity.
  - intros o H. unfold is_leaf in H. cbn in H. destruct o; try discriminate H; reflexivity.
  - intros o is cs v _ _ _ _. exists full. split; reflexivity.
  - intros i v a b -> El. discriminate El.
  - intros i j v -> ->. exists full. split; reflexivity.
  - intros s. split; reflexivity.
  - discriminate.
Qed.
Lemma pos_agrees : forall depth n, agrees (pos_lang depth) pos_arity n full open_only.
Proof.
  intros depth n. constructor; cbn.
  - exact pos_op_eqb_eq.
  - apply N.eqb_refl.
  - reflexivity.
  - intros o H. unfold is_leaf in H. cbn in H. destruct o; try discriminate H; reflexivity.
  - intros o is cs v _ _ _ _. exists full. split; reflexivity.
  - intros i v a b -> El. discriminate El.
  - intros i j v -> ->. exists full. split; reflexivity.
  - intros s. split; reflexivity.
  - discriminate.
Qed.

(* booleans: the interval holds every entry *)
Definition held (n : nat) (i : interval bool) (v : cvec bool) : Prop :=
  length v = n /\ 0 < n /\ exists l h, i = Itv (Some l) (Some h) /\ forall x, In x v -> exists b, x = Some b /\ bool_leb l b = true /\ bool_leb b h = true.
Lemma held_some : forall n i v, held n i v -> exists b, In (Some b) v.
Proof. intros n i v (Ln & Pn & l & h & _ & H). destruct v as [|x v]; [cbn in Ln; lia|]. destruct (H x (or_introl eq_refl)) as (b & -> & _). exists b. now left. Qed.
Lemma in_map2 : forall C (f : C -> C -> option C) v w x, In x (map2 f v w) -> exists a b, In (a, b) (combine v w) /\ x = match a, b with Some p, Some q => f p q | _, _ => None end.
Proof. intros C f v w x I. unfold map2 in I. apply in_map_iff in I as ([a b] & <- & I). exists a, b. auto. Qed.
Ltac entry := repeat match goal with
  | H : held _ _ _ |- _ => destruct H as (? & _ & ? & ? & -> & ?) end.
Lemma bool_agrees : forall n, 0 < n -> agrees bool_lang bool_arity n (Itv (Some false) (Some true)) (held n).
Proof.
  intros n Pn. constructor; cbn.
  - exact bool_op_eqb_eq.
  - intros []; reflexivity.
  - reflexivity.
  - intros o H. unfold is_leaf in H. cbn in H. destruct o; try discriminate H; reflexivity.
  - assert (G1 : forall (f : bool -> bool) l h v l' h', length v = n -> (forall x, In x v -> exists b, x = Some b /\ bool_leb l b = true /\ bool_leb b h = true) ->
      (forall b, bool_leb l b = true -> bool_leb b h = true -> bool_leb l' (f b) = true /\ bool_leb (f b) h' = true) ->
      exists i, mk_itv bool_leb (Some l') (Some h') = Val i /\ held n i (map1 (fun x => Some (f x)) v)).
    { intros f l h v l' h' Ln H Hf. exists (Itv (Some l') (Some h')). split.
      - unfold mk_itv. destruct v as [|x v]; [cbn in Ln; lia|]. destruct (H x (or_introl eq_refl)) as (b & _ & B1 & B2). destruct (Hf b B1 B2) as [C1 C2].
        destruct l', h', (f b); try discriminate; reflexivity.
      - split; [now apply map1_len|]. split; [exact Pn|]. exists l', h'. split; [reflexivity|]. intros x I. unfold map1 in I. apply in_map_iff in I as (y & <- & Iy).
        destruct (H y Iy) as (b & -> & B1 & B2). exists (f b). split; [reflexivity|]. now apply Hf. }
    assert (G2 : forall (f : bool -> bool -> bool) l h m k v w l' h', length v = n -> length w = n ->
      (forall x, In x v -> exists b, x = Some b /\ bool_leb l b = true /\ bool_leb b h = true) ->
      (forall x, In x w -> exists b, x = Some b /\ bool_leb m b = true /\ bool_leb b k = true) ->
      (forall b c, bool_leb l b = true -> bool_leb b h = true -> bool_leb m c = true -> bool_leb c k = true -> bool_leb l' (f b c) = true /\ bool_leb (f b c) h' = true) ->
      exists i, mk_itv bool_leb (Some l') (Some h') = Val i /\ held n i (map2 (fun x y => Some (f x y)) v w)).
    { intros f l h m k v w l' h' Lv Lw Hv Hw Hf. exists (Itv (Some l') (Some h')). split.
      - unfold mk_itv. destruct v as [|x v]; [cbn in Lv; lia|]. destruct w as [|y w]; [cbn in Lw; lia|].
        destruct (Hv x (or_introl eq_refl)) as (b & _ & B1 & B2). destruct (Hw y (or_introl eq_refl)) as (c & _ & B3 & B4). destruct (Hf b c B1 B2 B3 B4) as [C1 C2].
        destruct l', h', (f b c); try discriminate; reflexivity.
      - split; [now apply map2_len|]. split; [exact Pn|]. exists l', h'. split; [reflexivity|]. intros x I. apply in_map2 in I as (a & b & I & ->).
        destruct (Hv a (in_combine_l _ _ _ _ I)) as (p & -> & P1 & P2). destruct (Hw b (in_combine_r _ _ _ _ I)) as (q & -> & Q1 & Q2). exists (f p q). split; [reflexivity|]. now apply Hf. }
    intros o is cs v Hv Len F Ev. destruct o; cbn in Len, Hv; try discriminate Hv; args3 cs Len; f2; cbn in Ev; inversion Ev; subst; clear Ev; entry; cbn.
    + eapply G1; [assumption|eassumption|]. repeat match goal with b : bool |- _ => destruct b end; intros []; cbn; intros; try discriminate; auto.
    + eapply G2; [assumption|assumption|eassumption|eassumption|]. repeat match goal with b : bool |- _ => destruct b end; intros [] []; cbn; intros; try discriminate; auto.
    + eapply G2; [assumption|assumption|eassumption|eassumption|]. repeat match goal with b : bool |- _ => destruct b end; intros [] []; cbn; intros; try discriminate; auto.
    + match goal with |- context [if ?c then _ else _] => destruct c eqn:Eq end.
      * apply andb_true_iff in Eq as [E1 E2]. apply Bool.eqb_prop in E1, E2.
        eapply G2; [assumption|assumption|eassumption|eassumption|]. repeat match goal with b : bool |- _ => destruct b end; intros [] []; cbn; intros; try discriminate; auto.
      * eapply (G2 xorb _ _ _ _ _ _ false true); [assumption|assumption|eassumption|eassumption|]. intros [] []; cbn; auto.
    + eapply G2; [assumption|assumption|eassumption|eassumption|]. repeat match goal with b : bool |- _ => destruct b end; intros [] []; cbn; intros; try discriminate; auto.
    + exists (Itv (Some b) (Some b)). split; [destruct b; reflexivity|]. split; [apply repeat_length|]. split; [exact Pn|]. exists b, b. split; [reflexivity|].
      intros x I. apply repeat_spec in I. subst x. exists b. split; [reflexivity|]. destruct b; auto.
  - intros i v a b (Ln & _ & l & h & -> & H) El Eh Eq. inversion El; inversion Eh; subst. apply Bool.eqb_prop in Eq. subst b.
    split; [|split; [exact Pn|eexists; split; [reflexivity|auto]]].
    clear - H. induction v as [|x v IH]; [reflexivity|]. cbn. destruct (H x (or_introl eq_refl)) as (b & -> & B1 & B2). f_equal; [destruct a, b; try discriminate; reflexivity|].
    apply IH. intros y Iy. apply H. now right.
  - intros i j v Hi Hj. destruct (held_some n i v Hi) as (b & Ib). destruct Hi as (Ln & _ & l & h & -> & H1), Hj as (_ & _ & m & k & -> & H2). cbn.
    destruct (H1 _ Ib) as (b1 & E1 & A1 & A2). destruct (H2 _ Ib) as (b2 & E2 & A3 & A4). inversion E1; inversion E2; subst b1 b2.
    exists (Itv (Some (orb l m)) (Some (andb h k))). split; [destruct l, h, m, k, b; cbn in *; try discriminate; reflexivity|]. split; [exact Ln|]. split; [exact Pn|]. exists (orb l m), (andb h k). split; [reflexivity|].
    intros x I. destruct (H1 x I) as (p & -> & P1 & P2). destruct (H2 _ I) as (q & Eq & Q1 & Q2). inversion Eq; subst q. exists p. split; [reflexivity|].
    destruct l, h, m, k, p; cbn in *; try discriminate; auto.
  - auto.
  - intros a b Ha Hb. inversion Ha; inversion Hb. reflexivity.
Qed.

Lemma qeqb_refl' : forall c, qeqb c c = true.
Proof. intros c. unfold qeqb. apply Qeq_bool_refl. Qed.
Lemma qleb_refl' : forall c, qleb c c = true.
Proof. intros c. unfold qleb. apply Qle_bool_iff. apply Qle_refl. Qed.
Lemma get_const_open : forall n i v, open_or_point n i v -> match get_const i with Some c => v = repeat (Some c) n | None => True end.
Proof.
  intros n i v (_ & _ & [->|(c & -> & E)]); [exact I|]. unfold get_const. cbn. now rewrite qeqb_refl'.
Qed.
Lemma rmapM_len : forall A B (f : A -> res B) l r, rmapM f l = Val r -> length r = length l.
Proof. intros A B f l r H. apply rmapM_F2 in H. symmetry. exact (Forall2_length _ _ _ H). Qed.
Lemma map1_res_repeat : forall (f : Qc -> res Qc) c n v, 0 < n -> map1_res f (repeat (Some c) n) = Val v -> exists d, f c = Val d /\ v = repeat (Some d) n.
Proof.
  intros f c n v Pn H. destruct n as [|n]; [lia|]. assert (exists d, f c = Val d) as (d & E). { cbn in H. destruct (f c); [eauto|discriminate H]. }
  exists d. split; [exact E|]. clear Pn. revert v H. generalize (S n) as k. induction k as [|k IH]; intros v H; cbn in H; [inversion H; reflexivity|].
  rewrite E in H. cbn in H. unfold map1_res in IH. destruct (rmapM _ (repeat (Some c) k)) as [w|]; [|discriminate H]. cbn in H. inversion H; subst. cbn. f_equal. now apply IH.
Qed.
Lemma if_repeat : forall c (y z : cvec Qc) n, length y = n -> length z = n ->
  map (fun t => if_row (fst (fst t)) (snd (fst t)) (snd t)) (combine (combine (repeat (Some c) n) y) z) = if negb (is_zero c) then y else z.
Proof.
  intros c y z n. revert y z. induction n as [|n IH]; intros [|a y] [|b z] Ly Lz; try discriminate; cbn in *; [destruct (is_zero c); reflexivity|].
  rewrite IH by lia. destruct (is_zero c); reflexivity.
Qed.
Lemma math_from_op_arity : forall s n o, math_from_op s n = Some o -> math_arity o = n.
Proof. unfold math_from_op. from_op_tac. destruct (Nat.eqb_spec n 0) as [->|]; [|discriminate H]. destruct (Number.parse_ratio s); inversion H; reflexivity. Qed.
Lemma bool_from_op_arity : forall s n o, bool_from_op s n = Some o -> bool_arity o = n.
Proof. unfold bool_from_op. from_op_tac. destruct (Nat.eqb_spec n 0) as [->|]; [|discriminate H]. match type of H with context [match ?p with _ => _ end] => destruct p end; inversion H; reflexivity. Qed.

Lemma math_agrees : forall ov check n, 0 < n -> agrees (math_lang ov check) math_arity n full (open_or_point n).
Proof.
  intros ov check n Pn.
  assert (Op : forall v : cvec Qc, length v = n -> open_or_point n full v) by (intros v Lv; split; [exact Lv|split; [exact Pn|now left]]).
  assert (Pt : forall c, mk_itv qleb (Some c) (Some c) = Val (point c)) by (intros c; unfold mk_itv; now rewrite qleb_refl').
  assert (Pp : forall c : Qc, open_or_point n (point c) (repeat (Some c) n)) by (intros c; split; [apply repeat_length|split; [exact Pn|right; eauto]]).
  assert (G2 : forall (f : Qc -> Qc -> option Qc) i j v w, open_or_point n i v -> open_or_point n j w ->
    exists k, (let* c := Val (fold2 f i j) in match c with Some c => mk_itv qleb (Some c) (Some c) | None => Val full end) = Val k /\ open_or_point n k (map2 f v w)).
  { intros f i j v w Hi Hj. pose proof (get_const_open n i v Hi) as Ci. pose proof (get_const_open n j w Hj) as Cj. cbn [rbind].
    assert (Lm : length (map2 f v w) = n) by (apply map2_len; [apply Hi|apply Hj]).
    unfold fold2. destruct (get_const i) as [a|]; [|exists full; auto]. destruct (get_const j) as [b|]; [|exists full; auto].
    subst v w. destruct (f a b) as [c|] eqn:E; [|exists full; auto]. rewrite Pt. exists (point c). split; [reflexivity|]. rewrite map2_repeat, E. apply Pp. }
  assert (G1 : forall (f : Qc -> res Qc) i v w, open_or_point n i v -> map1_res f v = Val w ->
    exists k, (let* c := fold1 f i in match c with Some c => mk_itv qleb (Some c) (Some c) | None => Val full end) = Val k /\ open_or_point n k w).
  { intros f i v w Hi Hw. pose proof (get_const_open n i v Hi) as Ci. assert (Lw : length w = n) by (rewrite (rmapM_len _ _ _ _ _ Hw); apply Hi).
    unfold fold1. destruct (get_const i) as [a|]; [|exists full; auto]. subst v. destruct (map1_res_repeat f a n w Pn Hw) as (d & E & ->). rewrite E. cbn [rbind].
    rewrite Pt. exists (point d). auto. }
  constructor; cbn.
  - exact math_eqb_eq.
  - exact qeqb_refl'.
  - reflexivity.
  - intros o H. unfold is_leaf in H. cbn in H. destruct o; try discriminate H; reflexivity.
  - intros o is cs v Hv Len F Ev. unfold math_mk_interval. destruct o; cbn in Len, Hv; try discriminate Hv; args3 cs Len; f2; cbn in Ev; cbn [fold_node];
      try (injection Ev as <-; apply G2; assumption); try (eapply G1; eassumption).
    + injection Ev as <-. match goal with A : open_or_point n ?i ?x, B : open_or_point n ?j ?y, D : open_or_point n ?k ?z |- context [get_const ?i] =>
        idtac end.
      match goal with A : open_or_point n ?i ?x |- context [combine (combine ?x ?y) ?z] =>
        pose proof (get_const_open n i x A) as Ci; destruct (get_const i) as [a|] end.
      2:{ exists full. split; [reflexivity|]. apply Op. rewrite map_length, !combine_length. repeat match goal with H : open_or_point _ _ _ |- _ => destruct H as (? & _ & _) end. lia. }
      subst. cbn [rbind]. rewrite if_repeat by (match goal with H : open_or_point n _ ?y |- length ?y = n => apply H end).
      destruct (negb (is_zero a)).
      * match goal with B : open_or_point n ?j ?y |- context [get_const ?j] => pose proof (get_const_open n j y B) as Cj; destruct (get_const j) as [b|]; [subst; rewrite Pt; exists (point b); auto|exists full; split; [reflexivity|apply Op; apply B]] end.
      * match goal with B : open_or_point n ?j ?y |- context [get_const ?j] => pose proof (get_const_open n j y B) as Cj; destruct (get_const j) as [b|]; [subst; rewrite Pt; exists (point b); auto|exists full; split; [reflexivity|apply Op; apply B]] end.
    + injection Ev as <-. cbn [rbind]. rewrite Pt. exists (point q). auto.
  - intros i v a b (_ & _ & [->|(c & -> & Ev)]) El Eh _; [discriminate El|]. cbn in El; injection El as <-. split; [exact Ev|]. split; [exact Pn|].
    eexists. split; [reflexivity|]. auto.
  - intros i j v. apply open_merge. exact qleb_refl'.
  - intros s. auto.
  - discriminate.
Qed.

Lemma bool_plain_vars : plain_vars bool_lang.
Proof.
  constructor; cbn.
  - reflexivity.
  - intros o s H. destruct o; inversion H; reflexivity.
  - intros n o s cs v H E. destruct o; try discriminate H. destruct cs; [now inversion E|discriminate E].
  - intros vars n vs H. right. exact (product_names _ _ _ _ _ _ H).
Qed.
Lemma math_plain_vars : forall ov check, plain_vars (math_lang ov check).
Proof.
  intros ov check. constructor; cbn.
  - reflexivity.
  - intros o s H. destruct o; inversion H; reflexivity.
  - intros n o s cs v H E. destruct o; try discriminate H. destruct cs; [now inversion E|discriminate E].
  - intros vars n vs H. right. exact (product_names _ _ _ _ _ _ H).
Qed.

(* the languages whose variables take every combination of some samples *)
Section Product.
  Context {O C : Type}.
  Variable L : lang O C.
  Variable ar : O -> nat.
  Variable samples : list C.
  Hypothesis Vr : plain_vars L.
  Hypothesis Fo : forall s n o, l_from_op L s n = Some o -> ar o = n.
  Hypothesis Va : forall s, ar (l_mk_var L s) = 0.
  Hypothesis Si : forall vars, l_init L vars = no_links (init_product (map Some samples) vars).
  Hypothesis Ns : samples <> [].
  Variable ivar : interval C.
  Variable S0 : nat -> interval C -> cvec C -> Prop.
  Hypothesis Ag : forall n, 0 < n -> agrees L ar n ivar (S0 n).
  Hypothesis Sv : forall n c, 0 < n -> length c = n -> (forall y, In y c -> exists a, y = Some a) -> S0 n ivar c.
  Local Notation reads := (fun s t => parse_rec (l_from_op L) (display s) = Some (to_rec t)).
  Local Notation vars ts := (first_seen (flat_map (tvars (l_to_var L)) ts)).

  Lemma product_total : forall keep k w ss ts, force w = Val ss -> Forall2 reads ss ts -> flat_map (tvars (l_to_var L)) ts <> [] ->
    (forall n vs t, l_init L (vars ts) = Val (n, vs) -> In t ts -> exists v, cvec_term (l_eval L) (l_to_var L) n (var_cvec (map fst vs)) t = Val v) ->
    exists g, to_egraph L keep (S (S k)) w = Val g.
  Proof.
    intros keep k w ss ts Hf F Nv Ev. destruct (product_full O C samples (vars ts) (first_seen_some _ Nv) Ns) as (n & vs & Hi & Pn & Nvs & Hv). rewrite <- Si in Hi.
    apply (to_egraph_total L ar keep Vr Fo Va k w ss ts n vs ivar (S0 n) Hf F Hi (Ag n Pn)).
    - intros v c us I. destruct (Hv v c us I) as (E & Lc & Hc). split; [exact E|]. now apply Sv.
    - intros E. congruence.
    - apply Forall_forall. intros t It. exact (Ev n vs t Hi It).
  Qed.
  Lemma product_novars : forall keep fuel w ss ts, force w = Val ss -> Forall2 reads ss ts -> flat_map (tvars (l_to_var L)) ts = [] ->
    to_egraph L keep fuel w = Panic.
  Proof.
    intros keep fuel w ss ts Hf F Nv. rewrite (to_egraph_eq L ar keep Vr Fo Va _ _ _ _ Hf F), Nv. unfold initialize_vars. cbn [first_seen]. rewrite Si. reflexivity.
  Qed.
End Product.

Lemma evaluates : forall O C (L : lang O C) ar, (forall n o cs, length cs = ar o -> exists v, l_eval L n o cs = Val v) ->
  forall n vc t, wf_term ar t -> exists v, cvec_term (l_eval L) (l_to_var L) n vc t = Val v.
Proof.
  intros O C L ar He n vc t W. unfold cvec_term. apply (fold_typed _ _ _ ar); [|exact W]. intros o l Ln. unfold with_vars. destruct (l_to_var L o); eauto.
Qed.
Lemma samples_some : forall C (samples : list C) s, In s samples -> samples <> [].
Proof. intros C samples s I ->. destruct I. Qed.

Section Domains.
  Variable keepv : eg bv_op N -> nat -> nat -> bool.
  Variable keepb : eg bool_op bool -> nat -> nat -> bool.
  Variable keepm : eg math_op Qc -> nat -> nat -> bool.
  Variable keeph : eg hal_op Z -> nat -> nat -> bool.
  Variable keepp : eg pos_op N -> nat -> nat -> bool.

  Lemma bv_total : forall w check k wl ss ts, force wl = Val ss -> Forall2 (reads (bv_lang w check)) ss ts -> flat_map (tvars bv_to_var) ts <> [] ->
    exists g, to_egraph (bv_lang w check) keepv (S (S k)) wl = Val g.
  Proof.
    intros w check k wl ss ts Hf F Nv.
    apply (product_total (bv_lang w check) bv_arity (bv_samples w) (bv_plain_vars w check) (bv_from_op_arity w) (fun _ => eq_refl) (fun _ => eq_refl)) with (ivar := full) (S0 := @open_or_point N) (ss := ss) (ts := ts); auto.
    - apply (samples_some _ _ (bv_add w (bv_min w) (bv_new w 0))). unfold bv_samples. apply BVProofs.sort_dedup_in. left. reflexivity.
    - apply bv_agrees.
    - intros n c Pn Lc _. split; [exact Lc|]. split; [exact Pn|now left].
    - intros n vs t _ It. apply (evaluates _ _ _ bv_arity); [intros n' o cs; apply bv_eval_typed|].
      pose proof (reads_typed (bv_lang w check) bv_arity (bv_from_op_arity w) ss ts F) as Wt. rewrite Forall_forall in Wt. auto.
  Qed.
  Lemma bool_total : forall k wl ss ts, force wl = Val ss -> Forall2 (reads bool_lang) ss ts -> flat_map (tvars bool_to_var) ts <> [] ->
    exists g, to_egraph bool_lang keepb (S (S k)) wl = Val g.
  Proof.
    intros k wl ss ts Hf F Nv.
    apply (product_total bool_lang bool_arity bool_samples bool_plain_vars bool_from_op_arity (fun _ => eq_refl) (fun _ => eq_refl)) with (ivar := Itv (Some false) (Some true)) (S0 := held) (ss := ss) (ts := ts); auto.
    - discriminate.
    - apply bool_agrees.
    - intros n c Pn Lc Hc. split; [exact Lc|]. split; [exact Pn|]. exists false, true. split; [reflexivity|]. intros x I. destruct (Hc x I) as (b & ->). exists b. split; [reflexivity|]. destruct b; auto.
    - intros n vs t _ It. apply (evaluates _ _ _ bool_arity); [intros n' o cs; apply bool_eval_typed|].
      pose proof (reads_typed bool_lang bool_arity bool_from_op_arity ss ts F) as Wt. rewrite Forall_forall in Wt. auto.
  Qed.
  Lemma math_total : forall ov check k wl ss ts, force wl = Val ss -> Forall2 (reads (math_lang ov check)) ss ts -> flat_map (tvars math_to_var) ts <> [] ->
    (forall n vs t, math_init (first_seen (flat_map (tvars math_to_var) ts)) = Val (n, vs) -> In t ts -> exists v, cvec_term (math_eval ov) math_to_var n (var_cvec vs) t = Val v) ->
    exists g, to_egraph (math_lang ov check) keepm (S (S k)) wl = Val g.
  Proof.
    intros ov check k wl ss ts Hf F Nv Ev.
    apply (product_total (math_lang ov check) math_arity math_samples (math_plain_vars ov check) math_from_op_arity (fun _ => eq_refl) (fun _ => eq_refl)) with (ivar := full) (S0 := @open_or_point Qc) (ss := ss) (ts := ts); auto.
    - discriminate.
    - apply math_agrees.
    - intros n c Pn Lc _. split; [exact Lc|]. split; [exact Pn|now left].
    - intros n vs t Hi It. cbn in Hi. unfold no_links in Hi. destruct (math_init _) as [[m ws]|] eqn:E; [|discriminate Hi]. cbn in Hi. inversion Hi; subst.
      cbn. rewrite map_map. cbn. rewrite map_id. exact (Ev n ws t eq_refl It).
  Qed.
  Lemma hal_total : forall check k wl ss ts, force wl = Val ss -> Forall2 (reads (hal_lang check)) ss ts -> flat_map (tvars hal_to_var) ts <> [] ->
    (forall n vs t, hal_init (first_seen (flat_map (tvars hal_to_var) ts)) = Val (n, vs) -> In t ts -> exists v, cvec_term hal_eval hal_to_var n (var_cvec vs) t = Val v) ->
    exists g, to_egraph (hal_lang check) keeph (S (S k)) wl = Val g.
  Proof.
    intros check k wl ss ts Hf F Nv Ev.
    apply (product_total (hal_lang check) hal_arity hal_samples (hal_plain_vars check) hal_from_op_arity (fun _ => eq_refl) (fun _ => eq_refl)) with (ivar := full) (S0 := fun _ => @open_only Z) (ss := ss) (ts := ts); auto.
    - discriminate.
    - intros n _. apply hal_agrees.
    - intros n c Pn Lc _. reflexivity.
    - intros n vs t Hi It. cbn in Hi. unfold no_links in Hi. destruct (hal_init _) as [[m ws]|] eqn:E; [|discriminate Hi]. cbn in Hi. inversion Hi; subst.
      cbn. rewrite map_map. cbn. rewrite map_id. exact (Ev n ws t eq_refl It).
  Qed.
  Lemma pos_total : forall depth k wl ss ts, force wl = Val ss -> Forall2 (reads (pos_lang depth)) ss ts ->
    exists g, to_egraph (pos_lang depth) keepp (S (S k)) wl = Val g.
  Proof.
    intros depth k wl ss ts Hf F.
    apply (to_egraph_total (pos_lang depth) pos_arity keepp (pos_plain_vars depth) pos_from_op_arity (fun _ => eq_refl) k wl ss ts 0 [] full open_only Hf F eq_refl (pos_agrees depth 0)).
    - intros v c us [].
    - reflexivity.
    - apply Forall_forall. intros t It. apply (evaluates _ _ _ pos_arity); [intros n' o cs _; eexists; reflexivity|].
      pose proof (reads_typed (pos_lang depth) pos_arity pos_from_op_arity ss ts F) as Wt. rewrite Forall_forall in Wt. auto.
  Qed.
  (* without a variable *)
  Lemma novars_panic : forall fuel wl ss, force wl = Val ss ->
    (forall w check ts, Forall2 (reads (bv_lang w check)) ss ts -> flat_map (tvars bv_to_var) ts = [] -> to_egraph (bv_lang w check) keepv fuel wl = Panic) /\
    (forall ts, Forall2 (reads bool_lang) ss ts -> flat_map (tvars bool_to_var) ts = [] -> to_egraph bool_lang keepb fuel wl = Panic) /\
    (forall ov check ts, Forall2 (reads (math_lang ov check)) ss ts -> flat_map (tvars math_to_var) ts = [] -> to_egraph (math_lang ov check) keepm fuel wl = Panic) /\
    (forall check ts, Forall2 (reads (hal_lang check)) ss ts -> flat_map (tvars hal_to_var) ts = [] -> to_egraph (hal_lang check) keeph fuel wl = Panic).
  Proof.
    intros fuel wl ss Hf. split; [|split; [|split]].
    - intros w check ts F Nv. exact (product_novars (bv_lang w check) bv_arity (bv_samples w) (bv_plain_vars w check) (bv_from_op_arity w) (fun _ => eq_refl) (fun _ => eq_refl) keepv fuel wl ss ts Hf F Nv).
    - intros ts F Nv. exact (product_novars bool_lang bool_arity bool_samples bool_plain_vars bool_from_op_arity (fun _ => eq_refl) (fun _ => eq_refl) keepb fuel wl ss ts Hf F Nv).
    - intros ov check ts F Nv. exact (product_novars (math_lang ov check) math_arity math_samples (math_plain_vars ov check) math_from_op_arity (fun _ => eq_refl) (fun _ => eq_refl) keepm fuel wl ss ts Hf F Nv).
    - intros check ts F Nv. exact (product_novars (hal_lang check) hal_arity hal_samples (hal_plain_vars check) hal_from_op_arity (fun _ => eq_refl) (fun _ => eq_refl) keeph fuel wl ss ts Hf F Nv).
  Qed.
End Domains.

Lemma mentions_tvars : forall O (tv : O -> option string) ts, mentions_var tv ts <-> flat_map (tvars tv) ts <> [].
Proof.
  intros O tv ts. split.
  - intros (t & o & us & s & It & I & Hv) E. assert (In s (flat_map (tvars tv) ts)) as J by (apply in_flat_map; exists t; split; [exact It|exact (var_tvars _ _ _ _ _ _ I Hv)]). rewrite E in J. destruct J.
  - intros N. destruct (flat_map (tvars tv) ts) as [|s l] eqn:E; [congruence|]. assert (I : In s (flat_map (tvars tv) ts)) by (rewrite E; now left).
    apply in_flat_map in I as (t & It & I). enough (exists o us, In (T o us) (subterms t) /\ tv o = Some s) as (o & us & H1 & H2) by (now exists t, o, us, s).
    clear - I. induction t as [o ts IH] using term_ind'. cbn in I. destruct (tv o) as [s'|] eqn:E.
    + destruct I as [->|I]; [exists o, ts; split; [now left|exact E]|]. apply in_flat_map in I as (t & It & I). rewrite Forall_forall in IH. destruct (IH t It I) as (o' & us & H1 & H2). exists o', us. split; [right; apply in_flat_map; eauto|exact H2].
    + apply in_flat_map in I as (t & It & I). rewrite Forall_forall in IH. destruct (IH t It I) as (o' & us & H1 & H2). exists o', us. split; [right; apply in_flat_map; eauto|exact H2].
Qed.
(* evaluation where some operators are absent *)
Lemma fold_avoiding : forall O A (f : O -> list A -> res A) (ar : O -> nat) (bad : O -> Prop), (forall o l, ~ bad o -> length l = ar o -> exists a, f o l = Val a) ->
  forall t, wf_term ar t -> (forall o us, In (T o us) (subterms t) -> ~ bad o) -> exists v, fold_term f t = Val v.
Proof.
  intros O A f ar bad Hf t. induction t as [o ts IH] using term_ind'. intros W Nb. inversion W as [o' ts' Len W']; subst. cbn [fold_term].
  assert (exists vs, rmapM (fold_term f) ts = Val vs) as (vs & Ev).
  { assert (Nb' : Forall (fun t => forall o us, In (T o us) (subterms t) -> ~ bad o) ts).
    { apply Forall_forall. intros t It o' us I. apply (Nb o' us). right. apply in_flat_map. eauto. }
    clear - IH W' Nb'. induction ts as [|t ts IHt]; [exists []; reflexivity|]. inversion IH as [|? ? I1 I2]; inversion W' as [|? ? W1 W2]; inversion Nb' as [|? ? N1 N2]; subst.
    destruct (IHt I2 W2 N2) as (vs & E). destruct (I1 W1 N1) as (v & Ev). exists (v :: vs). cbn. rewrite Ev. cbn. now rewrite E. }
  rewrite Ev. cbn [rbind]. apply Hf; [apply (Nb o ts); now left|]. apply rmapM_F2 in Ev. rewrite <- Len. symmetry. exact (Forall2_length _ _ _ Ev).
Qed.
Lemma hal_evaluates : forall n vc t, wf_term hal_arity t -> without HNeg t -> exists v, cvec_term hal_eval hal_to_var n vc t = Val v.
Proof.
  intros n vc t W Nn. unfold cvec_term. apply (fold_avoiding _ _ _ hal_arity (fun o => o = HNeg)); [|exact W|intros o us I ->; exact (Nn us I)].
  intros o cs No Len. unfold with_vars. destruct (hal_to_var o); [eauto|]. destruct o; cbn in Len; try congruence; args3 cs Len; cbn; eauto.
Qed.
Lemma math_evaluates : forall ov n vc t, wf_term math_arity t -> without MNeg t -> without MAbs t -> exists v, cvec_term (math_eval ov) math_to_var n vc t = Val v.
Proof.
  intros ov n vc t W Nn Na. unfold cvec_term. apply (fold_avoiding _ _ _ math_arity (fun o => o = MNeg \/ o = MAbs)); [|exact W|intros o us I [->| ->]; [exact (Nn us I)|exact (Na us I)]].
  intros o cs No Len. unfold with_vars. destruct (math_to_var o); [eauto|]. destruct o; cbn in Len; try (destruct No; tauto); args3 cs Len; cbn; eauto.
Qed.
