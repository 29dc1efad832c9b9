(* The reference meanings of the domains as algebras that interpret them. *)
From Coq Require Import NArith ZArith QArith Qcanon.
From Verif Require Import Base BaseProofs Sexp Reader Lang LangProofs Util BV BVText BVSpec BVProofs BoolDom BoolProofs NatDom NatProofs
  PosDom BvBoolDom LiftProofs DomainSpec Number Rational RationalSpec RationalProofs Halide HalideSpec Syntax SyntaxProofs Rule Ruleset RuleSpec
  Analysis Generalize Egraph EgraphSpec EgraphProofs EgraphSound Synth Apply Sched SynthSpec SynthProofs DeriveProofs Domains.
Open Scope string_scope.
Open Scope list_scope.

(* a partial meaning made total *)
Definition tot {O V} (d : V) (f : O -> list V -> res V) (o : O) (vs : list V) : V :=
  match f o vs with Val v => v | Panic => d end.

Section Total.
  Context {O C V : Type}.
  Variable L : lang O C.
  Variables (d : V) (f : O -> list V -> res V) (dom : V -> Prop) (says : interval C -> V -> Prop).
  Local Notation A := (Alg (tot d f) dom says).

  Lemma aval_den : forall env t v, fold_term (with_vars (l_to_var L) env f) t = Val v -> aval (a_sem (set_vars L A env)) t = v.
  Proof.
    intros env t. induction t as [o ts IH] using term_ind'. intros v H. cbn [fold_term] in H.
    apply rbind_val in H as (vs & H1 & H2). cbn [aval].
    assert (map (aval (a_sem (set_vars L A env))) ts = vs) as ->.
    { clear H2. apply rmapM_val in H1. induction H1 as [|t v' ts vs E F IH2]; cbn; [reflexivity|].
      inversion IH as [|? ? It Its]; subst. f_equal; auto. }
    cbn. unfold with_vars in H2. destruct (l_to_var L o); [congruence|]. unfold tot. now rewrite H2.
  Qed.
  Lemma closed_paval : forall env s t, closed L t -> paval (a_sem (set_vars L A env)) s t = paval (a_sem A) s t.
  Proof.
    intros env s t. induction t as [[o|v] ts IH] using term_ind'; intros Cl; cbn [paval]; [|reflexivity].
    destruct Cl as [No Cl]. cbn. rewrite No. f_equal. revert Cl. induction IH as [|t ts H F IH2]; cbn; intros Cl; [reflexivity|].
    destruct Cl as [C1 C2]. f_equal; auto.
  Qed.
  (* a rule without variables of the language whose two sides, as terms, mean the
     same *)
  Lemma den_holds : (forall v, l_to_var L (l_mk_var L v) = Some v) -> forall r tl tr, tree (rlhs r) = Val tl -> tree (rrhs r) = Val tr ->
    closed L tl -> closed L tr ->
    (forall env, (forall v, dom (env v)) -> exists v, fold_term (with_vars (l_to_var L) env f) (inst L tl) = Val v /\
       fold_term (with_vars (l_to_var L) env f) (inst L tr) = Val v) ->
    forall env, holds L (set_vars L A env) r.
  Proof.
    intros Mv r tl tr Tl Tr Cl Cr H env. exists tl, tr. split; [exact Tl|]. split; [exact Tr|]. intros s Ds _.
    rewrite !closed_paval by assumption. destruct (H s Ds) as (v & E1 & E2).
    rewrite <- (inst_val L V A s Mv tl Cl), <- (inst_val L V A s Mv tr Cr).
    rewrite (aval_den s _ v E1), (aval_den s _ v E2). reflexivity.
  Qed.
End Total.

(* languages whose analysis never finds a constant *)
Definition only_full {C V} (i : interval C) (v : V) : Prop := i = full.
Lemma quiet_interprets {O C V} (L : lang O C) (A : algebra O C V) :
  (forall o is i, l_itv L o is = Val i -> i = full) -> (forall g i, l_custom L g i = Val []) ->
  (forall vars n vs v c ts, l_init L vars = Val (n, vs) -> In (v, c, ts) vs -> ts = []) ->
  (forall o vs, Forall (a_dom A) vs -> a_dom A (a_sem A o vs)) -> a_says A = only_full -> interprets L A.
Proof.
  intros Hi Hc Hn Hd Hs. constructor; rewrite ?Hs; unfold only_full.
  - exact Hd.
  - intros o is i vs _ _ H. eauto.
  - intros v i j k _ -> -> H. cbn in H. now inversion H.
  - intros a b v t _ H. discriminate H.
  - intros val g i ts _ _ _ _ H r t I. rewrite Hc in H. inversion H; subst. destruct I.
  - intros vars n vs v c ts r t H I J. rewrite (Hn _ _ _ _ _ _ H I) in J. destruct J.
Qed.
Lemma no_links_none {O C} r n (vs : list (string * cvec C * list (recexpr O))) v c ts : no_links r = Val (n, vs) -> In (v, c, ts) vs -> ts = [].
Proof.
  intros H I. unfold no_links in H. destruct r as [[m ws]|]; [|discriminate H]. cbn in H. inversion H; subst.
  apply in_map_iff in I as ([x y] & E & _). now inversion E.
Qed.
(* the parts of [interprets] that are the same for every domain without
   custom_modify and links *)
Lemma plain_interprets {O C V} (L : lang O C) (A : algebra O C V) :
  (forall g i, l_custom L g i = Val []) -> (forall vars n vs v c ts, l_init L vars = Val (n, vs) -> In (v, c, ts) vs -> ts = []) ->
  (forall o vs, Forall (a_dom A) vs -> a_dom A (a_sem A o vs)) ->
  (forall o is i vs, Forall (a_dom A) vs -> Forall2 (a_says A) is vs -> l_itv L o is = Val i -> a_says A i (a_sem A o vs)) ->
  (forall v i j k, a_dom A v -> a_says A i v -> a_says A j v ->
    mk_itv (l_cleb L) (omax (l_cleb L) (low i) (low j)) (omin (l_cleb L) (high i) (high j)) = Val k -> a_says A k v) ->
  (forall a b v t, a_dom A v -> a_says A (Itv (Some a) (Some b)) v -> l_ceqb L a b = true ->
      tree (l_const L a) = Val t -> aval (a_sem A) t = v) -> interprets L A.
Proof.
  intros Hc Hn Hd Hi Hm Hk. constructor; auto.
  - intros val g i ts _ _ _ _ H r t I. rewrite Hc in H. inversion H; subst. destruct I.
  - intros vars n vs v c ts r t H I J. rewrite (Hn _ _ _ _ _ _ H I) in J. destruct J.
Qed.

(* ---- bitvectors ---- *)
Section BVAlg.
  Variable w : N.
  Local Open Scope N_scope.
  Hypothesis w128 : w <= 128.
  (* literals are read modulo 2^w *)
  Definition bv_sem_mod (o : bv_op) (args : list N) : res N :=
    match o with VLit c => Val (c mod 2 ^ w) | _ => bv_sem w o args end.
  Definition bv_says (i : interval N) (v : N) : Prop :=
    i = full \/ exists c, i = Itv (Some c) (Some c) /\ v = c mod 2 ^ w.
  Definition bv_alg : algebra bv_op N N := Alg (tot 0 bv_sem_mod) (inr w) bv_says.

  Lemma bv_dom : forall o vs, Forall (inr w) vs -> inr w (tot 0 bv_sem_mod o vs).
  Proof.
    intros o vs F. unfold tot, bv_sem_mod.
    assert (inr w 0) as Z by (unfold inr; apply pow2_pos).
    assert (forall c, inr w (c mod 2 ^ w)) as Md by (intros; apply N.mod_lt, pow2_nz).
    destruct o; cbn; repeat (destruct vs as [|? vs]; cbn; auto);
      repeat match goal with H : Forall _ (_ :: _) |- _ => inversion H; clear H; subst end; clear Z;
      try match goal with A : inr _ ?a, B : inr _ ?b |- _ => pose proof (smt_range w a b w128 A B) as (?&?&?&?&?&?&?) end;
      try match goal with A : inr _ ?a |- _ => pose proof (smt_range w a a w128 A A) as (?&?&?&?&?&?&?) end;
      auto using and_inr, or_inr, xor_inr.
  Qed.
  Lemma omax_N c d : omax N.leb (Some c) (Some d) = Some (N.max c d).
  Proof. cbn. destruct (N.leb_spec c d); f_equal; lia. Qed.
  Lemma omin_N c d : omin N.leb (Some c) (Some d) = Some (N.min c d).
  Proof. cbn. destruct (N.leb_spec c d); f_equal; lia. Qed.
  Lemma bv_merge : forall v i j k, bv_says i v -> bv_says j v ->
    mk_itv N.leb (omax N.leb (low i) (low j)) (omin N.leb (high i) (high j)) = Val k -> bv_says k v.
  Proof.
    intros v i j k [->|(c & -> & Ev)] [->|(d & -> & Ew)] H; cbn [low high full] in H.
    - cbn in H. inversion H. now left.
    - cbn in H. rewrite N.leb_refl in H. inversion H. right. eauto.
    - cbn in H. rewrite N.leb_refl in H. inversion H. right. eauto.
    - rewrite omax_N, omin_N in H. cbn in H. destruct (N.leb_spec (N.max c d) (N.min c d)) as [Hl|]; [|discriminate H].
      inversion H. assert (c = d) by lia. subst d. right. exists c. rewrite N.max_id, N.min_id. auto.
  Qed.
  Lemma bv_interprets check env : (forall s, inr w (env s)) -> interprets (bv_lang w check) (set_vars (bv_lang w check) bv_alg env).
  Proof.
    intros He. apply plain_interprets; cbn [l_custom l_init l_itv l_cleb l_ceqb l_const bv_lang a_dom a_says a_sem set_vars bv_alg l_to_var].
    - reflexivity.
    - intros vars n vs v c ts. apply no_links_none.
    - intros o vs F. destruct (bv_to_var o); [apply He|now apply bv_dom].
    - intros o is i vs _ _ H. unfold bv_mk_interval in H. destruct o; try (inversion H; now left).
      cbn in H. rewrite N.leb_refl in H. inversion H. right. exists c. split; reflexivity.
    - intros v i j k _. apply bv_merge.
    - intros a b v t _ [E|(c & E & ->)] _ H; [discriminate E|]. inversion E; subst a b. inversion H; subst t. reflexivity.
  Qed.
  Lemma bv_mod_den env t v : tall (lit_ok w) t -> bv_den w env t = Val v -> fold_term (with_vars bv_to_var env bv_sem_mod) t = Val v.
  Proof.
    intros Ht H.
    destruct (fold_term_rel (lit_ok w) (with_vars bv_to_var env (bv_sem w)) (with_vars bv_to_var env bv_sem_mod) eq t v) with (2 := Ht) (3 := H) as (x & Hx & ->); [|exact Hx].
    clear. intros o xs ys x Ho HR Hx. assert (xs = ys) as <- by (clear - HR; induction HR; congruence).
    exists x. split; [|reflexivity]. destruct o; try exact Hx. unfold with_vars in *. cbn in *.
    destruct xs; [|discriminate Hx]. inversion Hx; subst. rewrite N.mod_small by exact Ho. reflexivity.
  Qed.
  Lemma bv_aval check env t v : tall (lit_ok w) t -> bv_den w env t = Val v ->
    aval (a_sem (set_vars (bv_lang w check) bv_alg env)) t = v.
  Proof. intros Ht H. apply aval_den. exact (bv_mod_den env t v Ht H). Qed.
  (* validated rules hold *)
  Lemma bv_valid_holds check r tl tr env : unsat_right w check -> lits64 w (rlhs r) -> lits64 w (rrhs r) ->
    bv_validate check (rlhs r) (rrhs r) = Val Valid -> tree (rlhs r) = Val tl -> tree (rrhs r) = Val tr ->
    closed (bv_lang w check) tl -> closed (bv_lang w check) tr ->
    holds (bv_lang w check) (set_vars (bv_lang w check) bv_alg env) r.
  Proof.
    intros Hu Hl Hr Hv Tl Tr Cl Cr.
    destruct (bv_validate_sound w check (rlhs r) (rrhs r) w128 Hu Hl Hr Hv) as (ul & ur & El & Er & _ & _ & Hd).
    pose proof (tree_inst (bv_lang w check) (rlhs r)) as Il. pose proof (tree_inst (bv_lang w check) (rrhs r)) as Ir.
    cbn [l_mk_var bv_lang] in Il, Ir. rewrite Tl in Il. rewrite Tr in Ir. cbn [rmap] in Il, Ir.
    rewrite El in Il. rewrite Er in Ir. inversion Il as [Il']. inversion Ir as [Ir'].
    assert (forall p u, lits64 w p -> tree (instantiate VVar p) = Val u -> tall (lit_ok w) u) as G.
    { intros p u Hp Hu'. eapply tall_impl; [|exact (lits64_tall w p u Hp Hu')]. intros []; cbn; tauto. }
    apply (den_holds (bv_lang w check) 0 bv_sem_mod (inr w) bv_says (fun v => eq_refl) r tl tr Tl Tr Cl Cr). intros s Hs.
    rewrite <- Il', <- Ir'. destruct (Hd s Hs) as (v & E1 & E2). exists v.
    split; apply bv_mod_den; eauto.
  Qed.
End BVAlg.

(* ---- booleans ---- *)
Definition bool_alg : algebra bool_op bool bool := Alg (tot false bool_sem) (fun _ => True) (within ble).
Lemma bool_interprets env : interprets bool_lang (set_vars bool_lang bool_alg env).
Proof.
  apply plain_interprets; cbn [l_custom l_init l_itv l_cleb l_ceqb l_const bool_lang a_dom a_says a_sem set_vars bool_alg l_to_var].
  - reflexivity.
  - intros vars n vs v c ts. apply no_links_none.
  - auto.
  - intros o is i vs _ F H.
    assert (forall i v, within ble i v -> forall l h, unwrap_interval i = Val (l, h) -> ble l v /\ ble v h) as U.
    { clear. intros [[l|] [h|]] v [W1 W2] l' h' E; cbn in *; try discriminate E. inversion E; subst. auto. }
    assert (forall l h v, mk_itv bool_leb (Some l) (Some h) = Val i -> ble l v -> ble v h -> within ble i v) as K.
    { clear. intros l h v E A B. cbn in E. destruct (bool_leb l h); [|discriminate E]. inversion E; subst. split; cbn; intros ? X; inversion X; now subst. }
    destruct o; cbn [bool_mk_interval bool_to_var] in *;
      (destruct F as [|i1 v1 is vs W1 F]; [|destruct F as [|i2 v2 is vs W2 F]; [|destruct F]]); try discriminate H;
      repeat match type of H with context [unwrap_interval ?j] => let E := fresh "E" in destruct (unwrap_interval j) as [[? ?]|] eqn:E; [|discriminate H]; cbn [rbind] in H end;
      repeat match goal with E : unwrap_interval ?j = Val (_, _), W : within ble ?j _ |- _ => apply (U j _ W) in E as [? ?]; clear W end;
      try match type of H with context [if ?c then _ else _] => destruct c eqn:Ec end;
      try (apply andb_true_iff in Ec as [Ec1 Ec2]; apply Bool.eqb_prop in Ec1, Ec2; subst);
      (eapply K; [exact H| |]); unfold ble in *; cbn; repeat match goal with b : bool |- _ => destruct b end; cbn in *; try congruence; intuition congruence.
  - intros v i j k _ [A1 A2] [B1 B2] H.
    assert (low k = omax bool_leb (low i) (low j) /\ high k = omin bool_leb (high i) (high j)) as [E1 E2].
    { unfold mk_itv in H. destruct (omax _ _ _), (omin _ _ _); try (inversion H; subst; auto; fail). destruct (bool_leb _ _); inversion H; auto. }
    split; intros x Ex; [rewrite E1 in Ex|rewrite E2 in Ex]; [destruct (low i) as [[]|], (low j) as [[]|]|destruct (high i) as [[]|], (high j) as [[]|]]; cbn in Ex; inversion Ex; subst; auto.
  - intros a b v t _ [W1 W2] E H. apply Bool.eqb_prop in E. subst b. inversion H; subst t. cbn.
    specialize (W1 a eq_refl). specialize (W2 a eq_refl). unfold ble in *. destruct a, v; intuition congruence.
Qed.
Lemma bool_aval env t v : bool_den env t = Val v -> aval (a_sem (set_vars bool_lang bool_alg env)) t = v.
Proof. exact (aval_den bool_lang false bool_sem (fun _ => True) (within ble) env t v). Qed.

(* ---- naturals ---- *)
Definition nat_says (i : interval Z) (v : N) : Prop := nat_itv i /\ nat_within i v.
Definition nat_alg : algebra nat_op Z N := Alg (tot 0%N nat_sem) (fun _ => True) nat_says.
Lemma tree_const {O} r (t : term O) : tree (const_nodes r) = Val t -> r = Val t.
Proof. destruct r as [u|]; cbn; [|discriminate]. rewrite tree_to_rec. congruence. Qed.

Lemma nat_constant_id_den fuel : forall c t, nat_constant_id fuel c = Val t -> forall env, nat_den env t = Val (Z.to_N c) /\ (0 <= c)%Z.
Proof.
  induction fuel as [|fuel IH]; intros c t H env; [discriminate H|]. cbn [nat_constant_id] in H.
  destruct (Z.eqb_spec c 0) as [->|Hne]; [inversion H; split; [reflexivity|lia]|].
  apply rbind_val in H as (u & Hu & H). inversion H; subst t. destruct (IH _ _ Hu env) as [E P].
  unfold nat_den in *. cbn [fold_term rmapM]. rewrite E. cbn. split; [f_equal|]; lia.
Qed.
Lemma nat_constant_den fuel c t : nat_constant fuel c = Val t -> forall env, nat_den env t = Val (Z.to_N c).
Proof.
  unfold nat_constant. intros H env. destruct (Z.eqb_spec c 0) as [->|Hne]; [inversion H; reflexivity|].
  apply rbind_val in H as (u & Hu & H). inversion H; subst t. destruct (nat_constant_id_den fuel _ _ Hu env) as [E P].
  unfold nat_den in *. cbn [fold_term rmapM]. rewrite E. cbn. f_equal. lia.
Qed.
Lemma nat_aval depth rng check env t v : nat_den env t = Val v ->
  aval (a_sem (set_vars (nat_lang depth rng check) nat_alg env)) t = v.
Proof. exact (aval_den (nat_lang depth rng check) 0%N nat_sem (fun _ => True) nat_says env t v). Qed.
Lemma nat_interprets depth rng check env : interprets (nat_lang depth rng check) (set_vars (nat_lang depth rng check) nat_alg env).
Proof.
  apply plain_interprets.
  - reflexivity.
  - intros vars n vs v c ts. apply no_links_none.
  - cbn. auto.
  - cbn [l_itv nat_lang a_says set_vars nat_alg a_sem l_to_var]. intros o is i vs _ F H.
    assert (forall j, In j is -> nat_itv j) as Hj.
    { clear H. induction F as [|j v is vs [A _] F IH]; [contradiction|]. intros k [<-|I]; auto. }
    assert (length is = nat_arity o) as Hl.
    { clear - H. destruct o; cbn in H; repeat (destruct is as [|? is]; try discriminate H); reflexivity. }
    destruct (nat_interval_total o is Hj Hl) as (i' & E & Hi). rewrite H in E. inversion E; subst i'. split; [exact Hi|].
    apply (nat_interval_sound o is vs _ env i Hj); [clear - F; induction F as [|? ? ? ? [_ X]]; constructor; auto| |exact H].
    unfold with_vars. destruct (nat_to_var o) eqn:Ev; [reflexivity|]. unfold tot.
    rewrite (Forall2_length _ _ _ F) in Hl. destruct o; try discriminate Ev; cbn in *; repeat (destruct vs as [|? vs]; try discriminate Hl); reflexivity.
  - cbn [l_cleb nat_lang a_says set_vars nat_alg]. intros v i j k _ [(a & A1 & A2 & A3) [A4 A5]] [(b & B1 & B2 & B3) [B4 B5]] H.
    rewrite A1, B1 in *. specialize (A4 a eq_refl). specialize (B4 b eq_refl).
    destruct (high i) as [hi|], (high j) as [hj|]; cbn in H;
      repeat match goal with H : forall h, Some ?x = Some h -> _ |- _ => specialize (H x eq_refl) end;
      try (destruct (Z.leb_spec hi hj)); destruct (Z.leb_spec a b);
      try (match type of H with context [Z.leb ?x ?y] => destruct (Z.leb_spec x y); [|discriminate H] end);
      inversion H; subst k; (split; [eexists; split; [reflexivity|split; [lia|]]|split]); cbn; intros ? E; inversion E; subst; lia.
  - cbn [l_const l_ceqb nat_lang a_says set_vars nat_alg a_dom]. intros a b v t _ [_ [W1 W2]] E H. apply Z.eqb_eq in E. subst b.
    specialize (W1 a eq_refl). specialize (W2 a eq_refl). apply tree_const in H.
    apply (nat_aval depth rng check). rewrite (nat_constant_den _ _ _ H). f_equal. lia.
Qed.
Lemma nat_valid_holds depth rng check r tl tr env : int_unsat_right check -> nat_validate check (rlhs r) (rrhs r) = Val Valid ->
  tree (rlhs r) = Val tl -> tree (rrhs r) = Val tr -> closed (nat_lang depth rng check) tl -> closed (nat_lang depth rng check) tr ->
  holds (nat_lang depth rng check) (set_vars (nat_lang depth rng check) nat_alg env) r.
Proof.
  intros Hu Hv Tl Tr Cl Cr. destruct (nat_validate_sound check (rlhs r) (rrhs r) Hu Hv) as (ul & ur & El & Er & Hd).
  pose proof (tree_inst (nat_lang depth rng check) (rlhs r)) as Il. pose proof (tree_inst (nat_lang depth rng check) (rrhs r)) as Ir.
  cbn [l_mk_var nat_lang] in Il, Ir. rewrite Tl in Il. rewrite Tr in Ir. cbn [rmap] in Il, Ir.
  rewrite El in Il. rewrite Er in Ir. inversion Il as [Il']. inversion Ir as [Ir'].
  apply (den_holds (nat_lang depth rng check) 0%N nat_sem (fun _ => True) nat_says (fun v => eq_refl) r tl tr Tl Tr Cl Cr). intros s _.
  rewrite <- Il', <- Ir'. exact (Hd s).
Qed.

(* ---- binary positives ---- *)
Definition pos_alg : algebra pos_op N N := Alg (tot 0%N pos_sem) (fun _ => True) only_full.
Lemma pos_interprets depth env : interprets (pos_lang depth) (set_vars (pos_lang depth) pos_alg env).
Proof.
  apply quiet_interprets; [|reflexivity| |cbn; auto|reflexivity].
  - intros o is i H. now inversion H.
  - intros vars n vs v c ts H I. inversion H; subst. destruct I.
Qed.
Lemma pos_aval depth env t v : pos_den env t = Val v -> aval (a_sem (set_vars (pos_lang depth) pos_alg env)) t = v.
Proof. exact (aval_den (pos_lang depth) 0%N pos_sem (fun _ => True) only_full env t v). Qed.

(* ---- halide ---- *)
Definition hal_alg : algebra hal_op Z Z := Alg (tot 0%Z (hal_sem div_smt)) (fun _ => True) only_full.
Lemma hal_interprets check env : interprets (hal_lang check) (set_vars (hal_lang check) hal_alg env).
Proof.
  apply quiet_interprets; [|reflexivity| |cbn; auto|reflexivity].
  - intros o is i H. now inversion H.
  - intros vars n vs v c ts. apply no_links_none.
Qed.
Lemma hal_aval check env t v : hal_den div_smt env t = Val v -> aval (a_sem (set_vars (hal_lang check) hal_alg env)) t = v.
Proof. exact (aval_den (hal_lang check) 0%Z (hal_sem div_smt) (fun _ => True) only_full env t v). Qed.

(* ---- rationals ---- *)
Definition math_says (i : interval Qc) (v : option Qc) : Prop :=
  i = full \/ exists c, i = Itv (Some c) (Some c) /\ v = Some c.
Definition math_alg : algebra math_op Qc (option Qc) := Alg (tot None math_sem) (fun _ => True) math_says.
Lemma math_says_rel i v : math_says i v -> fold_rel i v.
Proof. intros [->|(c & -> & ->)]; [apply fold_rel_full|apply fold_rel_const]. Qed.
Lemma math_interprets ov check env : interprets (math_lang ov check) (set_vars (math_lang ov check) math_alg env).
Proof.
  apply plain_interprets; cbn [l_custom l_init l_itv l_cleb l_ceqb l_const math_lang a_dom a_says a_sem set_vars math_alg l_to_var].
  - reflexivity.
  - intros vars n vs v c ts. apply no_links_none.
  - auto.
  - intros o is i vs _ F H.
    assert (Forall2 fold_rel is vs) as F' by (clear - F; induction F; constructor; auto using math_says_rel).
    destruct (math_interval_rel ov (fun _ => Q2Qc 0) o is vs i F' H) as (v & E & R).
    unfold math_mk_interval in H. apply rbind_val in H as (c & Hc & H). destruct c as [c|]; [|inversion H; now left].
    cbn in H. destruct (qleb c c); [|discriminate H]. inversion H; subst i. right. exists c. split; [reflexivity|].
    unfold with_vars in E. destruct (math_to_var o) as [s|] eqn:Ev.
    + destruct o; try discriminate Ev. cbn in Hc. destruct is; discriminate Hc.
    + unfold tot. rewrite E. apply R. apply get_const_point.
  - assert (forall c, qleb c c = true) as Rf by (intros; apply qleb_spec, Qcle_refl).
    intros v i j k _ [->|(c & -> & ->)] [->|(d & -> & Ew)] H; cbn [low high full omax omin] in H.
    + inversion H. now left.
    + cbn in H. rewrite Rf in H. inversion H. right. eauto.
    + cbn in H. rewrite Rf in H. inversion H. right. eauto.
    + inversion Ew; subst d. cbn in H. rewrite ?Rf in H. cbn in H. rewrite ?Rf in H. inversion H. right. eauto.
  - intros a b v t _ [E|(c & E & ->)] _ H; [discriminate E|]. inversion E; subst a b. inversion H; subst t. reflexivity.
Qed.
Lemma math_aval ov check env t v : math_den env t = Val v ->
  aval (a_sem (set_vars (math_lang ov check) math_alg (fun s => Some (env s)))) t = v.
Proof. exact (aval_den (math_lang ov check) None math_sem (fun _ => True) math_says (fun s => Some (env s)) t v). Qed.

(* ---- bitvectors and booleans ---- *)
(* ill-sorted terms have no value; literals ignore their (absent) children *)
Definition bb_tot (o : bb_op) (vs : list (res bbv)) : res bbv :=
  match o with
  | XLit b => Val (BB b)
  | XNum v => Val (bits2 v)
  | _ => let* args := rmapM id vs in bb_sem o args
  end.
Definition bb_alg : algebra bb_op N (res bbv) := Alg bb_tot (fun _ => True) only_full.
Definition bb_env (genv : string -> bool * bool) (s : string) : res bbv := Val (BV2 (fst (genv s)) (snd (genv s))).
Definition bb_den (genv : string -> bool * bool) (t : term bb_op) : res bbv :=
  fold_term (with_vars bb_to_var (fun s => BV2 (fst (genv s)) (snd (genv s))) bb_sem) t.

Lemma bb_aval genv t v : bb_den genv t = Val v -> aval (a_sem (set_vars bb_lang bb_alg (bb_env genv))) t = Val v.
Proof.
  unfold bb_den. revert v. induction t as [o ts IH] using term_ind'. intros v H. cbn [fold_term] in H.
  apply rbind_val in H as (vs & H1 & H2). cbn [aval].
  assert (map (aval (a_sem (set_vars bb_lang bb_alg (bb_env genv)))) ts = map Val vs) as ->.
  { clear H2. apply rmapM_val in H1. induction H1 as [|t v' ts vs E F IH2]; cbn; [reflexivity|].
    inversion IH as [|? ? It Its]; subst. f_equal; auto. }
  cbn. unfold with_vars in H2. destruct (bb_to_var o) eqn:E; [now rewrite <- H2|]. unfold bb_tot.
  assert (rmapM id (map Val vs) = Val vs) as -> by (clear; induction vs; cbn; [reflexivity|now rewrite IHvs]).
  cbn [rbind]. destruct o; try exact H2; destruct vs; try discriminate H2; exact H2.
Qed.
Lemma clookup_in tab i n : In n (clookup tab i) -> exists m, In (i, m) tab /\ In n m.
Proof.
  induction tab as [|[k m] tab IH]; cbn; [contradiction|]. destruct (Nat.eqb_spec i k) as [->|].
  - intros H. exists m. auto.
  - intros H. destruct (IH H) as (m' & A & B). exists m'. auto.
Qed.
Lemma fold_make_in class nodes c : fold_make class nodes = Some c -> exists n i j x y, In n nodes /\ nop n = XMake /\ nch n = [i; j] /\
  bool_const (class i) = Some x /\ bool_const (class j) = Some y /\ c = make_const x y.
Proof.
  induction nodes as [|n r IH]; cbn; [discriminate|]. intros H.
  assert (fold_make class r = Some c -> exists n0 i j x y, (n = n0 \/ In n0 r) /\ nop n0 = XMake /\ nch n0 = [i; j] /\
    bool_const (class i) = Some x /\ bool_const (class j) = Some y /\ c = make_const x y) as G.
  { intros H'. destruct (IH H') as (n0 & i & j & x & y & Hin & R). exists n0, i, j, x, y. auto. }
  destruct (nop n) eqn:E; auto. destruct (nch n) as [|i [|j [|? ?]]] eqn:Ec; auto.
  destruct (bool_const (class i)) as [x|] eqn:Ex; auto. destruct (bool_const (class j)) as [y|] eqn:Ey; auto.
  inversion H; subst c. exists n, i, j, x, y. auto 10.
Qed.
Lemma bb_interprets genv : interprets bb_lang (set_vars bb_lang bb_alg (bb_env genv)).
Proof.
  constructor; cbn [l_custom l_init l_itv l_cleb l_ceqb l_const bb_lang a_dom a_says a_sem set_vars bb_alg l_to_var l_mk_var]; unfold only_full.
  - auto.
  - intros o is i vs _ _ H. now inversion H.
  - intros v i j k _ -> -> H. cbn in H. now inversion H.
  - intros a b v t _ H. discriminate H.
  - intros val g i ts W Li _ [Me Mn] H r t I Tr. unfold bb_custom in H.
    destruct (class_nodes g i) as [ns|] eqn:En; [|discriminate H]. cbn [rbind] in H.
    match type of H with context [rmapM ?f ?l] => destruct (rmapM f l) as [tab|] eqn:Et; [|discriminate H] end. cbn [rbind] in H.
    destruct (bb_custom_modify (clookup tab) i) as [c|] eqn:Ec; inversion H; subst ts; [|destruct I].
    destruct I as [<-|[]]. inversion Tr; subst t. cbn [aval map bb_to_var].
    assert (Hc : forall j n, In n (clookup tab j) -> val j =
      match bb_to_var (nop n) with Some x => bb_env genv x | None => bb_tot (nop n) (map val (nch n)) end).
    { intros j n Hn. apply clookup_in in Hn as (m & Hm & Hn). apply rmapM_val in Et.
      assert (class_nodes g j = Val m) as Ej.
      { clear - Et Hm. induction Et as [|a b l l' E F IH]; [contradiction|]. destruct Hm as [->|Hm]; [|auto].
        apply rbind_val in E as (m' & E1 & E2). inversion E2; subst. exact E1. }
      pose proof (class_nodes_has g j m W Ej n Hn) as Hh. exact (models_has _ (a_sem (set_vars bb_lang bb_alg (bb_env genv))) val g _ _ _ (conj Me Mn) Hh). }
    unfold bb_custom_modify in Ec. destruct (existsb _ _); [discriminate Ec|].
    apply fold_make_in in Ec as (n & a & b & x & y & Hn & On & Ch & Ex & Ey & ->).
    apply bool_const_in in Ex as (nx & Ix & Ox). apply bool_const_in in Ey as (ny & Iy & Oy).
    pose proof (Hc _ _ Hn) as V. rewrite On, Ch in V. pose proof (Hc _ _ Ix) as Vx. pose proof (Hc _ _ Iy) as Vy.
    rewrite Ox in Vx. rewrite Oy in Vy. cbn in V, Vx, Vy. rewrite Vx, Vy in V. cbn in V. rewrite V. cbn.
    now destruct (make_const_bits x y) as [-> _].
  - intros vars n vs v c ts r t H I J Tr. inversion H; subst. apply in_map_iff in I as (v' & E & _). inversion E; subst.
    destruct J as [<-|[]]. inversion Tr; subst t. cbn. reflexivity.
Qed.

(* ---- rules ---- *)
Lemma pos_rules_hold depth env : exists m1 m2, pos_exploratory = Val m1 /\ pos_nat_rules = Val m2 /\
  all_hold (pos_lang depth) (set_vars (pos_lang depth) pos_alg env) m1 /\ all_hold (pos_lang depth) (set_vars (pos_lang depth) pos_alg env) m2.
Proof.
  eexists. eexists. split; [vm_compute; reflexivity|]. split; [vm_compute; reflexivity|].
  split; unfold all_hold; repeat (apply Forall_cons || apply Forall_nil);
    (eexists; eexists; split; [reflexivity|]; split; [reflexivity|]); intros s _ _; cbn -[N.add N.mul]; unfold tot; cbn -[N.add N.mul]; ring.
Qed.
Lemma bb_rules_hold genv : exists m, bb_exploratory = Val m /\ all_hold bb_lang (set_vars bb_lang bb_alg (bb_env genv)) m.
Proof.
  eexists. split; [vm_compute; reflexivity|].
  unfold all_hold; repeat (apply Forall_cons || apply Forall_nil);
    (eexists; eexists; split; [reflexivity|]; split; [reflexivity|]); intros s _ Hg; cbn.
  1-8: destruct (s "a") as [[]|]; try reflexivity; cbn; try (destruct (s "b") as [[]|]; reflexivity).
  destruct Hg as (o & args & Ao & _ & E). cbn in Ao, E. rewrite E. clear E.
  destruct (bb_to_var o) eqn:Ev; [unfold bb_env; reflexivity|].
  destruct o; try discriminate Ao; try discriminate Ev; cbn [bb_tot]; try reflexivity;
    (destruct (rmapM id args) as [vs|]; [|reflexivity]; cbn [rbind]; destruct vs as [|[] [|[] [|? ?]]]; reflexivity).
Qed.

(* ---- equality of operators ---- *)
Ltac op_eq_tac := intros a b; destruct a, b; cbn; split; intros H; try discriminate H; try reflexivity; try (inversion H; subst).
Lemma bv_eqb_eq : forall a b, bv_eqb a b = true <-> a = b.
Proof. op_eq_tac; [apply N.eqb_eq in H; congruence|apply N.eqb_refl|apply String.eqb_eq in H; congruence|apply String.eqb_refl]. Qed.
Lemma bool_op_eqb_eq : forall a b, bool_op_eqb a b = true <-> a = b.
Proof. op_eq_tac; [apply Bool.eqb_prop in H; congruence|apply Bool.eqb_reflx|apply String.eqb_eq in H; congruence|apply String.eqb_refl]. Qed.
Lemma nat_op_eqb_eq : forall a b, nat_op_eqb a b = true <-> a = b.
Proof. op_eq_tac; [apply String.eqb_eq in H; congruence|apply String.eqb_refl]. Qed.
Lemma pos_op_eqb_eq : forall a b, pos_op_eqb a b = true <-> a = b.
Proof. op_eq_tac; [apply String.eqb_eq in H; congruence|apply String.eqb_refl]. Qed.
Lemma bb_eqb_eq : forall a b, bb_eqb a b = true <-> a = b.
Proof. op_eq_tac; [apply Bool.eqb_prop in H; congruence|apply Bool.eqb_reflx|apply N.eqb_eq in H; congruence|apply N.eqb_refl|apply String.eqb_eq in H; congruence|apply String.eqb_refl]. Qed.
Lemma math_eqb_eq : forall a b, math_eqb a b = true <-> a = b.
Proof. op_eq_tac; [apply qeqb_spec in H; congruence|now apply qeqb_spec|apply String.eqb_eq in H; congruence|apply String.eqb_refl]. Qed.
Lemma hal_eqb_eq : forall a b, hal_eqb a b = true <-> a = b.
Proof. op_eq_tac; [apply Z.eqb_eq in H; congruence|apply Z.eqb_refl|apply String.eqb_eq in H; congruence|apply String.eqb_refl]. Qed.
