(* Equality saturation with validated rules, per domain. *)
From Coq Require Import NArith ZArith QArith Qcanon.
From Verif Require Import Base BaseProofs Lang LangProofs BV BVSpec BVProofs BoolDom BoolProofs NatDom NatProofs
  PosDom BvBoolDom DomainSpec Rational RationalSpec Halide HalideSpec HalideProofs Rule Ruleset RuleSpec
  Analysis Egraph EgraphSpec EgraphProofs Synth Apply Sched SynthSpec SynthProofs DeriveProofs Domains DomainAlg.
Open Scope string_scope.
Open Scope list_scope.

(* a pattern all of whose variables are pattern variables *)
Definition general {O C} (L : lang O C) (p : pat O) : Prop :=
  forall n o, In n p -> nop n = EN o -> l_to_var L o = None.
Lemma general_closed {O C} (L : lang O C) p t : general L p -> tree p = Val t -> closed L t.
Proof.
  intros G H.
  assert (tall (fun o => match o with EN o => l_to_var L o = None | PV _ => True end) t) as Ht.
  { apply (tree_tall _ p); [|exact H]. intros n Hn. destruct (nop n) as [o|] eqn:E; [|exact I]. exact (G n o Hn E). }
  clear G H. induction t as [o ts IH] using term_ind'. inversion Ht as [? ? Ho Hs]; subst. destruct o as [o|v]; [|exact I].
  split; [exact Ho|]. clear Ho Ht. induction IH as [|t ts H F IH2]; cbn; [exact I|]. inversion Hs; subst. auto.
Qed.

(* rules of a ruleset that pass [validate] and are general *)
Definition validated {O C} (L : lang O C) (rs : ruleset O) : Prop :=
  Forall (fun e => l_validate L (rlhs (snd e)) (rrhs (snd e)) = Val Valid /\
                   general L (rlhs (snd e)) /\ general L (rrhs (snd e))) rs.

Lemma rmap_val {A B} (f : A -> B) x y : rmap f x = Val y -> exists a, x = Val a /\ y = f a.
Proof. destruct x; cbn; [|discriminate]. intros H. inversion H. eauto. Qed.

Section BVSound.
  Variables (w : N) (check : zbv -> zbv -> sat_result).
  Hypothesis w128 : (w <= 128)%N.
  Hypothesis right : unsat_right w check.
  Local Notation L := (bv_lang w check).
  Lemma bv_all_hold rs env : validated L rs -> Forall (fun e => lits64 w (rlhs (snd e)) /\ lits64 w (rrhs (snd e))) rs ->
    all_hold L (set_vars L (bv_alg w) env) rs.
  Proof.
    intros Hv Hl. unfold all_hold, validated in *. rewrite Forall_forall in *. intros e He. destruct (Hv e He) as (V & G1 & G2). destruct (Hl e He) as [L1 L2].
    destruct (bv_validate_sound w check (rlhs (snd e)) (rrhs (snd e)) w128 right L1 L2 V) as (ul & ur & El & Er & _).
    pose proof (tree_inst L (rlhs (snd e))) as Il. pose proof (tree_inst L (rrhs (snd e))) as Ir. cbn [l_mk_var bv_lang] in Il, Ir.
    rewrite El in Il. rewrite Er in Ir. symmetry in Il, Ir. apply rmap_val in Il as (tl & Tl & _). apply rmap_val in Ir as (tr & Tr & _).
    exact (bv_valid_holds w w128 check (snd e) tl tr env right L1 L2 V Tl Tr (general_closed L _ _ G1 Tl) (general_closed L _ _ G2 Tr)).
  Qed.
  Lemma bv_end_to_end keep rs : validated L rs -> Forall (fun e => lits64 w (rlhs (snd e)) /\ lits64 w (rrhs (snd e))) rs ->
    forall g, made L keep rs g -> forall t u c, repr g t c -> repr g u c ->
    wf_term bv_arity t -> wf_term bv_arity u -> tall (lit_ok w) t -> tall (lit_ok w) u ->
    forall env, (forall s, inr w (env s)) -> exists v, bv_den w env t = Val v /\ bv_den w env u = Val v.
  Proof.
    intros Hv Hl g M t u c Rt Ru Wt Wu Lt Lu env He.
    destruct (den_total w env t Wt) as (v & Dt). destruct (den_total w env u Wu) as (v' & Du).
    exists v. split; [exact Dt|]. rewrite Du. f_equal.
    pose proof (made_moves L bv_eqb_eq keep N _ (bv_interprets w w128 check env He) rs (bv_all_hold rs env Hv Hl) g M) as Mv.
    pose proof (default_moves _ g Mv t u c Rt Ru) as E.
    rewrite (bv_aval w check env t v Lt Dt), (bv_aval w check env u v' Lu Du) in E. now symmetry.
  Qed.
  Lemma bv_derive keep rs : validated L rs -> Forall (fun e => lits64 w (rlhs (snd e)) /\ lits64 w (rrhs (snd e))) rs ->
    forall fuel lo iter r, can_derive L keep fuel lo iter rs r true -> general L (rlhs r) -> general L (rrhs r) ->
    lits64 w (rlhs r) -> lits64 w (rrhs r) ->
    exists tl tr, tree (instantiate VVar (rlhs r)) = Val tl /\ tree (instantiate VVar (rrhs r)) = Val tr /\
      (wf_term bv_arity tl -> wf_term bv_arity tr ->
       forall env, (forall s, inr w (env s)) -> exists v, bv_den w env tl = Val v /\ bv_den w env tr = Val v).
  Proof.
    intros Hv Hl fuel lo iter r D G1 G2 L1 L2.
    destruct (can_derive_holds L bv_eqb_eq keep N (bv_alg w) (fun v => eq_refl) rs) with (fuel := fuel) (lo := lo) (iter := iter) (r := r)
      as (tl & tr & Tl & Tr & H); [| |exact D|].
    - intros env He. split; [exact (bv_interprets w w128 check env He)|exact (bv_all_hold rs env Hv Hl)].
    - exists 0%N. cbn. unfold inr. apply pow2_pos.
    - exists (inst L tl), (inst L tr).
      assert (El : tree (instantiate VVar (rlhs r)) = Val (inst L tl)) by (pose proof (tree_inst L (rlhs r)) as E; cbn [l_mk_var bv_lang] in E; rewrite E, Tl; reflexivity).
      assert (Er : tree (instantiate VVar (rrhs r)) = Val (inst L tr)) by (pose proof (tree_inst L (rrhs r)) as E; cbn [l_mk_var bv_lang] in E; rewrite E, Tr; reflexivity).
      split; [exact El|]. split; [exact Er|]. intros W1 W2 env He.
      destruct (den_total w env _ W1) as (v & Dl). destruct (den_total w env _ W2) as (v' & Dr). exists v. split; [exact Dl|]. rewrite Dr. f_equal.
      assert (forall p u, lits64 w p -> tree (instantiate VVar p) = Val u -> tall (lit_ok w) u) as G.
      { intros p u Hp Hu'. eapply tall_impl; [|exact (lits64_tall w p u Hp Hu')]. intros []; cbn; tauto. }
      pose proof (general_closed L _ _ G1 Tl) as Cl. pose proof (general_closed L _ _ G2 Tr) as Cr.
      pose proof (H Cl Cr env He) as E.
      rewrite <- (inst_val L N (bv_alg w) env (fun v => eq_refl) tl Cl), <- (inst_val L N (bv_alg w) env (fun v => eq_refl) tr Cr) in E.
      rewrite (bv_aval w check env _ v (G _ _ L1 El) Dl), (bv_aval w check env _ v' (G _ _ L2 Er) Dr) in E. now symmetry.
  Qed.
End BVSound.

Lemma nat_end_to_end depth rng check keep rs : int_unsat_right check -> validated (nat_lang depth rng check) rs ->
  forall g, made (nat_lang depth rng check) keep rs g -> forall t u c, repr g t c -> repr g u c ->
  wf_term nat_arity t -> wf_term nat_arity u -> forall env, exists v, nat_den env t = Val v /\ nat_den env u = Val v.
Proof.
  intros Hu Hv g M t u c Rt Ru Wt Wu env.
  destruct (nat_den_total env t Wt) as (v & Dt). destruct (nat_den_total env u Wu) as (v' & Du).
  exists v. split; [exact Dt|]. rewrite Du. f_equal.
  assert (all_hold (nat_lang depth rng check) (set_vars (nat_lang depth rng check) nat_alg env) rs) as Ha.
  { unfold all_hold, validated in *. rewrite Forall_forall in *. intros e He. destruct (Hv e He) as (V & G1 & G2).
    destruct (nat_validate_sound check (rlhs (snd e)) (rrhs (snd e)) Hu V) as (ul & ur & El & Er & _).
    pose proof (tree_inst (nat_lang depth rng check) (rlhs (snd e))) as Il. pose proof (tree_inst (nat_lang depth rng check) (rrhs (snd e))) as Ir. cbn [l_mk_var nat_lang] in Il, Ir.
    rewrite El in Il. rewrite Er in Ir. symmetry in Il, Ir. apply rmap_val in Il as (tl & Tl & _). apply rmap_val in Ir as (tr & Tr & _).
    exact (nat_valid_holds depth rng check (snd e) tl tr env Hu V Tl Tr (general_closed _ _ _ G1 Tl) (general_closed _ _ _ G2 Tr)). }
  pose proof (default_moves _ g (made_moves (nat_lang depth rng check) nat_op_eqb_eq keep N _ (nat_interprets depth rng check env) rs Ha g M) t u c Rt Ru) as E.
  rewrite (nat_aval depth rng check env t v Dt), (nat_aval depth rng check env u v' Du) in E. now symmetry.
Qed.

Lemma hal_end_to_end check keep rs : hal_unsat_right check -> validated (hal_lang check) rs ->
  forall g, made (hal_lang check) keep rs g -> forall t u c, repr g t c -> repr g u c ->
  forall env v v', hal_den div_smt env t = Val v -> hal_den div_smt env u = Val v' -> v = v'.
Proof.
  intros Hu Hv g M t u c Rt Ru env v v' Dt Du.
  assert (all_hold (hal_lang check) (set_vars (hal_lang check) hal_alg env) rs) as Ha.
  { unfold all_hold, validated in *. rewrite Forall_forall in *. intros e He. destruct (Hv e He) as (V & G1 & G2).
    destruct (hal_valid check (rlhs (snd e)) (rrhs (snd e)) Hu V) as (ul & ur & El & Er & Hd).
    pose proof (tree_inst (hal_lang check) (rlhs (snd e))) as Il. pose proof (tree_inst (hal_lang check) (rrhs (snd e))) as Ir. cbn [l_mk_var hal_lang] in Il, Ir.
    rewrite El in Il. rewrite Er in Ir. symmetry in Il, Ir. apply rmap_val in Il as (tl & Tl & ->). apply rmap_val in Ir as (tr & Tr & ->).
    exact (den_holds (hal_lang check) 0%Z (hal_sem div_smt) (fun _ => True) only_full (fun v => eq_refl) (snd e) tl tr Tl Tr
      (general_closed _ _ _ G1 Tl) (general_closed _ _ _ G2 Tr) (fun s _ => Hd s) env). }
  pose proof (default_moves _ g (made_moves (hal_lang check) hal_eqb_eq keep Z _ (hal_interprets check env) rs Ha g M) t u c Rt Ru) as E.
  rewrite (hal_aval check env t v Dt), (hal_aval check env u v' Du) in E. exact E.
Qed.

(* rules all of whose assignments give both sides the same value *)
Lemma bool_end_to_end keep rs : Forall (fun e => exists tl tr, tree (instantiate BVar (rlhs (snd e))) = Val tl /\
    tree (instantiate BVar (rrhs (snd e))) = Val tr /\ general bool_lang (rlhs (snd e)) /\ general bool_lang (rrhs (snd e)) /\
    forall env, exists v, bool_den env tl = Val v /\ bool_den env tr = Val v) rs ->
  forall g, made bool_lang keep rs g -> forall t u c, repr g t c -> repr g u c ->
  wf_term bool_arity t -> wf_term bool_arity u -> forall env, exists v, bool_den env t = Val v /\ bool_den env u = Val v.
Proof.
  intros Hv g M t u c Rt Ru Wt Wu env.
  destruct (bool_den_total env t Wt) as (v & Dt). destruct (bool_den_total env u Wu) as (v' & Du).
  exists v. split; [exact Dt|]. rewrite Du. f_equal.
  assert (all_hold bool_lang (set_vars bool_lang bool_alg env) rs) as Ha.
  { unfold all_hold in *. rewrite Forall_forall in *. intros e He. destruct (Hv e He) as (ul & ur & El & Er & G1 & G2 & Hd).
    pose proof (tree_inst bool_lang (rlhs (snd e))) as Il. pose proof (tree_inst bool_lang (rrhs (snd e))) as Ir. cbn [l_mk_var bool_lang] in Il, Ir.
    rewrite El in Il. rewrite Er in Ir. symmetry in Il, Ir. apply rmap_val in Il as (tl & Tl & ->). apply rmap_val in Ir as (tr & Tr & ->).
    exact (den_holds bool_lang false bool_sem (fun _ => True) (within ble) (fun v => eq_refl) (snd e) tl tr Tl Tr
      (general_closed _ _ _ G1 Tl) (general_closed _ _ _ G2 Tr) (fun s _ => Hd s) env). }
  pose proof (default_moves _ g (made_moves bool_lang bool_op_eqb_eq keep bool _ (bool_interprets env) rs Ha g M) t u c Rt Ru) as E.
  rewrite (bool_aval env t v Dt), (bool_aval env u v' Du) in E. now symmetry.
Qed.

Lemma pos_end_to_end depth keep m1 m2 : pos_exploratory = Val m1 -> pos_nat_rules = Val m2 ->
  forall g, made (pos_lang depth) keep (m1 ++ m2) g -> forall t u c, repr g t c -> repr g u c ->
  forall env v v', pos_den env t = Val v -> pos_den env u = Val v' -> v = v'.
Proof.
  intros E1 E2 g M t u c Rt Ru env v v' Dt Du.
  destruct (pos_rules_hold depth env) as (n1 & n2 & F1 & F2 & H1 & H2). rewrite E1 in F1. rewrite E2 in F2. inversion F1; inversion F2; subst n1 n2.
  assert (Ha : all_hold (pos_lang depth) (set_vars (pos_lang depth) pos_alg env) (m1 ++ m2)) by (unfold all_hold; apply Forall_app; split; assumption).
  pose proof (default_moves _ g (made_moves (pos_lang depth) pos_op_eqb_eq keep N _ (pos_interprets depth env) _ Ha g M) t u c Rt Ru) as E.
  rewrite (pos_aval depth env t v Dt), (pos_aval depth env u v' Du) in E. exact E.
Qed.
Lemma bb_end_to_end keep m : bb_exploratory = Val m ->
  forall g, made bb_lang keep m g -> forall t u c, repr g t c -> repr g u c ->
  forall genv v, bb_den genv t = Val v -> forall v', bb_den genv u = Val v' -> v = v'.
Proof.
  intros E1 g M t u c Rt Ru genv v Dt v' Du.
  destruct (bb_rules_hold genv) as (n1 & F1 & H1). rewrite E1 in F1. inversion F1; subst n1.
  pose proof (default_moves _ g (made_moves bb_lang bb_eqb_eq keep _ _ (bb_interprets genv) _ H1 g M) t u c Rt Ru) as E.
  rewrite (bb_aval genv t v Dt), (bb_aval genv u v' Du) in E. now inversion E.
Qed.
