(* Proofs about the vectors of classes after rules were run. *)
From Coq Require Import NArith.
From Verif Require Import Base BaseProofs Sexp Reader Lang Util Syntax Rule Ruleset RuleTextProofs LangProofs UtilProofs Analysis Generalize Egraph EgraphSpec EgraphProofs
  Synth Apply Sched SynthProofs Workload TotalSpec CalmSpec MatchSpec CalmRun PlainSpec PlainProofs TotalDomains InvProofs LearnSpec.
Open Scope list_scope.

(* ---- vectors ---- *)
Lemma below_refl : forall C (v : cvec C), below v v.
Proof. intros C v. induction v; constructor; auto. Qed.
Lemma below_trans : forall C (u v w : cvec C), below u v -> below v w -> below u w.
Proof.
  intros C u v w H. revert w. induction H as [|a b u v H1 H IH]; intros w K; inversion K as [|? c ? w' K1 K2]; subst; constructor; [|exact (IH _ K2)].
  destruct H1 as [->| ->]; auto.
Qed.
Lemma below_len : forall C (v w : cvec C), below v w -> length v = length w.
Proof. intros C v w H. induction H; cbn; congruence. Qed.

Section Merge.
  Context {O C : Type}.
  Variable ceqb : C -> C -> bool.
  Hypothesis ceqb_eq : forall a b, ceqb a b = true -> a = b.
  Lemma merge_cvec_below : forall (x y : cvec C) r a b, length x = length y -> merge_cvec ceqb x y = Val (r, a, b) ->
    below x r /\ below y r /\ (a = false -> r = x).
  Proof.
    induction x as [|x xs IH]; intros [|y ys] r a b Ln H; cbn in Ln; try discriminate Ln; cbn in H.
    - injection H as <- <- <-. repeat split; constructor.
    - destruct x as [x|], y as [y|].
      + destruct (ceqb x y) eqn:E; [|discriminate H]. apply ceqb_eq in E. subst y.
        destruct (merge_cvec ceqb xs ys) as [[[r' a'] b']|] eqn:M; [|discriminate H]. cbn in H. injection H as <- <- <-.
        destruct (IH ys r' a' b' ltac:(lia) M) as (H1 & H2 & H3). split; [constructor; auto|]. split; [constructor; auto|]. intros E. now rewrite (H3 E).
      + destruct (merge_cvec ceqb xs ys) as [[[r' a'] b']|] eqn:M; [|discriminate H]. cbn in H. injection H as <- <- <-.
        destruct (IH ys r' a' b' ltac:(lia) M) as (H1 & H2 & H3). split; [constructor; auto|]. split; [constructor; auto|]. intros E. now rewrite (H3 E).
      + destruct (merge_cvec ceqb xs ys) as [[[r' a'] b']|] eqn:M; [|discriminate H]. cbn in H. injection H as <- <- <-.
        destruct (IH ys r' a' b' ltac:(lia) M) as (H1 & H2 & H3). split; [constructor; auto|]. split; [constructor; auto|]. discriminate.
      + destruct (merge_cvec ceqb xs ys) as [[[r' a'] b']|] eqn:M; [|discriminate H]. cbn in H. injection H as <- <- <-.
        destruct (IH ys r' a' b' ltac:(lia) M) as (H1 & H2 & H3). split; [constructor; auto|]. split; [constructor; auto|]. intros E. now rewrite (H3 E).
  Qed.
  Lemma merge_cvecs_below : forall (x y : cvec C) r a b, length x = length y \/ y = [] -> merge_cvecs ceqb x y = Val (r, a, b) ->
    below x r /\ (length x = length y -> below y r) /\ (a = false -> r = x).
  Proof.
    intros x y r a b Ln H. unfold merge_cvecs in H. destruct x as [|x xs]; [|destruct y as [|y ys]].
    - injection H as <- <- <-. split; [constructor|]. split; [|auto]. intros E. destruct y; [constructor|discriminate E].
    - injection H as <- <- <-. split; [apply below_refl|]. split; [discriminate|auto].
    - destruct Ln as [Ln|Ln]; [|discriminate Ln]. destruct (merge_cvec_below _ _ _ _ _ Ln H) as (H1 & H2 & H3). auto.
  Qed.
End Merge.

Section Settle.
  Context {O C : Type}.
  Variable L : lang O C.
  Variable ar : O -> nat.
  Hypothesis Sp : sampled L ar.
  Variable keep : eg O C -> nat -> nat -> bool.
  Variable vars : list string.

  Definition sQ (o : O) (k : nat) : Prop := k = ar o /\ forall x, l_to_var L o = Some x -> In x vars.
  Definition sV (o : O) : bool := match l_to_var L o with Some x => mem x vars | None => false end.
  Definition sP (a : nat) (d : sig O C) : Prop := length (sg_cvec d) = a.
  Definition sP' (a : nat) (d : sig O C) : Prop := length (sg_cvec d) = a \/ sg_cvec d = [].
  Definition sle (d e : sig O C) : Prop := below (sg_cvec d) (sg_cvec e).

  Lemma sle_refl : forall d, sle d d.
  Proof. intros d. apply below_refl. Qed.
  Lemma sle_trans : forall d e f, sle d e -> sle e f -> sle d f.
  Proof. intros d e f. apply below_trans. Qed.
  Lemma sV_leaf : forall o k, sV o = true -> sQ o k -> k = 0.
  Proof.
    intros o k H [-> _]. unfold sV in H. destruct (l_to_var L o) as [x|] eqn:E; [|discriminate H]. rewrite (sp_only L ar Sp o x E). apply (sp_leaf L ar Sp).
  Qed.
  Lemma sP_weak : forall a d, sP a d -> sP' a d.
  Proof. intros a d H. now left. Qed.
  Lemma make_eval : forall a n ds d, s_make L a n ds = Val d ->
    exists cs, l_eval L a (nop n) cs = Val (sg_cvec d) /\
      cs = map (fun i => sg_cvec match slookup (combine (nch n) ds) i with Some d => d | None => Sig [] [] full end) (nch n).
  Proof.
    intros a n ds d H. unfold s_make, make in H. destruct (make_simplest _ _ n) as [s|]; [|discriminate H]. cbn [rbind] in H.
    destruct (l_eval L a (nop n) _) as [cv|] eqn:E; [|discriminate H]. cbn [rbind] in H.
    match type of H with (let* i := ?x in _) = _ => destruct x as [iv|]; [|discriminate H] end. cbn [rbind] in H. inversion H; subst d. cbn. eauto.
  Qed.
  Lemma slookup_in : forall ch (ds : list (sig O C)) i, length ds = length ch -> In i ch -> exists d, slookup (combine ch ds) i = Some d /\ In d ds.
  Proof.
    induction ch as [|c ch IH]; intros [|d ds] i Ln I; cbn in *; try discriminate Ln; [contradiction|]. destruct (Nat.eqb_spec i c) as [->|N]; [eauto|].
    destruct I as [->|I]; [congruence|]. destruct (IH ds i ltac:(lia) I) as (e & E & J). eauto.
  Qed.
  Lemma sP_make : forall a n ds d, sQ (nop n) (length (nch n)) -> length ds = length (nch n) -> Forall (sP a) ds ->
    s_make L a n ds = Val d -> sP' a d /\ (sV (nop n) = false -> sP a d).
  Proof.
    intros a n ds d [_ Hq] Ln F H. destruct (make_eval a n ds d H) as (cs & E & Ecs). unfold sV. destruct (l_to_var L (nop n)) as [x|] eqn:Ev.
    - pose proof (Hq x eq_refl) as Hi. apply mem_in in Hi. rewrite Hi. split; [|discriminate]. right.
      rewrite (sp_only L ar Sp _ _ Ev) in E. exact (sp_var_eval L ar Sp _ _ _ _ E).
    - assert (sP a d) as Hp; [|split; [now left|auto]]. unfold sP. apply (sp_len L ar Sp a (nop n) cs _ Ev); [|exact E].
      subst cs. apply Forall_forall. intros c Ic. apply in_map_iff in Ic as (i & <- & Ii). destruct (slookup_in _ ds i Ln Ii) as (e & -> & Ie).
      rewrite Forall_forall in F. exact (F e Ie).
  Qed.
  Lemma merge_vec : forall (x y d : sig O C) ch, s_merge L x y = Val (d, ch) ->
    exists a b, merge_cvecs (l_ceqb L) (sg_cvec x) (sg_cvec y) = Val (sg_cvec d, a, b) /\ (fst ch = false -> a = false).
  Proof.
    intros x y d ch H. unfold s_merge, merge in H. destruct (merge_cvecs (l_ceqb L) (sg_cvec x) (sg_cvec y)) as [[[cv a] b]|]; [|discriminate H]. cbn [rbind] in H.
    destruct (mk_itv _ _ _) as [iv|] in H; [|discriminate H]. cbn [rbind] in H. destruct (cost_rec _ (sg_simplest y)) as [cf|]; [|discriminate H]. cbn [rbind] in H.
    destruct (cost_rec _ (sg_simplest x)) as [ct|]; [|discriminate H]. cbn [rbind] in H.
    exists a, b. destruct (N.ltb cf ct); injection H as <- <-; (split; [reflexivity|]); cbn [fst]; intros E; apply orb_false_iff in E as [E _]; apply orb_false_iff in E as [E _]; exact E.
  Qed.
  Lemma sP_merge : forall a x y d ch, sP a x -> sP' a y -> s_merge L x y = Val (d, ch) -> sP a d /\ sle x d /\ (sP a y -> sle y d).
  Proof.
    intros a x y d ch Hx Hy H. destruct (merge_vec x y d ch H) as (ma & mb & M & _). unfold sP, sP', sle in *.
    assert (length (sg_cvec x) = length (sg_cvec y) \/ sg_cvec y = []) as Ly by (destruct Hy as [Hy|Hy]; [left; congruence|now right]).
    destruct (merge_cvecs_below (l_ceqb L) (sp_ceqb L ar Sp) _ _ _ _ _ Ly M) as (B1 & B2 & _).
    split; [rewrite <- (below_len _ _ _ B1); exact Hx|]. split; [exact B1|]. intros K. apply B2. congruence.
  Qed.
  Local Notation inv := (@InvProofs.inv O (sig O C) nat sQ sV sP).
  Local Notation step := (@InvProofs.step O (sig O C) nat sQ sV sP sle).
  Local Notation okn := (@InvProofs.okn O sQ).
  Lemma s_custom_ok : forall g i ts, wf g -> inv g -> i < size g -> l_custom L g i = Val ts -> Forall (Forall okn) ts.
  Proof. intros g i ts _ _ _ H. rewrite (sp_custom L ar Sp) in H. injection H as <-. constructor. Qed.
  Lemma s_const_ok : forall a (d : sig O C) x y, sP a d -> low (sg_itv d) = Some x -> high (sg_itv d) = Some y -> l_ceqb L x y = true -> Forall okn (l_const L x).
  Proof.
    intros a d x y _ _ _ _. eapply Forall_impl; [|exact (sp_const L ar Sp x)]. intros n [H1 H2]. split; [exact H2|]. intros s E. congruence.
  Qed.
  Lemma plain_ok : forall rs, plain_rules L ar rs -> okrules sQ rs.
  Proof.
    intros rs H. eapply Forall_impl; [|exact H]. intros [s r] K. cbn in *. eapply Forall_impl; [|exact K]. intros n. cbn. destruct (nop n) as [o|v]; [|auto].
    intros [H1 H2]. split; [exact H2|]. intros x E. congruence.
  Qed.

  (* ---- the variables ---- *)
  Record begun (n : nat) (done : list (string * cvec C * list (recexpr O))) (g : eg O C) : Prop := {
    bg_wf : wf g;
    bg_reps : g_reps g = seq 0 (length done);
    bg_nodes : g_nodes g = combine (map (vnode L) done) (seq 0 (length done));
    bg_vecs : map sg_cvec (g_data g) = map (fun e => snd (fst e)) done;
    bg_an : g_an g = n }.
  Lemma add_var : forall fuel (g : eg O C) v g' i, wf g -> s_add L keep fuel g (Node (l_mk_var L v) []) = Val (g', i) ->
    (exists j, In (Node (l_mk_var L v) [], j) (g_nodes g)) \/ new_class (s_make L) g (Node (l_mk_var L v) []) = Val (g', i).
  Proof.
    intros fuel g v g' i W H. unfold s_add, add, lookup_node, canon in H. cbn [nch nop rmapM rbind] in H.
    destruct (get_node (l_eqb L) (g_nodes g) _) as [j|] eqn:G; [left; exists j; exact (get_node_in _ (sp_eqb L ar Sp) _ _ _ G)|]. right. cbn [rbind] in H.
    destruct (new_class (s_make L) g _) as [[g1 k]|] eqn:N; [|discriminate H]. cbn [rbind] in H.
    destruct (s_modify L keep fuel g1 k) as [g2|] eqn:M; [|discriminate H]. cbn [rbind] in H. injection H as <- <-. f_equal. f_equal.
    unfold s_modify in M. destruct fuel as [|f]; [discriminate M|]. cbn [modify stages] in M. rewrite (sp_custom L ar Sp) in M. cbn [rbind join_all] in M.
    unfold new_class in N. cbn [nch rmapM rbind] in N. destruct (s_make L (g_an g) _ []) as [d|] eqn:Em; [|discriminate N]. cbn [rbind] in N.
    destruct (const_stage L g1 k) as [ts|] eqn:Cs; [|discriminate M]. cbn [rbind] in M.
    assert (ts = []) as ->; [|cbn [join_all rbind] in M; congruence].
    unfold const_stage in Cs. destruct (class_data g1 k) as [d'|] eqn:Ed; [|discriminate Cs]. cbn [rbind] in Cs. injection Cs as <-.
    assert (d' = d) as ->.
    { injection N as <- <-. unfold class_data, find, index in Ed. cbn in Ed. unfold size in Ed. rewrite nth_error_app2, Nat.sub_diag in Ed by lia. cbn in Ed.
      pose proof (wf_data g W) as Wd. unfold size in Wd. unfold index in Ed. rewrite <- Wd, nth_error_app2, Nat.sub_diag in Ed by lia. cbn in Ed. congruence. }
    unfold s_make, make in Em. cbn [nop nch map] in Em. destruct (make_simplest _ _ _) as [s|] in Em; [|discriminate Em]. cbn [rbind] in Em.
    destruct (l_eval L _ _ _) as [cv|] in Em; [|discriminate Em]. cbn [rbind] in Em. destruct (l_itv L _ _) as [iv|] eqn:Ei in Em; [|discriminate Em]. cbn [rbind] in Em.
    injection Em as <-. cbn [sg_itv]. destruct (low iv) as [a|] eqn:E1; [|reflexivity]. destruct (high iv) as [b|] eqn:E2; [|reflexivity].
    now rewrite (sp_var_itv L ar Sp v iv a b Ei E1 E2).
  Qed.
  Lemma set_cvec_end : forall (g : eg O C) n d c g', wf g ->
    set_cvec (EG (g_reps g ++ [size g]) (g_nodes g ++ [(n, size g)]) (g_data g ++ [d]) (g_an g)) (size g) c = Val g' ->
    g' = EG (g_reps g ++ [size g]) (g_nodes g ++ [(n, size g)]) (g_data g ++ [Sig c (sg_simplest d) (sg_itv d)]) (g_an g).
  Proof.
    intros g n d c g' W H. pose proof (wf_data g W) as Wd. unfold set_cvec, find in H. cbn [g_reps g_data g_nodes g_an] in H.
    assert (index (g_reps g ++ [size g]) (size g) = Val (size g)) as E1 by (unfold index, size; rewrite nth_error_app2, Nat.sub_diag by lia; reflexivity).
    assert (index (g_data g ++ [d]) (size g) = Val d) as E2 by (unfold index; rewrite <- Wd, nth_error_app2, Nat.sub_diag by lia; reflexivity).
    rewrite E1 in H. cbn [rbind] in H. rewrite E2 in H. cbn [rbind] in H. injection H as <-. f_equal. rewrite <- Wd. apply set_nth_end.
  Qed.
  Lemma init_begun : forall fuel n vs done (g : eg O C) g', begun n done g -> NoDup (map (@vname O C) (done ++ vs)) -> (forall v c ts, In (v, c, ts) vs -> ts = []) ->
    init_vars L keep fuel g vs = Val g' -> begun n (done ++ vs) g'.
  Proof.
    intros fuel n. induction vs as [|[[v c] ts] vs IH]; intros done g g' B Nd Hv H; cbn in H; [injection H as <-; now rewrite app_nil_r|].
    destruct (s_add L keep fuel g _) as [[g1 i]|] eqn:Ad; [|discriminate H]. cbn in H.
    destruct (set_cvec g1 i c) as [g2|] eqn:S; [|discriminate H]. cbn in H.
    rewrite (Hv v c ts (or_introl eq_refl)) in H. cbn in H.
    replace (done ++ (v, c, ts) :: vs) with ((done ++ [(v, c, ts)]) ++ vs) in * by (rewrite <- app_assoc; reflexivity).
    apply (IH _ g2 g'); [|exact Nd|intros v' c' ts' I; apply (Hv v' c' ts'); now right|exact H].
    pose proof (bg_wf _ _ _ B) as W. assert (Sg : size g = length done). { unfold size. rewrite (bg_reps _ _ _ B). apply seq_length. }
    destruct (add_var _ _ _ _ _ W Ad) as [[j I]|Nc].
    { exfalso. rewrite (bg_nodes _ _ _ B) in I. replace (length done) with (length (map (vnode L) done)) in I by apply map_length.
      apply in_combine_seq in I as [_ I]. rewrite Nat.sub_0_r in I. apply nth_error_In in I. apply in_map_iff in I as (e & E & Ie). unfold vnode in E. injection E as E.
      assert (vname e = v) as Ev. { pose proof (sp_var L ar Sp (vname e)) as P1. rewrite E, (sp_var L ar Sp) in P1. congruence. }
      rewrite !map_app in Nd. apply NoDup_remove_2 with (l := map (@vname O C) done) (a := v) (l' := map (@vname O C) vs) ; [|rewrite <- Ev; apply in_or_app; left; now apply in_map].
      cbn in Nd. rewrite <- app_assoc in Nd. exact Nd. }
    destruct (new_class_ok (s_make L) g (Node (l_mk_var L v) []) g1 i W (Forall_nil _) Nc) as (W1 & _ & Sz & Ei & _).
    unfold new_class in Nc. cbn [nch rmapM rbind] in Nc. destruct (s_make L (g_an g) _ []) as [d|]; [|discriminate Nc]. cbn [rbind] in Nc. injection Nc as E1 E2.
    subst i. rewrite <- E1 in S. apply set_cvec_end in S; [|exact W]. 
    assert (Dl : length (g_data g) = length done) by (rewrite (wf_data g W); exact Sg).
    constructor.
    - rewrite S. rewrite <- E1 in W1, Sz. destruct (set_data_ok _ (g_data g ++ [Sig c (sg_simplest d) (sg_itv d)]) W1) as [W2 _]; [|exact W2].
      rewrite Sz, app_length. cbn. lia.
    - rewrite S. cbn. rewrite (bg_reps _ _ _ B), Sg, app_length. cbn. now rewrite Nat.add_1_r, seq_S.
    - rewrite S. cbn. rewrite (bg_nodes _ _ _ B), Sg, map_app, app_length. cbn. rewrite Nat.add_1_r, seq_S. cbn.
      rewrite combine_app_eq by (rewrite map_length, seq_length; reflexivity). reflexivity.
    - rewrite S. cbn. rewrite !map_app. cbn. now rewrite (bg_vecs _ _ _ B).
    - rewrite S. cbn. exact (bg_an _ _ _ B).
  Qed.
  Lemma begun_nodes : forall n vs (g : eg O C), begun n vs g -> forall m i, In (m, i) (g_nodes g) <-> exists e, nth_error vs i = Some e /\ m = vnode L e.
  Proof.
    intros n vs g B m i. rewrite (bg_nodes _ _ _ B). replace (length vs) with (length (map (vnode L) vs)) by apply map_length. rewrite in_combine_seq, Nat.sub_0_r, nth_error_map. split.
    - intros [_ H]. destruct (nth_error vs i) as [e|]; [|discriminate H]. cbn in H. inversion H. eauto.
    - intros (e & -> & ->). cbn. split; [lia|reflexivity].
  Qed.
  Lemma begun_vec : forall n vs (g : eg O C) i e, begun n vs g -> nth_error vs i = Some e -> vec g i (snd (fst e)).
  Proof.
    intros n vs g i e B Ie. pose proof (bg_vecs _ _ _ B) as Vs. assert (nth_error (map sg_cvec (g_data g)) i = Some (snd (fst e))) as Vi by (rewrite Vs, nth_error_map, Ie; reflexivity).
    rewrite nth_error_map in Vi. destruct (nth_error (g_data g) i) as [d|] eqn:Ed; [|discriminate Vi]. cbn in Vi. assert (sg_cvec d = snd (fst e)) as Vd by congruence.
    exists d. split; [|exact Vd]. unfold class_data, find, index. rewrite (bg_reps _ _ _ B).
    assert (i < length vs) as Li by (apply nth_error_Some; congruence).
    rewrite (nth_error_nth' _ 0) by (rewrite seq_length; exact Li). rewrite seq_nth by exact Li. cbn. now rewrite Ed.
  Qed.
  Lemma begun_inv : forall n vs (g : eg O C), begun n vs g -> map (@vname O C) vs = vars -> (forall x c ts, In (x, c, ts) vs -> length c = n) -> inv g.
  Proof.
    intros n vs g B Ev Hl. split; [|split].
    - intros m i I. apply (begun_nodes _ _ _ B) in I as (e & Ie & ->). unfold InvProofs.okn, sQ, vnode. cbn. split; [symmetry; apply (sp_leaf L ar Sp)|].
      intros x E. rewrite (sp_var L ar Sp) in E. injection E as <-. rewrite <- Ev. apply nth_error_In in Ie. now apply in_map.
    - intros o Ho. unfold sV in Ho. destruct (l_to_var L o) as [x|] eqn:E; [|discriminate Ho]. apply mem_in in Ho. rewrite <- Ev in Ho. apply in_map_iff in Ho as (e & <- & Ie).
      apply In_nth_error in Ie as (i & Ie). exists i. apply (begun_nodes _ _ _ B). exists e. split; [exact Ie|]. unfold vnode. now rewrite (sp_only L ar Sp o _ E).
    - apply Forall_forall. intros d Id. rewrite (bg_an _ _ _ B). unfold sP. apply (in_map sg_cvec) in Id. rewrite (bg_vecs _ _ _ B) in Id.
      apply in_map_iff in Id as ([[x c] ts] & <- & Ie). exact (Hl x c ts Ie).
  Qed.

  (* ---- growing ---- *)
  Lemma leafy : forall o s, l_to_var L o = Some s -> ar o = 0.
  Proof. intros o s E. rewrite (sp_only L ar Sp o s E). apply (sp_leaf L ar Sp). Qed.
  Lemma term_okn : forall t, wf_term ar t -> incl (tvars (l_to_var L) t) vars -> Forall okn (to_rec t).
  Proof.
    intros t W Hi. pose proof (to_rec_typed ar t W) as Ty. pose proof (add_term_vars L ar leafy t W []) as Ev. cbn [flat_map app] in Ev. fold (to_rec t) in Ev.
    apply Forall_forall. intros n In'. rewrite Forall_forall in Ty. split; [exact (Ty n In')|]. intros x E. apply Hi. rewrite <- Ev. apply in_flat_map. exists n. split; [exact In'|].
    unfold nvar. rewrite E. now left.
  Qed.
  Lemma repr_inv : forall (g : eg O C) o ts c, repr g (T o ts) c -> exists ch, Forall2 (repr g) ts ch /\ has g o ch c.
  Proof. intros g o ts c H. inversion H; subst. eauto. Qed.
  Section Runs.
    Variables (n : nat) (vs : list (string * cvec C * list (recexpr O))).
    Hypothesis names : map (@vname O C) vs = vars.
    Hypothesis nodup : NoDup vars.
    Hypothesis lens : forall x c ts, In (x, c, ts) vs -> length c = n /\ ts = [].
    Definition from (g : eg O C) : Prop := wf g /\ inv g /\ g_an g = n /\ exists gi, begun n vs gi /\ step gi g.
    Lemma from_step : forall g g', from g -> step g g' -> from g'.
    Proof.
      intros g g' (W & I & A & gi & B & S1) S2. split; [exact (st_wf _ _ _ _ _ _ S2)|]. split; [exact (st_inv _ _ _ _ _ _ S2)|].
      split; [rewrite (st_an _ _ _ _ _ _ S2); exact A|]. exists gi. split; [exact B|]. exact (step_trans sQ sV sP sle sle_trans _ _ _ S1 S2).
    Qed.
    Lemma init_from : forall fuel g, init_vars L keep fuel (EG [] [] [] n) vs = Val g -> from g.
    Proof.
      intros fuel g H. assert (B0 : begun n [] (EG [] [] [] n)).
      { constructor; try reflexivity. constructor; cbn; intros; try contradiction; try lia; try reflexivity. unfold find, index in H0. cbn in H0. destruct i; discriminate H0. }
      pose proof (init_begun fuel n vs [] _ g B0) as B. cbn [app] in B. rewrite names in B. specialize (B nodup (fun v c ts I => proj2 (lens v c ts I)) H).
      pose proof (bg_wf _ _ _ B) as W. pose proof (begun_inv _ _ _ B names (fun x c ts I => proj1 (lens x c ts I))) as I.
      split; [exact W|]. split; [exact I|]. split; [exact (bg_an _ _ _ B)|]. exists g. split; [exact B|]. exact (step_refl sQ sV sP sle sle_refl g W I).
    Qed.
    Lemma exprs_from : forall fuel rs g g', Forall (Forall okn) rs -> from g -> add_all_exprs L keep fuel g rs = Val g' -> from g'.
    Proof.
      intros fuel rs g g' F Hf H. pose proof Hf as (W & I & _).
      exact (from_step g g' Hf (add_all_exprs_inv L (sp_eqb L ar Sp) keep sQ sV sP sP' sle sle_refl sle_trans sV_leaf sP_weak sP_make sP_merge s_custom_ok s_const_ok fuel rs g g' F W I H)).
    Qed.
    Lemma sched_from : forall fuel st rs g g', plain_rules L ar rs -> from g -> scheduled L keep fuel st rs g g' -> 
      from g' /\ ext g g' /\ exists g0, wf g0 /\ s_rebuild L keep fuel g0 = Val g'.
    Proof.
      intros fuel st rs g g' F Hf H. pose proof Hf as (W & I & _).
      destruct (scheduled_inv L (sp_eqb L ar Sp) keep sQ sV sP sP' sle sle_refl sle_trans sV_leaf sP_weak sP_make sP_merge s_custom_ok s_const_ok fuel st rs g g' (plain_ok rs F) W I H) as [S1 R].
      split; [exact (from_step g g' Hf S1)|]. split; [exact (st_ext _ _ _ _ _ _ S1)|exact R].
    Qed.

    (* ---- every term of a class is described by its vector ---- *)
    Lemma settled : forall fuel g0 g, from g -> wf g0 -> s_rebuild L keep fuel g0 = Val g -> forall t c, repr g t c ->
      exists v w, cvec_term (l_eval L) (l_to_var L) n (var_cvec (map fst vs)) t = Val v /\ vec g c w /\ below v w /\ length w = n /\
        wf_term ar t /\ incl (tvars (l_to_var L) t) vars.
    Proof.
      intros fuel g0 g (W & I & An & gi & B & St) W0 R.
      destruct (rebuild_ok _ (sp_eqb L ar Sp) _ _ keep _ (s_md_ok L (sp_eqb L ar Sp) keep fuel) _ _ _ W0 R) as (_ & _ & Cg & _).
      intros t. induction t as [o ts IH] using term_ind'. intros c Rc. apply repr_inv in Rc as (ch & F & H).
      destruct H as (m & i & Im & <- & Fe & Ei). destruct (proj1 I m i Im) as [Hq Hv].
      assert (Cd : forall i j d, eqv g i j -> class_data g i = Val d -> class_data g j = Val d).
      { intros a b d (r & E1 & E2) Hd. unfold class_data in *. rewrite E1 in Hd. now rewrite E2. }
      destruct (s_rebuild_settled L keep fuel g0 g R m i Im) as (ds & d & dc & dm & chg & Eds & Em & Edc & Eg & Ec).
      apply rmapM_F2 in Eds. pose proof (class_P sQ sV sP g i dc I Edc) as Pc. unfold sP in Pc. rewrite An in Pc.
      assert (Vc : vec g c (sg_cvec dc)) by (exists dc; split; [exact (Cd i c dc Ei Edc)|reflexivity]).
      assert (Lt : length ts = length (nch m)). { rewrite (Forall2_length _ _ _ F). symmetry. exact (Forall2_length _ _ _ Fe). }
      destruct (l_to_var L (nop m)) as [x|] eqn:Ev.
      - pose proof (Hv x eq_refl) as Ix. rewrite (leafy _ _ Ev) in Hq. rewrite Hq in Lt. destruct ts as [|? ?]; [|discriminate Lt].
        assert (Eo : nop m = l_mk_var L x) by exact (sp_only L ar Sp _ _ Ev).
        pose proof Ix as Ix'. rewrite <- names in Ix'. apply in_map_iff in Ix' as (e & Ee & Ie). pose proof Ie as Ie'. apply In_nth_error in Ie as (k & Ik).
        assert (Hk : has gi (l_mk_var L x) [] k).
        { exists (vnode L e), k. split; [apply (begun_nodes _ _ _ B); eauto|]. unfold vnode. rewrite Ee. split; [reflexivity|]. split; [constructor|].
          apply eqv_refl. unfold size. rewrite (bg_reps _ _ _ B), seq_length. apply nth_error_Some. congruence. }
        apply (proj2 (proj2 (st_ext _ _ _ _ _ _ St))) in Hk.
        assert (Hi : has g (l_mk_var L x) [] i).
        { exists m, i. split; [exact Im|]. split; [exact Eo|]. split; [|apply eqv_refl; exact (proj1 (wf_nodes g W m i Im))].
          destruct (nch m); [constructor|discriminate Hq]. }
        pose proof (Cg _ _ _ _ Hk Hi) as Qk. destruct (begun_vec _ _ _ _ _ B Ik) as (dk & Ek & Vk). destruct (st_mono _ _ _ _ _ _ St k dk Ek) as (dk' & Ek' & Lk).
        assert (dk' = dc) as ->. { pose proof (Cd k i dk' Qk Ek'). congruence. }
        exists (snd (fst e)), (sg_cvec dc). split; [|split; [exact Vc|split; [|split; [exact Pc|split]]]].
        + unfold cvec_term. cbn [fold_term rmapM rbind]. unfold with_vars. rewrite Ev. unfold var_cvec.
          assert (In (x, snd (fst e)) (map fst vs)) as Iv. { apply (in_map fst) in Ie'. subst x. unfold vname. now destruct (fst e). }
          rewrite (lookup_nodup _ _ _ _ ltac:(rewrite map_map; unfold vname in names; rewrite names; exact nodup) Iv). reflexivity.
        + unfold sle in Lk. now rewrite Vk in Lk.
        + constructor; [now rewrite (leafy _ _ Ev)|constructor].
        + cbn [tvars]. rewrite Ev. intros y [<-|[]]. exact Ix.
      - assert (exists us, rmapM (fold_term (with_vars (l_to_var L) (var_cvec (map fst vs)) (l_eval L n))) ts = Val us /\ Forall2 below us (map sg_cvec ds) /\
          Forall (wf_term ar) ts /\ incl (flat_map (tvars (l_to_var L)) ts) vars) as (us & Eus & Bus & Wus & Ius).
        { clear - IH F Fe Eds Cd. revert ds Eds F. generalize (nch m), ch, Fe. clear Fe ch m. intros l ch Fe. revert ts IH.
          induction Fe as [|a b l ch Eab Fe IHf]; intros ts IH ds Eds F; inversion Eds as [|? d ? ds' Hd Eds']; subst; inversion F as [|t ? ts' ? Rt F']; subst.
          - exists []. repeat split; auto; try constructor. intros y [].
          - inversion IH as [|? ? I1 I2]; subst. destruct (I1 b Rt) as (v & w & Ev & (d' & Ed' & Vd) & Bw & _ & Wt & It).
            destruct (IHf _ I2 _ Eds' F') as (us & Eus & Bus & Wus & Ius). exists (v :: us). cbn [rmapM map flat_map]. unfold cvec_term in Ev. rewrite Ev. cbn [rbind]. rewrite Eus. cbn [rbind].
            assert (d' = d) as -> by (pose proof (Cd a b d Eab Hd); congruence). split; [reflexivity|]. split; [constructor; [now rewrite Vd|exact Bus]|]. split; [constructor; auto|].
            apply incl_app; assumption. }
        assert (Fn : forall j x y, In (j, x) (combine (nch m) ds) -> In (j, y) (combine (nch m) ds) -> x = y).
        { clear - Eds. assert (forall j x, In (j, x) (combine (nch m) ds) -> class_data g j = Val x) as G; [|intros j x y H1 H2; apply G in H1, H2; congruence].
          induction Eds as [|a b l l' H1 H2 IH]; cbn; [tauto|]. intros j x [E|E]; [congruence|auto]. }
        rewrite An in Em. pose proof (s_make_cvec L n m ds d (eq_sym (Forall2_length _ _ _ Eds)) Fn Em) as Ee.
        assert (Ld : length (sg_cvec d) = n).
        { apply (sp_len L ar Sp n (nop m) (map sg_cvec ds) _ Ev); [|exact Ee]. apply Forall_forall. intros c0 Ic. apply in_map_iff in Ic as (d0 & <- & Id).
          destruct (classes_P sQ sV sP g (nch m) ds I (proj2 (rmapM_F2 _ _ _ _ _) Eds)) as [_ Fp]. rewrite Forall_forall in Fp. rewrite <- An. exact (Fp d0 Id). }
        destruct (sp_mono L ar Sp n (nop m) us (map sg_cvec ds) (sg_cvec d) Ev Bus Ee) as (v & Evv & Bv).
        exists v, (sg_cvec dc). split; [|split; [exact Vc|split; [|split; [exact Pc|split]]]].
        + unfold cvec_term. cbn [fold_term]. rewrite Eus. cbn [rbind]. unfold with_vars. rewrite Ev. exact Evv.
        + apply (below_trans _ _ _ _ Bv). destruct (merge_vec dc d dm chg Eg) as (ma & mb & M & Ma).
          destruct (merge_cvecs_below (l_ceqb L) (sp_ceqb L ar Sp) _ _ _ _ _ (or_introl (eq_trans Pc (eq_sym Ld))) M) as (_ & B2 & B3).
          rewrite <- (B3 (Ma Ec)). apply B2. congruence.
        + constructor; [congruence|exact Wus].
        + cbn [tvars]. rewrite Ev. exact Ius.
    Qed.
  End Runs.
End Settle.

Section Grown.
  Context {O C : Type}.
  Variable L : lang O C.
  Variable ar : O -> nat.
  Hypothesis Sp : sampled L ar.
  Variable keep : eg O C -> nat -> nat -> bool.
  Lemma start_from : forall fuel w g, to_egraph L keep fuel w = Val g -> exists ss ts n vs,
    force w = Val ss /\ Forall2 (reads L) ss ts /\ Forall (wf_term ar) ts /\ l_init L (first_seen (flat_map (tvars (l_to_var L)) ts)) = Val (n, vs) /\
    from L ar (first_seen (flat_map (tvars (l_to_var L)) ts)) n vs g.
  Proof.
    intros fuel w g H. unfold to_egraph in H. destruct (force w) as [ss|]; [|discriminate H]. cbn [rbind] in H.
    destruct (rmapM _ ss) as [rs|] eqn:E; [|discriminate H]. cbn [rbind] in H.
    destruct (initialize_vars L keep fuel eg_default (all_vars L rs)) as [g1|] eqn:I; [|discriminate H]. cbn [rbind] in H.
    assert (exists ts, rs = map to_rec ts /\ Forall (wf_term ar) ts /\ Forall2 (reads L) ss ts) as (ts & -> & Wt & F).
    { apply rmapM_F2 in E. clear - E Sp. induction E as [|s r ss rs H E (ts & -> & W & F)]; [exists []; repeat constructor|].
      destruct (parse_rec (l_from_op L) (display s)) as [r'|] eqn:P; [|discriminate H]. cbn in H. inversion H; subst.
      destruct (parse_rec_typed L ar (sp_from_op L ar Sp) _ _ P) as (t & -> & Wt). exists (t :: ts). split; [reflexivity|]. split; constructor; auto. }
    rewrite (all_vars_spec L ar (leafy L ar Sp) ts Wt) in I. set (vars := first_seen (flat_map (tvars (l_to_var L)) ts)) in *.
    unfold initialize_vars in I. destruct (l_init L vars) as [[n vs]|] eqn:Ei; [|discriminate I]. cbn [rbind] in I.
    destruct (sp_init L ar Sp _ _ _ Ei) as [Nm Ln]. exists ss, ts, n, vs. split; [reflexivity|]. split; [exact F|]. split; [exact Wt|]. split; [exact Ei|].
    pose proof (init_from L ar Sp keep vars n vs Nm (first_seen_nodup _) Ln fuel g1 I) as H1.
    refine (exprs_from L ar Sp keep vars n vs fuel _ g1 g _ H1 H).
    apply Forall_forall. intros r Ir. apply in_map_iff in Ir as (t & <- & It). rewrite Forall_forall in Wt. apply (term_okn L ar Sp); [exact (Wt t It)|].
    intros x Ix. apply (proj2 (first_seen_in _ _)). apply in_flat_map. eauto.
  Qed.
  Lemma grown_from : forall w g, grown L (plain_rhs L ar) keep w g -> exists ss ts n vs,
    force w = Val ss /\ Forall2 (reads L) ss ts /\ Forall (wf_term ar) ts /\ l_init L (first_seen (flat_map (tvars (l_to_var L)) ts)) = Val (n, vs) /\
    from L ar (first_seen (flat_map (tvars (l_to_var L)) ts)) n vs g.
  Proof.
    intros w g H. induction H as [fuel g H|fuel st rs g g' H IH Hr S]; [exact (start_from _ _ _ H)|].
    destruct IH as (ss & ts & n & vs & H1 & H2 & Wt & H3 & H4). exists ss, ts, n, vs. split; [exact H1|]. split; [exact H2|]. split; [exact Wt|]. split; [exact H3|].
    exact (proj1 (sched_from L ar Sp keep _ n vs fuel st rs g g' Hr H4 S)).
  Qed.
  Lemma grown_wf : forall w g, grown L (plain_rhs L ar) keep w g -> wf g.
  Proof. intros w g G. destruct (grown_from w g G) as (ss & ts & n & vs & _ & _ & _ & _ & (W & _)). exact W. Qed.
  Lemma run_ext : forall w fuel st rs g g', grown L (plain_rhs L ar) keep w g -> plain_rules L ar rs -> scheduled L keep fuel st rs g g' -> ext g g'.
  Proof.
    intros w fuel st rs g g' G Hr S. destruct (grown_from w g G) as (ss & ts & n & vs & _ & _ & _ & _ & H4).
    exact (proj1 (proj2 (sched_from L ar Sp keep _ n vs fuel st rs g g' Hr H4 S))).
  Qed.
  Theorem ran_settled : forall w g, ran L (plain_rhs L ar) keep w g -> exists ts n vs, samples_of L w ts n vs /\
    forall t c, repr g t c -> exists v u, cvec_term (l_eval L) (l_to_var L) n (var_cvec vs) t = Val v /\ vec g c u /\ below v u /\ length u = n /\
      wf_term ar t /\ incl (tvars (l_to_var L) t) (first_seen (flat_map (tvars (l_to_var L)) ts)).
  Proof.
    intros w g' (fuel & st & rs & g & G & Hr & S). destruct (grown_from w g G) as (ss & ts & n & vs & H1 & H2 & Wt & H3 & H4).
    exists ts, n, (map fst vs). split; [exists ss, vs; auto|]. destruct (sched_from L ar Sp keep _ n vs fuel st rs g g' Hr H4 S) as (H5 & _ & g0 & W0 & R).
    destruct (sp_init L ar Sp _ _ _ H3) as [Nm _]. exact (settled L ar Sp keep _ n vs Nm (first_seen_nodup _) fuel g0 g' H5 W0 R).
  Qed.
End Grown.
