(* Proofs about Minimize.v: select, shrink and minimize. *)
From Coq Require Import ZArith Permutation Sorted.
From Verif Require Import Base BaseProofs Lang LangProofs Syntax Rule Ruleset RuleSpec RuleTextProofs RulesetProofs Analysis Egraph EgraphSpec EgraphProofs
  Synth Apply Sched SynthSpec SynthProofs DeriveProofs Minimize MinimizeProofs MinimizeSpec.
Open Scope list_scope.

Section Select.
  Context {O C : Type}.
  Variable L : lang O C.
  Local Notation valid := (is_valid L).
  Local Notation name := (l_name L).

  Lemma extend_nil (m : ruleset O) : NoDup (map fst m) -> extend [] m = m.
  Proof.
    intros N. unfold extend.
    assert (forall acc, NoDup (map fst acc ++ map fst m) -> fold_left (fun m kv => insert m (fst kv) (snd kv)) m acc = acc ++ m) as G; [|exact (G [] N)].
    clear N. induction m as [|[k r] m IH]; intros acc N; cbn [fold_left]; [now rewrite app_nil_r|]. cbn [fst snd].
    rewrite insert_fresh.
    - rewrite IH; [now rewrite <- app_assoc|]. rewrite map_app, <- app_assoc. exact N.
    - destruct (Ruleset.has acc k) eqn:E; [|reflexivity]. apply RulesetProofs.has_in in E. cbn [map fst] in N. apply NoDup_remove_2 in N. destruct N. apply in_app_iff. auto.
  Qed.

  (* select: [ps] are the rules popped, in this order *)
  Lemma select_ok step m inv rest sel inv' : select L step m inv = Val (rest, sel, inv') ->
    exists ps, selected_ok L step (ps ++ rev rest) [] inv (rev rest) sel inv' ps /\ Permutation (ps ++ rev rest) m /\
      exists sc, Forall2 (fun e s => rule_score L (snd e) = Val s) (ps ++ rev rest) sc /\ StronglySorted (fun x y => lex_leb y x = true) sc.
  Proof.
    unfold select. intros H. apply rbind_val in H as (sorted & Hs & H). apply rbind_val in H as ([[rest0 sel0] inv0] & Hl & H).
    inversion H; subst. clear H. destruct (sort_candidates_spec L m sorted Hs) as (P & sc & F & S).
    destruct (select_loop_ok L _ _ _ _ _ _ _ Hl) as (ps & K). exists ps. rewrite rev_involutive.
    pose proof (so_nodup _ _ _ _ _ _ _ _ _ K (NoDup_nil _)) as N. rewrite (extend_nil sel0 N).
    pose proof (so_split _ _ _ _ _ _ _ _ _ K) as E. rewrite <- E. split; [exact K|]. split.
    - now rewrite <- Permutation_rev.
    - exists (rev sc). split; [|now apply ss_rev in S].
      clear - F. induction F; cbn; [constructor|]. apply Forall2_app; auto.
  Qed.
End Select.

Section Loop.
  Context {O C : Type}.
  Variable L : lang O C.
  Hypothesis eqb_eq : forall a b, l_eqb L a b = true <-> a = b.
  Variable keep : eg O C -> nat -> nat -> bool.
  Variable fuel : nat.
  Variable st : strategy.
  Local Notation valid := (is_valid L).
  Local Notation name := (l_name L).
  Local Notation inst p := (instantiate (l_mk_var L) p).

  Lemma add_sides_ok rs : forall (g : eg O C) acc g' acc', add_sides L keep fuel g rs acc = Val (g', acc') ->
    made L keep [] g -> wf g ->
    made L keep [] g' /\ wf g' /\ ext g g' /\ exists new, acc' = acc ++ new /\ map snd new = rs /\
      Forall (fun e => exists tl tr, tree (inst (rlhs (snd e))) = Val tl /\ tree (inst (rrhs (snd e))) = Val tr /\
        repr g' tl (fst (fst e)) /\ repr g' tr (snd (fst e))) new.
  Proof.
    induction rs as [|r rs IH]; intros g acc g' acc' H M W; cbn [add_sides] in H.
    - inversion H; subst. split; [exact M|]. split; [exact W|]. split; [apply ext_refl|]. exists []. rewrite app_nil_r. auto.
    - apply rbind_val in H as ([g1 l] & A1 & H). apply rbind_val in H as ([g2 i] & A2 & H).
      destruct (add_expr_ok _ eqb_eq _ _ (s_md_ok L eqb_eq keep fuel) _ _ _ _ W A1) as (W1 & E1 & tl & T1 & R1).
      destruct (add_expr_ok _ eqb_eq _ _ (s_md_ok L eqb_eq keep fuel) _ _ _ _ W1 A2) as (W2 & E2 & tr & T2 & R2).
      pose proof (M_add L keep [] fuel _ _ _ _ M A1) as M1. pose proof (M_add L keep [] fuel _ _ _ _ M1 A2) as M2.
      destruct (IH _ _ _ _ H M2 W2) as (M' & W' & E' & new & -> & Hn & F).
      split; [exact M'|]. split; [exact W'|]. split; [exact (ext_trans _ _ _ E1 (ext_trans _ _ _ E2 E'))|].
      exists ((l, i, r) :: new). rewrite <- app_assoc. split; [reflexivity|]. split; [cbn; now rewrite Hn|].
      constructor; [|exact F]. exists tl, tr. cbn. split; [exact T1|]. split; [exact T2|]. split.
      + exact (repr_ext _ _ (ext_trans _ _ _ E2 E') _ _ R1).
      + exact (repr_ext _ _ E' _ _ R2).
  Qed.

  Lemma keep_apart_ok (out : eg O C) initial : forall m m', keep_apart out initial m = Val m' ->
    (forall e, In e m' -> In e m \/ exists t, In t initial /\ e = (rname (snd t), snd t)) /\
    (forall t, In t initial -> In (rname (snd t)) (map fst m') \/ eqv out (fst (fst t)) (snd (fst t))) /\
    incl (map fst m) (map fst m') /\ length m' <= length m + length initial /\ (NoDup (map fst m) -> NoDup (map fst m')).
  Proof.
    induction initial as [|[[l i] r] initial IH]; intros m m' H; cbn [keep_apart] in H.
    - inversion H; subst. split; [auto|]. split; [intros t []|]. split; [apply incl_refl|]. split; [cbn; lia|auto].
    - apply rbind_val in H as (a & Fa & H). apply rbind_val in H as (b & Fb & H).
      destruct (IH _ _ H) as (I1 & I2 & I3 & I4 & I5). destruct (Nat.eqb_spec a b) as [->|N].
      + split; [|split; [|split; [exact I3|split; [cbn; lia|exact I5]]]].
        * intros e He. destruct (I1 e He) as [X|(t & Ht & X)]; [auto|right]. exists t. cbn. auto.
        * intros t [<-|Ht]; [right; exists b; auto|auto].
      + split; [|split; [|split; [|split]]].
        * intros e He. destruct (I1 e He) as [X|(t & Ht & X)].
          -- apply rs_add_in in X as [X| ->]; [auto|right]. exists (l, i, r). cbn. auto.
          -- right. exists t. cbn. auto.
        * intros t [<-|Ht]; [left; apply I3, rs_add_self|auto].
        * intros x Hx. apply I3. now apply rs_add_mono.
        * pose proof (rs_add_length m r). cbn [length]. lia.
        * intros Nd. apply I5. now apply rs_add_nodup.
  Qed.

  Local Notation merged_by := (merged_by L keep fuel st).

  Lemma made_nil_wf g : made L keep [] g -> wf g.
  Proof. intros M. destruct (made_moves L eqb_eq keep unit unit_alg (unit_interprets L) [] (Forall_nil _) g M) as [W _]. exact W. Qed.

  (* ... *)
  Lemma shrinks_ok chosen m m' : fair st -> Forall (fun e => readable (snd e)) chosen -> shrinks L keep fuel st chosen m m' ->
    keyed m -> NoDup (map fst m) ->
    incl m' m /\ NoDup (map fst m') /\ length m' <= length m /\
    forall e, In e m -> In e m' \/ merged_by chosen (snd e).
  Proof.
    intros Fr Hr (g & initial & out & A & S & K) Km Nm.
    destruct (add_sides_ok _ _ _ _ _ A (M_new L keep []) wf_default) as (M & W & _ & new & -> & Hn & F). cbn [app] in K.
    assert (all_hold L (unit_alg (O := O) (C := C)) chosen) as Hh.
    { unfold all_hold. eapply Forall_impl; [|exact Hr]. intros e He. now apply unit_holds. }
    destruct (scheduled_moves L eqb_eq keep fuel unit_alg (unit_interprets L) st chosen g out Fr Hh W S) as [(Wo & Eo & _) _].
    destruct (keep_apart_ok out new [] m' K) as (K1 & K2 & _ & K4 & K5).
    assert (Mem : forall t, In t new -> In (rname (snd t), snd t) m).
    { intros t Ht. assert (In (snd t) (map snd m)) as X by (rewrite <- Hn; now apply in_map).
      apply in_map_iff in X as ([k r] & X1 & X2). cbn in X1. subst r. unfold keyed in Km. rewrite Forall_forall in Km.
      specialize (Km _ X2). cbn in Km. now subst k. }
    split; [|split; [apply K5; constructor|split]].
    - intros e He. destruct (K1 e He) as [[]|(t & Ht & ->)]. now apply Mem.
    - assert (length new = length m) by (rewrite <- (map_length snd m), <- Hn, map_length; reflexivity). cbn in K4. lia.
    - intros [k r] He. assert (In r (map snd new)) as X by (rewrite Hn; apply in_map_iff; exists (k, r); auto).
      apply in_map_iff in X as (t & Et & Ht). destruct (K2 t Ht) as [Y|Y].
      + left. apply in_map_iff in Y as (e' & Y1 & Y2). destruct (K1 e' Y2) as [[]|(t' & Ht' & ->)]. cbn in Y1.
        pose proof (Mem t' Ht') as Z1. rewrite Y1 in Z1. pose proof (Mem t Ht) as Z2. rewrite Et in Z1, Z2.
        pose proof (lookup_in_nodup m _ _ Nm Z1) as Q1. pose proof (lookup_in_nodup m _ _ Nm Z2) as Q2. assert (Q3 : snd t' = r) by congruence.
        unfold keyed in Km. rewrite Forall_forall in Km. pose proof (Km _ He) as Kr. cbn in Kr. subst k. rewrite Y1, Et, Q3 in Y2. exact Y2.
      + right. rewrite Forall_forall in F. destruct (F t Ht) as (tl & tr & T1 & T2 & R1 & R2). rewrite Et in T1, T2.
        exists g, out, tl, tr, (snd (fst t)). split; [exact M|]. split; [exact S|]. split; [exact T1|]. split; [exact T2|]. split.
        * exact (repr_eqv _ _ _ _ (repr_ext _ _ Eo _ _ R1) Y).
        * exact (repr_ext _ _ Eo _ _ R2).
  Qed.

  (* ---- the loop ---- *)
  Lemma extend_in (a b : ruleset O) e : In e (extend a b) -> In e a \/ In e b.
  Proof.
    unfold extend. revert a. induction b as [|[k r] b IH]; intros a H; cbn [fold_left fst snd] in H; [auto|].
    apply IH in H as [H|H]; [|cbn; auto].
    assert (In e a \/ e = (k, r)) as [X| ->]; [|auto|cbn; auto].
    clear - H. induction a as [|[k' r'] a IH]; cbn [insert] in H; [destruct H as [<-|[]]; auto|].
    destruct (String.eqb_spec k k') as [->|N]; destruct H as [<-|H]; cbn; auto. apply IH in H. tauto.
  Qed.
  Lemma extend_key (a b : ruleset O) k : In k (map fst (extend a b)) <-> In k (map fst a) \/ In k (map fst b).
  Proof.
    unfold extend. revert a. induction b as [|[k' r] b IH]; intros a; cbn [fold_left fst snd map]; [cbn; tauto|].
    rewrite IH, insert_keys. destruct (Ruleset.has a k') eqn:E; [|rewrite in_app_iff; cbn; tauto].
    apply RulesetProofs.has_in in E. cbn. intuition (subst; auto).
  Qed.
  Lemma extend_nodup (a b : ruleset O) : NoDup (map fst a) -> NoDup (map fst (extend a b)).
  Proof. intros N. exact (proj1 (extend_spec b a N)). Qed.

  Variables M0 P : ruleset O.
  Hypothesis fair_st : fair st.
  Hypothesis keyed0 : keyed M0.
  Hypothesis nodup0 : NoDup (map fst M0).
  Hypothesis nodupP : NoDup (map fst P).
  Hypothesis readable0 : Forall (fun e => readable (snd e)) M0.
  Hypothesis readableP : Forall (fun e => readable (snd e)) P.

  Local Notation picked := (picked L M0).
  Local Notation discarded := (discarded L M0).
  Definition explained (keys : list string) (r : rule O) : Prop :=
    exists rules, merged_by rules r /\ Forall (fun x => (In x P \/ picked x) /\ In (fst x) keys) rules.

  Record inv_ok (x : mstate) : Prop := {
    io_m : incl (fst (fst x)) M0;
    io_mn : NoDup (map fst (fst (fst x)));
    io_n : NoDup (map fst (snd (fst x)));
    io_p : incl (map fst P) (map fst (snd (fst x)));
    io_c : Forall (fun e => In e P \/ picked e) (snd (fst x));
    io_i : Forall discarded (snd x);
    io_a : forall e, In e M0 -> In e (fst (fst x)) \/ (valid (snd e) = Val false /\ In (fst e) (map fst (snd x))) \/
      In (fst e) (map fst (snd (fst x))) \/ explained (map fst (snd (fst x))) (snd e) }.

  Lemma reverse_readable r r' : readable r -> reverse name r = Val (Some r') -> readable r'.
  Proof.
    intros (tl & tr & H1 & H2) H. unfold reverse, rule_new in H. apply rbind_val in H as (n & _ & H).
    destruct (rewrite_ok (rrhs r) (rlhs r)); inversion H; subst r'. exists tr, tl. auto.
  Qed.
  Lemma picked_readable e : In e P \/ picked e -> readable (snd e).
  Proof.
    rewrite Forall_forall in readable0, readableP.
    intros [H|(_ & _ & _ & p & Hp & [H|H])]; [auto|rewrite H; auto|].
    apply (reverse_readable (snd p)); [|exact H]. auto.
  Qed.
  Lemma keyed_sub m : incl m M0 -> keyed m.
  Proof. unfold keyed in *. rewrite Forall_forall in *. auto. Qed.

  Lemma explained_mono k k' r : incl k k' -> explained k r -> explained k' r.
  Proof.
    intros H (rules & M & F). exists rules. split; [exact M|]. eapply Forall_impl; [|exact F]. cbn. intros x [X Y]. auto.
  Qed.

  Lemma round_ok x y : inv_ok x -> round L keep fuel st x y -> inv_ok y /\ length (fst (fst y)) < length (fst (fst x)).
  Proof.
    intros [I1 I2 I3 I4 I5 I6 I7] R. inversion R as [m chosen invalid rest selected invalid' m' Hm Hs Hk]; subst x y. cbn [fst snd] in *.
    destruct (select_ok L 1 m invalid rest selected invalid' Hs) as (ps & So & Pm & _).
    assert (Nps : NoDup (map fst (ps ++ rev rest))).
    { apply (Permutation_NoDup (l := map fst m)); [|exact I2]. apply Permutation_map. now symmetry. }
    assert (Hin : forall e, In e m <-> In e ps \/ In e rest).
    { intros e. split; intros H.
      - apply (Permutation_in e (Permutation_sym Pm)) in H. apply in_app_iff in H. now rewrite <- in_rev in H.
      - apply (Permutation_in e Pm). apply in_app_iff. now rewrite <- in_rev. }
    assert (Hlen : length m = length ps + length rest).
    { rewrite <- (Permutation_length Pm), app_length, rev_length. reflexivity. }
    assert (Hps : ps <> []).
    { apply (so_pop _ _ _ _ _ _ _ _ _ So); [cbn; lia|]. intros E. rewrite E in Pm. apply Permutation_nil in Pm. contradiction. }
    assert (Kr : keyed rest) by (apply keyed_sub; intros e He; apply I1, Hin; auto).
    assert (Nr : NoDup (map fst rest)).
    { rewrite map_app, map_rev in Nps. apply (Permutation_NoDup (l := rev (map fst rest))); [symmetry; apply Permutation_rev|].
      clear - Nps. induction (map fst ps) as [|a l IH]; [exact Nps|]. inversion Nps; auto. }
    assert (Pk : forall e, In e selected -> picked e).
    { intros e He. destruct (so_sel _ _ _ _ _ _ _ _ _ So e He) as [[]|(F1 & F2 & p & Hp & F3)].
      assert (Hp0 : In p M0) by (apply I1, Hin; auto).
      split; [exact F1|]. split; [exact F2|]. destruct F3 as [F3|[F3 F4]].
      - split; [|exists p; auto]. rewrite F1, F3. pose proof keyed0 as K0. unfold keyed in K0. rewrite Forall_forall in K0. rewrite <- (K0 p Hp0). now apply in_map.
      - split; [|exists p; auto]. apply in_map_iff in F4 as (q & <- & Hq). apply in_map. apply I1.
        exact (Permutation_in _ Pm Hq). }
    assert (Cr : Forall (fun e => In e P \/ picked e) (extend chosen selected)).
    { apply Forall_forall. intros e He. apply extend_in in He as [He|He]; [|auto]. rewrite Forall_forall in I5. auto. }
    assert (Rd : Forall (fun e => readable (snd e)) (extend chosen selected)).
    { eapply Forall_impl; [|exact Cr]. exact picked_readable. }
    destruct (shrinks_ok _ rest m' fair_st Rd Hk Kr Nr) as (S1 & S2 & S3 & S4).
    assert (Mono : incl (map fst chosen) (map fst (extend chosen selected))) by (intros k Hk'; apply extend_key; auto).
    split; [constructor; cbn [fst snd]|].
    - intros e He. apply I1, Hin. auto.
    - exact S2.
    - now apply extend_nodup.
    - intros k Hk'. apply Mono, I4, Hk'.
    - exact Cr.
    - apply Forall_forall. intros e He. destruct (so_inv _ _ _ _ _ _ _ _ _ So e He) as [X|(F1 & p & Hp & F3)].
      + rewrite Forall_forall in I6. auto.
      + split; [exact F1|]. exists p. split; [apply I1, Hin; auto|]. destruct F3 as [F3|[F3 _]]; auto.
    - intros e He. pose proof keyed0 as K0. unfold keyed in K0. rewrite Forall_forall in K0. specialize (K0 e He).
      destruct (I7 e He) as [X|[[X Y]|[X|X]]].
      + apply Hin in X as [X|X].
        * destruct (so_known _ _ _ _ _ _ _ _ _ So e X) as ([|] & V).
          -- right. right. left. rewrite K0. apply extend_key. right. exact (so_valid _ _ _ _ _ _ _ _ _ So e X V).
          -- right. left. split; [exact V|]. rewrite K0. exact (so_rejected _ _ _ _ _ _ _ _ _ So e X V).
        * destruct (S4 e X) as [Y|Y]; [auto|]. right. right. right. exists (extend chosen selected). split; [exact Y|].
          apply Forall_forall. intros x Hx. rewrite Forall_forall in Cr. split; [auto|]. now apply in_map.
      + right. left. split; [exact X|]. exact (so_inv_mono _ _ _ _ _ _ _ _ _ So _ Y).
      + right. right. left. now apply Mono.
      + right. right. right. exact (explained_mono _ _ _ Mono X).
    - destruct ps; [congruence|]. cbn in Hlen. lia.
  Qed.

  Lemma start_ok : inv_ok (M0, P, []).
  Proof.
    constructor; cbn; auto using incl_refl.
    apply Forall_forall. auto.
  Qed.
  Lemma rounds_ok x y : inv_ok x -> rounds L keep fuel st x y -> inv_ok y.
  Proof. intros I R. revert I. induction R as [x|x y z R1 R IH]; intros I; [exact I|]. apply IH. now destruct (round_ok x y I R1). Qed.

  Lemma minimize_ok new invalid : minimize L keep fuel st M0 P new invalid ->
    (forall e, In e new -> picked e /\ ~ In (fst e) (map fst P)) /\ NoDup (map fst new) /\
    (forall e, In e invalid -> discarded e) /\
    (forall e, In e M0 -> In (fst e) (map fst new) \/ In (fst e) (map fst P) \/
       (valid (snd e) = Val false /\ In (fst e) (map fst invalid)) \/
       explained (map fst P ++ map fst new) (snd e)).
  Proof.
    intros (chosen & R & ->). destruct (rounds_ok _ _ start_ok R) as [_ _ I3 I4 I5 I6 I7]. cbn [fst snd] in *.
    destruct (remove_all_spec P chosen I3) as [N Lk].
    assert (Mem : forall e, In e (remove_all chosen P) <-> In e chosen /\ ~ In (fst e) (map fst P)).
    { intros [k r]. cbn [fst]. split; intros H.
      - apply (lookup_in_nodup _ _ _ N) in H. rewrite Lk in H. destruct (lookup P k) eqn:E; [discriminate H|].
        split; [now apply lookup_some_in|]. now apply lookup_none.
      - destruct H as [H1 H2]. apply lookup_some_in. rewrite Lk. apply lookup_none in H2. rewrite H2. now apply lookup_in_nodup. }
    assert (Keys : forall k, In k (map fst chosen) -> In k (map fst P ++ map fst (remove_all chosen P))).
    { intros k Hk. apply in_app_iff. destruct (in_dec string_dec k (map fst P)) as [X|X]; [auto|right].
      apply in_map_iff in Hk as (e & <- & He). apply in_map. apply Mem. auto. }
    rewrite Forall_forall in I5, I6. split; [|split; [exact N|split; [auto|]]].
    - intros e He. apply Mem in He as [H1 H2]. split; [|exact H2]. destruct (I5 e H1) as [X|X]; [|exact X].
      destruct H2. now apply in_map.
    - intros e He. destruct (I7 e He) as [[]|[X|[X|X]]].
      + auto.
      + apply Keys, in_app_iff in X. tauto.
      + right. right. right. exact (explained_mono _ _ _ Keys X).
  Qed.

  (* the loop stops after at most as many rounds as there are candidates *)
  Inductive nrounds : nat -> mstate -> mstate -> Prop :=
    | NR0 x : nrounds 0 x x
    | NRS n x y z : round L keep fuel st x y -> nrounds n y z -> nrounds (S n) x z.
  Lemma nrounds_bound n x y : inv_ok x -> nrounds n x y -> n + length (fst (fst y)) <= length (fst (fst x)).
  Proof.
    intros I R. revert I. induction R as [x|n x y z R1 R IH]; intros I; [lia|].
    destruct (round_ok x y I R1) as [I' Lt]. specialize (IH I'). lia.
  Qed.
End Loop.
