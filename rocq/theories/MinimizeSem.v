(* What minimize keeps, read in an algebra: if the prior rules and the result hold,
   so does every candidate that was not rejected. *)
From Coq Require Import ZArith Permutation Sorted.
From Verif Require Import Base BaseProofs Lang LangProofs Syntax Rule Ruleset RuleSpec RuleTextProofs RulesetProofs Analysis Egraph EgraphSpec EgraphProofs
  Synth Apply Sched SynthSpec SynthProofs DeriveProofs Minimize MinimizeProofs MinimizeSpec ScoreProofs MinimizeLoop.
Open Scope list_scope.

Section Sem.
  Context {O C V : Type}.
  Variable L : lang O C.
  Hypothesis eqb_eq : forall a b, l_eqb L a b = true <-> a = b.
  Hypothesis var_of : forall v, l_to_var L (l_mk_var L v) = Some v.
  Variable keep : eg O C -> nat -> nat -> bool.
  Variable fuel : nat.
  Variable st : strategy.
  Variable from_op : string -> nat -> option O.
  Variable ar : O -> nat.
  Variable A : algebra O C V.
  Local Notation name := (l_name L).
  Local Notation pat_ok := (pat_ok from_op name ar).

  Local Notation true_rule := (true_rule L A).

  Lemma closed_val env s : forall t, closed L t -> paval (a_sem (set_vars L A env)) s t = paval (a_sem A) s t.
  Proof.
    intros t. induction t as [[o|v] ts IH] using term_ind'; intros Cl; cbn [paval]; [|reflexivity].
    destruct Cl as [No Cl]. cbn [set_vars a_sem]. rewrite No. f_equal. apply map_ext_in.
    rewrite Forall_forall in IH. intros t Ht. apply IH; [exact Ht|]. clear - Cl Ht.
    induction ts as [|u ts IH]; [destruct Ht|]. cbn in Cl. destruct Cl as [C1 C2], Ht as [->|Ht]; auto.
  Qed.

  Lemma merged_true rules r : fair st -> (exists v, a_dom A v) ->
    (forall env, (forall v, a_dom A (env v)) -> interprets L (set_vars L A env) /\ all_hold L (set_vars L A env) rules) ->
    merged_by L keep fuel st rules r -> true_rule r.
  Proof.
    intros F [v0 D0] H (g & out & t1 & t2 & c & Mg & Sc & T1 & T2 & R1 & R2).
    rewrite tree_inst in T1, T2. destruct (tree (rlhs r)) as [tl|] eqn:El; [|discriminate T1]. destruct (tree (rrhs r)) as [tr|] eqn:Er; [|discriminate T2].
    inversion T1; inversion T2; subst t1 t2. exists tl, tr. split; [exact El|]. split; [exact Er|]. intros Cl Cr s Ds.
    destruct (H s Ds) as [Is Hr]. rewrite <- (inst_val L V A s var_of tl Cl), <- (inst_val L V A s var_of tr Cr).
    pose proof (made_moves L eqb_eq keep V _ Is [] (Forall_nil _) g Mg) as Mv.
    destruct (scheduled_moves L eqb_eq keep fuel _ Is st rules g out F Hr (proj1 Mv) Sc) as [Mo _].
    exact (default_moves _ out (moves_trans _ _ _ _ Mv Mo) _ _ c R1 R2).
  Qed.

  (* a rule under its own name, without a guard *)
  Definition plain (e : string * rule O) : Prop :=
    rule_name name (rlhs (snd e)) (rrhs (snd e)) = Val (fst e) /\ rkind (snd e) = KRhs /\
    exists tl tr, pat_ok (rlhs (snd e)) tl /\ pat_ok (rrhs (snd e)) tr.
  Lemma entry_plain e : entry_ok from_op name ar e -> rkind (snd e) = KRhs -> plain e.
  Proof.
    destruct e as [k r]. intros (_ & H2 & tl & tr & H3 & H4 & _) K. split; [exact H2|]. split; [exact K|]. exists tl, tr. auto.
  Qed.
  Lemma picked_plain M0 e : Forall (fun p => entry_ok from_op name ar p /\ rkind (snd p) = KRhs) M0 -> picked L M0 e -> plain e.
  Proof.
    intros F (K & _ & _ & p & Hp & X). rewrite Forall_forall in F. destruct (F p Hp) as [Ep Kp].
    pose proof (entry_plain p Ep Kp) as (N & _ & tl & tr & P1 & P2). destruct X as [X|X].
    - split; [|split; [now rewrite X|exists tl, tr; now rewrite X]]. rewrite K, X, N. destruct p as [k r]. destruct Ep as (E1 & _). cbn in *. now rewrite E1.
    - unfold reverse, rule_new in X. apply rbind_val in X as (n & Hn & X). destruct (rewrite_ok _ _); inversion X as [X'].
      unfold plain. rewrite <- X' in *. cbn in K. cbn. split; [rewrite K; exact Hn|]. split; [reflexivity|]. exists tr, tl. auto.
  Qed.
  Lemma plain_same e e' : plain e -> plain e' -> fst e = fst e' ->
    tree (rlhs (snd e)) = tree (rlhs (snd e')) /\ tree (rrhs (snd e)) = tree (rrhs (snd e')).
  Proof.
    intros (N & _ & tl & tr & P1 & P2) (N' & _ & tl' & tr' & P1' & P2') E.
    assert (rule_name name (rlhs (snd e)) (rrhs (snd e)) = rule_name name (rlhs (snd e')) (rrhs (snd e'))) as X by congruence.
    apply (rule_name_inj from_op name ar _ tl _ tr _ tl' _ tr' P1 P2 P1' P2') in X as [-> ->].
    destruct P1 as [-> _], P2 as [-> _], P1' as [-> _], P2' as [-> _]. auto.
  Qed.
  Lemma plain_holds B e e' : plain e -> plain e' -> fst e = fst e' -> holds L (V := V) B (snd e) -> holds L B (snd e').
  Proof.
    intros H H' E (tl & tr & T1 & T2 & X). destruct (plain_same e e' H H' E) as [E1 E2]. exists tl, tr.
    split; [congruence|]. split; [congruence|]. intros s Ds _. apply X; [exact Ds|]. destruct H as (_ & K & _). rewrite K. exact I.
  Qed.

  Lemma minimize_true M0 P new invalid : fair st -> (exists v, a_dom A v) ->
    ruleset_ok from_op name ar M0 -> Forall (fun e => rkind (snd e) = KRhs) M0 ->
    NoDup (map fst P) -> Forall (fun e => readable (snd e)) P ->
    (forall e, In e P -> In (fst e) (map fst M0) -> entry_ok from_op name ar e /\ rkind (snd e) = KRhs) ->
    minimize L keep fuel st M0 P new invalid ->
    (forall env, (forall v, a_dom A (env v)) -> interprets L (set_vars L A env) /\ all_hold L (set_vars L A env) P /\ all_hold L (set_vars L A env) new) ->
    forall e, In e M0 -> is_valid L (snd e) = Val false \/ true_rule (snd e).
  Proof.
    intros F D [N0 E0] K0 NP RP Cp Mi H e He.
    assert (Fp : Forall (fun p => entry_ok from_op name ar p /\ rkind (snd p) = KRhs) M0).
    { rewrite Forall_forall in *. auto. }
    assert (Ky : keyed M0).
    { eapply Forall_impl; [|exact E0]. intros [k r] (X & _). cbn. now rewrite X. }
    assert (Rd : Forall (fun p => readable (snd p)) M0).
    { eapply Forall_impl; [|exact E0]. intros [k r] (_ & _ & tl & tr & [X _] & [Y _] & _). cbn. exists tl, tr. auto. }
    destruct (minimize_ok L eqb_eq keep fuel st M0 P F Ky N0 NP Rd RP new invalid Mi) as (Hn & _ & _ & Ha).
    (* every rule named in the prior or the result holds *)
    assert (Hold : forall env, (forall v, a_dom A (env v)) -> forall x, plain x -> In (fst x) (map fst M0) -> In (fst x) (map fst P ++ map fst new) -> holds L (set_vars L A env) (snd x)).
    { intros env De x Px Kx Hx. destruct (H env De) as (_ & HP & HN). unfold all_hold in HP, HN. rewrite Forall_forall in HP, HN.
      apply in_app_iff in Hx as [Hx|Hx]; apply in_map_iff in Hx as (y & Ey & Hy).
      - apply (plain_holds _ y x); auto. rewrite <- Ey in Kx. destruct (Cp y Hy Kx). now apply entry_plain.
      - apply (plain_holds _ y x); auto. apply (picked_plain M0); [exact Fp|]. now apply Hn. }
    assert (Pe : plain e) by (rewrite Forall_forall in Fp; destruct (Fp e He); now apply entry_plain).
    assert (Done : In (fst e) (map fst P ++ map fst new) -> true_rule (snd e)).
    { intros Hx. destruct D as [v0 D0]. destruct (Hold (fun _ => v0) (fun _ => D0) e Pe (in_map fst _ _ He) Hx) as (tl & tr & T1 & T2 & _).
      exists tl, tr. split; [exact T1|]. split; [exact T2|]. intros Cl Cr s Ds.
      destruct (Hold s Ds e Pe (in_map fst _ _ He) Hx) as (tl' & tr' & T1' & T2' & X).
      assert (tl' = tl) as -> by congruence. assert (tr' = tr) as -> by congruence.
      rewrite <- (closed_val s s tl Cl), <- (closed_val s s tr Cr). apply X; [exact Ds|]. destruct Pe as (_ & -> & _). exact I. }
    destruct (Ha e He) as [X|[X|[[X _]|(rules & Mb & Fr)]]].
    - right. apply Done, in_app_iff. auto.
    - right. apply Done, in_app_iff. auto.
    - auto.
    - right. apply (merged_true rules); auto. intros env De. destruct (H env De) as (In_ & HP & _). split; [exact In_|].
      unfold all_hold in *. rewrite Forall_forall in *. intros x Hx. destruct (Fr x Hx) as [[Y|Y] Z]; [auto|].
      apply Hold; auto; [|apply Y]. apply (picked_plain M0); [|exact Y]. apply Forall_forall. exact Fp.
  Qed.
End Sem.

(* ---- the statements of PropertiesMinimize.v ---- *)
Lemma ruleset_ok_parts {O} from_op (name : O -> string) ar m : ruleset_ok from_op name ar m ->
  keyed m /\ NoDup (map fst m) /\ Forall (fun p => readable (snd p)) m.
Proof.
  intros [N E]. split; [|split; [exact N|]].
  - eapply Forall_impl; [|exact E]. intros [k r] (X & _). cbn. now rewrite X.
  - eapply Forall_impl; [|exact E]. intros [k r] (_ & _ & tl & tr & [X _] & [Y _] & _). cbn. exists tl, tr. auto.
Qed.

Lemma minimize_bound : forall O C (L : lang O C), (forall a b, l_eqb L a b = true <-> a = b) ->
  forall keep fuel st from_op ar m prior, fair st -> ruleset_ok from_op (l_name L) ar m ->
  NoDup (map fst prior) -> Forall (fun e => readable (snd e)) prior ->
  forall n (s : nat -> mstate), s 0 = (m, prior, []) -> (forall i, i < n -> round L keep fuel st (s i) (s (S i))) -> n <= length m.
Proof.
  intros O C L Eq keep fuel st from_op ar m prior F R NP RP n s S0 St. destruct (ruleset_ok_parts _ _ _ _ R) as (K & N & Rd).
  assert (X : nrounds L keep fuel st n (s 0) (s n)).
  { clear S0. revert s St. induction n as [|n IH]; intros s St; [apply NR0|]. eapply NRS; [apply St; lia|].
    apply (IH (fun i => s (S i))). intros i Hi. apply St. lia. }
  apply (nrounds_bound L Eq keep fuel st m prior F K Rd RP) in X; [rewrite S0 in X; cbn in X; lia|].
  rewrite S0. now apply start_ok.
Qed.

Lemma minimize_returns : forall O C (L : lang O C), (forall a b, l_eqb L a b = true <-> a = b) ->
  forall keep fuel st from_op ar m prior, fair st -> ruleset_ok from_op (l_name L) ar m -> Forall (fun e => rkind (snd e) = KRhs) m ->
  NoDup (map fst prior) -> Forall (fun e => readable (snd e)) prior ->
  forall new invalid, minimize L keep fuel st m prior new invalid ->
  NoDup (map fst new) /\ forall k r, In (k, r) new -> rname r = k /\ ~ In k (map fst prior) /\
    l_validate L (rlhs r) (rrhs r) = Val Valid /\
    exists r0, In (k, r0) m /\ tree (rlhs r) = tree (rlhs r0) /\ tree (rrhs r) = tree (rrhs r0).
Proof.
  intros O C L Eq keep fuel st from_op ar m prior F R Kr NP RP new invalid Mi. destruct (ruleset_ok_parts _ _ _ _ R) as (K & N & Rd).
  destruct (minimize_ok L Eq keep fuel st m prior F K N NP Rd RP new invalid Mi) as (Hn & Nn & _). split; [exact Nn|].
  assert (Fp : Forall (fun p => entry_ok from_op (l_name L) ar p /\ rkind (snd p) = KRhs) m).
  { destruct R as [_ R]. rewrite Forall_forall in *. auto. }
  intros k r Hk. destruct (Hn _ Hk) as [Pk Np]. pose proof Pk as (E1 & E2 & E3 & _). cbn [fst snd] in *.
  split; [auto|]. split; [exact Np|]. split.
  - unfold is_valid in E2. destruct (l_validate L (rlhs r) (rrhs r)) as [[| |]|]; try discriminate E2. reflexivity.
  - apply in_map_iff in E3 as ([k0 r0] & X & H0). cbn in X. subst k0. exists r0. split; [exact H0|].
    apply (plain_same L from_op ar (k, r) (k, r0)); [exact (picked_plain L from_op ar m _ Fp Pk)| |reflexivity].
    rewrite Forall_forall in Fp. destruct (Fp _ H0). now apply entry_plain.
Qed.

Lemma minimize_accounted : forall O C (L : lang O C), (forall a b, l_eqb L a b = true <-> a = b) ->
  forall keep fuel st from_op ar m prior, fair st -> ruleset_ok from_op (l_name L) ar m ->
  NoDup (map fst prior) -> Forall (fun e => readable (snd e)) prior ->
  forall new invalid, minimize L keep fuel st m prior new invalid ->
  forall k r, In (k, r) m -> In k (map fst new) \/ In k (map fst prior) \/
    (is_valid L r = Val false /\ In k (map fst invalid)) \/
    exists rules, merged_by L keep fuel st rules r /\
      forall x, In x rules -> (In x prior \/ picked L m x) /\ (In (fst x) (map fst prior) \/ In (fst x) (map fst new)).
Proof.
  intros O C L Eq keep fuel st from_op ar m prior F R NP RP new invalid Mi k r Hk. destruct (ruleset_ok_parts _ _ _ _ R) as (K & N & Rd).
  destruct (minimize_ok L Eq keep fuel st m prior F K N NP Rd RP new invalid Mi) as (_ & _ & _ & Ha).
  destruct (Ha _ Hk) as [X|[X|[X|(rules & X & Y)]]]; auto. right. right. right. exists rules. split; [exact X|].
  intros x Hx. rewrite Forall_forall in Y. destruct (Y x Hx) as [Y1 Y2]. split; [exact Y1|]. now apply in_app_iff in Y2.
Qed.

Lemma minimize_invalid : forall O C (L : lang O C), (forall a b, l_eqb L a b = true <-> a = b) ->
  forall keep fuel st from_op ar m prior, fair st -> ruleset_ok from_op (l_name L) ar m ->
  NoDup (map fst prior) -> Forall (fun e => readable (snd e)) prior ->
  forall new invalid, minimize L keep fuel st m prior new invalid ->
  forall k r, In (k, r) invalid -> rname r = k /\ exists p, In p m /\
    ((r = snd p /\ is_valid L r = Val false) \/ reverse (l_name L) (snd p) = Val (Some r)).
Proof.
  intros O C L Eq keep fuel st from_op ar m prior F R NP RP new invalid Mi k r Hk. destruct (ruleset_ok_parts _ _ _ _ R) as (K & N & Rd).
  destruct (minimize_ok L Eq keep fuel st m prior F K N NP Rd RP new invalid Mi) as (_ & _ & Hi & _).
  destruct (Hi _ Hk) as (E & p & Hp & X). split; [auto|]. exists p. auto.
Qed.

Lemma select_best : forall O C (L : lang O C) step m inv rest sel inv',
  select L step m inv = Val (rest, sel, inv') -> 0 < step -> m <> [] ->
  exists p ps, Permutation (p :: ps ++ rest) m /\
    (forall x y, In x (p :: ps) -> x = p \/ In y rest -> In y m -> exists sx sy, rule_score L (snd x) = Val sx /\ rule_score L (snd y) = Val sy /\
       (lex_lt sy sx \/ sy = sx)) /\
    (forall e, In e sel -> exists q, In q (p :: ps) /\ (snd e = snd q \/ reverse (l_name L) (snd q) = Val (Some (snd e)))).
Proof.
  intros O C L step m inv rest sel inv' H Hs Hm. destruct (select_ok L step m inv rest sel inv' H) as (ps & So & Pm & sc & F & Ss).
  pose proof (so_pop _ _ _ _ _ _ _ _ _ So Hs) as Np. destruct ps as [|p ps].
  { destruct Np; [|reflexivity]. intros E. rewrite E in Pm. apply Permutation_nil in Pm. contradiction. }
  exists p, ps. split; [|split].
  - rewrite <- Pm. cbn. apply perm_skip, Permutation_app_head, Permutation_rev.
  - assert (Sc : forall (x : string * rule O) s, rule_score L (snd x) = Val s -> length s = 5) by (intros x s; unfold rule_score; apply score_length).
    assert (Cmp : forall (x y : string * rule O) sx sy, rule_score L (snd x) = Val sx -> rule_score L (snd y) = Val sy -> lex_leb sy sx = true -> lex_lt sy sx \/ sy = sx).
    { intros x y sx sy E1 E2 E. apply lex_leb_spec; [|exact E]. rewrite (Sc _ _ E1), (Sc _ _ E2). reflexivity. }
    assert (G : forall (l : ruleset O) sc0, Forall2 (fun e s => rule_score L (snd e) = Val s) l sc0 -> Sorted.StronglySorted (fun x y => lex_leb y x = true) sc0 ->
      forall a b, l = a ++ b -> forall x y : string * rule O, In x a -> (hd_error a = Some x \/ In y b) -> In y l -> exists sx sy, rule_score L (snd x) = Val sx /\ rule_score L (snd y) = Val sy /\ lex_leb sy sx = true).
    { clear. intros l sc F. induction F as [|e s l sc E F IH]; intros Ss a b El x y Hx Hc Hy; [destruct Hy|].
      apply Sorted.StronglySorted_inv in Ss as [Ss Fa]. destruct a as [|a0 a]; [destruct Hx|]. cbn in El. injection El as -> ->.
      assert (Hd : forall z, In z (a ++ b) -> exists sz, rule_score L (snd z) = Val sz /\ lex_leb sz s = true).
      { intros z Hz. destruct (in_split _ _ Hz) as (l1 & l2 & X). rewrite X in F. apply Forall2_app_inv_l in F as (s1 & s2 & F1 & F2 & ->).
        inversion F2 as [|? sz ? ? Ez]; subst. exists sz. split; [exact Ez|]. rewrite Forall_forall in Fa. apply Fa. apply in_app_iff. right. now left. }
      destruct Hx as [->|Hx].
      - destruct Hy as [<-|Hy]; [exists s, s; auto using lex_refl|]. destruct (Hd y Hy) as (sy & ? & ?). exists s, sy. auto.
      - destruct Hc as [Hc|Hc].
        + cbn in Hc. injection Hc as ->. destruct Hy as [<-|Hy]; [exists s, s; auto using lex_refl|]. destruct (Hd y Hy) as (sy & ? & ?). exists s, sy. auto.
        + apply (IH Ss a b eq_refl x y Hx); [auto|]. apply in_app_iff. auto. }
    intros x y Hx Hy Iy. assert (Iy' : In y ((p :: ps) ++ rev rest)) by (apply (Permutation_in _ (Permutation_sym Pm)); exact Iy).
    destruct (G _ _ F Ss (p :: ps) (rev rest) eq_refl x y Hx) as (sx & sy & E1 & E2 & E3); [|exact Iy'|].
    + destruct Hy as [->|Hy]; [left; reflexivity|right; now rewrite <- in_rev].
    + exists sx, sy. eauto.
  - intros e He. destruct (so_sel _ _ _ _ _ _ _ _ _ So e He) as [[]|(_ & _ & q & Hq & [X|[X _]])]; exists q; auto.
Qed.

Lemma select_invalid : forall O C (L : lang O C) step m inv rest sel inv',
  select L step m inv = Val (rest, sel, inv') ->
  forall k r, In (k, r) inv' -> In (k, r) inv \/ (rname r = k /\ exists p, In p m /\
    ((r = snd p /\ is_valid L r = Val false) \/
     (reverse (l_name L) (snd p) = Val (Some r) /\ (is_valid L r = Val false \/ ~ In k (map fst rest))))).
Proof.
  intros O C L step m inv rest sel inv' H k r Hk. destruct (select_ok L step m inv rest sel inv' H) as (ps & So & Pm & _).
  destruct (so_inv _ _ _ _ _ _ _ _ _ So _ Hk) as [X|(E & p & Hp & X)]; [auto|]. right. cbn [fst snd] in *. split; [auto|].
  exists p. split; [apply (Permutation_in _ Pm), in_app_iff; auto|]. destruct X as [X|[X1 [X2|X2]]]; auto.
  right. split; [exact X1|]. right. intros Z. apply X2. rewrite map_rev. now apply -> in_rev.
Qed.
