(* Proofs about Minimize.v: score, sorting and select. *)
From Coq Require Import ZArith Permutation Sorted.
From Verif Require Import Base BaseProofs Lang LangProofs Syntax Rule Ruleset RulesetProofs Analysis Egraph Synth Apply Sched Minimize.
Open Scope list_scope.

(* ---- score ---- *)
Lemma nodup_length (a b : list string) : incl a b -> incl b a -> length (nodup string_dec a) = length (nodup string_dec b).
Proof.
  intros H1 H2. apply Nat.le_antisymm; apply NoDup_incl_length; try apply NoDup_nodup; intros x Hx;
    apply nodup_In; apply nodup_In in Hx; auto.
Qed.
Lemma distinct_comm a b : distinct (a ++ b) = distinct (b ++ a).
Proof. unfold distinct. f_equal. apply nodup_length; intros x Hx; apply in_app_iff; apply in_app_iff in Hx; tauto. Qed.
Lemma filter_app_length {A} (f : A -> bool) a b : length (List.filter f (a ++ b)) = length (List.filter f (b ++ a)).
Proof. rewrite !filter_app, !app_length. lia. Qed.
Lemma score_comm {O} (name : O -> string) is_const l r : score name is_const l r = score name is_const r l.
Proof.
  unfold score. destruct (ast_size l) as [a|], (ast_size r) as [b|]; cbn [rbind]; try reflexivity.
  rewrite (distinct_comm (pvars l)), (filter_app_length _ l r), (Z.max_comm a b), (Z.add_comm a b).
  rewrite (filter_app is_inner l r), (filter_app is_inner r l), !map_app.
  rewrite (distinct_comm (map _ (List.filter is_inner l))). reflexivity.
Qed.

(* ---- sorting ---- *)
Lemma lex_refl a : lex_leb a a = true.
Proof. induction a as [|x a IH]; cbn; [reflexivity|]. rewrite Z.eqb_refl, IH. now rewrite orb_true_r. Qed.
Lemma lex_total a : forall b, lex_leb a b = true \/ lex_leb b a = true.
Proof.
  induction a as [|x a IH]; intros [|y b]; cbn; auto.
  destruct (Z.compare_spec x y) as [->|H|H].
  - rewrite Z.eqb_refl. rewrite !orb_true_iff, !andb_true_l. destruct (IH b); auto.
  - left. apply Z.ltb_lt in H. now rewrite H.
  - right. apply Z.ltb_lt in H. now rewrite H.
Qed.
Lemma lex_trans a : forall b c, lex_leb a b = true -> lex_leb b c = true -> lex_leb a c = true.
Proof.
  induction a as [|x a IH]; intros [|y b] [|z c]; cbn; auto; try discriminate.
  rewrite !orb_true_iff, !andb_true_iff, !Z.ltb_lt, !Z.eqb_eq.
  intros [H|[-> H]] [K|[-> K]]; [left; lia|left; exact H|left; exact K|right; eauto].
Qed.

Section Sort.
  Context {A : Type}.
  Variable key : A -> list Z.
  Definition below (x y : A) : Prop := lex_leb (key x) (key y) = true.
  Lemma insert_perm x l : Permutation (insert_sorted key x l) (x :: l).
  Proof.
    induction l as [|y r IH]; cbn; [reflexivity|]. destruct (lex_leb (key x) (key y)); [reflexivity|].
    rewrite IH. apply perm_swap.
  Qed.
  Lemma sort_perm l : Permutation (sort_by key l) l.
  Proof. induction l as [|x r IH]; cbn; [reflexivity|]. now rewrite insert_perm, IH. Qed.
  Lemma insert_ss x l : StronglySorted below l -> StronglySorted below (insert_sorted key x l).
  Proof.
    induction 1 as [|y r S IH F]; cbn; [constructor; constructor|].
    destruct (lex_leb (key x) (key y)) eqn:E.
    - constructor; [constructor; assumption|]. constructor; [exact E|]. eapply Forall_impl; [|exact F].
      intros z Hz. exact (lex_trans _ _ _ E Hz).
    - constructor; [exact IH|]. apply Forall_forall. intros z Hz.
      apply (Permutation_in _ (insert_perm x r)) in Hz. destruct Hz as [<-|Hz].
      + destruct (lex_total (key x) (key y)) as [H|H]; [congruence|exact H].
      + rewrite Forall_forall in F. now apply F.
  Qed.
  Lemma sort_ss l : StronglySorted below (sort_by key l).
  Proof. induction l; cbn; [constructor|now apply insert_ss]. Qed.
End Sort.
Lemma ss_app {A} (R : A -> A -> Prop) a b : StronglySorted R (a ++ b) -> forall x y, In x a -> In y b -> R x y.
Proof.
  induction a as [|z a IH]; cbn; intros H x y Hx Hy; [destruct Hx|]. inversion H as [|? ? S F]; subst.
  destruct Hx as [->|Hx]; [|eauto]. rewrite Forall_forall in F. apply F, in_app_iff. auto.
Qed.
Lemma ss_rev {A} (R : A -> A -> Prop) l : StronglySorted R l -> StronglySorted (fun x y => R y x) (rev l).
Proof.
  induction 1 as [|x l S IH F]; cbn; [constructor|].
  assert (forall m, StronglySorted (fun x y => R y x) m -> Forall (fun y => R x y) m -> StronglySorted (fun x y => R y x) (m ++ [x])) as G.
  { clear. induction 1 as [|y m S IH F]; intros H; cbn; [constructor; constructor|]. inversion H; subst.
    constructor; [auto|]. apply Forall_app. auto. }
  apply G; [exact IH|]. now apply Forall_rev.
Qed.

(* ---- selection ---- *)
Section Select.
  Context {O C : Type}.
  Variable L : lang O C.
  Local Notation valid := (is_valid L).
  Local Notation name := (l_name L).

  Lemma sort_candidates_spec m m' : sort_candidates L m = Val m' ->
    Permutation m' m /\ exists sc, Forall2 (fun e s => rule_score L (snd e) = Val s) m' sc /\ StronglySorted (fun x y => lex_leb x y = true) sc.
  Proof.
    unfold sort_candidates. intros H. apply rbind_val in H as (scored & H1 & H2). inversion H2; subst m'. clear H2.
    pose proof (sort_perm fst scored) as P. pose proof (sort_ss fst scored) as S.
    assert (map snd scored = m /\ Forall (fun p => rule_score L (snd (snd p)) = Val (fst p)) scored) as [Em F].
    { apply rmapM_val in H1. clear - H1. induction H1 as [|e p m sc H _ [IH1 IH2]]; cbn; [auto|].
      apply rbind_val in H as (s & H1 & H2). inversion H2; subst p. cbn. rewrite IH1. auto. }
    split; [rewrite <- Em; now apply Permutation_map|]. exists (map fst (sort_by fst scored)). split.
    - assert (Forall (fun p => rule_score L (snd (snd p)) = Val (fst p)) (sort_by fst scored)) as F'.
      { rewrite Forall_forall in *. intros p Hp. apply F. exact (Permutation_in _ P Hp). }
      clear - F'. induction F'; cbn; constructor; auto.
    - clear - S. unfold below in S. induction S as [|x l S IH F]; cbn; constructor; auto.
      clear - F. induction F; cbn; constructor; auto.
  Qed.

  (* what happened to the rules popped *)
  Definition from_popped (m ps : ruleset O) (e : string * rule O) : Prop :=
    fst e = rname (snd e) /\ valid (snd e) = Val true /\
    exists p, In p ps /\ (snd e = snd p \/ (reverse name (snd p) = Val (Some (snd e)) /\ In (fst e) (map fst m))).
  Definition from_rejected (rest ps : ruleset O) (e : string * rule O) : Prop :=
    fst e = rname (snd e) /\
    exists p, In p ps /\ ((snd e = snd p /\ valid (snd e) = Val false) \/
      (reverse name (snd p) = Val (Some (snd e)) /\ (valid (snd e) = Val false \/ ~ In (fst e) (map fst rest)))).

  Lemma rs_add_in (m : ruleset O) r e : In e (rs_add m r) -> In e m \/ (e = (rname r, r)) .
  Proof.
    unfold rs_add. induction m as [|[k' v'] m IH]; cbn [insert]; [intros [<-|[]]; auto|].
    destruct (String.eqb_spec (rname r) k') as [<-|N]; intros [<-|H]; cbn; auto. apply IH in H. tauto.
  Qed.
  Lemma rs_add_self (m : ruleset O) r : In (rname r) (map fst (rs_add m r)).
  Proof. unfold rs_add. rewrite insert_keys. destruct (has m (rname r)) eqn:E; [now apply has_in|]. apply in_app_iff. cbn. auto. Qed.
  Lemma rs_add_mono (m : ruleset O) r k : In k (map fst m) -> In k (map fst (rs_add m r)).
  Proof. intros H. unfold rs_add. rewrite insert_keys. destruct (has m (rname r)); [exact H|]. apply in_app_iff. auto. Qed.
  Lemma rs_add_length (m : ruleset O) r : length m <= length (rs_add m r) /\ 1 <= length (rs_add m r) /\ length (rs_add m r) <= S (length m).
  Proof.
    unfold rs_add. pose proof (insert_keys m (rname r) r) as E. apply (f_equal (@length string)) in E. rewrite map_length in E. rewrite E.
    destruct (has m (rname r)) eqn:H; rewrite ?app_length, map_length; cbn; [|lia].
    destruct m; [discriminate H|cbn; lia].
  Qed.
  Lemma rs_add_nodup (m : ruleset O) r : NoDup (map fst m) -> NoDup (map fst (rs_add m r)).
  Proof. apply insert_nodup. Qed.

  Record selected_ok (step : nat) (m sel inv rest sel' inv' ps : ruleset O) : Prop := {
    so_split : m = ps ++ rest;
    so_pop : length sel < step -> m <> [] -> ps <> [];
    so_sel : forall e, In e sel' -> In e sel \/ from_popped m ps e;
    so_valid : forall p, In p ps -> valid (snd p) = Val true -> In (rname (snd p)) (map fst sel');
    so_known : forall p, In p ps -> exists b, valid (snd p) = Val b;
    so_inv : forall e, In e inv' -> In e inv \/ from_rejected rest ps e;
    so_rejected : forall p, In p ps -> valid (snd p) = Val false -> In (rname (snd p)) (map fst inv');
    so_sel_mono : incl (map fst sel) (map fst sel');
    so_inv_mono : incl (map fst inv) (map fst inv');
    so_stop : length sel' < step -> rest = [];
    so_nodup : NoDup (map fst sel) -> NoDup (map fst sel') }.

  Lemma select_loop_ok step m : forall sel inv rest sel' inv', select_loop L step m sel inv = Val (rest, sel', inv') ->
    exists ps, selected_ok step m sel inv rest sel' inv' ps.
  Proof.
    induction m as [|[k r] m IH]; intros sel inv rest sel' inv' H; cbn [select_loop] in H.
    - destruct (Nat.ltb (length sel) step) eqn:E; inversion H; subst; exists []; constructor; auto;
        try (intros; contradiction); try apply incl_refl; intros; congruence.
    - destruct (Nat.ltb (length sel) step) eqn:E.
      2: { apply Nat.ltb_ge in E. inversion H; subst. exists []. constructor; auto; try (intros; contradiction); try apply incl_refl; intros; lia. }
      apply rbind_val in H as (b & Hb & H).
      set (sel1 := if b then rs_add sel r else sel). set (inv1 := if b then inv else rs_add inv r).
      replace (if b then (rs_add sel r, inv) else (sel, rs_add inv r)) with (sel1, inv1) in H by (unfold sel1, inv1; destruct b; reflexivity).
      apply rbind_val in H as (o & Ho & H).
      assert (exists sel2 inv2, select_loop L step m sel2 inv2 = Val (rest, sel', inv') /\
        (forall e, In e sel2 -> In e sel1 \/ (exists r', o = Some r' /\ e = (rname r', r') /\ valid r' = Val true /\ In (rname r') (map fst m))) /\
        (forall e, In e inv2 -> In e inv1 \/ (exists r', o = Some r' /\ e = (rname r', r') /\ (valid r' = Val false \/ ~ In (rname r') (map fst m)))) /\
        incl (map fst sel1) (map fst sel2) /\ incl (map fst inv1) (map fst inv2) /\
        (NoDup (map fst sel1) -> NoDup (map fst sel2))) as (sel2 & inv2 & H2 & S2 & I2 & Ms & Mi & Nd).
      { destruct o as [r'|].
        - apply rbind_val in H as (b' & Hb' & H). destruct b'.
          + destruct (rs_contains m r') eqn:Er; [|discriminate Hb']. apply has_in in Er.
            exists (rs_add sel1 r'), inv1. split; [exact H|]. split; [|split; [auto|split; [|split; [apply incl_refl|apply rs_add_nodup]]]].
            * intros e He. apply rs_add_in in He as [He|He]; [auto|right]. exists r'. auto.
            * intros x Hx. now apply rs_add_mono.
          + exists sel1, (rs_add inv1 r'). split; [exact H|]. split; [auto|]. split; [|split; [apply incl_refl|split; [|auto]]].
            * intros e He. apply rs_add_in in He as [He|He]; [auto|right]. exists r'. split; [reflexivity|]. split; [exact He|].
              destruct (rs_contains m r') eqn:Er; [auto|right]. intros X. apply has_in in X. unfold rs_contains in Er. congruence.
            * intros x Hx. now apply rs_add_mono.
        - exists sel1, inv1. repeat split; auto using incl_refl. }
      destruct (IH _ _ _ _ _ H2) as (ps & [P1 P2 P3 P4 Pk P5 P6 P7 P8 P9 P10]). exists ((k, r) :: ps). constructor.
      + cbn. now rewrite P1.
      + intros _ _. discriminate.
      + intros e He. destruct (P3 e He) as [X|(X1 & X2 & p & Hp & X3)].
        * destruct (S2 e X) as [Y|(r' & -> & -> & Y1 & Y2)].
          -- unfold sel1 in Y. destruct b; [|auto]. apply rs_add_in in Y as [Y| ->]; [auto|right].
             split; [reflexivity|]. split; [exact Hb|]. exists (k, r). cbn. auto.
          -- right. split; [reflexivity|]. split; [exact Y1|]. exists (k, r). cbn. split; [auto|]. right. split; [exact Ho|]. auto.
        * right. split; [exact X1|]. split; [exact X2|]. exists p. split; [right; exact Hp|].
          destruct X3 as [X3|[X3 X4]]; [auto|right; split; [exact X3|right; exact X4]].
      + intros p [<-|Hp] Hv; [|eauto]. cbn [snd] in *. rewrite Hb in Hv. inversion Hv; subst b.
        apply P7, Ms. apply rs_add_self.
      + intros p [<-|Hp]; [|eauto]. cbn [snd]. eauto.
      + intros e He. destruct (P5 e He) as [X|(X1 & p & Hp & X3)].
        * destruct (I2 e X) as [Y|(r' & -> & -> & Y1)].
          -- unfold inv1 in Y. destruct b; [auto|]. apply rs_add_in in Y as [Y| ->]; [auto|right].
             split; [reflexivity|]. exists (k, r). cbn. auto.
          -- right. split; [reflexivity|]. exists (k, r). cbn. split; [auto|]. right. split; [exact Ho|].
             destruct Y1 as [Y1|Y1]; [auto|right]. intros Z. apply Y1. rewrite P1, map_app, in_app_iff. auto.
        * right. split; [exact X1|]. exists p. split; [right; exact Hp|exact X3].
      + intros p [<-|Hp] Hv; [|eauto]. cbn [snd] in *. rewrite Hb in Hv. inversion Hv; subst b.
        apply P8, Mi. apply rs_add_self.
      + intros x Hx. apply P7, Ms. unfold sel1. destruct b; [now apply rs_add_mono|exact Hx].
      + intros x Hx. apply P8, Mi. unfold inv1. destruct b; [exact Hx|now apply rs_add_mono].
      + exact P9.
      + intros N. apply P10, Nd. unfold sel1. destruct b; [now apply rs_add_nodup|exact N].
  Qed.
End Select.
