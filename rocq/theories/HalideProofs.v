(* Proofs about the Halide domain. *)
From Coq Require Import ZArith.
From Verif Require Import Base BaseProofs Lang LangProofs Number Halide HalideSpec.
Open Scope list_scope.
Local Open Scope Z_scope.

Lemma in_i64_spec z : in_i64 z = true <-> - 2 ^ 63 <= z < 2 ^ 63.
Proof.
  unfold in_i64, i64_min, i64_max. rewrite andb_true_iff, !Z.leb_le. lia.
Qed.

(* ---- the two divisions ---- *)
Lemma div_agree a b : b <> 0 -> 0 <= a \/ (b | a) -> div_trunc a b = div_smt a b.
Proof.
  intros Hb H. unfold div_trunc, div_smt. destruct (Z.ltb_spec 0 b) as [P|P].
  - destruct H as [H|(k & ->)].
    + apply Z.quot_div_nonneg; lia.
    + rewrite Z.quot_mul, Z.div_mul by lia. reflexivity.
  - destruct H as [H|(k & ->)].
    + rewrite <- (Z.opp_involutive b) at 1. rewrite Z.quot_opp_r by lia. f_equal. apply Z.quot_div_nonneg; lia.
    + rewrite Z.quot_mul by lia. replace (k * b) with (- k * - b) by ring. rewrite Z.div_mul by lia. lia.
Qed.

(* ---- solver expressions ---- *)
Lemma hal_enc_den env t e : fold_term hal_to_z3 t = Val e -> hal_den div_smt env t = Val (hint_den env e).
Proof.
  intros H. destruct (fold_term_rel (fun _ => True) hal_to_z3 (with_vars hal_to_var env (hal_sem div_smt))
    (fun e v => v = hint_den env e) t e) as (v & E & ->); auto.
  - intros o xs ys x _ HF E. unfold with_vars.
    destruct o; inversion HF as [|x1 y1 xs1 ys1 R1 F1]; subst; cbn [hal_to_z3] in E; try discriminate E;
      try (inversion F1 as [|x2 y2 xs2 ys2 R2 F2]; subst; try discriminate E);
      try (inversion F2 as [|x3 y3 xs3 ys3 R3 F3]; subst; try discriminate E);
      try (inversion F3; subst; try discriminate E); inversion E; subst x;
      eexists; (split; [reflexivity|]); cbn [hint_den hbool_den jone jzero gnz b2z];
      repeat match goal with |- context [if ?c then _ else _] => destruct c eqn:? end; try reflexivity; try discriminate.
  - clear. induction t as [o ts IH] using term_ind'. constructor; auto.
Qed.

Lemma hal_den_args dv env o ts v : hal_to_var o = None -> hal_den dv env (T o ts) = Val v ->
  exists vs, rmapM (hal_den dv env) ts = Val vs /\ hal_sem dv o vs = Val v.
Proof.
  intros E H. unfold hal_den in H. cbn [fold_term] in H. apply rbind_val in H as (vs & H1 & H2).
  unfold with_vars in H2. rewrite E in H2. eauto.
Qed.

Lemma hal_den_agree env t v : div_ok env t -> hal_den div_trunc env t = Val v -> hal_den div_smt env t = Val v.
Proof.
  revert v. induction t as [o ts IH] using term_ind'. intros v Hd H. inversion Hd as [? ? Hts Hdiv]; subst.
  destruct (hal_to_var o) as [s|] eqn:Eo.
  - unfold hal_den in *. cbn [fold_term] in *. apply rbind_val in H as (vs & H1 & H2).
    destruct o; try discriminate Eo. destruct ts; [cbn in *; exact H2|].
    assert (exists ws, rmapM (fold_term (with_vars hal_to_var env (hal_sem div_smt))) (t :: ts) = Val ws) as (ws & ->).
    { apply rmapM_val in H1. clear - IH H1 Hts. revert IH Hts H1. generalize (t :: ts). intros l IH Hts H1.
      induction H1 as [|x y l vs E _ IHl]; [exists []; reflexivity|]. inversion IH; subst.
      destruct IHl as (ws & W); auto; [intros u Hu; apply Hts; right; exact Hu|].
      exists (y :: ws). cbn. rewrite (H1 y (Hts x (or_introl eq_refl)) E), W. reflexivity. }
    cbn [rbind]. unfold with_vars in *. cbn in *. exact H2.
  - destruct (hal_den_args _ _ _ _ _ Eo H) as (vs & H1 & H2).
    assert (rmapM (hal_den div_smt env) ts = Val vs) as Hvs.
    { apply rmapM_val. apply rmapM_val in H1. clear - IH H1 Hts.
      induction H1 as [|x y l vs E _ IHl]; constructor.
      - inversion IH; subst. apply H1; [apply Hts; left; reflexivity|exact E].
      - inversion IH; subst. apply IHl; [assumption|]. intros u Hu. apply Hts. right. exact Hu. }
    unfold hal_den. cbn [fold_term]. change (fold_term (with_vars hal_to_var env (hal_sem div_smt))) with (hal_den div_smt env).
    rewrite Hvs. cbn [rbind]. unfold with_vars. rewrite Eo.
    destruct o; try exact H2.
    destruct vs as [|a [|b [|? ?]]]; try discriminate H2. cbn in *.
    apply rmapM_val in H1. inversion H1 as [|x ? ts1 ? Ex F1]; subst. inversion F1 as [|y ? ts2 ? Ey F2]; subst. inversion F2; subst.
    destruct (Z.eqb_spec b 0) as [->|Nb]; [exact H2|].
    destruct (Hdiv eq_refl x y a b eq_refl Ex Ey) as [Zb|Hab]; [contradiction|].
    rewrite <- (div_agree a b Nb Hab). exact H2.
Qed.

(* ---- the interpreter ---- *)
Section Row.
  Variable n r : nat.
  Variable vc : string -> cvec Z.
  Variable env : string -> Z.
  Hypothesis Hr : (r < n)%nat.
  Notation ent c := (nth r c None).

  Definition row_rel (c : cvec Z) (v : Z) : Prop := length c = n /\ (forall z, ent c = Some z -> z = v).

  Lemma row2 (f : Z -> Z -> option Z) c1 c2 v1 v2 w (P : Prop) : row_rel c1 v1 -> row_rel c2 v2 ->
    (forall z, f v1 v2 = Some z -> z = w) -> (P -> map (fun c => ent c) [c1; c2] = map Some [v1; v2]) -> (P -> f v1 v2 = Some w) ->
    length (map2 f c1 c2) = n /\ (forall z, ent (map2 f c1 c2) = Some z -> z = w) /\ (P -> ent (map2 f c1 c2) = Some w).
  Proof.
    intros [L1 R1] [L2 R2] Hf Hp Hw. split; [apply map2_length; assumption|]. rewrite map2_nth. split.
    - intros z Hz. destruct (ent c1) as [a|]; [|discriminate]. destruct (ent c2) as [b|]; [|discriminate].
      rewrite (R1 a eq_refl), (R2 b eq_refl) in Hz. auto.
    - intros H. specialize (Hp H). cbn in Hp. injection Hp as -> ->. auto.
  Qed.
  Lemma row1 (f : Z -> option Z) c1 v1 w (P : Prop) : row_rel c1 v1 ->
    (forall z, f v1 = Some z -> z = w) -> (P -> map (fun c => ent c) [c1] = map Some [v1]) -> (P -> f v1 = Some w) ->
    length (map1 f c1) = n /\ (forall z, ent (map1 f c1) = Some z -> z = w) /\ (P -> ent (map1 f c1) = Some w).
  Proof.
    intros [L1 R1] Hf Hp Hw. split; [rewrite map1_length; assumption|]. rewrite map1_nth. split.
    - intros z Hz. destruct (ent c1) as [a|]; [|discriminate]. rewrite (R1 a eq_refl) in Hz. auto.
    - intros H. specialize (Hp H). cbn in Hp. injection Hp as ->. auto.
  Qed.
  Lemma row3 (f : Z -> Z -> Z -> option Z) c1 c2 c3 v1 v2 v3 w (P : Prop) : row_rel c1 v1 -> row_rel c2 v2 -> row_rel c3 v3 ->
    (forall z, f v1 v2 v3 = Some z -> z = w) -> (P -> map (fun c => ent c) [c1; c2; c3] = map Some [v1; v2; v3]) -> (P -> f v1 v2 v3 = Some w) ->
    length (map3 f c1 c2 c3) = n /\ (forall z, ent (map3 f c1 c2 c3) = Some z -> z = w) /\ (P -> ent (map3 f c1 c2 c3) = Some w).
  Proof.
    intros [L1 R1] [L2 R2] [L3 R3] Hf Hp Hw. split; [apply map3_length; assumption|]. rewrite map3_nth. split.
    - intros z Hz. destruct (ent c1) as [a|]; [|discriminate]. destruct (ent c2) as [b|]; [|discriminate].
      destruct (ent c3) as [c|]; [|discriminate].
      rewrite (R1 a eq_refl), (R2 b eq_refl), (R3 c eq_refl) in Hz. auto.
    - intros H. specialize (Hp H). cbn in Hp. injection Hp as -> -> ->. auto.
  Qed.

  Lemma hal_row t : (forall s, In s (tvars hal_to_var t) -> length (vc s) = n /\ ent (vc s) = Some (env s)) ->
    forall c, cvec_term hal_eval hal_to_var n vc t = Val c ->
    exists v, hal_den div_trunc env t = Val v /\ length c = n /\
      (forall z, ent c = Some z -> z = v) /\ (fits env t -> ent c = Some v).
  Proof.
    induction t as [o ts IH] using term_ind'. intros Hv c H.
    unfold cvec_term in H. cbn [fold_term] in H. apply rbind_val in H as (cs & H1 & H2).
    assert (exists vs, rmapM (hal_den div_trunc env) ts = Val vs /\
      Forall2 row_rel cs vs /\
      ((forall t, In t ts -> fits env t) -> map (fun c => ent c) cs = map Some vs)) as (vs & E & R & Ff).
    { assert (forall t s, In t ts -> In s (tvars hal_to_var t) -> length (vc s) = n /\ ent (vc s) = Some (env s)) as Hv'.
      { intros t s Ht Hs. apply Hv. cbn. apply in_app_iff. right. apply in_flat_map. eauto. }
      clear - IH H1 Hv'. apply rmapM_val in H1. induction H1 as [|t c ts cs E _ IHl].
      - exists []. split; [reflexivity|]. split; [constructor|reflexivity].
      - inversion IH as [|? ? I1 I2]; subst. destruct (I1 (fun s => Hv' t s (or_introl eq_refl)) c E) as (v & D & L & Z1 & Z2).
        destruct (IHl I2 (fun u s Hu => Hv' u s (or_intror Hu))) as (vs & D' & R' & F').
        exists (v :: vs). cbn. rewrite D, D'. split; [reflexivity|]. split; [constructor; [split; assumption|assumption]|].
        intros Hf. rewrite (Z2 (Hf t (or_introl eq_refl))), F' by (intros u Hu; apply Hf; right; exact Hu). reflexivity. }
    assert (forall f, fold_term (with_vars hal_to_var env f) = fold_term (with_vars hal_to_var env f)) as _ by reflexivity.
    unfold hal_den at 1. cbn [fold_term]. change (fold_term (with_vars hal_to_var env (hal_sem div_trunc))) with (hal_den div_trunc env).
    rewrite E. cbn [rbind]. unfold with_vars in H2 |- *.
    assert (forall v, hal_den div_trunc env (T o ts) = Val v -> fits env (T o ts) -> in_i64 v = true) as Hin.
    { intros v Dv Hf. inversion Hf as [? ? _ X]; subst. apply in_i64_spec. apply X. exact Dv. }
    assert (fits env (T o ts) -> map (fun c => ent c) cs = map Some vs) as Ff'.
    { intros Hf. inversion Hf; subst. auto. }
    unfold hal_den at 1 in Hin. cbn [fold_term] in Hin. change (fold_term (with_vars hal_to_var env (hal_sem div_trunc))) with (hal_den div_trunc env) in Hin.
    rewrite E in Hin. cbn [rbind] in Hin. unfold with_vars in Hin.
    destruct (hal_to_var o) as [s|] eqn:Eo.
    { inversion H2; subst c. assert (length (vc s) = n /\ ent (vc s) = Some (env s)) as [Ls Es].
      { apply Hv. cbn. rewrite Eo. left. reflexivity. }
      exists (env s). split; [reflexivity|]. split; [exact Ls|]. rewrite Es. split; [congruence|reflexivity]. }
    clear Ff Hv IH E H1.
    destruct o; try discriminate Eo; inversion R as [|c1 v1 cs1 vs1 R1 F1]; subst cs vs; cbn [hal_eval] in H2; try discriminate H2;
      try (inversion F1 as [|c2 v2 cs2 vs2 R2 F2]; subst cs1 vs1; try discriminate H2);
      try (inversion F2 as [|c3 v3 cs3 vs3 R3 F3]; subst cs2 vs2; try discriminate H2);
      try (inversion F3; subst; try discriminate H2).
    1: { inversion H2; subst c. exists z. split; [reflexivity|]. rewrite repeat_length. split; [reflexivity|].
         rewrite nth_repeat_lt by exact Hr. split; [congruence|reflexivity]. }
    all: eexists; (split; [reflexivity|]); cbn [hal_sem] in Hin.
    all: try (inversion H2; subst c; first [apply row3 with (v1 := v1) (v2 := v2) (v3 := v3)|apply row2 with (v1 := v1) (v2 := v2)|apply row1 with (v1 := v1)]; try assumption;
      [unfold truth, checked, nonzero, b2z; intros zz Hz|intros Hf; specialize (Hin _ eq_refl Hf); unfold truth, checked, nonzero, b2z, div_trunc in *]).
    all: try congruence.
    - destruct (v1 =? 0), (v2 =? 0); cbn in *; congruence.
    - destruct (v1 =? 0), (v2 =? 0); cbn in *; congruence.
    - (* negation *)
      destruct R1 as [L1 Z1]. apply rmapM_val in H2.
      assert (length c = n /\ ent c = option_map Z.opp (ent c1)) as [Lc Ec].
      { split; [rewrite <- L1; symmetry; eapply Forall2_length; exact H2|].
        clear - H2. revert r. induction H2 as [|x y c1 c Exy _ IH]; intros [|r]; try reflexivity; [|apply IH].
        cbn. destruct x as [x|]; [|inversion Exy; reflexivity]. apply rbind_val in Exy as (w & E1 & E2).
        unfold neg_i64 in E1. destruct (in_i64 (- x)); inversion E1; inversion E2; subst; reflexivity. }
      rewrite Ec. split; [exact Lc|]. split.
      + intros zz Hz. destruct (ent c1) as [a|]; [|discriminate]. rewrite (Z1 a eq_refl) in Hz. cbn in Hz. congruence.
      + intros Hf. specialize (Ff' Hf). cbn in Ff'. injection Ff' as ->. reflexivity.
    - destruct (in_i64 _); congruence.
    - rewrite Hin; reflexivity.
    - destruct (in_i64 _); congruence.
    - rewrite Hin; reflexivity.
    - destruct (in_i64 _); congruence.
    - rewrite Hin; reflexivity.
    - unfold div_trunc. destruct (v2 =? 0); [congruence|]. destruct (in_i64 _); congruence.
    - destruct (v2 =? 0); [congruence|]. rewrite Hin; reflexivity.
    - destruct (Z.leb_spec v1 v2); inversion Hz; lia.
    - f_equal. destruct (Z.leb_spec v1 v2); lia.
    - destruct (Z.leb_spec v1 v2); inversion Hz; lia.
    - f_equal. destruct (Z.leb_spec v1 v2); lia.
    - destruct (v1 =? 0); cbn in Hz; congruence.
    - destruct (v1 =? 0); reflexivity.
  Qed.
End Row.

(* ---- validated rules ---- *)
Lemma hal_valid check l r : hal_unsat_right check -> hal_validate check l r = Val Valid ->
  exists tl tr, tree (instantiate HVar l) = Val tl /\ tree (instantiate HVar r) = Val tr /\
    forall env, exists v, hal_den div_smt env tl = Val v /\ hal_den div_smt env tr = Val v.
Proof.
  intros Hu H. destruct (validate_neq_valid _ _ _ _ _ H) as (el & er & tl & tr & U & Tl & Tr & El & Er).
  exists tl, tr. split; [exact Tl|]. split; [exact Tr|]. intros env. exists (hint_den env el).
  split; [apply hal_enc_den; exact El|]. rewrite (Hu _ _ U env). apply hal_enc_den. exact Er.
Qed.
