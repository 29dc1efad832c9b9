(* The natural-number, binary positive and bitvector/boolean domains. *)
From Coq Require Import NArith ZArith.
From Verif Require Import Base BaseProofs Lang LangProofs Syntax Rule Ruleset RuleSpec.
From Verif Require Import BV BVSpec BVProofs NatDom PosDom BvBoolDom DomainSpec.
Open Scope string_scope.
Open Scope list_scope.

(* a fold whose steps relate the values of all children *)
Lemma nat_den_total env t : wf_term nat_arity t -> exists v, nat_den env t = Val v.
Proof.
  intros H. destruct (fold_term_total nat_arity (with_vars nat_to_var env nat_sem)
    (fun _ => True) t) as (v & Hv & _); eauto.
  intros o args Hl _. unfold with_vars. destruct o; simpl in Hl |- *; eauto;
  repeat (destruct args as [|? args]; try discriminate Hl); eauto.
Qed.

(* ---- intervals ---- *)
(* a lower bound >= 0 and, when there is an upper bound, it is not smaller *)
Definition nat_itv (i : interval Z) : Prop :=
  exists l, low i = Some l /\ (0 <= l)%Z /\ forall h, high i = Some h -> (l <= h)%Z.

Lemma nat_interval_total o args :
  (forall i, In i args -> nat_itv i) -> length args = nat_arity o ->
  exists i, nat_mk_interval o args = Val i /\ nat_itv i.
Proof.
  intros H Hl.
  assert (forall i, In i args -> exists l h, i = Itv (Some l) h /\ (0 <= l)%Z /\
    forall k, h = Some k -> (l <= k)%Z) as H'.
  { intros [l h] Hi. destruct (H _ Hi) as (l' & E1 & E2 & E3). simpl in *. subst. eauto. }
  clear H.
  destruct o; simpl in Hl; repeat (destruct args as [|? args]; try discriminate Hl);
    repeat match goal with i : interval Z |- _ =>
      let a := fresh "l" in let b := fresh "h" in let c := fresh "P" in let d := fresh "Q" in
      destruct (H' i) as (a & b & -> & c & d); [simpl; auto|] end; clear H'; cbn.
  - eexists; split; [reflexivity|]. exists 0%Z. repeat split; try lia. simpl; intros h E; inversion E; lia.
  - destruct h as [h|]; cbn.
    + specialize (Q h eq_refl). destruct (Z.leb_spec (l + 1) (h + 1)); [|lia].
      eexists; split; [reflexivity|]. exists (l + 1)%Z. repeat split; try lia.
      simpl; intros k E; inversion E; subst; lia.
    + eexists; split; [reflexivity|]. exists (l + 1)%Z. repeat split; try lia. simpl; intros; discriminate.
  - destruct h as [h|], h0 as [h0|]; cbn;
    try (eexists; split; [reflexivity|]; eexists; repeat split; [simpl; lia|simpl; intros; discriminate]).
    specialize (Q h eq_refl). specialize (Q0 h0 eq_refl).
    match goal with |- context [Z.leb ?a ?b] => destruct (Z.leb_spec a b); [|lia] end.
    eexists; split; [reflexivity|]; eexists; repeat split; [simpl; lia|]. simpl; intros k E; inversion E; lia.
  - destruct h as [h|], h0 as [h0|]; cbn;
    try (eexists; split; [reflexivity|]; eexists; repeat split; [simpl; nia|simpl; intros; discriminate]).
    specialize (Q h eq_refl). specialize (Q0 h0 eq_refl).
    match goal with |- context [Z.leb ?a ?b] => destruct (Z.leb_spec a b); [|nia] end.
    eexists; split; [reflexivity|]; eexists; repeat split; [simpl; nia|]. simpl; intros k E; inversion E; lia.
  - eexists; split; [reflexivity|]. exists 0%Z. repeat split; try lia. simpl; intros; discriminate.
Qed.

Definition nat_within (i : interval Z) (x : N) : Prop := within Z.le i (Z.of_N x).

Lemma nat_interval_sound o args xs v env i :
  (forall i, In i args -> nat_itv i) -> Forall2 nat_within args xs ->
  with_vars nat_to_var env nat_sem o xs = Val v -> nat_mk_interval o args = Val i ->
  nat_within i v.
Proof.
  intros Hi HF Hv Hm.
  assert (forall i, In i args -> exists l h, i = Itv (Some l) h /\ (0 <= l)%Z) as H'.
  { intros [l h] Hin. destruct (Hi _ Hin) as (l' & E1 & E2 & E3). simpl in *. subst. eauto. }
  clear Hi. unfold with_vars in Hv. unfold nat_within, within in *.
  destruct o; simpl in Hm; repeat (destruct args as [|? args]; try discriminate Hm);
    repeat match goal with i : interval Z |- _ =>
      let a := fresh "l" in let b := fresh "h" in let c := fresh "P" in
      destruct (H' i) as (a & b & -> & c); [simpl; auto; fail|] end; clear H'; simpl in Hv;
    repeat match goal with
      | H : Forall2 _ (_ :: _) _ |- _ => inversion H; clear H; subst
      | H : Forall2 _ [] _ |- _ => inversion H; clear H; subst end;
    inversion Hv; clear Hv; subst; simpl in *;
    repeat match goal with H : (forall l, _ = Some l -> _) /\ _ |- _ => destruct H end;
    repeat match goal with H : forall l, Some ?a = Some l -> _ |- _ => specialize (H a eq_refl) end.
  - inversion Hm; subst; simpl. split; intros ? E; inversion E; lia.
  - destruct h as [h|]; cbn in Hm.
    + destruct (Z.leb_spec (l + 1) (h + 1)); inversion Hm; subst; simpl.
      specialize (H0 h eq_refl). split; intros ? E; inversion E; lia.
    + inversion Hm; subst; simpl. split; intros ? E; inversion E; lia.
  - destruct h as [h|], h0 as [h0|]; cbn in Hm;
    try (inversion Hm; subst; simpl; split; intros ? E; inversion E; lia).
    match goal with H : context [Z.leb ?a ?b] |- _ => destruct (Z.leb_spec a b); [|discriminate] end.
    inversion Hm; subst; simpl.
    repeat match goal with H : forall l, Some ?a = Some l -> _ |- _ => specialize (H a eq_refl) end.
    split; intros ? E; inversion E; lia.
  - rewrite N2Z.inj_mul.
    destruct h as [h|], h0 as [h0|]; cbn in Hm;
    try (inversion Hm; subst; simpl; split; intros ? E; inversion E; nia).
    match goal with H : context [Z.leb ?a ?b] |- _ => destruct (Z.leb_spec a b); [|discriminate] end.
    inversion Hm; subst; simpl.
    repeat match goal with H : forall l, Some ?a = Some l -> _ |- _ => specialize (H a eq_refl) end.
    split; intros ? E; inversion E; nia.
  - inversion Hm; subst; simpl. split; intros ? E; inversion E; lia.
Qed.

Lemma nat_interval_term t : wf_term nat_arity t ->
  exists i, fold_term nat_mk_interval t = Val i /\ nat_itv i /\
    forall env v, nat_den env t = Val v -> nat_within i v.
Proof.
  induction t as [o ts IH] using term_ind'. intros Hwf. inversion Hwf as [o' ts' Hl Hts]; subst.
  assert (exists is, rmapM (fold_term nat_mk_interval) ts = Val is /\ length is = length ts /\
    (forall i, In i is -> nat_itv i) /\
    (forall env xs, rmapM (nat_den env) ts = Val xs -> Forall2 nat_within is xs)) as
    (is & E & El & Ei & Es).
  { clear Hl Hwf. induction Hts as [|t ts Ht Hts IHts].
    - exists []. repeat split; auto; [intros i []|]. intros env xs H. inversion H. constructor.
    - inversion IH as [|? ? IHt IHrest]; subst.
      destruct (IHts IHrest) as (is & E & El & Ei & Es). destruct (IHt Ht) as (i & E1 & E2 & E3).
      exists (i :: is). cbn [rmapM]. rewrite E1, E. simpl.
      repeat split; auto.
      + intros j [<-|Hj]; auto.
      + intros env xs H. apply rbind_val in H as (v & Hv & H). apply rbind_val in H as (vs & Hvs & H).
        inversion H; subst. constructor; eauto. }
  destruct (nat_interval_total o is) as (i & I1 & I2); auto; try congruence.
  exists i. split; [|split; [exact I2|]].
  - cbn [fold_term]. rewrite E. exact I1.
  - intros env v Hv. unfold nat_den in Hv. cbn [fold_term] in Hv.
    apply rbind_val in Hv as (xs & Hxs & Hv).
    eapply nat_interval_sound; eauto.
Qed.

(* ---- constants ---- *)
Lemma nat_constant_id_val fuel c : (0 <= c)%Z -> (Z.to_nat c < fuel)%nat ->
  exists t, nat_constant_id fuel c = Val t /\ wf_term nat_arity t /\
    forall env, nat_den env t = Val (Z.to_N c).
Proof.
  revert c; induction fuel as [|fuel IH]; intros c Hc Hf; [lia|].
  cbn [nat_constant_id]. destruct (Z.eqb_spec c 0) as [->|Hne].
  - exists (T NZ []). repeat split. repeat constructor.
  - destruct (IH (c - 1)%Z) as (t & E & Hw & Hd); [lia|lia|].
    rewrite E. simpl. exists (T NS [t]). split; [reflexivity|]. split; [constructor; repeat constructor; auto|].
    intros env. unfold nat_den in *. cbn [fold_term rmapM]. rewrite Hd. cbn. f_equal. lia.
Qed.

Lemma nat_constant_val c : (0 <= c)%Z ->
  exists t, (forall fuel, (Z.to_nat c <= fuel)%nat -> nat_constant fuel c = Val t) /\
    wf_term nat_arity t /\ forall env, nat_den env t = Val (Z.to_N c).
Proof.
  intros Hc. unfold nat_constant. destruct (Z.eqb_spec c 0) as [->|Hne].
  - exists (T NZ []). repeat split; auto; repeat constructor.
  - destruct (nat_constant_id_val (Z.to_nat c) (c - 1)) as (t & E & Hw & Hd); [lia|lia|].
    exists (T NS [t]). split.
    + intros fuel Hf.
      assert (forall f g c t, f <= g -> nat_constant_id f c = Val t -> nat_constant_id g c = Val t) as Hmono.
      { clear. induction f as [|f IH]; intros g c t Hle H; [discriminate|].
        destruct g as [|g]; [lia|]. cbn [nat_constant_id] in *. destruct (Z.eqb c 0); [exact H|].
        apply rbind_val in H as (u & Hu & H). rewrite (IH g (c - 1)%Z u) by (auto; lia). exact H. }
      rewrite (Hmono _ _ _ _ Hf E). reflexivity.
    + split; [constructor; repeat constructor; auto|].
      intros env. unfold nat_den in *. cbn [fold_term rmapM]. rewrite Hd. cbn. f_equal. lia.
Qed.

Lemma nat_constant_negative c fuel : (c < 0)%Z -> nat_constant fuel c = Panic.
Proof.
  intros Hc. unfold nat_constant. destruct (Z.eqb_spec c 0) as [E|_]; [lia|].
  assert (forall f c, (c < 0)%Z -> nat_constant_id f c = Panic) as H.
  { clear. induction f as [|f IH]; intros c Hc; [reflexivity|]. cbn [nat_constant_id].
    destruct (Z.eqb_spec c 0); [lia|]. rewrite IH by lia. reflexivity. }
  rewrite H by lia. reflexivity.
Qed.

Lemma nat_folded t c : wf_term nat_arity t ->
  fold_term nat_mk_interval t = Val (Itv (Some c) (Some c)) ->
  (0 <= c)%Z /\ forall env, nat_den env t = Val (Z.to_N c).
Proof.
  intros Hwf H. destruct (nat_interval_term t Hwf) as (i & E & (l & L1 & L2 & _) & Hs).
  rewrite E in H. inversion H; subst i. simpl in L1. inversion L1; subst l. split; [exact L2|].
  intros env. destruct (nat_den_total env t Hwf) as (v & Hv). rewrite Hv. f_equal.
  destruct (Hs env v Hv) as [A B]. specialize (A c eq_refl). specialize (B c eq_refl). lia.
Qed.

(* ---- interpreter ---- *)
Definition nat_sem_opt (o : nat_op) (args : list (option Z)) : res (option Z) :=
  match o, args with
  | NZ, [] => Val (Some 0%Z)
  | NS, [x] => Val (option_map (fun x => x + 1)%Z x)
  | NAdd, [x; y] => Val (zip_with Z.add x y)
  | NMul, [x; y] => Val (zip_with Z.mul x y)
  | _, _ => Panic
  end.
Lemma nat_pointwise : pointwise nat_arity nat_to_var nat_eval nat_sem_opt.
Proof.
  intros n o args Ho Hl Hn.
  destruct o; try discriminate Ho; simpl in Hl;
    repeat (destruct args as [|? args]; try discriminate Hl);
    repeat match goal with H : Forall _ (_ :: _) |- _ => inversion H; clear H; subst end;
    (eexists; split; [reflexivity|]); split;
    try (rewrite ?map1_length; solve [auto]); try (apply map2_length; auto); try apply repeat_length;
    intros r Hr; cbn [map nat_sem_opt];
    try (rewrite map1_nth; destruct (nth r _ None); reflexivity);
    try (rewrite map2_nth; destruct (nth r _ None); [destruct (nth r _ None)|]; reflexivity);
    try (rewrite nth_repeat_lt by auto; reflexivity).
Qed.

Lemma nat_point_den env t v : nat_den env t = Val v ->
  point nat_sem_opt nat_to_var (fun s => Some (Z.of_N (env s))) t = Val (Some (Z.of_N v)).
Proof.
  intros Hv. unfold point.
  destruct (fold_term_rel (fun _ => True) (with_vars nat_to_var env nat_sem)
    (with_vars nat_to_var (fun s => Some (Z.of_N (env s))) nat_sem_opt)
    (fun v x => x = Some (Z.of_N v)) t v) with (3 := Hv) as (x & Hx & ->); auto.
  2:{ clear. induction t using term_ind'. constructor; auto. }
  clear. intros o xs ys x _ HR Hx. unfold with_vars in *.
  destruct (nat_to_var o) eqn:Ev; [inversion Hx; subst; eexists; split; [reflexivity|auto]|].
  destruct o; try discriminate Ev; simpl in *;
    repeat (destruct xs as [|? xs]; simpl in Hx; try discriminate Hx);
    repeat match goal with
      | H : Forall2 _ (_ :: _) _ |- _ => inversion H; clear H; subst
      | H : Forall2 _ [] _ |- _ => inversion H; clear H; subst end;
    inversion Hx; clear Hx; subst; (eexists; split; [reflexivity|]); simpl; f_equal; lia.
Qed.

Lemma nat_cvec_den n vc t :
  (forall s, In s (tvars nat_to_var t) -> length (vc s) = n) -> wf_term nat_arity t ->
  exists c, cvec_term nat_eval nat_to_var n vc t = Val c /\ length c = n /\
    forall r env, (r < n)%nat ->
      (forall s, In s (tvars nat_to_var t) -> nth r (vc s) None = Some (Z.of_N (env s))) ->
      exists v, nat_den env t = Val v /\ nth r c None = Some (Z.of_N v).
Proof.
  intros Hn Ht.
  destruct (cvec_pointwise nat_arity nat_to_var nat_eval nat_sem_opt n vc t nat_pointwise Hn Ht)
    as (c & C1 & C2 & C3).
  exists c. repeat split; auto. intros r env Hr He.
  destruct (nat_den_total env t Ht) as (v & Hv). exists v. split; [exact Hv|].
  specialize (C3 r Hr). rewrite (point_ext _ _ _ (fun s => Some (Z.of_N (env s))) t) in C3 by auto.
  rewrite (nat_point_den env t v Hv) in C3. congruence.
Qed.

(* ---- validation ---- *)
Lemma nat_enc_wf t e : fold_term nat_to_z3 t = Val e -> wf_term nat_arity t.
Proof.
  revert e. induction t as [o ts IH] using term_ind'. intros e H. simpl in H.
  apply rbind_val in H as (args & H1 & H2). apply rmapM_val in H1.
  constructor.
  - rewrite (Forall2_length _ _ _ H1). destruct o; simpl in *;
      repeat (destruct args as [|? args]; try discriminate H2); reflexivity.
  - clear H2. induction H1; inversion IH; subst; constructor; eauto.
Qed.

Lemma nat_enc_den env t e : fold_term nat_to_z3 t = Val e ->
  exists v, nat_den env t = Val v /\ Z.of_N v = zint_den (fun s => Z.of_N (env s)) e.
Proof.
  intros H. unfold nat_den.
  apply (fold_term_rel (fun _ => True) nat_to_z3 (with_vars nat_to_var env nat_sem)
    (fun e v => Z.of_N v = zint_den (fun s => Z.of_N (env s)) e) t e); auto.
  2:{ clear. induction t using term_ind'. constructor; auto. }
  clear. intros o xs ys x _ HR Hx. unfold with_vars in *.
  destruct o; simpl in *;
    repeat (destruct xs as [|? xs]; simpl in Hx; try discriminate Hx);
    repeat match goal with
      | H : Forall2 _ (_ :: _) _ |- _ => inversion H; clear H; subst
      | H : Forall2 _ [] _ |- _ => inversion H; clear H; subst end;
    inversion Hx; clear Hx; subst; (eexists; split; [reflexivity|]); simpl; try reflexivity;
    repeat match goal with H : Z.of_N _ = _ |- _ => rewrite <- H; clear H end; lia.
Qed.

Lemma nat_validate_sound check l r : int_unsat_right check ->
  nat_validate check l r = Val Valid ->
  exists tl tr, tree (instantiate NVar l) = Val tl /\ tree (instantiate NVar r) = Val tr /\
    forall env, exists v, nat_den env tl = Val v /\ nat_den env tr = Val v.
Proof.
  intros Hc H. apply validate_neq_valid in H as (el & er & tl & tr & C & Tl & Tr & El & Er).
  exists tl, tr. repeat split; auto. intros env.
  destruct (nat_enc_den env tl el El) as (u & Hu & Eu).
  destruct (nat_enc_den env tr er Er) as (v & Hv & Ev).
  exists u. split; [exact Hu|]. rewrite Hv. f_equal. rewrite (Hc _ _ C) in Eu. lia.
Qed.

(* An identity between solver expressions that holds on the naturals holds on
   the integers: as a polynomial in one variable its coefficients vanish. *)
Fixpoint peval (p : list Z) (x : Z) : Z :=
  match p with [] => 0 | c :: q => c + x * peval q x end%Z.
Fixpoint padd (p q : list Z) : list Z :=
  match p, q with
  | [], _ => q
  | _, [] => p
  | a :: p', b :: q' => (a + b)%Z :: padd p' q'
  end.
Fixpoint pmul (p q : list Z) : list Z :=
  match p with
  | [] => []
  | a :: p' => padd (map (Z.mul a) q) (0%Z :: pmul p' q)
  end.
Lemma padd_eval p q x : peval (padd p q) x = (peval p x + peval q x)%Z.
Proof. revert q; induction p as [|a p IH]; intros [|b q]; simpl; try lia. rewrite IH. ring. Qed.
Lemma pscale_eval a q x : peval (map (Z.mul a) q) x = (a * peval q x)%Z.
Proof. induction q; simpl; [ring|]. rewrite IHq. ring. Qed.
Lemma pmul_eval p q x : peval (pmul p q) x = (peval p x * peval q x)%Z.
Proof. induction p; simpl; [ring|]. rewrite padd_eval, pscale_eval. simpl. rewrite IHp. ring. Qed.

Lemma pvanish p k : (0 <= k)%Z -> (forall x, (k <= x)%Z -> peval p x = 0%Z) -> forall x, peval p x = 0%Z.
Proof.
  revert k; induction p as [|c q IH]; intros k Hk H x; [reflexivity|].
  assert (c = 0%Z) as ->.
  { set (m := (k + Z.abs c + 1)%Z). specialize (H m ltac:(lia)). simpl in H.
    destruct (Z.eq_dec (peval q m) 0) as [E|E]; [rewrite E in H; lia|]. exfalso.
    assert (Z.abs (m * peval q m) = Z.abs c)%Z by lia. rewrite Z.abs_mul in H0. nia. }
  simpl. rewrite (IH (k + 1)%Z); [lia|lia|]. intros y Hy. specialize (H y ltac:(lia)). simpl in H. nia.
Qed.

Fixpoint poly_of (s : string) (env : string -> Z) (e : zint) : list Z :=
  match e with
  | IConst v => if String.eqb v s then [0; 1]%Z else [env v]
  | INum z => [z]
  | IAdd a b => padd (poly_of s env a) (poly_of s env b)
  | IMul a b => pmul (poly_of s env a) (poly_of s env b)
  end.
Definition upd {A} (env : string -> A) (s : string) (x : A) : string -> A :=
  fun v => if String.eqb v s then x else env v.
Lemma poly_of_eval s env e x : peval (poly_of s env e) x = zint_den (upd env s x) e.
Proof.
  induction e; cbn [poly_of zint_den].
  - unfold upd. destruct (String.eqb s0 s); cbn [peval]; ring.
  - simpl; ring.
  - rewrite padd_eval. congruence.
  - rewrite pmul_eval. congruence.
Qed.

Fixpoint evars (e : zint) : list string :=
  match e with IConst s => [s] | INum _ => [] | IAdd a b | IMul a b => evars a ++ evars b end.
Lemma zint_den_ext e env env' : (forall s, In s (evars e) -> env s = env' s) ->
  zint_den env e = zint_den env' e.
Proof.
  induction e; simpl; intros H; auto; rewrite IHe1, IHe2; auto; intros; apply H; apply in_app_iff; auto.
Qed.

Lemma nat_to_int_identity a b :
  (forall env, (forall s, (0 <= env s)%Z) -> zint_den env a = zint_den env b) ->
  forall env, zint_den env a = zint_den env b.
Proof.
  intros H.
  assert (forall vs env, (forall s, In s vs \/ (0 <= env s)%Z) -> zint_den env a = zint_den env b) as G.
  { induction vs as [|s vs IH]; intros env He.
    - apply H. intros s. destruct (He s) as [[]|]; auto.
    - assert (forall x, peval (padd (poly_of s env a) (map (Z.mul (-1)) (poly_of s env b))) x = 0%Z) as P.
      { apply (pvanish _ 0); [lia|]. intros x Hx. rewrite padd_eval, pscale_eval, !poly_of_eval.
        rewrite (IH (upd env s x)); [ring|]. intros v. unfold upd. destruct (String.eqb_spec v s) as [->|Hne]; auto.
        destruct (He v) as [[<-|Hv]|Hv]; auto. congruence. }
      specialize (P (env s)). rewrite padd_eval, pscale_eval, !poly_of_eval in P.
      rewrite (zint_den_ext a env (upd env s (env s))), (zint_den_ext b env (upd env s (env s))).
      + lia.
      + intros v _. unfold upd. destruct (String.eqb_spec v s); congruence.
      + intros v _. unfold upd. destruct (String.eqb_spec v s); congruence. }
  intros env.
  set (env' := fun s => if existsb (String.eqb s) (evars a ++ evars b) then env s else 0%Z).
  assert (forall s, In s (evars a ++ evars b) -> env s = env' s) as E.
  { intros s Hs. unfold env'. replace (existsb (String.eqb s) (evars a ++ evars b)) with true; auto.
    symmetry. apply existsb_exists. exists s. split; auto. apply String.eqb_refl. }
  rewrite (zint_den_ext a env env'), (zint_den_ext b env env') by (intros; apply E, in_app_iff; auto).
  apply (G (evars a ++ evars b)). intros s. unfold env'.
  destruct (existsb (String.eqb s) (evars a ++ evars b)) eqn:X; [|right; lia].
  left. apply existsb_exists in X as (v & Hv & Ev). apply String.eqb_eq in Ev. now subst.
Qed.

Lemma nat_validate_complete check l r : int_sat_right check ->
  nat_validate check l r = Val Invalid ->
  exists tl tr, tree (instantiate NVar l) = Val tl /\ tree (instantiate NVar r) = Val tr /\
    ~ forall env, nat_den env tl = nat_den env tr.
Proof.
  intros Hc H. apply validate_neq_invalid in H as (el & er & tl & tr & C & Tl & Tr & El & Er).
  exists tl, tr. repeat split; auto. intros Heq.
  destruct (Hc _ _ C) as (env & Hne). apply Hne, nat_to_int_identity.
  clear env Hne. intros env He.
  destruct (nat_enc_den (fun s => Z.to_N (env s)) tl el El) as (u & Hu & Eu).
  destruct (nat_enc_den (fun s => Z.to_N (env s)) tr er Er) as (v & Hv & Ev).
  rewrite (Heq _), Hv in Hu. inversion Hu; subst v.
  rewrite (zint_den_ext el env (fun s => Z.of_N (Z.to_N (env s)))),
    (zint_den_ext er env (fun s => Z.of_N (Z.to_N (env s)))); try lia;
    intros s _; rewrite Z2N.id; auto.
Qed.

(* ---- binary positives ---- *)
Lemma pos_constant_id_val : forall fuel c, (c < 2 ^ N.of_nat fuel)%N -> (0 < fuel)%nat ->
  exists t, pos_constant_id fuel c = Val t /\ wf_term pos_arity t /\
    forall env, pos_den env t = Val c.
Proof.
  induction fuel as [|fuel IH]; intros c Hc Hf; [lia|].
  cbn [pos_constant_id].
  destruct (N.lt_ge_cases c 2) as [Hlt|Hge].
  { assert (c = 0 \/ c = 1)%N as [->| ->] by lia;
    eexists; (split; [reflexivity|]); split; [repeat constructor|reflexivity|repeat constructor|reflexivity]. }
  rewrite Nat2N.inj_succ, N.pow_succ_r' in Hc.
  assert (0 < fuel)%nat as Hf'.
  { destruct fuel; [|lia]. simpl in Hc. lia. }
  assert (forall X : res (term pos_op) * res (term pos_op) * res (term pos_op),
    match c with 0%N => fst (fst X) | 1%N => snd (fst X) | _ => snd X end = snd X) as Hm.
  { intros X. destruct c as [|[p|p|]]; try reflexivity; lia. }
  set (Y := if (c mod 2 =? 0)%N
            then let* t := pos_constant_id fuel (c / 2) in Val (T PXO [t])
            else let* t := pos_constant_id fuel ((c - 1) / 2) in Val (T PXI [t])).
  pose proof (Hm (Val (T PZ []), Val (T PXH []), Y)) as E. cbn [fst snd] in E. rewrite E. clear E Hm.
  unfold Y. pose proof (N.div_mod c 2 ltac:(lia)) as Hdm. pose proof (N.mod_lt c 2 ltac:(lia)).
  destruct (N.eqb_spec (c mod 2) 0) as [E0|E1].
  - destruct (IH (c / 2)%N) as (t & -> & Hw & Hd); [apply N.div_lt_upper_bound; lia|auto|].
    eexists; split; [reflexivity|]. split; [constructor; repeat constructor; auto|].
    intros env. unfold pos_den in *. cbn [fold_term rmapM]. rewrite Hd. cbn [rbind with_vars pos_to_var pos_sem].
    f_equal. revert Hdm H E0. generalize (c / 2)%N (c mod 2)%N. intros q m -> ? ?. lia.
  - assert ((c - 1) / 2 = c / 2)%N as Ed.
    { symmetry. apply (N.div_unique (c - 1) 2 (c / 2) 0); [lia|].
      revert Hdm H E1. generalize (c / 2)%N (c mod 2)%N. intros q m -> ? ?. lia. }
    rewrite Ed.
    destruct (IH (c / 2)%N) as (t & -> & Hw & Hd); [apply N.div_lt_upper_bound; lia|auto|].
    eexists; split; [reflexivity|]. split; [constructor; repeat constructor; auto|].
    intros env. unfold pos_den in *. cbn [fold_term rmapM]. rewrite Hd. cbn [rbind with_vars pos_to_var pos_sem].
    f_equal. revert Hdm H E1. generalize (c / 2)%N (c mod 2)%N. intros q m -> ? ?. lia.
Qed.

Lemma pos_constant_as_id fuel c : pos_constant fuel c = pos_constant_id (S fuel) c.
Proof. reflexivity. Qed.

(* a usize is below 2^64: recursion depth at most 64 *)
Lemma pos_constant_val c : (c < 2 ^ 64)%N ->
  exists t, pos_constant 63 c = Val t /\ wf_term pos_arity t /\ forall env, pos_den env t = Val c.
Proof.
  intros Hc. rewrite pos_constant_as_id. apply pos_constant_id_val; [exact Hc|lia].
Qed.
