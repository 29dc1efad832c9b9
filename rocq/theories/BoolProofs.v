(* The boolean domain. *)
From Verif Require Import Base BaseProofs Lang LangProofs Util UtilProofs BoolDom DomainSpec.

Definition bool_sem_opt (o : bool_op) (args : list (option bool)) : res (option bool) :=
  match o, args with
  | BNot, [x] => Val (option_map negb x)
  | BAnd, [Some x; Some y] => Val (Some (x && y))
  | BOr, [Some x; Some y] => Val (Some (x || y))
  | BXor, [Some x; Some y] => Val (Some (xorb x y))
  | BImplies, [Some x; Some y] => Val (Some (negb x || y))
  | (BAnd | BOr | BXor | BImplies), [_; _] => Val None
  | BLit b, [] => Val (Some b)
  | _, _ => Panic
  end.

Lemma bool_pointwise : pointwise bool_arity bool_to_var bool_eval bool_sem_opt.
Proof.
  intros n o args Ho Hl Hn.
  destruct o; try discriminate Ho; simpl in Hl;
    repeat (destruct args as [|? args]; try discriminate Hl);
    repeat match goal with H : Forall _ (_ :: _) |- _ => inversion H; clear H; subst end;
    (eexists; split; [reflexivity|]); split;
    try (rewrite ?map1_length; solve [auto]); try (apply map2_length; auto); try apply repeat_length;
    intros r Hr; cbn [map bool_sem_opt];
    try (rewrite map1_nth; destruct (nth r _ None); reflexivity);
    try (rewrite map2_nth; destruct (nth r _ None); [destruct (nth r _ None)|]; reflexivity);
    try (rewrite nth_repeat_lt by auto; reflexivity).
Qed.

Lemma tall_true {O} (t : term O) : tall (fun _ => True) t.
Proof. induction t using term_ind'. constructor; auto. Qed.

Lemma bool_point_den env t v : bool_den env t = Val v ->
  point bool_sem_opt bool_to_var (fun s => Some (env s)) t = Val (Some v).
Proof.
  intros Hv. unfold point.
  destruct (fold_term_rel (fun _ => True) (with_vars bool_to_var env bool_sem)
    (with_vars bool_to_var (fun s => Some (env s)) bool_sem_opt)
    (fun v x => x = Some v) t v) with (3 := Hv) as (x & Hx & ->); auto using tall_true.
  clear. intros o xs ys x _ HR Hx. unfold with_vars in *.
  destruct (bool_to_var o) eqn:Ev;
    [inversion Hx; subst; eexists; split; [reflexivity|auto]; destruct o; try discriminate Ev;
     inversion Ev; reflexivity|].
  destruct o; try discriminate Ev; simpl in *;
    repeat (destruct xs as [|? xs]; simpl in Hx; try discriminate Hx);
    repeat match goal with
      | H : Forall2 _ (_ :: _) _ |- _ => inversion H; clear H; subst
      | H : Forall2 _ [] _ |- _ => inversion H; clear H; subst end;
    inversion Hx; clear Hx; subst; (eexists; split; [reflexivity|]);
    repeat match goal with b : bool |- _ => destruct b end; reflexivity.
Qed.

Lemma bool_den_total env t : wf_term bool_arity t -> exists v, bool_den env t = Val v.
Proof.
  intros H. destruct (fold_term_total bool_arity (with_vars bool_to_var env bool_sem)
    (fun _ => True) t) as (v & Hv & _); eauto.
  intros o args Hl _. unfold with_vars. destruct o; simpl in Hl |- *; eauto;
  repeat (destruct args as [|? args]; try discriminate Hl); eauto.
Qed.

(* the vector of a term lists its values on all assignments *)
Lemma bool_cvec_rows vars n vcs t : NoDup vars -> bool_init vars = Val (n, vcs) ->
  wf_term bool_arity t -> incl (tvars bool_to_var t) vars ->
  exists c, cvec_term bool_eval bool_to_var n (var_cvec vcs) t = Val c /\ length c = n /\
    forall r env, r < n ->
      (forall s, In s vars -> nth r (var_cvec vcs s) None = Some (env s)) ->
      exists v, bool_den env t = Val v /\ nth r c None = Some v.
Proof.
  intros Hnd Hi Ht Hvars.
  destruct (cvec_pointwise bool_arity bool_to_var bool_eval bool_sem_opt n (var_cvec vcs) t bool_pointwise)
    as (c & C1 & C2 & C3); auto.
  { intros s Hs. eapply init_product_length; eauto. }
  exists c. repeat split; auto. intros r env Hr He.
  destruct (bool_den_total env t Ht) as (v & Hv). exists v. split; [exact Hv|].
  specialize (C3 r Hr). rewrite (point_ext _ _ _ (fun s => Some (env s)) t) in C3 by auto.
  rewrite (bool_point_den env t v Hv) in C3. congruence.
Qed.

Lemma bool_cvec_iff vars n vcs t1 t2 : NoDup vars -> bool_init vars = Val (n, vcs) ->
  wf_term bool_arity t1 -> wf_term bool_arity t2 ->
  incl (tvars bool_to_var t1) vars -> incl (tvars bool_to_var t2) vars ->
  exists c1 c2, cvec_term bool_eval bool_to_var n (var_cvec vcs) t1 = Val c1 /\
    cvec_term bool_eval bool_to_var n (var_cvec vcs) t2 = Val c2 /\
    (c1 = c2 <-> forall env, bool_den env t1 = bool_den env t2).
Proof.
  intros Hnd Hi H1 H2 V1 V2.
  destruct (bool_cvec_rows vars n vcs t1) as (c1 & A1 & A2 & A3); auto.
  destruct (bool_cvec_rows vars n vcs t2) as (c2 & B1 & B2 & B3); auto.
  exists c1, c2. repeat split; auto.
  - intros -> env.
    destruct (init_product_row bool_samples vars n vcs env Hnd Hi) as (r & Hr & He).
    { intros s. destruct (env s); simpl; auto. }
    destruct (A3 r env Hr He) as (v & -> & Hv). destruct (B3 r env Hr He) as (v' & -> & Hv').
    congruence.
  - intros H. apply cvec_ext; [congruence|]. intros r Hr. rewrite A2 in Hr.
    destruct (init_product_row_env bool_samples true vars n vcs r Hnd (or_introl eq_refl) Hi Hr)
      as (env & _ & He).
    destruct (A3 r env Hr He) as (v & E1 & ->). destruct (B3 r env Hr He) as (v' & E2 & ->).
    specialize (H env). congruence.
Qed.

(* ---- intervals ---- *)
Lemma bool_interval_sound o args xs v :
  (forall i, In i args -> low i <> None /\ high i <> None) ->
  length args = bool_arity o ->
  Forall2 (within ble) args xs ->
  (forall env, with_vars bool_to_var env bool_sem o xs = Val v ->
  exists i, bool_mk_interval o args = Val i /\ within ble i v /\ low i <> None /\ high i <> None).
Proof.
  intros Hfin Hl HF env Hv. unfold with_vars in Hv.
  assert (forall i, In i args -> exists l h, i = Itv (Some l) (Some h)) as H'.
  { intros [[l|] [h|]] Hi; destruct (Hfin _ Hi); simpl in *; try congruence. eauto. }
  clear Hfin.
  destruct o; simpl in Hl; repeat (destruct args as [|? args]; try discriminate Hl);
    repeat match goal with i : interval bool |- _ =>
      let a := fresh in let b := fresh in
      destruct (H' i) as (a & b & ->); [simpl; auto|] end; clear H';
    repeat match goal with
      | H : Forall2 _ (_ :: _) _ |- _ => inversion H; clear H; subst
      | H : Forall2 _ [] _ |- _ => inversion H; clear H; subst end;
    simpl in Hv; inversion Hv; clear Hv; subst;
    repeat match goal with H : within _ _ _ |- _ => destruct H as [? ?]; simpl in * end;
    repeat match goal with H : forall l, Some ?a = Some l -> _ |- _ => specialize (H a eq_refl); unfold ble in H end;
    try (repeat match goal with b : bool |- _ => destruct b end;
         try (exfalso; intuition congruence);
         eexists; (split; [reflexivity|]); repeat split; simpl; intros; unfold ble; congruence).
Qed.

Lemma bool_interval_total o args :
  (forall i, In i args -> exists l h, low i = Some l /\ high i = Some h /\ ble l h) ->
  length args = bool_arity o -> exists i, bool_mk_interval o args = Val i /\
    exists l h, low i = Some l /\ high i = Some h /\ ble l h.
Proof.
  intros H Hl.
  assert (forall i, In i args -> exists l h, i = Itv (Some l) (Some h) /\ ble l h) as H'.
  { intros [l h] Hi. destruct (H _ Hi) as (l' & h' & E1 & E2 & E3). simpl in *. subst. eauto. }
  destruct o; simpl in Hl; repeat (destruct args as [|? args]; try discriminate Hl);
    repeat match goal with i : interval bool |- _ =>
      let a := fresh in let b := fresh in let c := fresh in
      destruct (H' i) as (a & b & -> & c); [simpl; auto|] end; clear H H';
    repeat match goal with b : bool |- _ => destruct b end;
    try (exfalso; unfold ble in *; intuition congruence);
    (eexists; split; [reflexivity|]); simpl; (eexists; eexists; repeat split; intros E; congruence).
Qed.

(* the interval of a term, and what folding a one-point interval means *)
Lemma bool_interval_term t : wf_term bool_arity t ->
  exists l h, fold_term bool_mk_interval t = Val (Itv (Some l) (Some h)) /\ ble l h /\
    forall env v, bool_den env t = Val v -> ble l v /\ ble v h.
Proof.
  induction t as [o ts IH] using term_ind'. intros Hwf. inversion Hwf as [o' ts' Hl Hts]; subst.
  assert (exists is, rmapM (fold_term bool_mk_interval) ts = Val is /\ length is = length ts /\
    (forall i, In i is -> exists l h, low i = Some l /\ high i = Some h /\ ble l h) /\
    (forall env xs, rmapM (bool_den env) ts = Val xs -> Forall2 (within ble) is xs)) as
    (is & E & El & Ei & Es).
  { clear Hl Hwf. induction Hts as [|t ts Ht Hts IHts].
    - exists []. repeat split; auto; [intros i []|]. intros env xs H. inversion H. constructor.
    - inversion IH as [|? ? IHt IHrest]; subst.
      destruct (IHts IHrest) as (is & E & El & Ei & Es). destruct (IHt Ht) as (l & h & E1 & E2 & E3).
      exists (Itv (Some l) (Some h) :: is). cbn [rmapM]. rewrite E1, E. simpl.
      repeat split; auto.
      + intros i [<-|Hi]; [simpl; eauto|auto].
      + intros env xs H. apply rbind_val in H as (v & Hv & H). apply rbind_val in H as (vs & Hvs & H).
        inversion H; subst. constructor; [|eauto]. destruct (E3 env v Hv) as [? ?].
        split; simpl; intros ? X; inversion X; subst; auto. }
  destruct (bool_interval_total o is) as ([l0 h0] & I1 & l & h & I2 & I3 & I4); auto; try congruence.
  simpl in I2, I3. subst l0 h0. exists l, h. split; [|split; [exact I4|]].
  - cbn [fold_term]. rewrite E. exact I1.
  - intros env v Hv. unfold bool_den in Hv. cbn [fold_term] in Hv.
    apply rbind_val in Hv as (xs & Hxs & Hv).
    destruct (bool_interval_sound o is xs v) with (env := env) as (i & J1 & [J2 J3] & _); auto.
    + intros i Hi. destruct (Ei i Hi) as (a & b & -> & -> & _). split; discriminate.
    + congruence.
    + eapply Es. exact Hxs.
    + rewrite I1 in J1. inversion J1; subst i. simpl in *. auto.
Qed.

Lemma bool_folded t c : wf_term bool_arity t ->
  fold_term bool_mk_interval t = Val (Itv (Some c) (Some c)) -> forall env, bool_den env t = Val c.
Proof.
  intros Hwf H env. destruct (bool_interval_term t Hwf) as (l & h & E & _ & Hs).
  rewrite E in H. inversion H; subst. destruct (bool_den_total env t Hwf) as (v & Hv).
  rewrite Hv. f_equal. destruct (Hs env v Hv) as [A B]. unfold ble in *.
  destruct c, v; auto; exfalso; intuition discriminate.
Qed.

Lemma bool_init_total vars : vars <> [] -> exists vcs, bool_init vars = Val (2 ^ length vars, vcs).
Proof.
  intros H. destruct (self_product_shape (map Some bool_samples) (length vars)) as (cols & E & _).
  unfold bool_init. rewrite (init_product_val _ _ _ H E). eexists. reflexivity.
Qed.
