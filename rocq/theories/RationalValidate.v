(* Proofs about the validation of rational rules. *)
From Coq Require Import QArith Qcanon.
From Verif Require Import Base BaseProofs EnumSpec Sexp Reader ReaderProofs Lang LangProofs Syntax SyntaxProofs.
From Verif Require Import Rule Ruleset RuleSpec RuleTextProofs DomainSpec Number Rational RationalSpec RationalProofs.
Open Scope string_scope.
Open Scope list_scope.

(* ---- instantiation on trees ---- *)

Lemma run_buf_instantiate {O A} mk_var (f : O -> list A -> res A) p : forall buf,
  run_buf f (instantiate mk_var p) buf = run_buf (fun o => f (instantiate_op mk_var o)) p buf.
Proof.
  induction p as [|n p IH]; intros buf; [reflexivity|]. cbn. destruct (rmapM (index buf) (nch n)) as [args|]; [|reflexivity].
  cbn. destruct (f _ args); [|reflexivity]. cbn. apply IH.
Qed.
Lemma fold_instantiate {O A} mk_var (f : O -> list A -> res A) p :
  fold_rec f (instantiate mk_var p) = fold_rec (fun o => f (instantiate_op mk_var o)) p.
Proof. unfold fold_rec. rewrite run_buf_instantiate. reflexivity. Qed.
Lemma rmapM_map {A B C} (f : B -> res C) (g : A -> B) l : rmapM f (map g l) = rmapM (fun a => f (g a)) l.
Proof. induction l as [|a l IH]; [reflexivity|]. cbn. rewrite IH. reflexivity. Qed.
Lemma rmapM_ext {A B} (f g : A -> res B) l : Forall (fun a => f a = g a) l -> rmapM f l = rmapM g l.
Proof. induction 1 as [|a l E _ IH]; [reflexivity|]. cbn. rewrite E, IH. reflexivity. Qed.
Lemma fold_inst_term {O A} mk_var (f : O -> list A -> res A) t :
  fold_term f (inst_term mk_var t) = fold_term (fun o => f (instantiate_op mk_var o)) t.
Proof.
  induction t as [o ts IH] using term_ind'. cbn [inst_term fold_term]. rewrite rmapM_map.
  rewrite (rmapM_ext _ _ _ IH). reflexivity.
Qed.
Lemma tree_instantiate {O} (mk_var : string -> O) p t : tree p = Val t -> tree (instantiate mk_var p) = Val (inst_term mk_var t).
Proof.
  intros H. unfold tree at 1. rewrite fold_instantiate.
  destruct (fold_rec (fun o ts => Val (T (instantiate_op mk_var o) ts)) p) as [t'|] eqn:E.
  - pose proof (fold_rec_tree _ p t t' H E) as F.
    pose proof (fold_inst_term mk_var (fun o ts => Val (T o ts)) t) as G. rewrite fold_id in G. cbv beta in G.
    rewrite F in G. congruence.
  - exfalso. unfold tree, fold_rec in H, E. apply rbind_val in H as (ts & H1 & H2).
    assert (forall (p : pat O) b1 b2 ts, length b1 = length b2 -> run_buf (fun o l => Val (T o l)) p b1 = Val ts ->
      exists us, run_buf (fun o ts => Val (T (instantiate_op mk_var o) ts)) p b2 = Val us /\ length us = length ts) as G.
    { clear. induction p as [|n p IH]; intros b1 b2 ts Hl Hb; [exists b2; inversion Hb; subst; auto|].
      cbn in *. apply rbind_val in Hb as (args & A1 & A2). cbn in A2.
      assert (exists args2, rmapM (index b2) (nch n) = Val args2) as (args2 & ->).
      { clear - Hl A1. apply rmapM_val in A1. revert A1. generalize (nch n). intros is0 A1. induction A1 as [|i a l l' E _ IH]; [exists []; reflexivity|].
        destruct IH as (args2 & IH). apply index_val in E.
        assert (i < length b2) as Hi by (rewrite <- Hl; apply nth_error_Some; congruence).
        apply nth_error_Some in Hi. cbn. unfold index at 1. destruct (nth_error b2 i); [|congruence]. cbn. rewrite IH. cbn. eauto. }
      cbn. eapply IH; [|exact A2]. rewrite !app_length. cbn. lia. }
    destruct (G p [] [] ts eq_refl H1) as (us & R & L). rewrite R in E. cbn in E. unfold pop_unwrap in *.
    destruct (rev us) eqn:Eu; [|discriminate]. destruct (rev ts) eqn:Et; [discriminate|].
    apply (f_equal (@length _)) in Eu, Et. rewrite rev_length in *. cbn in *. lia.
Qed.

(* ---- the conditions, on trees ---- *)
Fixpoint ec (t : term math_op) (path : zbool) : res (list zbool) :=
  match t with
  | T o ts =>
      let all := let* r := rmapM (fun x => ec x path) ts in Val (concat r) in
      match o, ts with
      | _, [] => Val []
      | MDiv, [x; d] =>
          let* e := fold_term math_to_z3 d in
          let* r := all in
          Val (FAnd (FEq e rzero) path :: r)
      | MDiv, _ => Panic
      | MIf, [c; y; z] =>
          let* e := fold_term math_to_z3 c in
          let* a := ec y (FAnd path (FNot (FEq e rzero))) in
          let* b := ec z (FAnd path (FEq e rzero)) in
          Val (a ++ b)
      | MIf, _ => Panic
      | _, _ => all
      end
  end.

Notation mok := (eov_ok math_from_op math_name math_arity).
Notation mpar := (par math_arity).

Lemma term_sexp_words {O} (name : O -> string) t : tall (fun o => word (name o)) t -> words (term_sexp name t).
Proof.
  induction t as [o ts IH] using term_ind'. intros Ht. inversion Ht as [? ? Ho Hts]; subst.
  destruct ts as [|t0 ts0]; [exact Ho|].
  assert (term_sexp name (T o (t0 :: ts0)) = Lst (Atom (name o) :: map (term_sexp name) (t0 :: ts0))) as -> by reflexivity.
  apply words_list. intros s [<-|Hs]; [exact Ho|]. apply in_map_iff in Hs as (t & <- & Hin).
  rewrite Forall_forall in IH, Hts. auto.
Qed.

Lemma sexp_to_z3_tree t : tall mok t -> wf_term mpar t ->
  sexp_to_z3 (term_sexp (pat_name math_name) t) = fold_term math_to_z3 (inst_term MVar t).
Proof.
  intros H1 H2. unfold sexp_to_z3, parse_pat, parse_rec.
  pose proof (tall_mono _ _ t (eov_ok_op math_from_op math_name math_arity) H1) as Hop.
  assert (parse_str (display (term_sexp (pat_name math_name) t)) = Some (term_sexp (pat_name math_name) t)) as ->.
  { rewrite <- (sapp_nil (display _)). apply parse_display; [|exact I]. apply term_sexp_words.
    eapply tall_mono; [|exact Hop]. intros o [? ?]; assumption. }
  rewrite (term_of_sexp_show _ _ mpar) by assumption. cbn [option_map unwrap rbind].
  rewrite fold_instantiate, fold_to_rec, fold_inst_term. reflexivity.
Qed.

Lemma ec_sexp t : tall mok t -> wf_term mpar t -> forall path,
  error_conditions (term_sexp (pat_name math_name) t) path = ec (inst_term MVar t) path.
Proof.
  induction t as [o ts IH] using term_ind'. intros Ht Hw path.
  inversion Ht as [? ? Ho Hts]; inversion Hw as [? ? Hl Hwt]; subst.
  destruct ts as [|t0 ts0].
  { cbn. destruct (instantiate_op MVar o); reflexivity. }
  assert (forall path, rmapM (fun x => error_conditions x path) (map (term_sexp (pat_name math_name)) (t0 :: ts0)) =
          rmapM (fun x => ec x path) (map (inst_term MVar) (t0 :: ts0))) as Hall.
  { intros p. rewrite !rmapM_map. apply rmapM_ext. rewrite Forall_forall in *. intros t Hin. apply IH; auto. }
  assert (term_sexp (pat_name math_name) (T o (t0 :: ts0)) =
          Lst (Atom (pat_name math_name o) :: map (term_sexp (pat_name math_name)) (t0 :: ts0))) as -> by reflexivity.
  remember (t0 :: ts0) as ts eqn:Ets.
  destruct o as [o|v]; [|cbn in Hl; subst; discriminate]. cbn [inst_term instantiate_op pat_name].
  destruct o; cbn in Hl; try (subst ts; discriminate Hl);
    cbn [error_conditions math_name]; cbn [String.eqb Ascii.eqb Bool.eqb];
    try (rewrite Hall; subst ts; reflexivity).
  - (* division *)
    destruct ts as [|x [|d [|? ?]]]; try discriminate Hl. cbn [map] in *.
    inversion Hts as [|? ? T1 T2]; inversion T2 as [|? ? T3 _]; inversion Hwt as [|? ? W1 W2]; inversion W2 as [|? ? W3 _]; subst.
    rewrite sexp_to_z3_tree by assumption. rewrite Hall. reflexivity.
  - (* conditional *)
    destruct ts as [|c [|y [|z [|? ?]]]]; try discriminate Hl. cbn [map] in *.
    inversion Hts as [|? ? T1 T2]; inversion T2 as [|? ? T3 T4]; inversion T4 as [|? ? T5 _];
      inversion Hwt as [|? ? W1 W2]; inversion W2 as [|? ? W3 W4]; inversion W4 as [|? ? W5 _];
      inversion IH as [|? ? I1 I2]; inversion I2 as [|? ? I3 I4]; inversion I4 as [|? ? I5 _]; subst.
    rewrite sexp_to_z3_tree by assumption. cbn [ec].
    destruct (fold_term math_to_z3 (inst_term MVar c)) as [e|]; [|reflexivity]. cbn [rbind].
    rewrite I3, I5 by assumption. reflexivity.
Qed.

Lemma inst_wf t : wf_term mpar t -> wf_term math_arity (inst_term MVar t).
Proof.
  induction t as [o ts IH] using term_ind'. intros Hw. inversion Hw as [? ? Hl Hts]; subst. cbn [inst_term]. constructor.
  - rewrite map_length, Hl. destruct o; reflexivity.
  - apply Forall_forall. intros x Hx. apply in_map_iff in Hx as (t & <- & Ht). rewrite Forall_forall in *. auto.
Qed.

(* ---- meaning ---- *)
Lemma math_den_total env t : wf_term math_arity t -> exists v, math_den env t = Val v.
Proof.
  intros Hw. destruct (fold_term_total math_arity (with_vars math_to_var (fun s => Some (env s)) math_sem) (fun _ => True) t) as (v & E & _); eauto.
  intros o args Hl _. destruct o; cbn in *; repeat (destruct args as [|? args]; try discriminate Hl); eauto.
Qed.
Lemma math_den_args env o ts : Forall (wf_term math_arity) ts -> math_to_var o = None ->
  exists vs, rmapM (math_den env) ts = Val vs /\ math_den env (T o ts) = math_sem o vs.
Proof.
  intros H E. assert (exists vs, rmapM (math_den env) ts = Val vs) as (vs & Hvs).
  { induction H as [|t ts Hw _ (vs & IH)]; [exists []; reflexivity|].
    destruct (math_den_total env t Hw) as (v & Hv). exists (v :: vs). cbn. rewrite Hv, IH. reflexivity. }
  exists vs. split; [exact Hvs|]. unfold math_den at 1. cbn [fold_term].
  change (fold_term (with_vars math_to_var (fun s => Some (env s)) math_sem)) with (math_den env).
  rewrite Hvs. cbn [rbind]. unfold with_vars. rewrite E. reflexivity.
Qed.

Lemma qzero_eq : qzero = Q2Qc 0.
Proof. reflexivity. Qed.

Lemma abs_ite (x : Qc) : (if if Qclt_le_dec 0 x then false else true then (- x)%Qc else x) = (if Qclt_le_dec x 0 then (- x)%Qc else x).
Proof.
  destruct (Qclt_le_dec 0 x) as [L|L], (Qclt_le_dec x 0) as [L'|L']; try reflexivity.
  - exfalso. exact (Qclt_not_le _ _ L (Qclt_le_weak _ _ L')).
  - assert (x = 0%Qc) as -> by (apply Qcle_antisym; assumption). apply Qc_is_canon. reflexivity.
Qed.

Section Meaning.
  Variable div0 : Qc -> Qc.
  Variable env : string -> Qc.
  Notation rd := (rden div0 env).
  Notation fd := (fden div0 env).

  Lemma math_enc_den t e : fold_term math_to_z3 t = Val e ->
    exists v, math_den env t = Val v /\ forall q, v = Some q -> rd e = q.
  Proof.
    intros H. apply (fold_term_rel (fun _ => True) math_to_z3 _ (fun e v => forall q, v = Some q -> rd e = q) t e);
      auto using tall_true.
    intros o xs ys x _ HF E. unfold with_vars.
    destruct o; inversion HF as [|x1 y1 xs1 ys1 R1 F1]; subst; cbn [math_to_z3] in E; try discriminate E;
      try (inversion F1 as [|x2 y2 xs2 ys2 R2 F2]; subst; try discriminate E);
      try (inversion F2 as [|x3 y3 xs3 ys3 R3 F3]; subst; try discriminate E);
      try (inversion F3; subst; try discriminate E); eexists; (split; [reflexivity|]); intros qq Hq;
      try (destruct y1 as [q1|]; [|discriminate]; specialize (R1 q1 eq_refl));
      try (destruct y2 as [q2|]; [|discriminate]; specialize (R2 q2 eq_refl));
      try (inversion E; subst x; clear E); cbn [both option_map] in Hq; cbn [rden fden rzero negb].
    - rewrite R1, R2. congruence.
    - rewrite R1, R2. congruence.
    - rewrite R1, R2. congruence.
    - rewrite R1, R2. destruct (Qc_eq_dec q2 0); congruence.
    - rewrite R1. congruence.
    - rewrite R1. rewrite abs_ite. congruence.
    - rewrite R1. rewrite ?qzero_eq. destruct (Qc_eq_dec q1 0); cbn; auto.
    - destruct (in_i32 _ && _); inversion E; subst. cbn. congruence.
    - congruence.
  Qed.

  Definition all_false (cs : list zbool) : Prop := forall c, In c cs -> fd c = false.
  Lemma all_false_app a b : all_false (a ++ b) <-> all_false a /\ all_false b.
  Proof.
    split.
    - intros H. split; intros c Hc; apply H; apply in_app_iff; auto.
    - intros [H1 H2] c Hc. apply in_app_iff in Hc as [Hc|Hc]; auto.
  Qed.
  Lemma all_false_concat l : all_false (concat l) <-> forall a, In a l -> all_false a.
  Proof.
    split.
    - intros H a Ha c Hc. apply H. apply in_concat. eauto.
    - intros H c Hc. apply in_concat in Hc as (a & Ha & Hc). eapply H; eauto.
  Qed.

  (* conditions on a path that is not taken *)
  Lemma ec_path_false t : forall path cs, fd path = false -> ec t path = Val cs -> all_false cs.
  Proof.
    induction t as [o ts IH] using term_ind'. intros path cs Hp H.
    assert (forall r, rmapM (fun x => ec x path) ts = Val r -> all_false (concat r)) as Hall.
    { intros r Hr. apply all_false_concat. intros a Ha. apply rmapM_val in Hr.
      clear H. induction Hr as [|t a' ts r E _ IHr]; [destruct Ha|]. inversion IH; subst.
      destruct Ha as [<-|Ha]; eauto. }
    cbn [ec] in H. destruct ts as [|t0 ts0]; [destruct o; inversion H; intros c []|].
    destruct o; try (apply rbind_val in H as (r & H1 & H2); inversion H2; subst; apply Hall; assumption).
    - (* division *)
      destruct ts0 as [|d [|? ?]]; try discriminate H. apply rbind_val in H as (e & He & H).
      apply rbind_val in H as (r0 & H1 & H2). apply rbind_val in H1 as (r & H1 & H3).
      inversion H2; inversion H3; subst. intros c [<-|Hc].
      + cbn. rewrite Hp. apply andb_false_r.
      + exact (Hall r H1 c Hc).
    - (* conditional *)
      destruct ts0 as [|y [|z [|? ?]]]; try discriminate H. apply rbind_val in H as (e & He & H).
      apply rbind_val in H as (a & Ha & H). apply rbind_val in H as (b & Hb & H). inversion H; subst.
      inversion IH as [|? ? _ I2]; inversion I2 as [|? ? I3 I4]; inversion I4 as [|? ? I5 _]; subst.
      apply all_false_app. split; [eapply I3; [|exact Ha]|eapply I5; [|exact Hb]]; cbn; rewrite Hp; reflexivity.
  Qed.

  (* a term with a value raises no condition *)
  Lemma ec_defined t : wf_term math_arity t -> forall path cs q, math_den env t = Val (Some q) -> ec t path = Val cs ->
    all_false cs.
  Proof.
    induction t as [o ts IH] using term_ind'. intros Hw path cs q Hq H.
    inversion Hw as [? ? Hl Hts]; subst.
    destruct ts as [|t0 ts0]; [cbn in H; destruct o; inversion H; intros c []|].
    destruct (math_to_var o) eqn:Eo; [destruct o; discriminate|].
    destruct (math_den_args env o (t0 :: ts0) Hts Eo) as (vs & Hvs & Ed). rewrite Ed in Hq.
    remember (t0 :: ts0) as ts eqn:Ets.
    assert ((forall v, In v vs -> exists q, v = Some q) -> forall path r, rmapM (fun x => ec x path) ts = Val r -> all_false (concat r)) as Hall.
    { intros Hv p r Hr. apply all_false_concat. intros a Ha. apply rmapM_val in Hr. apply rmapM_val in Hvs.
      clear H Hw Hl Ets Ed Hq. revert vs Hvs Hv. induction Hr as [|t a' ts r E _ IHr]; intros vs Hvs Hv; [destruct Ha|].
      inversion Hvs as [|? v ? vs' Ev Hvs']; subst. inversion IH; inversion Hts; subst.
      destruct (Hv v (or_introl eq_refl)) as (q' & ->).
      destruct Ha as [<-|Ha]; [eauto|]. apply (IHr H2 H6 Ha vs' Hvs'). intros v Hin. apply Hv. right. exact Hin. }
    cbn [ec] in H.
    assert (forall v1 v2, (exists f, Val (both f v1 v2) = Val (Some q)) -> forall v, In v [v1; v2] -> exists q, v = Some q) as Hboth.
    { intros v1 v2 (f & E) v Hin. destruct v1 as [q1|]; [|discriminate]. destruct v2 as [q2|]; [|discriminate].
      destruct Hin as [<-|[<-|[]]]; eauto. }
    assert (forall (f : Qc -> Qc) v1, Val (option_map f v1) = Val (Some q) -> forall v, In v [v1] -> exists q, v = Some q) as Hone.
    { intros f v1 E v [<-|[]]. destruct v1; [eauto|discriminate]. }
    destruct o; cbn in Hl; try discriminate Hl; try (subst ts; discriminate).
    - destruct vs as [|v1 [|v2 [|? ?]]]; try discriminate Hq. subst ts. apply rbind_val in H as (r & H1 & H2). inversion H2; subst.
      eapply Hall; [|exact H1]. apply Hboth. eauto.
    - destruct vs as [|v1 [|v2 [|? ?]]]; try discriminate Hq. subst ts. apply rbind_val in H as (r & H1 & H2). inversion H2; subst.
      eapply Hall; [|exact H1]. apply Hboth. eauto.
    - destruct vs as [|v1 [|v2 [|? ?]]]; try discriminate Hq. subst ts. apply rbind_val in H as (r & H1 & H2). inversion H2; subst.
      eapply Hall; [|exact H1]. apply Hboth. eauto.
    - (* division *)
      destruct vs as [|v1 [|v2 [|? ?]]]; try discriminate Hq. destruct ts as [|x [|d [|? ?]]]; try discriminate Hl.
      apply rbind_val in H as (e & He & H). apply rbind_val in H as (r0 & H1 & H2). apply rbind_val in H1 as (r & H1 & H3).
      inversion H2; inversion H3; subst. cbn [math_sem both] in Hq.
      intros c [<-|Hc].
      + destruct (math_enc_den d e He) as (v & Dv & Rv). cbn [rmapM] in Hvs.
        apply rbind_val in Hvs as (w1 & _ & Hvs). rewrite Dv in Hvs. inversion Hvs; subst w1 v2.
        destruct v1 as [q1|]; [|discriminate]. destruct v as [q2|]; [|discriminate]. cbn [both math_sem] in Hq. cbn [fden rden rzero]. rewrite (Rv q2 eq_refl).
        rewrite ?qzero_eq. destruct (Qc_eq_dec q2 0); [discriminate|reflexivity].
      + refine (Hall _ path r H1 c Hc). apply Hboth. eauto.
    - destruct vs as [|v1 [|? ?]]; try discriminate Hq. subst ts. apply rbind_val in H as (r & H1 & H2). inversion H2; subst.
      eapply Hall; [|exact H1]. eapply Hone. exact Hq.
    - destruct vs as [|v1 [|? ?]]; try discriminate Hq. subst ts. apply rbind_val in H as (r & H1 & H2). inversion H2; subst.
      eapply Hall; [|exact H1]. eapply Hone. exact Hq.
    - (* conditional *)
      destruct vs as [|v1 [|v2 [|v3 [|? ?]]]]; try discriminate Hq. destruct ts as [|c [|y [|z [|? ?]]]]; try discriminate Hl.
      apply rbind_val in H as (e & He & H). apply rbind_val in H as (a & Ha & H). apply rbind_val in H as (b & Hb & H). inversion H; subst.
      inversion IH as [|? ? _ I2]; inversion I2 as [|? ? I3 I4]; inversion I4 as [|? ? I5 _];
        inversion Hts as [|? ? _ W2]; inversion W2 as [|? ? W3 W4]; inversion W4 as [|? ? W5 _]; subst.
      destruct (math_enc_den c e He) as (v & Dv & Rv).
      apply rmapM_val in Hvs. inversion Hvs as [|? ? ? ? D1 Hv2]; inversion Hv2 as [|? ? ? ? D2 Hv3];
        inversion Hv3 as [|? ? ? ? D3 _]; subst. rewrite D1 in Dv. inversion Dv; subst v. clear Dv.
      cbn [math_sem both] in Hq. destruct v1 as [q1|]; [|discriminate]. specialize (Rv q1 eq_refl).
      apply all_false_app. destruct (Qc_eq_dec q1 0) as [Z|Z].
      + split.
        * eapply ec_path_false; [|exact Ha]. cbn. rewrite Rv. rewrite ?qzero_eq.
          destruct (Qc_eq_dec q1 0); [cbn; apply andb_false_r|contradiction].
        * eapply I5; [exact W5| |exact Hb]. rewrite D3. inversion Hq. reflexivity.
      + split.
        * eapply I3; [exact W3| |exact Ha]. rewrite D2. inversion Hq. reflexivity.
        * eapply ec_path_false; [|exact Hb]. cbn. rewrite Rv. rewrite ?qzero_eq.
          destruct (Qc_eq_dec q1 0); [contradiction|cbn; apply andb_false_r].
  Qed.
End Meaning.

Section Undefined.
  Variable div0 : Qc -> Qc.
  Variable env : string -> Qc.
  Notation rd := (rden div0 env).
  Notation fd := (fden div0 env).

  Lemma no_div_value t : wf_term math_arity t -> ~ has_div t -> exists q, math_den env t = Val (Some q).
  Proof.
    induction t as [o ts IH] using term_ind'. intros Hw Hd. inversion Hw as [? ? Hl Hts]; subst.
    destruct (math_to_var o) as [v|] eqn:Eo.
    - destruct o; try discriminate Eo. inversion Eo; subst. destruct ts; [|discriminate Hl]. exists (env v). reflexivity.
    - destruct (math_den_args env o ts Hts Eo) as (vs & Hvs & ->).
      assert (Forall (fun v => exists q, v = Some q) vs) as Hv.
      { apply rmapM_val in Hvs. assert (forall t, In t ts -> ~ has_div t) as Hn by (intros t Ht X; apply Hd; econstructor; eauto).
        clear Hd Hl Hw Eo. induction Hvs as [|t v ts vs E _ IHv]; constructor.
        - inversion IH; inversion Hts; subst. destruct H1 as (q & Q); [assumption|apply Hn; left; reflexivity|].
          exists q. congruence.
        - inversion IH; inversion Hts; subst. apply IHv; auto. intros t' Ht. apply Hn. right. exact Ht. }
      assert (length vs = math_arity o) as Hlen.
      { rewrite <- Hl. apply rmapM_val in Hvs. symmetry. eapply Forall2_length. exact Hvs. }
      destruct o; try discriminate Eo; cbn in Hlen;
        repeat (destruct vs as [|? vs]; try discriminate Hlen);
        repeat match goal with H : Forall _ (_ :: _) |- _ => inversion H as [|? ? (? & ->) ?]; subst; clear H end; cbn; eauto.
      + exfalso. apply Hd. constructor.
      + match goal with |- context [Qc_eq_dec ?a ?b] => destruct (Qc_eq_dec a b) end; eauto.
  Qed.

  Lemma ec_undefined t : wf_term math_arity t -> safe_ifs t -> forall path cs,
    math_den env t = Val None -> fd path = true -> ec t path = Val cs -> exists c, In c cs /\ fd c = true.
  Proof.
    induction t as [o ts IH] using term_ind'. intros Hw Hs path cs Hq Hp H.
    inversion Hw as [? ? Hl Hts]; inversion Hs as [? ? Hss Hif]; subst.
    destruct (math_to_var o) as [v|] eqn:Eo.
    { destruct o; try discriminate Eo. destruct ts; [|discriminate Hl]. cbn [math_sem both] in Hq. discriminate. }
    destruct (math_den_args env o ts Hts Eo) as (vs & Hvs & Ed). rewrite Ed in Hq.
    assert (In None vs -> forall r, rmapM (fun x => ec x path) ts = Val r -> exists c, In c (concat r) /\ fd c = true) as Hall.
    { intros Hin r Hr. apply rmapM_val in Hr. apply rmapM_val in Hvs. clear H Hw Hl Ed Hq Hs Hif. revert vs Hvs Hin.
      induction Hr as [|t a ts r E _ IHr]; intros vs Hvs Hin; inversion Hvs as [|? v ? vs' Ev Hvs']; subst; [destruct Hin|].
      inversion IH; inversion Hts; subst. destruct Hin as [->|Hin].
      - destruct (H1 H5 (Hss t (or_introl eq_refl)) path a Ev Hp E) as (c & Hc & Fc).
        exists c. split; [|exact Fc]. cbn. apply in_app_iff. auto.
      - destruct (IHr H2 H6 (fun t Ht => Hss t (or_intror Ht)) vs' Hvs' Hin) as (c & Hc & Fc).
        exists c. split; [|exact Fc]. cbn. apply in_app_iff. auto. }
    assert (length vs = math_arity o) as Hlen.
    { rewrite <- Hl. apply rmapM_val in Hvs. symmetry. eapply Forall2_length. exact Hvs. }
    assert (forall v1 v2 f, Val (both f v1 v2) = Val None -> (forall a b, f a b <> None) -> In None [v1; v2]) as Hboth.
    { intros [a|] [b|] f E Hf; cbn; auto. exfalso. cbn in E. inversion E. eapply Hf; eauto. }
    cbn [ec] in H.
    destruct o; try discriminate Eo; cbn in Hl, Hlen.
    - destruct vs as [|v1 [|v2 [|? ?]]]; try discriminate Hlen. destruct ts as [|t0 ts0]; [discriminate Hl|].
      apply rbind_val in H as (r & H1 & H2). inversion H2; subst. eapply Hall; [|exact H1]. eapply Hboth; [exact Hq|discriminate].
    - destruct vs as [|v1 [|v2 [|? ?]]]; try discriminate Hlen. destruct ts as [|t0 ts0]; [discriminate Hl|].
      apply rbind_val in H as (r & H1 & H2). inversion H2; subst. eapply Hall; [|exact H1]. eapply Hboth; [exact Hq|discriminate].
    - destruct vs as [|v1 [|v2 [|? ?]]]; try discriminate Hlen. destruct ts as [|t0 ts0]; [discriminate Hl|].
      apply rbind_val in H as (r & H1 & H2). inversion H2; subst. eapply Hall; [|exact H1]. eapply Hboth; [exact Hq|discriminate].
    - (* division *)
      destruct vs as [|v1 [|v2 [|? ?]]]; try discriminate Hlen. destruct ts as [|x [|d [|? ?]]]; try discriminate Hl.
      apply rbind_val in H as (e & He & H). apply rbind_val in H as (r0 & H1 & H2). apply rbind_val in H1 as (r & H1 & H3).
      inversion H2; inversion H3; subst.
      assert (In None [v1; v2] -> exists c, In c (FAnd (FEq e rzero) path :: concat r) /\ fd c = true) as Hn.
      { intros Hin. destruct (Hall Hin r H1) as (c & Hc & Fc). exists c. split; [right; exact Hc|exact Fc]. }
      destruct v1 as [q1|]; [|apply Hn; cbn; auto]. destruct v2 as [q2|]; [|apply Hn; cbn; auto].
      eexists. split; [left; reflexivity|]. cbn. rewrite Hp.
      destruct (math_enc_den div0 env d e He) as (v & Dv & Rv). cbn [rmapM] in Hvs.
      apply rbind_val in Hvs as (w1 & _ & Hvs). rewrite Dv in Hvs. inversion Hvs; subst w1 v.
      rewrite (Rv q2 eq_refl). cbn [math_sem both] in Hq. rewrite ?qzero_eq. destruct (Qc_eq_dec q2 0); [reflexivity|discriminate].
    - destruct vs as [|v1 [|? ?]]; try discriminate Hlen. destruct ts as [|t0 ts0]; [discriminate Hl|].
      apply rbind_val in H as (r & H1 & H2). inversion H2; subst. eapply Hall; [|exact H1]. destruct v1; [discriminate|left; reflexivity].
    - destruct vs as [|v1 [|? ?]]; try discriminate Hlen. destruct ts as [|t0 ts0]; [discriminate Hl|].
      apply rbind_val in H as (r & H1 & H2). inversion H2; subst. eapply Hall; [|exact H1]. destruct v1; [discriminate|left; reflexivity].
    - (* conditional *)
      destruct vs as [|v1 [|v2 [|v3 [|? ?]]]]; try discriminate Hlen. destruct ts as [|c [|y [|z [|? ?]]]]; try discriminate Hl.
      apply rbind_val in H as (e & He & H). apply rbind_val in H as (a & Ha & H). apply rbind_val in H as (b & Hb & H). inversion H; subst.
      inversion IH as [|? ? _ I2]; inversion I2 as [|? ? I3 I4]; inversion I4 as [|? ? I5 _];
        inversion Hts as [|? ? W1 W2]; inversion W2 as [|? ? W3 W4]; inversion W4 as [|? ? W5 _]; subst.
      destruct (math_enc_den div0 env c e He) as (v & Dv & Rv).
      destruct (no_div_value c W1 (Hif eq_refl c [y; z] eq_refl)) as (q1 & Dq). rewrite Dv in Dq. inversion Dq; subst v. clear Dq.
      apply rmapM_val in Hvs. inversion Hvs as [|? ? ? ? D1 Hv2]; inversion Hv2 as [|? ? ? ? D2 Hv3];
        inversion Hv3 as [|? ? ? ? D3 _]; subst. rewrite D1 in Dv. inversion Dv; subst v1. clear Dv. specialize (Rv q1 eq_refl).
      cbn [math_sem both] in Hq. destruct (Qc_eq_dec q1 0) as [Z|Z]; inversion Hq as [Hq']; rewrite Hq' in *.
      + destruct (I5 W5 (Hss z ltac:(cbn; auto)) (FAnd path (FEq e rzero)) b D3) with (2 := Hb) as (k & Hk & Fk).
        * cbn. rewrite Hp, Rv. rewrite ?qzero_eq. destruct (Qc_eq_dec q1 0); [reflexivity|contradiction].
        * exists k. split; [apply in_app_iff; auto|exact Fk].
      + destruct (I3 W3 (Hss y ltac:(cbn; auto)) (FAnd path (FNot (FEq e rzero))) a D2) with (2 := Ha) as (k & Hk & Fk).
        * cbn. rewrite Hp, Rv. rewrite ?qzero_eq. destruct (Qc_eq_dec q1 0); [contradiction|reflexivity].
        * exists k. split; [apply in_app_iff; auto|exact Fk].
    - destruct vs; [|discriminate Hlen]. discriminate Hq.
  Qed.

  Lemma f_or_false l : all_false div0 env l -> fd (f_or l) = false.
  Proof.
    induction l as [|c l IH]; intros H; [reflexivity|]. cbn. rewrite (H c (or_introl eq_refl)). apply IH.
    intros c' Hc. apply H. right. exact Hc.
  Qed.
  Lemma f_or_true l c : In c l -> fd c = true -> fd (f_or l) = true.
  Proof.
    induction l as [|x l IH]; [intros []|]. cbn. intros [->|H] F; [rewrite F; reflexivity|].
    fold (f_or l). rewrite (IH H F). apply orb_true_r.
  Qed.
  Lemma implies_all l : forall a, all_false div0 env l ->
    fd (fold_left (fun a c => FImplies (FNot c) a) l a) = fd a.
  Proof.
    induction l as [|c l IH]; intros a H; [reflexivity|]. cbn [fold_left]. rewrite IH.
    - cbn. rewrite (H c (or_introl eq_refl)). reflexivity.
    - intros c' Hc. apply H. right. exact Hc.
  Qed.
End Undefined.

Notation mpat_ok := (pat_ok math_from_op math_name math_arity).

Lemma pat_to_sexp_ok p t : mpat_ok p t -> pat_to_sexp p = Val (term_sexp (pat_name math_name) t).
Proof.
  intros H. unfold pat_to_sexp. rewrite (pat_ok_show _ _ _ p t H). cbn [rbind]. destruct H as (_ & Hw & Ht & _).
  pose proof (tall_mono _ _ t (eov_ok_op math_from_op math_name math_arity) Ht) as Hop.
  rewrite <- (sapp_nil (show_term _ _)). rewrite parse_show; [reflexivity| |exact I].
  eapply tall_mono; [|exact Hop]. intros o [? ?]; assumption.
Qed.

Lemma math_validate_parts check l tl r tr : mpat_ok l tl -> mpat_ok r tr ->
  math_validate check l r = Val Valid ->
  exists le re lc rc,
    fold_term math_to_z3 (inst_term MVar tl) = Val le /\ fold_term math_to_z3 (inst_term MVar tr) = Val re /\
    ec (inst_term MVar tl) (FBool true) = Val lc /\ ec (inst_term MVar tr) (FBool true) = Val rc /\
    check (FNot (math_assertion le re lc rc)) = Unsat.
Proof.
  intros Hl Hr H. unfold math_validate in H.
  apply rbind_val in H as (le & H1 & H). apply rbind_val in H as (re & H2 & H).
  rewrite (pat_to_sexp_ok _ _ Hl), (pat_to_sexp_ok _ _ Hr) in H. cbn [rbind] in H.
  destruct Hl as (Tl & Wl & Al & _), Hr as (Tr & Wr & Ar & _).
  rewrite !ec_sexp in H by assumption.
  apply rbind_val in H as (lc & H3 & H). apply rbind_val in H as (rc & H4 & H).
  exists le, re, lc, rc. repeat split; try assumption.
  - eapply fold_rec_tree; [|exact H1]. apply tree_instantiate. exact Tl.
  - eapply fold_rec_tree; [|exact H2]. apply tree_instantiate. exact Tr.
  - destruct (check _); inversion H; reflexivity.
Qed.

Lemma assertion_true check div0 env le re lc rc : real_unsat_right check ->
  check (FNot (math_assertion le re lc rc)) = Unsat ->
  fden div0 env (fold_left (fun a c => FImplies (FNot c) a) (lc ++ rc) (FEq le re)) = true /\
  fden div0 env (f_or rc) = fden div0 env (f_or lc).
Proof.
  intros Hu H. apply (fun f => Hu _ f div0 env) in H. cbn in H. apply negb_false_iff in H.
  apply andb_true_iff in H as [E1 E2]. split; [exact E1|]. apply Bool.eqb_prop. exact E2.
Qed.

Lemma validate_values check l tl r tr env p q : real_unsat_right check -> mpat_ok l tl -> mpat_ok r tr ->
  math_validate check l r = Val Valid ->
  math_den env (inst_term MVar tl) = Val (Some p) -> math_den env (inst_term MVar tr) = Val (Some q) -> p = q.
Proof.
  intros Hu Hl Hr H Dp Dq. destruct (math_validate_parts check l tl r tr Hl Hr H) as (le & re & lc & rc & El & Er & Cl & Cr & U).
  destruct Hl as (_ & Wl & _), Hr as (_ & Wr & _). apply inst_wf in Wl, Wr.
  destruct (assertion_true check (fun x => x) env _ _ _ _ Hu U) as [A _].
  rewrite implies_all in A.
  - cbn in A. destruct (math_enc_den (fun x => x) env _ _ El) as (v & Dv & Rv).
    destruct (math_enc_den (fun x => x) env _ _ Er) as (w & Dw & Rw).
    rewrite Dp in Dv. rewrite Dq in Dw. inversion Dv; inversion Dw; subst.
    rewrite (Rv p eq_refl), (Rw q eq_refl) in A. destruct (Qc_eq_dec p q); [assumption|discriminate].
  - apply all_false_app. split; [exact (ec_defined _ env _ Wl _ _ _ Dp Cl)|exact (ec_defined _ env _ Wr _ _ _ Dq Cr)].
Qed.

Lemma validate_errors check l tl r tr env : real_unsat_right check -> mpat_ok l tl -> mpat_ok r tr ->
  math_validate check l r = Val Valid ->
  safe_ifs (inst_term MVar tl) -> safe_ifs (inst_term MVar tr) ->
  (math_den env (inst_term MVar tl) = Val None <-> math_den env (inst_term MVar tr) = Val None).
Proof.
  intros Hu Hl Hr H Sl Sr. destruct (math_validate_parts check l tl r tr Hl Hr H) as (le & re & lc & rc & El & Er & Cl & Cr & U).
  destruct Hl as (_ & Wl & _), Hr as (_ & Wr & _). apply inst_wf in Wl, Wr.
  set (z := fun x : Qc => x).
  destruct (assertion_true check z env _ _ _ _ Hu U) as [_ A].
  assert (forall t cs, wf_term math_arity t -> safe_ifs t -> ec t (FBool true) = Val cs ->
    (math_den env t = Val None <-> fden z env (f_or cs) = true)) as K.
  { intros t cs W S C. split; intros D.
    - destruct (ec_undefined z env t W S (FBool true) cs D eq_refl C) as (c & Hc & Fc). exact (f_or_true z env cs c Hc Fc).
    - destruct (math_den_total env t W) as ([q|] & Dv); [|exact Dv]. exfalso.
      rewrite (f_or_false z env cs (ec_defined z env t W _ _ _ Dv C)) in D. discriminate. }
  rewrite (K _ _ Wl Sl Cl), (K _ _ Wr Sr Cr), A. reflexivity.
Qed.
