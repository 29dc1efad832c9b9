(* Proofs about the conditional rules of the rational domain. *)
From Coq Require Import Permutation ZArith QArith Qcanon.
From Verif Require Import EnumSpec.
From Verif Require Import Base BaseProofs Sexp Reader ReaderProofs Lang LangProofs Syntax SyntaxProofs Rule Ruleset RuleSpec RuleTextProofs DomainSpec
  Number Rational RationalSpec RationalProofs RationalValidate Conditional ConditionalSpec.
Open Scope string_scope.
Open Scope list_scope.

Local Notation pn := (pat_name math_name).
Local Notation text d := (display (term_sexp pn d)).

(* ---- denominators ---- *)
Lemma denominator_sub : forall (P : term (eov math_op) -> Prop), (forall o ts, P (T o ts) -> Forall P ts) -> forall d t, denominator d t -> P t -> P d.
Proof.
  intros P Hp d t H. induction H as [x|o ts t I _ IH]; intros Ht.
  - apply Hp in Ht. inversion Ht as [|? ? _ H2]; inversion H2; subst. assumption.
  - apply IH. apply Hp in Ht. rewrite Forall_forall in Ht. auto.
Qed.
Lemma denominator_tall : forall P d t, denominator d t -> tall P t -> tall P d.
Proof. intros P. apply denominator_sub. intros o ts H. inversion H; subst. assumption. Qed.
Lemma denominator_wf : forall d t, denominator d t -> wf_term mpar t -> wf_term mpar d.
Proof. apply denominator_sub. intros o ts H. inversion H; subst. assumption. Qed.
Lemma denominator_trans : forall e d t, denominator e d -> denominator d t -> denominator e t.
Proof.
  intros e d t He H. induction H as [x|o ts t I _ IH].
  - apply (Dn_sub e _ _ d); [cbn; auto|exact He].
  - exact (Dn_sub e _ _ t I IH).
Qed.
Lemma denominator_vars : forall d t, denominator d t -> incl (ptvars d) (ptvars t).
Proof.
  intros d t H. induction H as [x|o ts t I _ IH]; intros v Hv; unfold ptvars in *; cbn [tvars]; apply in_app_iff; right.
  - cbn. rewrite app_nil_r. apply in_app_iff. auto.
  - apply in_flat_map. exists t. split; [exact I|exact (IH v Hv)].
Qed.
Lemma text_inj : forall d e, tall mok d -> wf_term mpar d -> tall mok e -> wf_term mpar e -> text d = text e -> d = e.
Proof.
  intros d e Td Wd Te We E.
  pose proof (tall_mono _ _ d (eov_ok_op math_from_op math_name math_arity) Td) as Od.
  pose proof (tall_mono _ _ e (eov_ok_op math_from_op math_name math_arity) Te) as Oe.
  apply display_inj in E.
  - apply (f_equal (term_of_sexp (pat_from_op math_from_op))) in E. rewrite !(term_of_sexp_show _ _ mpar) in E by assumption. congruence.
  - apply term_sexp_words. eapply tall_mono; [|exact Od]. intros o [? ?]; assumption.
  - apply term_sexp_words. eapply tall_mono; [|exact Oe]. intros o [? ?]; assumption.
Qed.

Lemma denominators_text : forall t, tall mok t -> wf_term mpar t ->
  exists ds, all_denominators (term_sexp pn t) = Val ds /\ forall s, In s ds <-> exists d, denominator d t /\ s = text d.
Proof.
  induction t as [o ts IH] using term_ind'. intros Ht Hw. inversion Ht as [? ? Ho Hts]; inversion Hw as [? ? Hl Hwt]; subst.
  destruct ts as [|t0 ts0].
  { exists []. split; [reflexivity|]. intros s. split; [intros []|]. intros (d & H & _). inversion H as [|? ? ? I]; subst. destruct I. }
  assert (Hall : exists bs, rmapM all_denominators (map (term_sexp pn) (t0 :: ts0)) = Val bs /\
    forall s, In s (concat bs) <-> exists t d, In t (t0 :: ts0) /\ denominator d t /\ s = text d).
  { clear Hl Hw Ht. remember (t0 :: ts0) as ts eqn:E. clear E t0 ts0. induction ts as [|t ts IHts].
    - exists []. split; [reflexivity|]. intros s. split; [intros []|]. intros (t & d & [] & _).
    - inversion IH as [|? ? I1 I2]; inversion Hts as [|? ? T1 T2]; inversion Hwt as [|? ? W1 W2]; subst.
      destruct (IHts I2 T2 W2) as (bs & E & Hb). destruct (I1 T1 W1) as (ds & Ed & Hd).
      exists (ds :: bs). split; [cbn [map rmapM]; rewrite Ed; cbn [rbind]; rewrite E; reflexivity|].
      intros s. cbn [concat]. rewrite in_app_iff, Hd, Hb. split.
      + intros [(d & D & ->)|(u & d & Iu & D & ->)]; [exists t, d; cbn; auto|exists u, d; cbn; auto].
      + intros (u & d & [<-|Iu] & D & ->); [left; eauto|right; eauto]. }
  destruct Hall as (bs & Eb & Hb).
  assert (term_sexp pn (T o (t0 :: ts0)) = Lst (Atom (pn o) :: map (term_sexp pn) (t0 :: ts0))) as -> by reflexivity.
  assert (Hsub : forall s, In s (concat bs) -> exists d, denominator d (T o (t0 :: ts0)) /\ s = text d).
  { intros s H. apply Hb in H as (u & d & Iu & D & ->). exists d. split; [exact (Dn_sub d _ _ u Iu D)|reflexivity]. }
  remember (t0 :: ts0) as ts eqn:Ets.
  destruct o as [o|v]; [|cbn in Hl; subst; discriminate]. cbn [pat_name all_denominators].
  assert (Hother : o <> MDiv -> forall s, (exists d, denominator d (T (EN o) ts) /\ s = text d) -> In s (concat bs)).
  { intros No s (d & D & ->). apply Hb. inversion D as [|? ? u Iu Du]; subst; [elim No; reflexivity|]. eauto. }
  destruct (String.eqb (math_name o) "/") eqn:Es.
  - apply String.eqb_eq in Es. destruct Ho as (_ & _ & Hf & _). rewrite Es in Hf.
    assert (o = MDiv) as -> by (cbn in Hl; rewrite <- Hl in Hf; subst ts; destruct ts0 as [|? [|? ?]]; cbn in Hf; congruence).
    destruct ts as [|x [|d [|? ?]]]; try discriminate Hl. rewrite Eb. cbn [map rbind]. eexists. split; [reflexivity|].
    intros s. cbn [app In]. split.
    + intros [<-|H]; [exists d; split; [constructor|reflexivity]|exact (Hsub s H)].
    + intros (e & D & ->). inversion D as [|? ? u Iu Du]; subst; [left; reflexivity|right]. apply Hb. eauto.
  - rewrite Eb. cbn [rbind]. eexists. split; [reflexivity|]. intros s. cbn [app]. split; [exact (Hsub s)|]. apply Hother.
    intros ->. discriminate Es.
Qed.

Lemma denominator_dec : forall t d, tall mok t -> wf_term mpar t -> tall mok d -> wf_term mpar d -> denominator d t \/ ~ denominator d t.
Proof.
  intros t d Tt Wt Td Wd. destruct (denominators_text t Tt Wt) as (ds & _ & H). destruct (in_dec string_dec (text d) ds) as [I|I].
  - left. apply H in I as (e & E & X). apply text_inj in X; [now subst|assumption|assumption|exact (denominator_tall _ _ _ E Tt)|exact (denominator_wf _ _ E Wt)].
  - right. intros D. apply I. apply H. eauto.
Qed.

Lemma one_sided_in : forall a b s, In s (one_sided a b) <-> (In s a /\ ~ In s b) \/ (In s b /\ ~ In s a).
Proof.
  intros a b s. unfold one_sided. rewrite nodup_In, in_app_iff, !filter_In, !negb_true_iff.
  assert (forall l, mem s l = false <-> ~ In s l) as M.
  { intros l. rewrite <- mem_in. destruct (mem s l); split; congruence. }
  rewrite !M. tauto.
Qed.

Section Add.
  Variable tl tr : term (eov math_op).
  Hypothesis Tl : tall mok tl.
  Hypothesis Wl : wf_term mpar tl.
  Hypothesis Tr : tall mok tr.
  Hypothesis Wr : wf_term mpar tr.

  Lemma divides_ok : forall d, divides_one tl tr d -> tall mok d /\ wf_term mpar d.
  Proof.
    intros d [[D _]|[D _]].
    - exact (conj (denominator_tall _ _ _ D Tl) (denominator_wf _ _ D Wl)).
    - exact (conj (denominator_tall _ _ _ D Tr) (denominator_wf _ _ D Wr)).
  Qed.
  Lemma sides_text : exists ld rd, all_denominators (term_sexp pn tl) = Val ld /\ all_denominators (term_sexp pn tr) = Val rd /\
    NoDup (one_sided ld rd) /\ forall s, In s (one_sided ld rd) <-> exists d, divides_one tl tr d /\ s = text d.
  Proof.
    destruct (denominators_text tl Tl Wl) as (ld & El & Hl). destruct (denominators_text tr Tr Wr) as (rd & Er & Hr).
    exists ld, rd. split; [exact El|]. split; [exact Er|]. split; [apply NoDup_nodup|]. intros s. rewrite one_sided_in.
    assert (forall d e, denominator d tl -> denominator e tr -> text d = text e -> d = e) as X.
    { intros d e D E. apply text_inj; [exact (denominator_tall _ _ _ D Tl)|exact (denominator_wf _ _ D Wl)|exact (denominator_tall _ _ _ E Tr)|exact (denominator_wf _ _ E Wr)]. }
    split.
    - intros [[H1 H2]|[H1 H2]].
      + apply Hl in H1 as (d & D & ->). exists d. split; [left; split; [exact D|]|reflexivity]. intros E. apply H2. apply Hr. eauto.
      + apply Hr in H1 as (d & D & ->). exists d. split; [right; split; [exact D|]|reflexivity]. intros E. apply H2. apply Hl. eauto.
    - intros (d & [[D N]|[D N]] & ->).
      + left. split; [apply Hl; eauto|]. intros H. apply Hr in H as (e & E & Y). apply X in Y; [|exact D|exact E]. subst. contradiction.
      + right. split; [apply Hr; eauto|]. intros H. apply Hl in H as (e & E & Y). symmetry in Y. apply X in Y; [|exact E|exact D]. subst. contradiction.
  Qed.
  Lemma guarded_ok : forall d, tall mok d -> wf_term mpar d -> tall mok (guarded d tl tr) /\ wf_term mpar (guarded d tl tr).
  Proof.
    intros d Td Wd. split.
    - constructor; [|repeat (constructor; try assumption)]. cbn. split; [split; [discriminate|reflexivity]|]. split; [apply split_arrow_none; reflexivity|]. split; [reflexivity|]. intros c s. discriminate.
    - constructor; [reflexivity|]. repeat (constructor; try assumption).
  Qed.
  Lemma guarded_vars : forall d, divides_one tl tr d -> incl (ptvars tr) (ptvars tl) -> incl (ptvars (guarded d tl tr)) (ptvars tl).
  Proof.
    intros d D Hi v Hv. unfold ptvars, guarded in Hv. cbn in Hv. rewrite app_nil_r in Hv. apply in_app_iff in Hv as [Hv|Hv].
    - destruct D as [[D _]|[D _]]; apply (denominator_vars _ _ D) in Hv; [exact Hv|exact (Hi v Hv)].
    - apply in_app_iff in Hv as [Hv|Hv]; [exact (Hi v Hv)|exact Hv].
  Qed.
End Add.

Lemma add_condition_spec : forall r tl tr, mpat_ok (rlhs r) tl -> mpat_ok (rrhs r) tr -> incl (ptvars tr) (ptvars tl) ->
  (exists d n, let p := to_rec (guarded d tl tr) in only_one_sided tl tr d /\ add_condition r = Val (Some (Rule n (rlhs r) p KPat)) /\
     rule_name math_name (rlhs r) p = Val n /\ mpat_ok p (guarded d tl tr) /\ incl (ptvars (guarded d tl tr)) (ptvars tl)) \/
  ((forall d, ~ only_one_sided tl tr d) /\ add_condition r = Val None).
Proof.
  intros r tl tr Ol Or Hi. unfold add_condition. rewrite (pat_to_sexp_ok _ _ Ol), (pat_to_sexp_ok _ _ Or). cbn [rbind].
  pose proof Ol as (El & Wl & Tl & Jl). pose proof Or as (Er & Wr & Tr & Jr).
  destruct (sides_text tl tr Tl Wl Tr Wr) as (ld & rd & -> & -> & Nd & Hs). cbn [rbind].
  destruct (one_sided ld rd) as [|s [|s' l]].
  - right. split; [|reflexivity]. intros d [D _]. apply (Hs (text d)). eauto.
  - left. destruct (proj1 (Hs s) (or_introl eq_refl)) as (d & D & ->). destruct (divides_ok tl tr Tl Wl Tr Wr d D) as [Td Wd].
    destruct (guarded_ok tl tr Tl Wl Tr Wr d Td Wd) as [Tg Wg].
    pose proof (tall_mono _ _ d (eov_ok_op math_from_op math_name math_arity) Td) as Od.
    assert (parse_str (text d) = Some (term_sexp pn d)) as ->.
    { rewrite <- (sapp_nil (display _)). apply parse_display; [|exact I]. apply term_sexp_words. eapply tall_mono; [|exact Od]. intros o [? ?]; assumption. }
    cbn [unwrap rbind].
    assert (Lst [Atom "if"; term_sexp pn d; term_sexp pn tr; term_sexp pn tl] = term_sexp pn (guarded d tl tr)) as -> by reflexivity.
    pose proof (tall_mono _ _ _ (eov_ok_op math_from_op math_name math_arity) Tg) as Og.
    assert (parse_pat math_from_op (text (guarded d tl tr)) = Some (to_rec (guarded d tl tr))) as ->.
    { unfold parse_pat, parse_rec. rewrite <- (sapp_nil (display _)). rewrite parse_display; [|apply term_sexp_words; eapply tall_mono; [|exact Og]; intros o [? ?]; assumption|exact I].
      rewrite (term_of_sexp_show _ _ mpar) by assumption. reflexivity. }
    cbn [unwrap rbind].
    pose proof (to_rec_ok math_from_op math_name math_arity _ Wg Tg) as Okg. pose proof (guarded_vars tl tr d D Hi) as Vg.
    rewrite (proj2 (pat_ok_rewrite math_from_op math_name math_arity _ _ _ _ Ol Okg) Vg).
    pose proof (rule_name_show math_from_op math_name math_arity _ _ _ _ Ol Okg) as En. rewrite En. cbn [rbind].
    eexists d, _. cbv zeta. split; [|split; [reflexivity|split; [exact En|split; [exact Okg|exact Vg]]]].
    split; [exact D|]. intros e E. destruct (divides_ok tl tr Tl Wl Tr Wr e E) as [Te We].
    destruct (proj2 (Hs (text e)) (ex_intro _ e (conj E eq_refl))) as [X|[]]. symmetry. apply text_inj; assumption.
  - right. split; [|reflexivity]. intros d [D U]. inversion Nd as [|? ? N1 _]; subst.
    destruct (proj1 (Hs s) (or_introl eq_refl)) as (e & E & ->). destruct (proj1 (Hs s') (or_intror (or_introl eq_refl))) as (f & F & ->).
    apply U in E, F. subst. apply N1. left. reflexivity.
Qed.

(* ---- meaning ---- *)
Local Notation mden := (math_den).
Lemma pat_value_total : forall env t, wf_term mpar t -> exists v, pat_value env t = Val v.
Proof. intros env t W. exact (math_den_total env _ (inst_wf _ W)). Qed.
Lemma pat_value_args : forall env o ts, Forall (wf_term mpar) ts -> math_to_var o = None ->
  exists vs, Forall2 (fun t v => pat_value env t = Val v) ts vs /\ pat_value env (T (EN o) ts) = math_sem o vs.
Proof.
  intros env o ts W E. unfold pat_value. cbn [inst_term instantiate_op].
  assert (Forall (wf_term math_arity) (map (inst_term MVar) ts)) as W' by (apply Forall_forall; intros x Hx; apply in_map_iff in Hx as (t & <- & Ht); rewrite Forall_forall in W; apply inst_wf; auto).
  destruct (math_den_args env o _ W' E) as (vs & H1 & H2). exists vs. split; [|exact H2]. apply rmapM_val in H1. clear - H1.
  revert vs H1. induction ts as [|t ts IH]; intros vs H; inversion H; subst; constructor; auto.
Qed.

(* a term without conditionals has no value exactly where one of its denominators is 0 *)
Lemma undefined_iff : forall env t, wf_term mpar t -> unconditional t ->
  (pat_value env t = Val None <-> exists d, denominator d t /\ pat_value env d = Val (Some 0%Qc)).
Proof.
  intros env t. induction t as [o ts IH] using term_ind'. intros Hw Hu. inversion Hw as [? ? Hl Hwt]; inversion Hu as [? ? Ho Hut]; subst.
  destruct o as [o|v].
  2: { destruct ts; [|discriminate Hl]. split; [discriminate|]. intros (d & D & _). inversion D as [|? ? ? I]; subst. destruct I. }
  destruct (math_to_var o) as [v|] eqn:Eo.
  { destruct o; try discriminate Eo. destruct ts; [|discriminate Hl]. split; [discriminate|]. intros (d & D & _). inversion D as [|? ? ? I]; subst. destruct I. }
  destruct (pat_value_args env o ts Hwt Eo) as (vs & Hvs & ->).
  assert (Hnone : In None vs <-> exists t d, In t ts /\ denominator d t /\ pat_value env d = Val (Some 0%Qc)).
  { clear Hl Hw Hu. induction Hvs as [|t v ts vs E Hvs IHv].
    - split; [intros []|]. intros (t & d & [] & _).
    - inversion IH as [|? ? I1 I2]; inversion Hwt as [|? ? W1 W2]; inversion Hut as [|? ? U1 U2]; subst. cbn [In]. rewrite (IHv I2 W2 U2). split.
      + intros [->|(u & d & Iu & D & Z)]; [apply I1 in E as (d & D & Z); [|assumption|assumption]; exists t, d; auto|exists u, d; auto].
      + intros (u & d & [<-|Iu] & D & Z); [left|right; eauto]. assert (pat_value env t = Val None) by (apply I1; eauto). congruence. }
  assert (Hsub : o <> MDiv -> ((exists d, denominator d (T (EN o) ts) /\ pat_value env d = Val (Some 0%Qc)) <-> In None vs)).
  { intros No. rewrite Hnone. split.
    - intros (d & D & Z). inversion D as [|? ? u Iu Du]; subst; [elim No; reflexivity|]. eauto.
    - intros (u & d & Iu & D & Z). exists d. split; [exact (Dn_sub d _ _ u Iu D)|exact Z]. }
  pose proof (Forall2_length _ _ _ Hvs) as Hlen. rewrite Hl in Hlen. cbn in Hlen.
  assert (Hboth : forall f a b, (forall x y, f x y <> None) -> (Val (both f a b) = Val None <-> In None [a; b])).
  { intros f [a|] [b|] Hf; cbn; split; intros H; try tauto; try (inversion H as [E]; elim (Hf _ _ E)).
    destruct H as [H|[H|[]]]; discriminate. }
  assert (Hone : forall (f : Qc -> Qc) a, Val (option_map f a) = Val None <-> In None [a]).
  { intros f [a|]; cbn; split; intros H; try tauto; try discriminate. destruct H as [H|[]]; discriminate. }
  destruct o; try discriminate Eo; cbn in Hlen;
    try (rewrite Hsub by discriminate; destruct vs as [|v1 [|v2 [|? ?]]]; try discriminate Hlen; apply Hboth; discriminate);
    try (rewrite Hsub by discriminate; destruct vs as [|v1 [|? ?]]; try discriminate Hlen; apply Hone).
  - (* division *)
    destruct vs as [|v1 [|v2 [|? ?]]]; try discriminate Hlen. destruct ts as [|x [|d [|? ?]]]; try discriminate Hl.
    inversion Hvs as [|? ? ? ? E1 Hv2]; inversion Hv2 as [|? ? ? ? E2 _]; subst. split.
    + intros H. assert (In None [v1; v2] -> exists d0, denominator d0 (T (EN MDiv) [x; d]) /\ pat_value env d0 = Val (Some 0%Qc)) as N.
      { intros I. apply Hnone in I as (u & e & Iu & D & Z). exists e. split; [exact (Dn_sub e _ _ u Iu D)|exact Z]. }
      destruct v1 as [q1|]; [|apply N; cbn; auto]. destruct v2 as [q2|]; [|apply N; cbn; auto]. cbn in H.
      destruct (Qc_eq_dec q2 0) as [->|]; [|discriminate H]. exists d. split; [constructor|exact E2].
    + intros (e & D & Z). inversion D as [x'|? ? u Iu Du]; subst.
      * rewrite E2 in Z. injection Z as ->. destruct v1; reflexivity.
      * assert (In None [v1; v2]) as I by (apply Hnone; eauto). destruct I as [->|[->|[]]]; [reflexivity|destruct v1; reflexivity].
  - elim Ho. reflexivity.
  - destruct vs; [|discriminate Hlen]. rewrite Hsub by discriminate. split; [discriminate|intros []].
Qed.

Section Guard.
  Variable tl tr d : term (eov math_op).
  Hypothesis Tl : tall mok tl.
  Hypothesis Wl : wf_term mpar tl.
  Hypothesis Tr : tall mok tr.
  Hypothesis Wr : wf_term mpar tr.
  Hypothesis One : only_one_sided tl tr d.
  Hypothesis Ul : unconditional tl.
  Hypothesis Ur : unconditional tr.
  (* a denominator other than the condition is in both sides *)
  Lemma other_both : forall e, e <> d -> (denominator e tl <-> denominator e tr).
  Proof.
    intros e Ne. destruct One as [_ U]. split; intros D.
    - destruct (denominator_dec tr e Tr Wr (denominator_tall _ _ _ D Tl) (denominator_wf _ _ D Wl)) as [H|H]; [exact H|]. elim Ne. apply U. left. auto.
    - destruct (denominator_dec tl e Tl Wl (denominator_tall _ _ _ D Tr) (denominator_wf _ _ D Wr)) as [H|H]; [exact H|]. elim Ne. apply U. right. auto.
  Qed.
  Lemma guard_ok : tall mok d /\ wf_term mpar d /\ unconditional d.
  Proof.
    destruct One as [D _]. destruct (divides_ok tl tr Tl Wl Tr Wr d D) as [H1 H2]. split; [exact H1|]. split; [exact H2|].
    destruct D as [[D _]|[D _]]; [exact (denominator_tall _ _ _ D Ul)|exact (denominator_tall _ _ _ D Ur)].
  Qed.
  Lemma guard_in : forall e, denominator e d -> e <> d -> denominator e tl /\ denominator e tr.
  Proof.
    intros e E Ne. destruct One as [[[D _]|[D _]] _]; pose proof (denominator_trans _ _ _ E D) as X; (split; [|]); try exact X; now apply other_both.
  Qed.
  Lemma guarded_same : agree tl tr -> forall env, pat_value env (guarded d tl tr) = pat_value env tl.
  Proof.
    intros A env. destruct guard_ok as (Td & Wd & Ud).
    assert (Forall (wf_term mpar) [d; tr; tl]) as W by (repeat constructor; assumption).
    destruct (pat_value_args env MIf [d; tr; tl] W eq_refl) as (vs & Hvs & E). unfold guarded. rewrite E. clear E.
    inversion Hvs as [|? v1 ? vs1 E1 F1]; inversion F1 as [|? v2 ? vs2 E2 F2]; inversion F2 as [|? v3 ? vs3 E3 F3]; inversion F3; subst. cbn [math_sem].
    rewrite E3. f_equal. destruct v1 as [q|].
    - destruct (Qc_eq_dec q 0) as [|Nq]; [reflexivity|].
      assert (forall e, pat_value env e = Val (Some 0%Qc) -> e <> d) as Ne by (intros e Z ->; rewrite E1 in Z; congruence).
      destruct v2 as [q2|], v3 as [q3|]; [f_equal; symmetry; eapply A; eassumption| | |reflexivity]; exfalso.
      + apply (undefined_iff env tl Wl Ul) in E3 as (e & D & Z). assert (pat_value env tr = Val None) by (apply (undefined_iff env tr Wr Ur); exists e; split; [now apply other_both; [apply Ne|]|exact Z]). congruence.
      + apply (undefined_iff env tr Wr Ur) in E2 as (e & D & Z). assert (pat_value env tl = Val None) by (apply (undefined_iff env tl Wl Ul); exists e; split; [now apply other_both; [apply Ne|]|exact Z]). congruence.
    - apply (undefined_iff env d Wd Ud) in E1 as (e & D & Z).
      assert (Ne : e <> d). { intros ->. assert (pat_value env d = Val None) by (apply (undefined_iff env d Wd Ud); eauto). congruence. }
      assert (pat_value env tl = Val None) by (apply (undefined_iff env tl Wl Ul); exists e; split; [apply guard_in; assumption|exact Z]). congruence.
  Qed.
End Guard.

(* ---- what the validator makes of the guarded rule ---- *)
Section Accept.
  Variable div0 : Qc -> Qc.
  Variable env : string -> Qc.
  Notation rd := (rden div0 env).
  Notation fd := (fden div0 env).
  Definition z3_zero (d : term (eov math_op)) : Prop := exists e, fold_term math_to_z3 (inst_term MVar d) = Val e /\ rd e = 0%Qc.

  Lemma z3_args : forall o ts e, fold_term math_to_z3 (inst_term MVar (T o ts)) = Val e ->
    exists es, Forall2 (fun t e => fold_term math_to_z3 (inst_term MVar t) = Val e) ts es /\ math_to_z3 (instantiate_op MVar o) es = Val e.
  Proof.
    intros o ts e H. cbn [inst_term fold_term] in H. apply rbind_val in H as (es & H1 & H2). exists es. split; [|exact H2]. apply rmapM_val in H1. clear - H1.
    revert es H1. induction ts as [|t ts IH]; intros es H; inversion H; subst; constructor; auto.
  Qed.
  Lemma z3_denominator : forall d t, denominator d t -> forall e, fold_term math_to_z3 (inst_term MVar t) = Val e -> exists e', fold_term math_to_z3 (inst_term MVar d) = Val e'.
  Proof.
    intros d t D. induction D as [x|o ts t I _ IH]; intros e H; apply z3_args in H as (es & F & _).
    - inversion F as [|? ? ? ? _ F2]; inversion F2; subst. eauto.
    - assert (exists e', fold_term math_to_z3 (inst_term MVar t) = Val e') as (e' & E); [|exact (IH e' E)].
      clear - F I. induction F as [|t' e' ts es E _ IHF]; [destruct I|]. destruct I as [->|I]; [exists e'; exact E|exact (IHF I)].
  Qed.
  Lemma z3_zero_dec : forall d e, fold_term math_to_z3 (inst_term MVar d) = Val e -> (z3_zero d <-> rd e = 0%Qc).
  Proof. intros d e E. split; [intros (e' & E' & Z); congruence|intros Z; exists e; auto]. Qed.

  Lemma ec_uncond : forall t e, wf_term mpar t -> unconditional t -> fold_term math_to_z3 (inst_term MVar t) = Val e ->
    forall path, exists cs, ec (inst_term MVar t) path = Val cs /\
      ((exists c, In c cs /\ fd c = true) <-> fd path = true /\ exists d, denominator d t /\ z3_zero d).
  Proof.
    induction t as [o ts IH] using term_ind'. intros e Hw Hu Hz path. inversion Hw as [? ? Hl Hwt]; inversion Hu as [? ? Ho Hut]; subst.
    apply z3_args in Hz as (es & Fz & Ez).
    destruct ts as [|t0 ts0].
    { exists []. split; [cbn; destruct (instantiate_op MVar o); reflexivity|]. split; [intros (c & [] & _)|]. intros (_ & d & D & _). inversion D as [|? ? ? I]; subst. destruct I. }
    assert (Hall : exists r, rmapM (fun x => ec x path) (map (inst_term MVar) (t0 :: ts0)) = Val r /\
      ((exists c, In c (concat r) /\ fd c = true) <-> fd path = true /\ exists t d, In t (t0 :: ts0) /\ denominator d t /\ z3_zero d)).
    { clear Hl Hw Hu Ez. remember (t0 :: ts0) as ts eqn:Ets. clear Ets t0 ts0. induction Fz as [|t e' ts es E Fz IHF].
      - exists []. split; [reflexivity|]. split; [intros (c & [] & _)|]. intros (_ & t & d & [] & _).
      - inversion IH as [|? ? I1 I2]; inversion Hwt as [|? ? W1 W2]; inversion Hut as [|? ? U1 U2]; subst.
        destruct (I1 e' W1 U1 E path) as (cs & Ec & Hc). destruct (IHF I2 W2 U2) as (r & Er & Hr). exists (cs :: r).
        split; [cbn [map rmapM]; rewrite Ec; cbn [rbind]; rewrite Er; reflexivity|]. cbn [concat]. split.
        + intros (c & Ic & Fc). apply in_app_iff in Ic as [Ic|Ic].
          * destruct (proj1 Hc (ex_intro _ c (conj Ic Fc))) as (P & d & D & Z). split; [exact P|]. exists t, d. cbn. auto.
          * destruct (proj1 Hr (ex_intro _ c (conj Ic Fc))) as (P & u & d & Iu & D & Z). split; [exact P|]. exists u, d. cbn. auto.
        + intros (P & u & d & [<-|Iu] & D & Z).
          * destruct (proj2 Hc) as (c & Ic & Fc); [split; [exact P|eauto]|]. exists c. rewrite in_app_iff. auto.
          * destruct (proj2 Hr) as (c & Ic & Fc); [split; [exact P|eauto]|]. exists c. rewrite in_app_iff. auto. }
    destruct Hall as (r & Er & Hr). remember (t0 :: ts0) as ts eqn:Ets.
    destruct o as [o|v]; [|cbn in Hl; subst; discriminate]. cbn [inst_term instantiate_op] in *.
    assert (Hother : o <> MDiv -> ((exists c, In c (concat r) /\ fd c = true) <-> fd path = true /\ exists d, denominator d (T (EN o) ts) /\ z3_zero d)).
    { intros No. rewrite Hr. split; intros [P X]; (split; [exact P|]).
      - destruct X as (u & d & Iu & D & Z). exists d. split; [exact (Dn_sub d _ _ u Iu D)|exact Z].
      - destruct X as (d & D & Z). inversion D as [|? ? u Iu Du]; subst; [elim No; reflexivity|]. eauto. }
    destruct (math_to_var o) eqn:Ev; [destruct o; subst ts; discriminate|].
    destruct o; try discriminate Ev; cbn in Hl; try (subst ts; discriminate Hl);
      try (exists (concat r); split; [cbn [ec]; rewrite Er; subst ts; reflexivity|apply Hother; discriminate]).
    - (* division *)
      destruct ts as [|x [|d [|? ?]]]; try discriminate Hl. inversion Fz as [|? ? ? ? _ F2]; inversion F2 as [|? ed ? ? Ed _]; subst.
      cbn [map] in *. exists (FAnd (FEq ed rzero) path :: concat r). split; [cbn [ec]; rewrite Ed; cbn [rbind]; rewrite Er; reflexivity|].
      assert (Q : fd (FAnd (FEq ed rzero) path) = true <-> fd path = true /\ z3_zero d).
      { rewrite (z3_zero_dec d ed Ed). cbn [fden rden rzero]. rewrite qzero_eq. destruct (Qc_eq_dec (rd ed) (Q2Qc 0)) as [Z|Z]; cbn; [tauto|]. split; [discriminate|]. intros [_ X]. contradiction. }
      split.
      + intros (c & [<-|Ic] & Fc).
        * apply Q in Fc as [P Z]. split; [exact P|]. exists d. split; [constructor|exact Z].
        * destruct (proj1 Hr (ex_intro _ c (conj Ic Fc))) as (P & u & d' & Iu & D & Z). split; [exact P|]. exists d'. split; [exact (Dn_sub d' _ _ u Iu D)|exact Z].
      + intros (P & d' & D & Z). inversion D as [x'|? ? u Iu Du]; subst.
        * eexists. split; [left; reflexivity|]. apply Q. auto.
        * destruct (proj2 Hr) as (c & Ic & Fc); [split; [exact P|eauto]|]. exists c. split; [right; exact Ic|exact Fc].
    - elim Ho. reflexivity.
  Qed.
  (* without a zero denominator the solver's value is the value *)
  Lemma z3_value : forall t e, wf_term mpar t -> unconditional t -> fold_term math_to_z3 (inst_term MVar t) = Val e ->
    (forall d, denominator d t -> ~ z3_zero d) -> pat_value env t = Val (Some (rd e)).
  Proof.
    intros t e W U E N. destruct (math_enc_den div0 env _ _ E) as (v & Dv & Rv). unfold pat_value. rewrite Dv. destruct v as [q|]; [rewrite (Rv q eq_refl); reflexivity|].
    exfalso. destruct (proj1 (undefined_iff env t W U) Dv) as (d & D & Z). apply (N d D). destruct (z3_denominator _ _ D e E) as (ed & Ed).
    exists ed. split; [exact Ed|]. destruct (math_enc_den div0 env _ _ Ed) as (v & Dd & Rd). unfold pat_value in Z. rewrite Dd in Z. injection Z as ->. exact (Rd _ eq_refl).
  Qed.
  Lemma implies_some : forall l c a, In c l -> fd c = true -> fd (fold_left (fun a c => FImplies (FNot c) a) l a) = true.
  Proof.
    assert (forall l a, fd a = true -> fd (fold_left (fun a c => FImplies (FNot c) a) l a) = true) as Keep.
    { induction l as [|c l IH]; intros a H; [exact H|]. cbn [fold_left]. apply IH. cbn. rewrite H. destruct (fd c); reflexivity. }
    induction l as [|x l IH]; intros c a I F; [destruct I|]. cbn [fold_left]. destruct I as [->|I]; [|exact (IH c _ I F)].
    apply Keep. cbn. rewrite F. reflexivity.
  Qed.
  Lemma some_true : forall l, (exists c, In c l /\ fd c = true) \/ all_false div0 env l.
  Proof.
    induction l as [|c l [(x & I & F)|IH]]; [right; intros c []|left; exists x; cbn; auto|].
    destruct (fd c) eqn:E; [left; exists c; cbn; auto|right]. intros x [<-|I]; auto.
  Qed.
  Lemma f_or_iff : forall l, fd (f_or l) = true <-> exists c, In c l /\ fd c = true.
  Proof.
    intros l. split; [|intros (c & I & F); exact (f_or_true div0 env l c I F)]. intros H. destruct (some_true l) as [X|X]; [exact X|]. rewrite (f_or_false div0 env l X) in H. discriminate H.
  Qed.
End Accept.

Lemma guarded_accepted : forall check l tl r tr d v, real_complete check -> mpat_ok l tl -> mpat_ok r tr -> math_validate check l r = Val v ->
  only_one_sided tl tr d -> unconditional tl -> unconditional tr -> agree tl tr -> mpat_ok (to_rec (guarded d tl tr)) (guarded d tl tr) ->
  math_validate check l (to_rec (guarded d tl tr)) = Val Valid.
Proof.
  intros check l tl r tr d v Hc Ol Or V One Ul Ur A Og.
  pose proof Ol as (Pl & Wl & Tl & _). pose proof Og as (Pg & Wg & Tg & _). pose proof Or as (Pr & Wr & Tr & _).
  assert (exists vl vr, fold_rec math_to_z3 (instantiate MVar l) = Val vl /\ fold_rec math_to_z3 (instantiate MVar r) = Val vr) as (vl & vr & Rl & Rr).
  { unfold math_validate in V. apply rbind_val in V as (vl & V1 & V). apply rbind_val in V as (vr & V2 & _). eauto. }
  clear V. pose proof (fold_rec_tree _ _ _ _ (tree_instantiate MVar _ _ Pl) Rl) as El. pose proof (fold_rec_tree _ _ _ _ (tree_instantiate MVar _ _ Pr) Rr) as Er.
  destruct (guard_ok tl tr d Tl Wl Tr Wr One Ul Ur) as (Td & Wd & Ud).
  assert (exists vd, fold_term math_to_z3 (inst_term MVar d) = Val vd) as (vd & Ed).
  { destruct One as [[[D _]|[D _]] _]; [exact (z3_denominator _ _ D _ El)|exact (z3_denominator _ _ D _ Er)]. }
  assert (Eg : fold_term math_to_z3 (inst_term MVar (guarded d tl tr)) = Val (RIte (FNot (FEq vd rzero)) vr vl)).
  { unfold guarded. cbn [inst_term map fold_term rmapM]. rewrite Ed. cbn [rbind]. rewrite Er. cbn [rbind]. rewrite El. reflexivity. }
  assert (Rg : fold_rec math_to_z3 (instantiate MVar (to_rec (guarded d tl tr))) = Val (RIte (FNot (FEq vd rzero)) vr vl)).
  { rewrite fold_instantiate, fold_to_rec, <- fold_inst_term. exact Eg. }
  unfold math_validate. rewrite Rl, Rg. cbn [rbind].
  rewrite (pat_to_sexp_ok _ _ Ol), (pat_to_sexp_ok _ _ Og). cbn [rbind]. rewrite !ec_sexp by assumption.
  pose (z := fun x : Qc => x). pose (e0 := fun _ : string => 0%Qc).
  set (pp := FAnd (FBool true) (FNot (FEq vd rzero))). set (pm := FAnd (FBool true) (FEq vd rzero)).
  destruct (ec_uncond z e0 tl vl Wl Ul El (FBool true)) as (lc & Cl & _).
  destruct (ec_uncond z e0 tr vr Wr Ur Er pp) as (ra & Ca & _).
  destruct (ec_uncond z e0 tl vl Wl Ul El pm) as (rb & Cb & _).
  rewrite Cl. cbn [rbind].
  assert (ec (inst_term MVar (guarded d tl tr)) (FBool true) = Val (ra ++ rb)) as ->.
  { unfold guarded. cbn [inst_term map instantiate_op ec]. rewrite Ed. cbn [rbind]. fold pp pm. rewrite Ca. cbn [rbind]. rewrite Cb. reflexivity. }
  cbn [rbind]. rewrite Hc; [reflexivity|]. clear z e0. intros div0 env. change (negb (fden div0 env (math_assertion vl (RIte (FNot (FEq vd rzero)) vr vl) lc (ra ++ rb))) = false). apply negb_false_iff.
  destruct (ec_uncond div0 env tl vl Wl Ul El (FBool true)) as (lc' & Cl' & Hl). rewrite Cl in Cl'. injection Cl' as <-.
  destruct (ec_uncond div0 env tr vr Wr Ur Er pp) as (ra' & Ca' & Ha). rewrite Ca in Ca'. injection Ca' as <-.
  destruct (ec_uncond div0 env tl vl Wl Ul El pm) as (rb' & Cb' & Hb). rewrite Cb in Cb'. injection Cb' as <-.
  pose proof (z3_zero_dec div0 env d vd Ed) as Zd.
  assert (Pp : fden div0 env pp = true <-> rden div0 env vd <> 0%Qc).
  { unfold pp. cbn [fden rden rzero andb]. rewrite qzero_eq. destruct (Qc_eq_dec (rden div0 env vd) (Q2Qc 0)); cbn; split; congruence. }
  assert (Pm : fden div0 env pm = true <-> rden div0 env vd = 0%Qc).
  { unfold pm. cbn [fden rden rzero andb]. rewrite qzero_eq. destruct (Qc_eq_dec (rden div0 env vd) (Q2Qc 0)); cbn; split; congruence. }
  assert (Same : (exists c, In c (ra ++ rb) /\ fden div0 env c = true) <-> (exists c, In c lc /\ fden div0 env c = true)).
  { assert ((exists c, In c (ra ++ rb) /\ fden div0 env c = true) <-> (exists c, In c ra /\ fden div0 env c = true) \/ (exists c, In c rb /\ fden div0 env c = true)) as ->.
    { split; [intros (c & I & F); apply in_app_iff in I as [I|I]; eauto|]. intros [(c & I & F)|(c & I & F)]; exists c; rewrite in_app_iff; auto. }
    rewrite Ha, Hb, Hl, Pp, Pm. destruct (Qc_eq_dec (rden div0 env vd) 0%Qc) as [Z|Z].
    - split; [intros [[N _]|[_ X]]; [contradiction|split; [reflexivity|exact X]]|]. intros [_ X]. right. auto.
    - assert (forall e, z3_zero div0 env e -> e <> d) as Ne by (intros e Ze ->; apply Zd in Ze; contradiction). split.
      + intros [[_ (e & D & Ze)]|[X _]]; [|contradiction]. split; [reflexivity|]. exists e. split; [|exact Ze]. apply (other_both tl tr d Tl Wl Tr Wr One e (Ne e Ze)). exact D.
      + intros [_ (e & D & Ze)]. left. split; [exact Z|]. exists e. split; [|exact Ze]. apply (other_both tl tr d Tl Wl Tr Wr One e (Ne e Ze)). exact D. }
  unfold math_assertion.
  cbn [fden]. apply andb_true_iff. split.
  - destruct (some_true div0 env (lc ++ ra ++ rb)) as [(c & I & F)|N]; [exact (implies_some div0 env _ c _ I F)|]. rewrite (implies_all div0 env _ _ N).
    cbn [fden rden rzero]. rewrite qzero_eq. destruct (Qc_eq_dec (rden div0 env vd) (Q2Qc 0)) as [Z|Z]; cbn [negb].
    + destruct (Qc_eq_dec (rden div0 env vl) (rden div0 env vl)); [reflexivity|contradiction].
    + apply all_false_app in N as [Nl Nr]. apply all_false_app in Nr as [Nr _].
      assert (forall e, denominator e tl -> ~ z3_zero div0 env e) as Ql.
      { intros e D Ze. destruct (proj2 Hl) as (c & I & F); [split; [reflexivity|eauto]|]. rewrite (Nl c I) in F. discriminate F. }
      assert (forall e, denominator e tr -> ~ z3_zero div0 env e) as Qr.
      { intros e D Ze. destruct (proj2 Ha) as (c & I & F); [split; [now apply Pp|eauto]|]. rewrite (Nr c I) in F. discriminate F. }
      pose proof (A env _ _ (z3_value div0 env tl vl Wl Ul El Ql) (z3_value div0 env tr vr Wr Ur Er Qr)) as ->.
      destruct (Qc_eq_dec (rden div0 env vr) (rden div0 env vr)); [reflexivity|contradiction].
  - rewrite <- !f_or_iff in Same. apply Bool.eqb_true_iff. destruct (fden div0 env (f_or (ra ++ rb))), (fden div0 env (f_or lc)); try reflexivity.
    + symmetry. apply Same. reflexivity.
    + apply Same. reflexivity.
Qed.
