(* Rewriting rational terms that may divide by zero. *)
From Coq Require Import NArith ZArith QArith Qcanon.
From Verif Require Import EnumSpec.
From Verif Require Import Base BaseProofs Lang Util LangProofs Number Rational RationalSpec RationalValidate
  Syntax Rule RuleSpec Ruleset Workload Analysis Egraph EgraphSpec EgraphProofs Synth SynthSpec SynthProofs Domains DomainAlg DomainSound DeriveProofs
  OpsSpec SaveDomains LearntSpec LearntProofs.
Open Scope list_scope.

Definition mval (s : string -> option Qc) (t : term math_op) : res (option Qc) := fold_term (with_vars math_to_var s math_sem) t.
(* without conditionals an undefined variable makes the term undefined *)
Lemma strict_none : forall s t v, wf_term math_arity t -> tall (fun o => o <> MIf) t -> In v (tvars math_to_var t) -> s v = None -> mval s t = Val None.
Proof.
  intros s t v. induction t as [o ts IH] using term_ind'. intros W N I E. inversion W as [? ? Lt Wt]; inversion N as [? ? No Nt]; subst. unfold mval. cbn [fold_term].
  assert (T : exists args, rmapM (fold_term (with_vars math_to_var s math_sem)) ts = Val args /\ length args = math_arity o /\ (In v (flat_map (tvars math_to_var) ts) -> In None args)).
  { rewrite <- Lt. clear I N No Lt W. induction ts as [|t ts IHs]; [exists []; cbn; auto|]. inversion IH as [|? ? H1 H2]; inversion Wt as [|? ? W1 W2]; inversion Nt as [|? ? N1 N2]; subst.
    destruct (IHs H2 W2 N2) as (args & E1 & E2 & E3). destruct (fold_term_total math_arity (with_vars math_to_var s math_sem) (fun _ => True) t) as (x & Ex & _); [|exact W1|].
    { intros o0 args0 Hl _. destruct o0; cbn in *; repeat (destruct args0 as [|? args0]; try discriminate Hl); eauto. }
    exists (x :: args). cbn [rmapM]. rewrite Ex. cbn [rbind]. rewrite E1. cbn. split; [reflexivity|]. split; [congruence|]. intros I. apply in_app_iff in I as [I|I]; [|auto].
    left. specialize (H1 W1 N1 I E). unfold mval in H1. congruence. }
  destruct T as (args & -> & La & Hn). cbn [rbind]. cbn [tvars] in I. apply in_app_iff in I as [I|I].
  - destruct o; cbn in I; try contradiction. destruct I as [->|[]]. destruct args; [|discriminate La]. cbn. now rewrite E.
  - specialize (Hn I). destruct o; try contradiction; cbn in La;
      repeat (destruct args as [|? args]; try discriminate La); cbn [In] in Hn; cbn;
      repeat match goal with H : _ \/ _ |- _ => destruct H | H : False |- _ => destruct H | H : ?x = None |- _ => rewrite H end; try reflexivity;
      match goal with |- context [both _ ?x None] => now destruct x end.
Qed.
Lemma mval_den : forall s env t, (forall v, In v (tvars math_to_var t) -> s v = Some (env v)) -> mval s t = math_den env t.
Proof. intros s env t H. exact (fold_vars_ext math_to_var math_sem s (fun v => Some (env v)) t H). Qed.
Lemma no_if_safe : forall t, tall (fun o => o <> MIf) t -> safe_ifs t.
Proof.
  induction t as [o ts IH] using term_ind'. intros N. inversion N as [? ? No Nt]; subst. constructor; [|intros X; contradiction].
  intros t I. rewrite Forall_forall in *. auto.
Qed.
(* a strict identity holds for undefined values as well *)
Lemma strict_all : forall tl tr, wf_term math_arity tl -> wf_term math_arity tr -> tall (fun o => o <> MIf) tl -> tall (fun o => o <> MIf) tr ->
  (forall v, In v (tvars math_to_var tl) <-> In v (tvars math_to_var tr)) ->
  (forall env p q, math_den env tl = Val (Some p) -> math_den env tr = Val (Some q) -> p = q) ->
  (forall env, math_den env tl = Val None <-> math_den env tr = Val None) ->
  forall s, exists v, mval s tl = Val v /\ mval s tr = Val v.
Proof.
  intros tl tr W1 W2 N1 N2 Sv Hv He s.
  destruct (existsb (fun v => match s v with None => true | _ => false end) (tvars math_to_var tl)) eqn:E.
  - apply existsb_exists in E as (v & I & E). destruct (s v) eqn:Es; [discriminate E|]. exists None.
    split; [exact (strict_none s tl v W1 N1 I Es)|exact (strict_none s tr v W2 N2 (proj1 (Sv v) I) Es)].
  - set (env := fun v => match s v with Some q => q | None => Q2Qc 0 end).
    assert (D : forall v, In v (tvars math_to_var tl) -> s v = Some (env v)).
    { intros v I. unfold env. destruct (s v) eqn:Es; [reflexivity|]. exfalso. assert (existsb (fun v => match s v with None => true | _ => false end) (tvars math_to_var tl) = true) as X; [|congruence].
      apply existsb_exists. exists v. now rewrite Es. }
    rewrite (mval_den s env tl D), (mval_den s env tr (fun v I => D v (proj2 (Sv v) I))).
    destruct (math_den_total env tl W1) as (x & E1). destruct (math_den_total env tr W2) as (y & E2). exists x. split; [exact E1|]. rewrite E2. f_equal.
    destruct x as [p|], y as [q|]; [f_equal; symmetry; exact (Hv env p q E1 E2)| | |reflexivity].
    + apply He in E2. congruence.
    + apply He in E1. congruence.
Qed.
Lemma math_rewrites : forall ov check, real_unsat_right check -> forall rs, learnt (math_lang ov check) (read_rules (math_lang ov check)) rs ->
  Forall (fun e => strict_rule (snd e)) rs ->
  forall keep g, made (math_lang ov check) keep rs g -> forall t u c, repr g t c -> repr g u c ->
  forall env v v', math_den env t = Val v -> math_den env u = Val v' -> v = v'.
Proof.
  intros ov check Hu rs H S keep g M t u c Rt Ru env v v' Dt Du.
  assert (all_hold (math_lang ov check) (set_vars (math_lang ov check) math_alg (fun s => Some (env s))) rs) as Ha.
  { destruct (math_readable ov check) as [K Re]. pose proof (learnt_validated _ _ _ _ Re rs H) as V. destruct (learnt_good _ _ _ _ Re rs H) as [_ F].
    unfold all_hold, validated in *. rewrite Forall_forall in *. intros [k r] I. destruct (V _ I) as (Vr & G1 & G2). destruct (F _ I) as (_ & _ & _ & _ & tl & tr & Ol & Or & _).
    destruct (math_true ov check Hu rs H k r I) as (ul & ur & El & Er & Hv & He). destruct (S _ I ul ur El Er) as (N1 & N2 & Sv). cbn [snd] in *.
    pose proof (tree_inst (math_lang ov check) (rlhs r)) as Il. pose proof (tree_inst (math_lang ov check) (rrhs r)) as Ir. rewrite (proj1 Ol) in Il. rewrite (proj1 Or) in Ir. cbn [l_mk_var math_lang rmap] in Il, Ir.
    assert (El' := El). assert (Er' := Er). rewrite (tree_instantiate MVar _ _ (proj1 Ol)) in El'. rewrite (tree_instantiate MVar _ _ (proj1 Or)) in Er'. injection El' as <-. injection Er' as <-.
    rewrite El in Il. rewrite Er in Ir. injection Il as Il. injection Ir as Ir.
    apply (den_holds (math_lang ov check) None math_sem (fun _ => True) math_says (fun v => eq_refl) r tl tr (proj1 Ol) (proj1 Or)
      (general_closed _ _ _ G1 (proj1 Ol)) (general_closed _ _ _ G2 (proj1 Or))).
    intros s _. rewrite <- Il, <- Ir. apply (strict_all (inst_term MVar tl) (inst_term MVar tr)); auto.
    - apply inst_wf. exact (proj1 (proj2 Ol)).
    - apply inst_wf. exact (proj1 (proj2 Or)).
    - exact (He (no_if_safe _ N1) (no_if_safe _ N2)). }
  pose proof (default_moves _ g (made_moves (math_lang ov check) math_eqb_eq keep (option Qc) _ (math_interprets ov check _) rs Ha g M) t u c Rt Ru) as E.
  rewrite (math_aval ov check env t v Dt), (math_aval ov check env u v' Du) in E. exact E.
Qed.
