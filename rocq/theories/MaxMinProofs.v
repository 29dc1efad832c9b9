(* The domain of maxima and minima: its operators can be read, its lowering is right,
   and the rules it starts from leave only one value. *)
From Coq Require Import ZArith QArith Qcanon.
From Verif Require Import Base BaseProofs EnumSpec Lang LangProofs Syntax Rule RuleSpec Ruleset Number Rational Analysis Egraph EgraphSpec Synth SynthSpec SynthProofs
  DomainAlg DomainSound MaxMin MaxMinSpec.
From Verif Require Import RuleTextProofs TextSpec TextProofs OpsSpec OpsProofs OpsDomains SaveProofs SaveDomains LearntSpec LearntProofs ForwardSpec ForwardDomains InferProofs Domains Infer Workload Recipe
  Trig TrigProofs Exp ExpProofs TotalSpec InferSpec LearnSpec LiveSpec LiveQuiet LiveDomains FinishSpec FinishDomains FinishRecursive.
Open Scope string_scope.
Open Scope list_scope.

(* ---- operators ---- *)
Lemma mm_eqb_eq : forall a b, mm_eqb a b = true <-> a = b.
Proof.
  intros a b. destruct a, b; cbn; split; intros H; try discriminate H; try reflexivity.
  - unfold qeqb in H. apply Qeq_bool_iff in H. apply (f_equal XLit). now apply Qc_is_canon.
  - injection H as ->. unfold qeqb. apply Qeq_bool_iff. reflexivity.
  - apply String.eqb_eq in H. now subst.
  - injection H as ->. apply String.eqb_refl.
Qed.
Definition mm_plain (o : mm_op) : Prop := mm_to_var o = None.
Lemma mm_from_op_arity : forall s k o, mm_from_op s k = Some o -> mm_arity o = k.
Proof.
  intros s k o E. unfold mm_from_op in E.
  repeat match type of E with
  | (if ?b && Nat.eqb ?k ?n then _ else _) = _ => let X := fresh in destruct (b && Nat.eqb k n) eqn:X; [apply andb_true_iff in X as [_ X]; apply Nat.eqb_eq in X; injection E as <-; rewrite X; reflexivity|]
  end.
  destruct (Nat.eqb k 0) eqn:X; [|discriminate E]. apply Nat.eqb_eq in X as ->. destruct (parse_fraction s); injection E as <-; reflexivity.
Qed.
Lemma mm_reads : forall o, mm_plain o -> RuleSpec.eov_ok mm_from_op mm_name mm_arity (EN o).
Proof.
  intros o H. unfold RuleSpec.eov_ok. destruct o; cbn [mm_name mm_arity]; try op_text; [|discriminate H].
  destruct (real_text _ (show_real q)) as (W & Na & Nq). split; [exact W|]. split; [exact Na|]. split; [|exact Nq].
  pose proof (parse_show_fraction q) as P. unfold mm_from_op.
  repeat match goal with |- context [String.eqb (show_bigratio q) ?t] => let E := fresh in destruct (String.eqb_spec (show_bigratio q) t) as [E|_]; [exfalso; rewrite E in P; vm_compute in P; discriminate P|] end.
  cbn [andb Nat.eqb]. now rewrite P.
Qed.
Lemma mm_admits : forall A, admits mm_lang (over mm_lang mm_arity A) (fun _ => False).
Proof.
  intros A. constructor.
  - intros o is i _ _ H. cbn in H. injection H as <-. apply ends_full.
  - intros c [].
  - intros o k s _ _. split; [reflexivity|]. left. discriminate.
  - intros g i ts _ E. cbn in E. injection E as <-. constructor.
  - intros vars n vs _ E v c ts J. cbn in E. injection E as <- <-. destruct J.
Qed.
Lemma mm_readable : exists K, readable mm_lang mm_arity mm_plain K.
Proof.
  eexists. refine (Build_readable _ _ _ _ mm_plain _ _ _ _ (mm_admits mm_plain) _ _ _).
  - exact mm_eqb_eq.
  - reflexivity.
  - leafs.
  - exact mm_from_op_arity.
  - intros s k o E. destruct (mm_to_var o) as [v|] eqn:X; [left; cbn; rewrite X; discriminate|right; exact X].
  - apply plain_ok. exact mm_reads.
Qed.

(* ---- nothing panics ---- *)
Theorem mm_live : forall keep rs, rewrites mm_lang rs ->
  (forall part g, incl part rs -> reached mm_lang keep rs g -> goes_on mm_lang keep part g) /\ answers mm_lang keep rs /\ steady mm_lang keep.
Proof.
  intros keep rs F. split; [|split].
  - intros part g Ip H. refine (quiet_goes_on mm_lang mm_eqb_eq keep (aqb mm_arity) _ _ _ _ _ _ _ rs F part g Ip H); quiet mm_from_op_arity.
  - refine (quiet_answers mm_lang mm_eqb_eq keep (aqb mm_arity) _ _ _ _ _ _ rs F); quiet mm_from_op_arity.
  - refine (quiet_steady mm_lang mm_eqb_eq keep (aqb mm_arity) _ _ _ _ _ _ _); quiet mm_from_op_arity.
Qed.
Theorem mm_finishes : forall keep w ss ts prior fast, force w = Val ss -> Forall2 (reads mm_lang) ss ts -> length (wvars mm_lang ts) <= 26 ->
  Forall (fun e => open_fit mm_lang (snd e)) prior -> all_finish mm_lang keep (open_fit mm_lang) w prior fast.
Proof.
  intros keep w ss ts prior fast Fo Fr Lt Fp. destruct mm_readable as (K & Re).
  refine (open_finishes mm_lang mm_arity _ K Re _ mm_reads _ (fun _ _ => eq_refl) (none_own mm_lang (fun _ => eq_refl)) (fun _ _ => eq_refl) keep (fun rs F => proj1 (mm_live keep rs F)) w ss ts Fo Fr Lt _ prior Fp fast).
  - constructor; [exact mm_eqb_eq| |reflexivity|intros o H; destruct o; try reflexivity; elim H; reflexivity].
    intros a b. cbn. unfold qeqb. rewrite Qeq_bool_iff. split; [apply Qc_is_canon|intros ->; reflexivity].
  - intros c. repeat constructor.
  - refine (quiet_start mm_lang mm_eqb_eq keep (aqb mm_arity) _ _ _ _ _ _ _ w ss ts Fo Fr); quiet mm_from_op_arity.
Qed.
Theorem mm_recursive : forall keep l met prior, plain_names l -> 2 <= length (w_ops l) -> w_vars l <> [] -> length (w_vars l) <= 26 -> names_known mm_lang l ->
  Forall (fun e => open_fit mm_lang (snd e)) prior -> recursion_finishes mm_lang keep met l prior.
Proof. intros keep l met prior P T S Le K. exact (recursive_finishes mm_lang keep l P T S Le K (open_fit mm_lang) (fun w ss ts pr fast Fo Fr _ => mm_finishes keep w ss ts pr fast Fo Fr) met prior). Qed.

(* ---- the rules ---- *)
Ltac given s := eexists; eexists; split; [reflexivity|]; split; [reflexivity|]; intros cheat env s; cbn [paval map nop mm_sem a_sem set_vars mm_lang l_to_var mm_to_var mm_alg]; try reflexivity;
  repeat match goal with |- context [s ?v] => generalize (s v); intro end;
  repeat match goal with x : mval |- _ => destruct x as [?|[]|] end; try reflexivity.
Lemma prior_equations : exists m, rs_new mm_from_op mm_name mm_equations = Val m /\ Forall (fun e => equation (snd e)) m.
Proof. eexists. split; [vm_compute; reflexivity|]. repeat apply Forall_cons; [..|apply Forall_nil]; given s. Qed.
Lemma exploratory_equations : exists m, mm_exploratory = Val m /\ Forall (fun e => equation (snd e)) m.
Proof.
  eexists. split; [vm_compute; reflexivity|]. repeat apply Forall_cons; [..|apply Forall_nil]; given s.
  all: unfold choice, truth, less; cbn beta iota; destruct (Qclt_le_dec q0 q) as [?|?], (Qclt_le_dec q q0) as [?|?]; reflexivity.
Qed.
Lemma mm_interprets : forall cheat env, interprets mm_lang (set_vars mm_lang (mm_alg cheat) env).
Proof.
  intros cheat env. apply quiet_interprets; [|reflexivity| |cbn; auto|reflexivity].
  - intros o is i H. now inversion H.
  - intros vars n vs v c ts H J. inversion H; subst. destruct J.
Qed.
Lemma equation_holds : forall q cheat env, equation q -> holds mm_lang (set_vars mm_lang (mm_alg cheat) env) q.
Proof. intros q cheat env (tl & tr & E1 & E2 & H). exists tl, tr. split; [exact E1|]. split; [exact E2|]. intros s _ _. apply H. Qed.

(* ---- what is learned ---- *)
Lemma paval_ext {V} (sem sem' : mm_op -> list V -> V) (s : string -> V) : (forall o vs, sem o vs = sem' o vs) -> forall t, paval sem s t = paval sem' s t.
Proof.
  intros H. induction t as [o ts IH] using term_ind'. destruct o as [o|v]; cbn; [|reflexivity]. rewrite H. f_equal. apply map_ext_in. rewrite Forall_forall in IH. exact IH.
Qed.
Lemma consequence_equation : forall (given : rule mm_op -> Prop) r, (forall q, given q -> equation q) -> consequence mm_lang given r -> equation r.
Proof.
  intros given r H Cn.
  assert (X : forall cheat env, exists tl tr, tree (rlhs r) = Val tl /\ tree (rrhs r) = Val tr /\
    forall s, paval (a_sem (set_vars mm_lang (mm_alg cheat) env)) s tl = paval (a_sem (set_vars mm_lang (mm_alg cheat) env)) s tr).
  { intros cheat env. destruct (Cn mval (set_vars mm_lang (mm_alg cheat) env) (fun _ => True)) as (tl & tr & E1 & E2 & E); [auto| |eauto 7].
    intros env' _. split.
    - apply quiet_interprets; [|reflexivity| |cbn; auto|reflexivity].
      + intros o is i J. now inversion J.
      + intros vars n vs v c ts J K. inversion J; subst. destruct K.
    - intros q Hq. destruct (H q Hq) as (tl & tr & E1 & E2 & E). exists tl, tr. split; [exact E1|]. split; [exact E2|]. intros s _ _.
      assert (Y : forall o vs, a_sem (set_vars mm_lang (set_vars mm_lang (mm_alg cheat) env) env') o vs = a_sem (set_vars mm_lang (mm_alg cheat) env') o vs) by (intros o vs; cbn; now destruct (mm_to_var o)).
      rewrite (paval_ext _ _ s Y tl), (paval_ext _ _ s Y tr). apply E. }
  destruct (X (fun x _ => x) (fun _ => VNone)) as (tl & tr & E1 & E2 & _). exists tl, tr. split; [exact E1|]. split; [exact E2|].
  intros cheat env. destruct (X cheat env) as (tl' & tr' & E1' & E2' & E). congruence.
Qed.
Lemma extremum_meaning : forall cheat env s t, wf_term (par mm_arity) t -> tall (fun e => match e with EN o => mm_to_var o = None /\ mm_allowed o = true | PV _ => True end) t ->
  exists x, extremum cheat s t = Some x /\ paval (a_sem (set_vars mm_lang (mm_alg cheat) env)) (fun v => VNum (s v)) t = VNum x.
Proof.
  intros cheat env s. induction t as [o ts IH] using term_ind'. intros W A. inversion W as [? ? L Ws]; subst. inversion A as [? ? Ho Hs]; subst.
  destruct o as [o|v]; [|exists (s v); split; reflexivity]. destruct Ho as [Hv Ha].
  destruct o; try discriminate Ha; try discriminate Hv; cbn in L; destruct ts as [|a [|b [|c ts]]]; try discriminate L.
  all: inversion IH as [|? ? Ia IH']; subst; inversion IH' as [|? ? Ib _]; subst; inversion Ws as [|? ? Wa Ws']; subst; inversion Ws' as [|? ? Wb _]; subst;
    inversion Hs as [|? ? Aa Hs']; subst; inversion Hs' as [|? ? Ab _]; subst;
    destruct (Ia Wa Aa) as (x & Ex & Px); destruct (Ib Wb Ab) as (y & Ey & Py);
    cbn [extremum paval map]; rewrite Ex, Ey, Px, Py; eexists; (split; [reflexivity|]); cbn; unfold larger, smaller; try destruct (Qclt_le_dec x y); reflexivity.
Qed.
Lemma mm_without : forall p, allowed_side mm_lang p -> ForwardSpec.without lowered p.
Proof.
  intros p (t & E & A). exists t. split; [exact E|]. revert A. apply tall_impl. intros [o|v]; [|auto]. intros A X. destruct o; try discriminate A; exact X.
Qed.
Lemma layer_equation : forall keep fuel ex w prior new, mm_exploratory = Val ex -> NoDup (map fst prior) -> read_rules mm_lang prior ->
  (forall k q, In (k, q) prior -> equation q) -> run_fast_forwarding mm_lang keep fuel ex w prior new ->
  reloads mm_lang new /\
  forall k r, In (k, r) new -> equation r /\ true_of_numbers r /\ ForwardSpec.without lowered (rlhs r) /\ ForwardSpec.without lowered (rrhs r).
Proof.
  intros keep fuel ex w prior new Ex N Hp Ht R. pose proof (rules_read _ _ mm_lang _ _ Ex) as He.
  pose proof (Lt_forwarding _ _ keep fuel ex w prior new N Hp He R) as Lt.
  destruct (readable_ready _ _ _ _ _ mm_readable new Lt) as (_ & _ & Ln). split; [exact Ln|].
  destruct mm_readable as (K & Re). destruct (learnt_good _ _ _ _ Re new Lt) as [_ Fg]. rewrite Forall_forall in Fg. intros k r J.
  destruct (readable_lifts _ _ _ _ _ mm_readable keep fuel ex w prior new N Hp He R k r J) as (Cn & Al & Ar).
  assert (E : equation r).
  { refine (consequence_equation _ r _ Cn). intros q [(n & Jq)|(n & Jq)]; [exact (Ht n q Jq)|].
    destruct exploratory_equations as (m' & E' & F). rewrite Ex in E'. injection E' as <-. rewrite Forall_forall in F. exact (F _ Jq). }
  split; [exact E|]. split; [|split; apply mm_without; assumption].
  destruct (Fg _ J) as (_ & U & _ & Fm). cbn [snd] in U, Fm. destruct Fm as (_ & tl & tr & (T1 & W1 & _) & (T2 & W2 & _) & _).
  exists tl, tr. split; [exact T1|]. split; [exact T2|]. intros cheat s. destruct E as (tl' & tr' & T1' & T2' & E). assert (tl' = tl) as -> by congruence. assert (tr' = tr) as -> by congruence.
  assert (Gl : forall p t, allowed_side mm_lang p -> incl p (rlhs r ++ rrhs r) -> tree p = Val t -> tall (fun e => match e with EN o => mm_to_var o = None /\ mm_allowed o = true | PV _ => True end) t).
  { intros p t (t' & Et & A) Ip Tp. assert (t' = t) as -> by congruence.
    assert (V : tall (fun e => match e with EN o => mm_to_var o = None | PV _ => True end) t).
    { apply (tree_tall _ p); [|exact Tp]. intros n Hn. destruct (nop n) as [o|v] eqn:En; [|exact I]. exact (proj1 (uses_in _ _ mm_lang _ r n o U (Ip n Hn) En)). }
    clear - A V. induction t as [o ts IH] using term_ind'. inversion A as [? ? Ao As]; subst. inversion V as [? ? Vo Vs]; subst. constructor; [destruct o; [split; assumption|exact I]|].
    rewrite Forall_forall in *. intros t It. exact (IH t It (As t It) (Vs t It)). }
  destruct (extremum_meaning cheat (fun _ => VNone) s tl W1 (Gl _ _ Al (fun n Hn => in_or_app _ _ _ (or_introl Hn)) T1)) as (x & Ex1 & Px).
  destruct (extremum_meaning cheat (fun _ => VNone) s tr W2 (Gl _ _ Ar (fun n Hn => in_or_app _ _ _ (or_intror Hn)) T2)) as (y & Ey1 & Py).
  exists x. split; [exact Ex1|]. specialize (E cheat (fun _ => VNone) (fun v => VNum (s v))). rewrite Px, Py in E. injection E as ->. exact Ey1.
Qed.

(* ---- rules that leave only one value ---- *)
Ltac rules := repeat match goal with
  | H : all_hold _ _ _ |- _ => unfold all_hold in H
  | H : Forall _ (_ :: _) |- _ => let H1 := fresh in let H2 := fresh in inversion H as [|? ? H1 H2]; clear H; subst; rename H2 into H
  | H : Forall _ [] |- _ => clear H
  | H : holds _ _ _ |- _ => let tl := fresh in let tr := fresh in let E1 := fresh in let E2 := fresh in let E := fresh "E" in
      destruct H as (tl & tr & E1 & E2 & E); vm_compute in E1; vm_compute in E2; injection E1 as <-; injection E2 as <-; cbn [paval map] in E
  end.
Definition at2 {V} (a : string) (x y : V) (v : string) : V := if String.eqb v a then x else y.
Lemma at2_dom {V} (P : V -> Prop) a x y : P x -> P y -> forall v, P (at2 a x y v).
Proof. intros Px Py v. unfold at2. now destruct (String.eqb v a). Qed.
Ltac rule_at s := match goal with E : forall _, _ -> guarded _ _ _ _ -> _ |- _ => refine (E s _ Logic.I); try (apply at2_dom; auto); auto end.
Theorem all_collapse : Forall (fun lines => incl lines mm_lines /\ exists rs, rs_new mm_from_op mm_name lines = Val rs /\ length rs = length lines /\ collapses rs) collapsing.
Proof.
  assert (Dc : forall lines, forallb (fun l => existsb (String.eqb l) mm_lines) lines = true -> incl lines mm_lines).
  { intros lines H l J. rewrite forallb_forall in H. specialize (H l J). apply existsb_exists in H as (l' & J' & E). apply String.eqb_eq in E as ->. exact J'. }
  repeat apply Forall_cons; [..|apply Forall_nil]; (split; [apply Dc; vm_compute; reflexivity|]); eexists; (split; [vm_compute; reflexivity|]); (split; [vm_compute; reflexivity|]);
    intros V A I H x y Dx Dy; rules.
  all: assert (D0 : forall o, a_dom A (a_sem A o [])) by (intros o; apply (in_dom _ _ I); constructor).
  - assert (E1 : a_sem A XCase [a_sem A XTrue []; a_sem A XEndCase []; x] = a_sem A XEndCase []) by rule_at (at2 "rest" x (a_sem A XEndCase [])).
    assert (E2 : a_sem A XCase [a_sem A XTrue []; a_sem A XEndCase []; y] = a_sem A XEndCase []) by rule_at (at2 "rest" y (a_sem A XEndCase [])).
    assert (E3 : a_sem A XCase [a_sem A XTrue []; a_sem A XEndCase []; x] = x) by rule_at (at2 "outer" x (a_sem A XTrue [])).
    assert (E4 : a_sem A XCase [a_sem A XTrue []; a_sem A XEndCase []; y] = y) by rule_at (at2 "outer" y (a_sem A XTrue [])).
    congruence.
  - set (t := a_sem A XTrue []). pose proof (D0 XTrue) as Dt. fold t in Dt.
    assert (Ct : forall u v, a_dom A u -> a_dom A v -> a_sem A XCase [t; u; v] = u) by (intros u v Du Dv; rule_at (at2 "t" u v)).
    assert (Dc3 : forall u v, a_dom A u -> a_dom A v -> a_dom A (a_sem A XCase [t; u; v])) by (intros u v Du Dv; now rewrite Ct).
    transitivity (a_sem A XCase [t; x; a_sem A XCase [t; y; x]]); [symmetry; apply Ct; auto|].
    transitivity (a_sem A XCase [t; y; a_sem A XCase [t; x; x]]); [|apply Ct; auto].
    rule_at (fun v => if String.eqb v "t1" then x else if String.eqb v "t2" then y else if String.eqb v "rest" then x else t).
    intros v. destruct (String.eqb v "t1"); [assumption|]. destruct (String.eqb v "t2"); [assumption|]. destruct (String.eqb v "rest"); assumption.
  - set (t := a_sem A XTrue []). set (f := a_sem A XFalse []). pose proof (D0 XTrue) as Dt. fold t in Dt. pose proof (D0 XFalse) as Df. fold f in Df.
    assert (B : forall u, a_dom A u -> a_sem A XBool [u] = t).
    { intros u Du. assert (Db : a_dom A (a_sem A XBool [u])) by (apply (in_dom _ _ I); constructor; auto).
      assert (F1 : a_sem A XKnow [f; a_sem A XBool [u]] = a_sem A XBool [u]) by rule_at (at2 "k" f (a_sem A XBool [u])).
      assert (F2 : a_sem A XKnow [f; a_sem A XBool [u]] = a_sem A XKnow [f; a_sem A XOr [a_sem A XNot [f]; a_sem A XBool [u]]]) by rule_at (at2 "k" f u).
      assert (F3 : a_sem A XNot [f] = t) by rule_at (fun _ : string => t).
      assert (F4 : a_sem A XOr [t; a_sem A XBool [u]] = t) by rule_at (fun _ : string => a_sem A XBool [u]).
      rewrite F3, F4 in F2.
      assert (F5 : a_sem A XKnow [f; t] = t) by rule_at (at2 "k" f t). congruence. }
    assert (Nt : forall u, a_dom A u -> a_sem A XNot [u] = t).
    { intros u Du. transitivity (a_sem A XBool [a_sem A XDummy2 [a_sem A (XVar "!") []; u]]); [rule_at (fun _ : string => u)|]. apply B. apply (in_dom _ _ I). constructor; [apply D0|constructor; auto]. }
    assert (Eft : f = t). { transitivity (a_sem A XNot [t]); [symmetry; rule_at (fun _ : string => t)|exact (Nt t Dt)]. }
    assert (C1 : a_sem A XCase [t; x; y] = x) by rule_at (at2 "t" x y). assert (C2 : a_sem A XCase [f; x; y] = y) by rule_at (at2 "t" x y). congruence.
  - set (t := a_sem A XTrue []). set (f := a_sem A XFalse []). set (e := a_sem A XEndCase []). pose proof (D0 XTrue) as Dt. fold t in Dt. pose proof (D0 XFalse) as Df. fold f in Df. pose proof (D0 XEndCase) as De. fold e in De.
    assert (F1 : a_sem A XAnd [f; e] = f) by rule_at (fun _ : string => e).
    assert (F2 : a_sem A XAnd [f; e] = a_sem A XBinop [a_sem A (XVar "&") []; f; e]) by rule_at (at2 "a" f e).
    assert (F3 : a_sem A XBinop [a_sem A (XVar "&") []; f; e] = e) by rule_at (at2 "op" (a_sem A (XVar "&") []) f).
    assert (G1 : a_sem A XOr [t; e] = t) by rule_at (fun _ : string => e).
    assert (G2 : a_sem A XOr [t; e] = a_sem A XBinop [a_sem A (XVar "|") []; t; e]) by rule_at (at2 "a" t e).
    assert (G3 : a_sem A XBinop [a_sem A (XVar "|") []; t; e] = e) by rule_at (at2 "op" (a_sem A (XVar "|") []) t).
    assert (C1 : a_sem A XCase [t; x; y] = x) by rule_at (at2 "t" x y). assert (C2 : a_sem A XCase [f; x; y] = y) by rule_at (at2 "t" x y). congruence.
Qed.
Lemma collapses_more : forall rs rs', collapses rs -> incl (map snd rs) (map snd rs') -> collapses rs'.
Proof.
  intros rs rs' H J V A I F. apply H; [exact I|]. unfold all_hold in *. rewrite Forall_forall in *. intros e Ie. apply (in_map snd) in Ie. apply J in Ie.
  apply in_map_iff in Ie as (e' & <- & Ie). exact (F e' Ie).
Qed.
Theorem prior_collapses : exists prior, mm_prior = Val prior /\ length prior = length mm_lines /\ collapses prior.
Proof.
  pose proof all_collapse as H. inversion H as [|? ? (_ & rs & E & _ & Cl) _]; subst. eexists. split; [vm_compute; reflexivity|]. split; [vm_compute; reflexivity|].
  apply (collapses_more rs); [exact Cl|]. vm_compute in E. injection E as <-. cbn [map snd]. intros r [<-|[<-|[]]]; cbn [In]; tauto.
Qed.
(* and so everything follows from them *)
Lemma closed_dom : forall V (A : algebra mm_op Qc V) env s t, interprets mm_lang (set_vars mm_lang A env) -> (forall v, a_dom A (s v)) -> closed mm_lang t -> a_dom A (paval (a_sem A) s t).
Proof.
  intros V A env s t I Ds. induction t as [[o|v] ts IH] using term_ind'; intros Cl; cbn [paval]; [|apply Ds]. destruct Cl as [No Cl].
  assert (F : Forall (a_dom A) (map (paval (a_sem A) s) ts)).
  { clear No. induction IH as [|t ts H F IH2]; [constructor|]. destruct Cl as [C1 C2]. constructor; auto. }
  pose proof (in_dom _ _ I o _ F) as X. cbn in X, No. rewrite No in X. exact X.
Qed.
Lemma collapse_consequence : forall rs r, collapses rs -> (exists tl tr, tree (rlhs r) = Val tl /\ tree (rrhs r) = Val tr) -> general mm_lang (rlhs r) -> general mm_lang (rrhs r) ->
  consequence mm_lang (rule_of rs) r.
Proof.
  intros rs r H (tl & tr & E1 & E2) G1 G2 V A ok Ho Hok. exists tl, tr. split; [exact E1|]. split; [exact E2|]. intros s Hs.
  destruct (Hok s Hs) as (I & F). assert (Fr : all_hold mm_lang (set_vars mm_lang A s) rs).
  { apply Forall_forall. intros [k q] J. apply F. exists k. exact J. }
  assert (Ds : forall v, a_dom A (s v)) by (intros v; exact (in_dom _ _ I (XVar v) [] (Forall_nil _))).
  apply (H V (set_vars mm_lang A s) I Fr).
  - exact (closed_dom V A s s tl I Ds (general_closed mm_lang _ _ G1 E1)).
  - exact (closed_dom V A s s tr I Ds (general_closed mm_lang _ _ G2 E2)).
Qed.
