(* The workloads of recursive_rules are the terms over the language up to the size. *)
From Verif Require Import Base BaseProofs Sexp Reader Pattern Filter Workload Recipe EnumSpec Infer InferSpec.
From Verif Require Import SexpProofs PatternProofs FilterProofs WorkloadProofs ReaderProofs RecipeProofs.
Open Scope string_scope.
Open Scope list_scope.

(* replacing several atoms at once by other atoms *)
Inductive expand (pegs : list (string * list string)) : sexp -> sexp -> Prop :=
  | EX_hole s l x : lookup pegs s = Some l -> In x l -> expand pegs (Atom s) (Atom x)
  | EX_atom s : lookup pegs s = None -> expand pegs (Atom s) (Atom s)
  | EX_list l l' : Forall2 (expand pegs) l l' -> expand pegs (Lst l) (Lst l').

Lemma expand_nil : forall t u, expand [] t u <-> t = u.
Proof.
  intros t. induction t as [s|l IH] using sexp_ind'; intros u; split.
  - intros H. inversion H; subst; [discriminate|reflexivity].
  - intros <-. apply EX_atom. reflexivity.
  - intros H. inversion H as [| |? l' F]; subst. f_equal. clear H. revert l' F. induction l as [|t l IHl]; intros l' F; inversion F as [|? ? ? ? Ft Fl]; subst; [reflexivity|].
    inversion IH as [|? ? I1 I2]; subst. f_equal; [now apply I1|now apply IHl].
  - intros <-. constructor. clear - IH. induction IH as [|t l Ht _ IHl]; constructor; [now apply Ht|exact IHl].
Qed.
Lemma expand_cons : forall a l rest, (forall x, In x l -> lookup rest x = None) ->
  forall t u, expand ((a, l) :: rest) t u <-> exists t', fill (fun p => In p (map Atom l)) a t t' /\ expand rest t' u.
Proof.
  intros a l rest Hl t. induction t as [s|ts IH] using sexp_ind'; intros u; split.
  - intros H. inversion H as [? l' x E Ix|? E|]; subst; cbn in E; destruct (String.eqb s a) eqn:Es.
    + apply String.eqb_eq in Es as ->. injection E as <-. exists (Atom x). split; [constructor; now apply in_map|]. apply EX_atom. now apply Hl.
    + exists (Atom s). split; [apply fill_atom; intros ->; rewrite String.eqb_refl in Es; discriminate|now apply EX_hole with l'].
    + discriminate E.
    + exists (Atom s). split; [apply fill_atom; intros ->; rewrite String.eqb_refl in Es; discriminate|now apply EX_atom].
  - intros (t' & F & E). inversion F as [? P|? Ns|]; subst.
    + apply in_map_iff in P as (x & <- & Ix). inversion E as [? l' y Ey|? Ey|]; subst; [rewrite (Hl x Ix) in Ey; discriminate|].
      apply EX_hole with l; [|exact Ix]. cbn. now rewrite String.eqb_refl.
    + assert (Es : String.eqb s a = false) by now apply String.eqb_neq. inversion E as [? l' y Ey Iy|? Ey|]; subst.
      * apply EX_hole with l'; [|exact Iy]. cbn. now rewrite Es.
      * apply EX_atom. cbn. now rewrite Es.
  - intros H. inversion H as [| |? us F]; subst. clear H.
    assert (exists vs, Forall2 (fill (fun p => In p (map Atom l)) a) ts vs /\ Forall2 (expand rest) vs us) as (vs & F1 & F2).
    { revert us F. induction ts as [|t ts IHt]; intros us F; inversion F as [|? u' ? us' Ft Fl]; subst; [exists []; split; constructor|].
      inversion IH as [|? ? I1 I2]; subst. destruct (proj1 (I1 u') Ft) as (t' & A & B). destruct (IHt I2 us' Fl) as (vs & A' & B'). exists (t' :: vs). split; constructor; auto. }
    exists (Lst vs). split; constructor; assumption.
  - intros (t' & F & E). inversion F as [? P| |? vs F1]; subst. inversion E as [| |? us F2]; subst. constructor. clear F E.
    revert us F2. induction F1 as [|x y xs ys Fx Fxs IHf]; intros us F2; inversion F2 as [|? u' ? us' Ey Eys]; subst; constructor.
    + inversion IH as [|? ? I1 I2]; subst. apply I1. eauto.
    + inversion IH as [|? ? I1 I2]; subst. now apply IHf.
Qed.
Lemma expand_size : forall pegs m t u, expand pegs t u -> size m u = size m t.
Proof.
  intros pegs m t. induction t as [s|l IH] using sexp_ind'; intros u H; inversion H as [| |? l' F]; subst; try (destruct m; reflexivity).
  assert (E : map (size m) l' = map (size m) l).
  { clear H. revert l' F. induction l as [|t l IHl]; intros l' F; inversion F as [|? ? ? ? Ft Fl]; subst; [reflexivity|]. inversion IH as [|? ? I1 I2]; subst. cbn. f_equal; [now apply I1|now apply IHl]. }
  destruct m; cbn in *; [| |].
  - clear - E. revert l' E. induction l as [|t l IHl]; intros [|t' l'] E; try discriminate E; [reflexivity|]. cbn in *. injection E as E1 E2. rewrite !app_length. rewrite E1. f_equal. now apply IHl.
  - change (map nlists l' = map nlists l) in E. now rewrite E.
  - change (map height l' = map height l) in E. now rewrite E.
Qed.

(* one plug with words *)
Lemma wnew_words : forall l, Forall word l -> wnew l = Val (WSet (map Atom l)).
Proof.
  intros l F. unfold wnew. assert (E : rmapM sexp_from_str l = Val (map Atom l)).
  { induction F as [|x l Hx _ IH]; [reflexivity|]. cbn. unfold sexp_from_str at 1. rewrite parse_word by exact Hx. cbn. now rewrite IH. }
  now rewrite E.
Qed.
Lemma plug_step : forall w ts l name, wproper w -> force w = Val ts -> Forall word l -> word name -> name <> "*" -> starts_q name = false ->
  exists w' us, wplug w name (WSet (map Atom l)) = Val w' /\ wproper w' /\ force w' = Val us /\
    forall u, In u us <-> exists t, In t ts /\ fill (fun p => In p (map Atom l)) name t u.
Proof.
  intros w ts l name Hw Hf Fl Hn N1 N2.
  assert (exists w', wplug w name (WSet (map Atom l)) = Val w' /\ wproper w') as (w' & E & Hw').
  { destruct l as [|x l]; cbn [map wplug].
    - rewrite pattern_from_word by assumption. eexists. split; [reflexivity|]. now apply wproper_wfilter.
    - eexists. split; [reflexivity|]. cbn. split; [exact Hw|]. constructor; [reflexivity|]. apply Forall_map, Forall_forall. reflexivity. }
  assert (Pp : wproper (WSet (map Atom l))) by (cbn; apply Forall_map, Forall_forall; reflexivity).
  exists w', (flat_map (plug name (map Atom l)) ts). split; [exact E|]. split; [exact Hw'|]. split.
  - apply (wplug_exact w name (WSet (map Atom l)) w' ts (map Atom l) Hw Pp Hf eq_refl); [|exact E]. intros _. now apply pattern_from_word.
  - intros u. rewrite in_flat_map. apply force_pforce in Hf. subst ts. destruct (force_proper w Hw) as [_ F]. rewrite Forall_forall in F. split.
    + intros (t & It & Iu). exists t. split; [exact It|]. now apply plug_sound.
    + intros (t & It & Iu). exists t. split; [exact It|]. apply plug_complete; auto.
Qed.
Lemma op_name : forall i, word ("OP" ++ show_nat i) /\ ("OP" ++ show_nat i)%string <> "*" /\ starts_q ("OP" ++ show_nat i) = false.
Proof.
  intros i. split; [|split; [discriminate|reflexivity]]. split; [discriminate|]. rewrite all_chars_app. change (all_chars word_char "OP") with true. cbn [andb]. now apply show_aux_word.
Qed.
Fixpoint op_pegs (i : nat) (ops : list (list string)) : list (string * list string) :=
  match ops with [] => [] | o :: r => (("OP" ++ show_nat (i + 1))%string, o) :: op_pegs (i + 1) r end.
Lemma op_pegs_none : forall ops i x, (forall j, x <> ("OP" ++ show_nat j)%string) -> lookup (op_pegs i ops) x = None.
Proof.
  induction ops as [|o ops IH]; intros i x H; [reflexivity|]. cbn [op_pegs lookup]. rewrite (proj2 (String.eqb_neq _ _) (H (i + 1))). now apply IH.
Qed.
Lemma plug_ops_spec : forall ops i w ts, (forall x, In x (concat ops) -> word x /\ ~ placeholder x) -> wproper w -> force w = Val ts ->
  exists w' us, plug_ops w i ops = Val w' /\ force w' = Val us /\ forall u, In u us <-> exists t, In t ts /\ expand (op_pegs i ops) t u.
Proof.
  induction ops as [|o ops IH]; intros i w ts Hx Hw Hf; cbn [plug_ops op_pegs].
  - exists w, ts. split; [reflexivity|]. split; [exact Hf|]. intros u. split; [intros I; exists u; split; [exact I|now apply expand_nil]|]. intros (t & I & E). apply expand_nil in E. now subst.
  - assert (Fo : Forall word o) by (apply Forall_forall; intros x I; apply (Hx x); cbn; apply in_or_app; now left).
    rewrite (wnew_words o Fo). cbn [rbind]. destruct (op_name (i + 1)) as (N1 & N2 & N3).
    destruct (plug_step w ts o _ Hw Hf Fo N1 N2 N3) as (w1 & us1 & E1 & Hw1 & Hf1 & S1). rewrite E1. cbn [rbind].
    destruct (IH (i + 1) w1 us1) as (w' & us & E & Hf' & Sp); [intros x I; apply Hx; cbn; apply in_or_app; now right|exact Hw1|exact Hf1|].
    exists w', us. split; [exact E|]. split; [exact Hf'|]. intros u. rewrite Sp. 
    assert (El : forall t, expand ((("OP" ++ show_nat (i + 1))%string, o) :: op_pegs (i + 1) ops) t u <-> exists t', fill (fun p => In p (map Atom o)) ("OP" ++ show_nat (i + 1)) t t' /\ expand (op_pegs (i + 1) ops) t' u).
    { intros t. apply expand_cons. intros x I. apply op_pegs_none. intros j ->. destruct (Hx ("OP" ++ show_nat j)%string) as [_ N]; [cbn; apply in_or_app; now left|]. apply N. right. right. right. eauto. }
    split.
    + intros (t' & I & E2). apply S1 in I as (t & It & F). exists t. split; [exact It|]. apply El. eauto.
    + intros (t & It & E2). apply El in E2 as (t' & F & E2). exists t'. split; [apply S1; eauto|exact E2].
Qed.

Definition all_pegs (l : wlang) : list (string * list string) := ("VAR", w_vars l) :: ("VAL", w_vals l) :: op_pegs 0 (w_ops l).
Definition width (l : wlang) : nat := if Nat.eqb (length (w_ops l)) 2 then 2 else 3.

(* what recursive_rules enumerates, for any number of lists of operators *)
Theorem sized_spec : forall met n l, plain_names l ->
  exists w us, sized_workload met (S n) l = Val w /\ force w = Val us /\
    forall u, In u us <-> exists t, gen (base_grammar (width l)) "EXPR" t /\ occurs "VAR" t /\ size met t <= S n /\ expand (all_pegs l) t u.
Proof.
  intros met n l Pn. unfold sized_workload. fold (width l).
  rewrite (base_lang_val (width l)). cbn [rbind].
  destruct (iter_metric_stage (WSet (base_grammar (width l))) "EXPR" met (S n) (base_grammar_proper (width l))) as (w0 & E0 & Hw0 & Hf0); [discriminate|].
  rewrite E0. cbn [rbind]. rewrite (pattern_from_word "VAR") by (try discriminate; try (split; [discriminate|]); reflexivity). cbn [rbind].
  set (w1 := wfilter w0 (Contains (PLit "VAR"))). assert (Hw1 : wproper w1) by now apply wproper_wfilter.
  assert (In1 : forall t, In t (pforce w1) <-> (gen (base_grammar (width l)) "EXPR" t /\ size met t <= S n) /\ occurs "VAR" t).
  { intros t. unfold w1. rewrite pforce_wfilter, filter_In. cbn [ptest]. rewrite contains_lit, Hf0. cbn [pforce]. rewrite stage_spec; [reflexivity|apply base_grammar_proper|apply base_grammar_productive]. }
  assert (Fv : Forall word (w_vars l)) by (apply Forall_forall; intros x I; apply (Pn x); auto).
  assert (Fl : Forall word (w_vals l)) by (apply Forall_forall; intros x I; apply (Pn x); auto).
  rewrite (wnew_words _ Fv). cbn [rbind].
  destruct (plug_step w1 (pforce w1) (w_vars l) "VAR" Hw1 (proj1 (force_proper w1 Hw1)) Fv) as (w2 & us2 & E2 & Hw2 & Hf2 & S2); try discriminate; try (split; [discriminate|reflexivity]); [reflexivity|].
  rewrite E2. cbn [rbind]. rewrite (wnew_words _ Fl). cbn [rbind].
  destruct (plug_step w2 us2 (w_vals l) "VAL" Hw2 Hf2 Fl) as (w3 & us3 & E3 & Hw3 & Hf3 & S3); try discriminate; try (split; [discriminate|reflexivity]); [reflexivity|].
  rewrite E3. cbn [rbind].
  destruct (plug_ops_spec (w_ops l) 0 w3 us3) as (w4 & us4 & E4 & Hf4 & S4); [intros x I; apply Pn; auto|exact Hw3|exact Hf3|].
  exists w4, us4. split; [exact E4|]. split; [exact Hf4|].
  assert (Nl : forall x, In x (w_vals l) -> lookup (op_pegs 0 (w_ops l)) x = None).
  { intros x I. apply op_pegs_none. intros j ->. destruct (Pn ("OP" ++ show_nat j)%string) as [_ N]; [auto|]. apply N. right. right. right. eauto. }
  assert (Nv : forall x, In x (w_vars l) -> lookup (("VAL", w_vals l) :: op_pegs 0 (w_ops l)) x = None).
  { intros x I. destruct (Pn x) as [_ N]; [auto|]. cbn [lookup]. rewrite (proj2 (String.eqb_neq x "VAL")) by (intros ->; apply N; right; right; now left).
    apply op_pegs_none. intros j ->. apply N. right. right. right. eauto. }
  intros u. rewrite S4. split.
  - intros (t3 & I3 & X3). apply S3 in I3 as (t2 & I2 & F3). apply S2 in I2 as (t1 & I1 & F2). apply In1 in I1 as [[G Sz] Oc].
    exists t1. repeat (split; [assumption|]). unfold all_pegs. apply (expand_cons _ _ _ Nv). exists t2. split; [exact F2|]. apply (expand_cons _ _ _ Nl). eauto.
  - intros (t1 & G & Oc & Sz & X). unfold all_pegs in X. apply (expand_cons _ _ _ Nv) in X as (t2 & F2 & X). apply (expand_cons _ _ _ Nl) in X as (t3 & F3 & X).
    exists t3. split; [|exact X]. apply S3. exists t2. split; [|exact F3]. apply S2. exists t1. split; [|exact F2]. apply In1. auto.
Qed.

(* the skeletons *)
Inductive skel (k : nat) : sexp -> Prop :=
  | SK_var : skel k (Atom "VAR")
  | SK_val : skel k (Atom "VAL")
  | SK_app i args : 1 <= i <= k -> length args = i -> Forall (skel k) args -> skel k (Lst (Atom ("OP" ++ show_nat i) :: args)).
Lemma fill_expr : forall P i args', Forall2 (fill P "EXPR") (repeat (Atom "EXPR") i) args' <-> length args' = i /\ Forall P args'.
Proof.
  intros P i. induction i as [|i IH]; intros args'; cbn; split.
  - intros H. inversion H. split; [reflexivity|constructor].
  - intros [H _]. destruct args'; [constructor|discriminate H].
  - intros H. inversion H as [|? y ? ys F Fs]; subst. apply IH in Fs as [Ln Fs]. split; [cbn; congruence|]. constructor; [|exact Fs].
    inversion F as [? Hp|? Ne|]; subst; [assumption|congruence].
  - intros [Ln Fs]. destruct args' as [|y ys]; [discriminate Ln|]. inversion Fs; subst. constructor; [now constructor|]. apply IH. split; [now injection Ln|assumption].
Qed.
Lemma gen_skel : forall k t, gen (base_grammar k) "EXPR" t <-> skel k t.
Proof.
  intros k t. split.
  - intros (d & H). revert t H. induction d as [|d IH]; intros t H; [destruct H|]. destruct H as (p & Ip & F). unfold base_grammar in Ip. cbn [app] in Ip. destruct Ip as [<-|[<-|Ip]].
    + inversion F; subst; constructor.
    + inversion F; subst; constructor.
    + apply in_map_iff in Ip as (i & <- & Ii). apply in_seq in Ii. inversion F as [| |? l' Fl]; subst. inversion Fl as [|? y ? ys F0 Fs]; subst. apply fill_expr in Fs as [Ln Fs].
      assert (y = Atom ("OP" ++ show_nat i)) as -> by (inversion F0; subst; reflexivity). constructor; [lia|exact Ln|]. eapply Forall_impl; [|exact Fs]. exact IH.
  - induction t as [s|l IH] using sexp_ind'; intros H; inversion H as [| |i args Hi Ln Fs]; subst.
    + exists 1, (Atom "VAR"). split; [now left|]. constructor. discriminate.
    + exists 1, (Atom "VAL"). split; [right; now left|]. constructor. discriminate.
    + apply (gen_fill _ _ (base_prod (length args))).
      * unfold base_grammar. cbn [app]. right. right. apply in_map_iff. exists (length args). split; [reflexivity|]. apply in_seq. lia.
      * constructor. constructor; [constructor; discriminate|]. apply fill_expr. split; [reflexivity|]. inversion IH as [|? ? _ I2]; subst. clear - Fs I2. induction Fs; inversion I2; subst; constructor; auto.
Qed.

Lemma lookup_op : forall l i ops, nth_error (w_ops l) i = Some ops -> i < 3 -> lookup (all_pegs l) ("OP" ++ show_nat (S i)) = Some ops.
Proof.
  intros l i ops E Hi. unfold all_pegs. cbn [lookup]. change (String.eqb ("OP" ++ show_nat (S i)) "VAR") with false. change (String.eqb ("OP" ++ show_nat (S i)) "VAL") with false. cbv iota.
  destruct (w_ops l) as [|o1 [|o2 [|o3 r]]]; destruct i as [|[|[|i]]]; try lia; cbn in E; try discriminate E; try (destruct i; discriminate E); injection E as <-; reflexivity.
Qed.
Lemma existsb_occurs : forall (a : string) ts, occurs a (Lst ts) <-> exists t, In t ts /\ occurs a t.
Proof. intros a ts. unfold occurs. cbn. apply in_flat_map. Qed.

Lemma skel_lterm : forall l, 2 <= length (w_ops l) -> forall u b,
  lterm l b u <-> exists t, skel (width l) t /\ expand (all_pegs l) t u /\ (b = true <-> occurs "VAR" t).
Proof.
  intros l Ln. assert (Wd : forall i ops, nth_error (w_ops l) i = Some ops -> i < 3 -> 1 <= S i <= width l).
  { intros i ops E Hi. unfold width. destruct (Nat.eqb (length (w_ops l)) 2) eqn:E2; [|lia]. apply Nat.eqb_eq in E2. assert (i < length (w_ops l)) by (apply nth_error_Some; congruence). lia. }
  assert (Wo : forall i, 1 <= i <= width l -> exists ops, nth_error (w_ops l) (i - 1) = Some ops /\ i - 1 < 3).
  { intros i Hi. unfold width in Hi. destruct (Nat.eqb (length (w_ops l)) 2) eqn:E2.
    - apply Nat.eqb_eq in E2. destruct (nth_error (w_ops l) (i - 1)) as [o|] eqn:E; [exists o; split; [reflexivity|lia]|]. apply nth_error_None in E. lia.
    - apply Nat.eqb_neq in E2. destruct (nth_error (w_ops l) (i - 1)) as [o|] eqn:E; [exists o; split; [reflexivity|lia]|]. apply nth_error_None in E. lia. }
  intros u. induction u as [s|us IH] using sexp_ind'; intros b; split.
  - intros H. inversion H as [v Iv|v Iv|]; subst.
    + exists (Atom "VAR"). split; [constructor|]. split; [now apply EX_hole with (w_vars l)|]. split; [intros _; now left|reflexivity].
    + exists (Atom "VAL"). split; [constructor|]. split; [now apply EX_hole with (w_vals l)|]. split; [discriminate|]. intros [E|[]]. discriminate E.
  - intros (t & Sk & X & Hb). inversion Sk as [| |]; subst; inversion X as [? l' x E Ix|? E|]; subst; cbn in E; try discriminate E; injection E as <-.
    + assert (b = true) as -> by (apply Hb; now left). now constructor.
    + assert (b = false) as -> by (destruct b; [destruct (proj1 Hb eq_refl) as [E|[]]; discriminate E|reflexivity]). now constructor.
  - intros H. inversion H as [| |i ops o bs args E Hi Io La F]; subst. inversion IH as [|? ? _ IH']; subst.
    assert (exists ts, Forall (skel (width l)) ts /\ Forall2 (expand (all_pegs l)) ts args /\ (existsb (fun b => b) bs = true <-> exists t, In t ts /\ occurs "VAR" t)) as (ts & F1 & F2 & Hb).
    { clear - F IH'. induction F as [|b u bs us Hu _ IHf]; [exists []; split; [constructor|]; split; [constructor|]; split; [discriminate|intros (t & [] & _)]|].
      inversion IH' as [|? ? I1 I2]; subst. apply I1 in Hu as (t & Sk & X & Hb). destruct (IHf I2) as (ts & F1 & F2 & Hbs). exists (t :: ts). split; [now constructor|]. split; [now constructor|].
      cbn [existsb]. rewrite orb_true_iff, Hb, Hbs. split; [intros [H|(t' & I & H)]; [exists t; split; [now left|exact H]|exists t'; split; [now right|exact H]]|].
      intros (t' & [<-|I] & H); [now left|right; eauto]. }
    exists (Lst (Atom ("OP" ++ show_nat (S i)) :: ts)). split; [|split].
    + constructor; [exact (Wd i ops E Hi)|rewrite <- La; exact (Forall2_length _ _ _ F2)|exact F1].
    + constructor. constructor; [|exact F2]. exact (EX_hole _ _ _ _ (lookup_op l i ops E Hi) Io).
    + rewrite Hb, existsb_occurs. split.
      * intros (t & I & Hv). exists t. split; [now right|exact Hv].
      * intros (t & [<-|I] & Hv); [|eauto]. destruct Hv as [Hv|[]]. discriminate Hv.
  - intros (t & Sk & X & Hb). inversion X as [| |ts us' F]; subst. inversion Sk as [| |i args Hi La Fs]; subst. inversion F as [|? u0 ? us0 X0 Xs]; subst.
    destruct (Wo (length args) Hi) as (ops & E & Hi'). assert (Eq : S (length args - 1) = length args) by lia.
    pose proof (lookup_op l _ ops E Hi') as Lk. rewrite Eq in Lk.
    assert (exists o, u0 = Atom o /\ In o ops) as (o & -> & Io).
    { cbn [append] in Lk. clear - X0 Lk. inversion X0 as [? l' x E' Ix|? E'|]; subst; rewrite Lk in E'; [|discriminate E']. injection E' as ->. eauto. }
    inversion IH as [|? ? _ IH']; subst.
    assert (exists bs, Forall2 (lterm l) bs us0 /\ (existsb (fun b => b) bs = true <-> exists t, In t args /\ occurs "VAR" t)) as (bs & F1 & Hbs).
    { clear - Fs Xs IH'. induction Xs as [|t u ts us X _ IHf]; [exists []; split; [constructor|]; split; [discriminate|intros (t & [] & _)]|].
      inversion IH' as [|? ? I1 I2]; inversion Fs as [|? ? S1 S2]; subst. destruct (IHf S2 I2) as (bs & F1 & Hbs).
      assert (exists b, b = true <-> occurs "VAR" t) as (b & Hb). { destruct (in_dec string_dec "VAR" (leaves t)) as [I|N]; [exists true; split; auto|exists false; split; [discriminate|intros I; destruct (N I)]]. }
      exists (b :: bs). split; [constructor; [apply I1; eauto|exact F1]|]. cbn [existsb]. rewrite orb_true_iff, Hb, Hbs. split; [intros [H|(t' & I & H)]; [exists t; split; [now left|exact H]|exists t'; split; [now right|exact H]]|].
      intros (t' & [<-|I] & H); [now left|right; eauto]. }
    assert (b = existsb (fun b => b) bs) as ->.
    { apply eq_true_iff_eq. rewrite Hb, Hbs, existsb_occurs. split.
      - intros (t & [<-|I] & Hv); [|eauto]. destruct Hv as [Hv|[]]. discriminate Hv.
      - intros (t & I & Hv). exists t. split; [now right|exact Hv]. }
    apply (LT_app l (length args - 1) ops); [exact E|exact Hi'|exact Io|rewrite Eq; symmetry; exact (Forall2_length _ _ _ Xs)|exact F1].
Qed.
Theorem sized_terms : forall met n l, plain_names l -> 2 <= length (w_ops l) ->
  exists w us, sized_workload met (S n) l = Val w /\ force w = Val us /\ forall u, In u us <-> lterm l true u /\ size met u <= S n.
Proof.
  intros met n l Pn Ln. destruct (sized_spec met n l Pn) as (w & us & E & Hf & Sp). exists w, us. split; [exact E|]. split; [exact Hf|]. intros u. rewrite Sp, (skel_lterm l Ln u true). split.
  - intros (t & G & Oc & Sz & X). rewrite (expand_size _ _ _ _ X). split; [|exact Sz]. exists t. split; [now apply gen_skel|]. split; [exact X|]. split; auto.
  - intros ((t & Sk & X & Hb) & Sz). exists t. split; [now apply gen_skel|]. split; [now apply Hb|]. split; [|exact X]. now rewrite <- (expand_size _ _ _ _ X).
Qed.
Lemma lterm_plain : forall l b u, plain_names l -> lterm l b u -> forall s, occurs s u -> ~ placeholder s.
Proof.
  intros l b u Pn. revert b. induction u as [s|us IH] using sexp_ind'; intros b H s' Oc.
  - destruct Oc as [<-|[]]. inversion H as [v Iv|v Iv|]; subst; apply (Pn s); auto.
  - inversion H as [| |i ops o bs args E Hi Io La F]; subst. inversion IH as [|? ? _ IH']; subst. apply existsb_occurs in Oc as (t & [<-|I] & Oc).
    + destruct Oc as [<-|[]]. apply (Pn o). right. right. apply in_concat. exists ops. split; [exact (nth_error_In _ _ E)|exact Io].
    + clear - F IH' I Oc. induction F as [|b t' bs ts Ht _ IHf]; [destruct I|]. inversion IH' as [|? ? I1 I2]; subst. destruct I as [<-|I]; [exact (I1 b Ht s' Oc)|auto].
Qed.
