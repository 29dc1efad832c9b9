(* The terms of the sized tests. *)
From Coq Require Import NArith.
From Verif Require Import Base BaseProofs Sexp Reader Pattern Filter Workload Recipe EnumSpec Infer InferSpec.
From Verif Require Import SexpProofs CanonProofs PatternProofs FilterProofs WorkloadProofs ReaderProofs RecipeProofs GrammarProofs.
From Verif Require Import Recipes RecipesSpec RecipesProofs RecipesExact SizedTests SizedSpec.
Open Scope string_scope.
Open Scope list_scope.

Lemma fill_leaves : forall l a t u, fill (fun p => In p (map Atom l)) a t u -> forall s, occurs s u -> In s l \/ occurs s t.
Proof.
  intros l a. induction t as [x|ts IH] using sexp_ind'; intros u F s Oc.
  - inversion F as [? P|? N|]; subst; [|now right]. apply in_map_iff in P as (y & <- & I). destruct Oc as [<-|[]]. now left.
  - inversion F as [| |? us Fs]; subst. apply existsb_occurs in Oc as (u & Iu & Oc).
    assert (X : In s l \/ exists t, In t ts /\ occurs s t).
    { clear F. revert us Fs Iu. induction IH as [|t ts Ht _ IHl]; intros us Fs Iu; inversion Fs as [|? ? ? ? F1 F2]; subst; [destruct Iu|].
      destruct Iu as [<-|Iu]; [destruct (Ht _ F1 s Oc) as [H|H]; [now left|right; exists t; split; [now left|exact H]]|].
      destruct (IHl _ F2 Iu) as [H|(t' & I & H)]; [now left|right; exists t'; split; [now right|exact H]]. }
    destruct X as [X|X]; [now left|right; now apply existsb_occurs].
Qed.
Lemma fill_back : forall l a t t' u, (forall x, In x l -> ~ occurs x t) -> (forall x, In x l -> ~ occurs x t') ->
  fill (fun p => In p (map Atom l)) a t u -> fill (fun p => In p (map Atom l)) a t' u -> t = t'.
Proof.
  intros l a. induction t as [x|ts IH] using sexp_ind'; intros t' u N N' F F'.
  - inversion F as [? P|? Nx|]; subst.
    + apply in_map_iff in P as (y & <- & I). inversion F' as [|? Ny|]; subst; [reflexivity|]. destruct (N' y I). now left.
    + inversion F' as [? P|? Ny|]; subst; [|reflexivity]. apply in_map_iff in P as (y & Ey & I). injection Ey as ->. destruct (N x I). now left.
  - inversion F as [| |? us Fs]; subst. inversion F' as [? P| |ts' ? Fs']; subst; [apply in_map_iff in P as (y & Ey & _); discriminate Ey|]. f_equal.
    assert (M : forall x, In x l -> forall t, In t ts -> ~ occurs x t) by (intros x I t It Oc; apply (N x I), existsb_occurs; eauto).
    assert (M' : forall x, In x l -> forall t, In t ts' -> ~ occurs x t) by (intros x I t It Oc; apply (N' x I), existsb_occurs; eauto).
    clear F F' N N'. revert us ts' Fs Fs' M M'. induction IH as [|t ts Ht _ IHl]; intros us ts' Fs Fs' M M'; inversion Fs as [|? ? ? ? F1 F2]; subst; inversion Fs' as [|? ? ? ? G1 G2]; subst; [reflexivity|].
    f_equal; [apply (Ht _ _ (fun y I => M y I _ (or_introl eq_refl)) (fun y I => M' y I _ (or_introl eq_refl)) F1 G1)|].
    apply (IHl _ _ F2 G2); intros z I t'' It; [apply (M z I)|apply (M' z I)]; now right.
Qed.

(* plugging names that do not occur keeps different terms different *)
Fixpoint no_dupb (l : list string) : bool := match l with [] => true | x :: r => negb (mem_str x r) && no_dupb r end.
Lemma no_dupb_ok : forall l, no_dupb l = true -> NoDup l.
Proof. induction l as [|x l IH]; intros H; constructor; cbn in H; apply andb_prop in H as [H1 H2]; [now apply negb_true_iff, mem_str_nin in H1|auto]. Qed.
Fixpoint fresh_pegs (seen : list string) (pegs : list (string * list string)) : bool :=
  match pegs with [] => true | (_, l) :: r => forallb (fun x => negb (mem_str x seen)) l && no_dupb l && fresh_pegs (l ++ seen) r end.
Lemma plug_list_once : forall pegs seen w ts, plug_ready pegs = true -> fresh_pegs seen pegs = true -> wproper w -> force w = Val ts -> NoDup ts -> (forall t s, In t ts -> occurs s t -> In s seen) ->
  exists w' us, plug_list w pegs = Val w' /\ force w' = Val us /\ NoDup us.
Proof.
  induction pegs as [|[a l] r IH]; intros seen w ts Rd Fr Hw Hf Nd Sn; cbn [plug_list].
  - exists w, ts. auto.
  - cbn [plug_ready] in Rd. apply andb_prop in Rd as [Rd R1]. apply andb_prop in Rd as [Rd R2]. apply andb_prop in Rd as [Rd R3']. apply andb_prop in Rd as [Rd R4'].
    rewrite forallb_forall in R2. assert (Fl : Forall word l) by (apply Forall_forall; intros x I; specialize (R2 x I); apply andb_prop in R2 as [R2 _]; exact (wordb_word _ R2)).
    apply negb_true_iff, String.eqb_neq in R4'. apply negb_true_iff in R3'.
    cbn [fresh_pegs] in Fr. apply andb_prop in Fr as [Fr F2]. apply andb_prop in Fr as [F0 F1]. rewrite forallb_forall in F0.
    assert (Out : forall t x, In t ts -> In x l -> ~ occurs x t) by (intros t x It Ix Oc; specialize (F0 x Ix); apply negb_true_iff, mem_str_nin in F0; apply F0; exact (Sn t x It Oc)).
    unfold plug_new. rewrite (wnew_words l Fl). cbn [rbind].
    destruct (plug_step w ts l a Hw Hf Fl (wordb_word _ Rd) R4' R3') as (w1 & us1 & E1 & Hw1 & Hf1 & S1).
    rewrite E1. cbn [rbind]. apply (IH (l ++ seen) w1 us1 R1 F2 Hw1 Hf1).
    + rewrite (wplug_exact w a (WSet (map Atom l)) w1 ts (map Atom l) Hw) in Hf1; [|cbn; apply Forall_map, Forall_forall; reflexivity|exact Hf|reflexivity|intros _; apply pattern_from_word; [exact (wordb_word _ Rd)|exact R4'|exact R3']|exact E1].
      injection Hf1 as <-. apply NoDup_flat_map; [exact Nd| |].
      * intros t _. apply plug_NoDup. apply NoDup_map_inj; [intros x y _ _ E; now injection E|exact (no_dupb_ok _ F1)].
      * intros t t' u It It' Iu Iu'. apply plug_sound in Iu, Iu'. apply (fill_back l a t t' u); auto.
    + intros u s Iu Oc. apply S1 in Iu as (t & It & F). apply in_or_app. destruct (fill_leaves l a t u F s Oc) as [H|H]; [now left|right; exact (Sn t s It H)].
Qed.

(* a term of the language has the flag exactly if a variable occurs in it *)
Lemma lterm_var : forall l, (forall v, In v (w_vars l) -> ~ In v (w_vals l) /\ ~ In v (concat (w_ops l))) ->
  forall u b, lterm l b u -> (b = true <-> exists v, In v (w_vars l) /\ occurs v u).
Proof.
  intros l Dj. induction u as [s|us IH] using sexp_ind'; intros b H.
  - inversion H as [v Iv|v Iv|]; subst.
    + split; [intros _; exists s; split; [exact Iv|now left]|reflexivity].
    + split; [discriminate|]. intros (v & I & [E|[]]). subst v. destruct (Dj s I) as [N _]. contradiction.
  - inversion H as [| |i ops o bs args E Hi Io La F]; subst. inversion IH as [|? ? _ IH']; subst.
    assert (X : existsb (fun b => b) bs = true <-> exists v t, In v (w_vars l) /\ In t args /\ occurs v t).
    { clear - F IH'. induction F as [|b t bs ts Ht _ IHf]; [split; [discriminate|intros (v & t & _ & [] & _)]|]. inversion IH' as [|? ? I1 I2]; subst. cbn [existsb]. rewrite orb_true_iff, (I1 b Ht), (IHf I2). split.
      - intros [(v & I & Oc)|(v & t' & I & It & Oc)]; [exists v, t; split; [exact I|split; [now left|exact Oc]]|exists v, t'; split; [exact I|split; [now right|exact Oc]]].
      - intros (v & t' & I & [<-|It] & Oc); [left; eauto|right; eauto]. }
    rewrite X. split.
    + intros (v & t & I & It & Oc). exists v. split; [exact I|]. apply existsb_occurs. exists t. split; [now right|exact Oc].
    + intros (v & I & Oc). apply existsb_occurs in Oc as (t & [<-|It] & Oc); [|eauto]. destruct Oc as [<-|[]]. destruct (Dj o I) as [_ N]. destruct N. apply in_concat. exists ops. split; [exact (nth_error_In _ _ E)|exact Io].
Qed.
Lemma built_lterm_vals : forall vals vars a b u, built (vars ++ vals) (each 1 a ++ each 2 b) u -> exists c, lterm (WLang vals vars [a; b]) c u.
Proof.
  intros vals vars a b. induction u as [s|l IH] using sexp_ind'; intros B; inversion B as [? I|o args I F]; subst.
  - apply in_app_or in I as [I|I]; [exists true|exists false]; now constructor.
  - inversion IH as [|? ? _ IH']; subst.
    assert (X : exists bs, Forall2 (lterm (WLang vals vars [a; b])) bs args).
    { clear - F IH'. induction F as [|x r Bx _ IHf]; [exists []; constructor|]. inversion IH' as [|? ? Hx Hr]; subst. destruct (Hx Bx) as [c Hc]. destruct (IHf Hr) as [bs Hbs]. exists (c :: bs). now constructor. }
    destruct X as [bs X]. exists (existsb (fun b => b) bs). apply in_app_or in I as [I|I]; apply in_map_iff in I as (o' & E & I); injection E as -> E.
    + apply (LT_app _ 0 a); auto.
    + apply (LT_app _ 1 b); auto.
Qed.
Lemma skel_leaves : forall t, skel 2 t -> forall s, occurs s t -> In s ["VAR"; "VAL"; "OP1"; "OP2"].
Proof.
  induction t as [x|l IH] using sexp_ind'; intros Sk s Oc; inversion Sk as [| |i args Hi La Fs]; subst; try (destruct Oc as [<-|[]]; cbn; tauto).
  apply existsb_occurs in Oc as (t & [<-|It] & Oc).
  - destruct Oc as [<-|[]]. assert (length args = 1 \/ length args = 2) as [->| ->] by lia; cbn; tauto.
  - inversion IH as [|? ? _ IH']; subst. rewrite Forall_forall in IH', Fs. exact (IH' t It (Fs t It) s Oc).
Qed.

Definition test_pegs (vals vars uops bops : list string) : list (string * list string) := [("VAL", vals); ("VAR", vars); ("OP1", uops); ("OP2", bops)].
(* names that can be told apart *)
Definition apart (vals vars uops bops : list string) : bool :=
  plain_namesb (WLang vals vars [uops; bops]) && plug_ready (test_pegs vals vars uops bops) && fresh_pegs ["VAR"; "VAL"; "OP1"; "OP2"] (test_pegs vals vars uops bops) &&
  forallb (fun v => negb (mem_str v vals) && negb (mem_str v (uops ++ bops))) vars.
Theorem sized_lists : forall vals vars uops bops n, apart vals vars uops bops = true -> 1 <= n -> lists (sized_test vals vars uops bops n) (open_terms vals vars uops bops n).
Proof.
  intros vals vars uops bops [|n] Ap Hn; [lia|]. unfold apart in Ap. apply andb_prop in Ap as [Ap Dj]. apply andb_prop in Ap as [Ap Fr]. apply andb_prop in Ap as [Pn Rd]. rewrite forallb_forall in Dj.
  set (l := WLang vals vars [uops; bops]) in *. set (pegs := test_pegs vals vars uops bops) in *.
  assert (Dj' : forall v, In v (w_vars l) -> ~ In v (w_vals l) /\ ~ In v (concat (w_ops l))).
  { intros v I. specialize (Dj v I). apply andb_prop in Dj as [D1 D2]. apply negb_true_iff, mem_str_nin in D1. apply negb_true_iff, mem_str_nin in D2. cbn. rewrite app_nil_r. auto. }
  assert (Lk : forall s, lookup pegs s = lookup (all_pegs l) s).
  { intros s. unfold pegs, test_pegs, all_pegs. cbn -[String.eqb]. destruct (String.eqb_spec s "VAL") as [->|N]; [reflexivity|]. reflexivity. }
  assert (Eq : sized_test vals vars uops bops (S n) = (let* b := base_lang 2 in let* w := iter_metric b "EXPR" Atoms (S n) in let* f := has_pat "VAR" in plug_list (wfilter w f) pegs)).
  { unfold sized_test, pegs, test_pegs. destruct (base_lang 2) as [b|]; [|reflexivity]. cbn [rbind]. destruct (iter_metric b "EXPR" Atoms (S n)) as [w|]; [|reflexivity]. cbn [rbind]. destruct (has_pat "VAR") as [f|]; [|reflexivity]. cbn [rbind plug_list].
    destruct (plug_new (wfilter w f) "VAL" vals) as [w1|]; [|reflexivity]. cbn [rbind]. destruct (plug_new w1 "VAR" vars) as [w2|]; [|reflexivity]. cbn [rbind]. destruct (plug_new w2 "OP1" uops) as [w3|]; [|reflexivity]. cbn [rbind]. destruct (plug_new w3 "OP2" bops); reflexivity. }
  rewrite Eq, (base_lang_val 2). cbn [rbind].
  destruct (iter_metric_stage (WSet (base_grammar 2)) "EXPR" Atoms (S n) (base_grammar_proper 2)) as (w0 & E0 & Hw0 & Hf0); [discriminate|].
  rewrite E0. cbn [rbind]. unfold has_pat. rewrite (pattern_from_word "VAR") by (try discriminate; try (split; [discriminate|]); reflexivity). cbn [rbind].
  set (w1 := wfilter w0 (Contains (PLit "VAR"))). assert (Hw1 : wproper w1) by now apply wproper_wfilter.
  assert (In1 : forall t, In t (pforce w1) <-> (gen (base_grammar 2) "EXPR" t /\ size Atoms t <= S n) /\ occurs "VAR" t).
  { intros t. unfold w1. rewrite pforce_wfilter, filter_In. cbn [ptest]. rewrite contains_lit, Hf0. cbn [pforce]. rewrite stage_spec; [reflexivity|apply base_grammar_proper|apply base_grammar_productive]. }
  pose proof (proj1 (force_proper w1 Hw1)) as F1.
  destruct (plug_list_spec pegs w1 (pforce w1) Rd Hw1 F1) as (w' & us & E' & _ & Hf' & Sp).
  destruct (plug_list_once pegs _ w1 (pforce w1) Rd Fr Hw1 F1) as (w2 & us2 & E2 & Hf2 & Nd).
  { unfold w1. rewrite pforce_wfilter. apply NoDup_filter. rewrite Hf0. apply stage_NoDup, base_grammar_unambiguous. }
  { intros t s It Oc. apply In1 in It as [[G _] _]. apply (skel_leaves t); [now apply gen_skel|exact Oc]. }
  rewrite E' in E2. injection E2 as <-. rewrite Hf' in Hf2. injection Hf2 as <-.
  exists w', us. split; [exact E'|]. split; [exact Hf'|]. split; [exact Nd|].
  intros u. rewrite Sp. unfold open_terms. split.
  - intros (t & It & X). apply In1 in It as [[G Sz] Oc]. split; [|split; [now rewrite (expand_size _ _ _ _ X)|]].
    + apply (expand_ext _ _ Lk) in X. assert (Lt : lterm l true u) by (apply (skel_lterm l); [cbn; lia|]; exists t; split; [now apply gen_skel|]; split; [exact X|tauto]).
      exact (lterm_built l (or_introl eq_refl) u true Lt).
    + apply (expand_ext _ _ Lk) in X. assert (Lt : lterm l true u) by (apply (skel_lterm l); [cbn; lia|]; exists t; split; [now apply gen_skel|]; split; [exact X|tauto]).
      exact (proj1 (lterm_var l Dj' u true Lt) eq_refl).
  - intros (B & Sz & Hv). destruct (built_lterm_vals _ _ _ _ _ B) as [c Lt]. fold l in Lt. apply (lterm_var l Dj' u c Lt) in Hv. subst c.
    apply (skel_lterm l) in Lt as (t & Sk & X & Hb); [|cbn; lia]. exists t. split.
    + apply In1. split; [split; [now apply gen_skel|now rewrite <- (expand_size _ _ _ _ X)]|now apply Hb].
    + apply (expand_ext (all_pegs l) pegs); [intros s; symmetry; apply Lk|exact X].
Qed.

(* ---- the numbers of terms ---- *)
Definition counted (wl : res workload) (k : N) : bool := match wl with Val w => match force w with Val us => N.eqb (N.of_nat (length us)) k | Panic => false end | Panic => false end.
Lemma counted_ok : forall wl k, counted wl k = true -> exists w us, wl = Val w /\ force w = Val us /\ N.of_nat (length us) = k.
Proof. intros [w|] k H; [|discriminate H]. cbn in H. destruct (force w) as [us|] eqn:E; [|discriminate H]. exists w, us. apply N.eqb_eq in H. auto. Qed.
Lemma asserted_right : Forall (fun e => exists w us, fst (fst e) (snd (fst e)) = Val w /\ force w = Val us /\ N.of_nat (length us) = snd e) asserted.
Proof.
  apply Forall_forall. intros e I. apply counted_ok. revert e I. apply Forall_forall. unfold asserted. repeat apply Forall_cons; [..|apply Forall_nil]; vm_compute; reflexivity.
Qed.
