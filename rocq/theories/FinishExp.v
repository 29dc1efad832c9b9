(* The recipe for exponentials can be run to its end. *)
From Coq Require Import NArith ZArith QArith Qcanon.
From Verif Require Import EnumSpec Filter.
From Verif Require Import Base BaseProofs Sexp SexpProofs Reader ReaderProofs Lang LangProofs Number DomainSpec Syntax SyntaxProofs Rule RuleSpec RulesetProofs CheckRules Ruleset Workload
  Analysis Egraph EgraphSpec Synth Apply Sched SynthSpec Domains DomainSound TotalSpec PlainProofs Match Infer InferProofs InferSpec LearnSpec OpsSpec OpsProofs SaveProofs LearntSpec LearntProofs
  Exp ExpProofs Recipes RecipesSpec RecipesProofs RecipesExact RecipesLayers LiveSpec LiveQuiet FinishSpec FinishProofs FinishDomains FinishLinks CanonProofs FinishExpSpec.
Open Scope string_scope.
Open Scope list_scope.

(* ---- workloads that can be read, by computation ---- *)
Section Checked.
  Context {O C : Type} (L : lang O C).
  Definition readsb (us : list string) (s : sexp) : bool :=
    wordsb s && match term_of_sexp (l_from_op L) s with Some t => forallb (fun v => existsb (String.eqb v) us) (tvars (l_to_var L) t) | None => false end.
  Definition workload_b (us : list string) (wl : res workload) : bool :=
    match wl with Val w => match force w with Val ss => forallb (readsb us) ss | Panic => false end | Panic => false end.
  Lemma workload_b_ok : forall us wl, workload_b us wl = true ->
    exists w ss ts, wl = Val w /\ force w = Val ss /\ Forall2 (reads L) ss ts /\ length (wvars L ts) <= length us.
  Proof.
    intros us wl H. unfold workload_b in H. destruct wl as [w|]; [|discriminate H]. destruct (force w) as [ss|] eqn:Ef; [|discriminate H]. exists w, ss.
    assert (X : exists ts, Forall2 (reads L) ss ts /\ incl (flat_map (tvars (l_to_var L)) ts) us).
    { clear Ef. induction ss as [|s ss IH]; [exists []; split; [constructor|intros x []]|]. cbn [forallb] in H. apply andb_prop in H as [H1 H2].
      destruct (IH H2) as (ts & F & I). unfold readsb in H1. apply andb_prop in H1 as [W H1]. destruct (term_of_sexp (l_from_op L) s) as [t|] eqn:Et; [|discriminate H1].
      exists (t :: ts). split.
      - constructor; [|exact F]. unfold reads, parse_rec. rewrite <- (sapp_nil (display s)), (parse_display s "" (wordsb_ok _ W)); [|exact Logic.I]. now rewrite Et.
      - cbn [flat_map]. apply incl_app; [|exact I]. intros v J. rewrite forallb_forall in H1. specialize (H1 v J). apply existsb_exists in H1 as (u & Iu & E). apply String.eqb_eq in E. now subst. }
    destruct X as (ts & F & I). exists ts. split; [reflexivity|]. split; [exact Ef|]. split; [exact F|]. unfold wvars. apply NoDup_incl_length; [apply first_seen_nodup|]. intros x J. apply (proj1 (first_seen_in _ _)) in J. exact (I x J).
  Qed.
  (* ---- and rewrites ---- *)
  Hypothesis eqb_eq : forall a b, l_eqb L a b = true <-> a = b.
  Fixpoint occursb (v : string) (t : term (eov O)) : bool :=
    match t with T (PV w) _ => String.eqb w v | T (EN _) ts => existsb (occursb v) ts end.
  Lemma occursb_ok : forall v t, occursb v t = true -> occurs v t.
  Proof.
    intros v t. induction t as [o ts IH] using term_ind'. destruct o as [o|w]; cbn; intros H; [|now apply String.eqb_eq].
    induction IH as [|t ts Ht _ IHts]; cbn in *; [discriminate H|]. apply orb_prop in H as [H|H]; auto.
  Qed.
  Definition node_b (n : node (eov O)) : bool :=
    match nop n with
    | EN o => match l_from_op L (l_name L o) (length (nch n)) with Some o' => l_eqb L o' o | None => false end
    | PV _ => match nch n with [] => true | _ => false end
    end.
  Definition treed (p : pat O) : bool := match tree p with Val _ => true | Panic => false end.
  Definition fit_b (r : rule O) : bool :=
    forallb node_b (rlhs r) && forallb node_b (rrhs r) && treed (rrhs r) &&
    match tree (rlhs r) with Val t => forallb (fun v => occursb v t) (pvars (rrhs r)) | Panic => false end &&
    match rkind r with KGuard _ => false | _ => true end &&
    forallb (fun n => match nop n with EN o => match l_to_var L o with None => true | Some _ => false end | PV _ => true end) (rrhs r).
  Lemma nodes_ok : forall p : pat O, forallb node_b p = true -> Forall (fun n => match nop n with EN o => read_op L o (length (nch n)) | PV _ => nch n = [] end) p.
  Proof.
    intros p H. apply Forall_forall. intros n I. rewrite forallb_forall in H. specialize (H n I). unfold node_b in H. destruct (nop n) as [o|v].
    - destruct (l_from_op L (l_name L o) (length (nch n))) as [o'|] eqn:E; [|discriminate H]. apply eqb_eq in H. subst. exists (l_name L o). exact E.
    - destruct (nch n); [reflexivity|discriminate H].
  Qed.
  Lemma fit_b_ok : forall r, fit_b r = true -> open_fit L r.
  Proof.
    intros r H. unfold fit_b in H. apply andb_prop in H as [H H6]. apply andb_prop in H as [H H5]. apply andb_prop in H as [H H4]. apply andb_prop in H as [H H3]. apply andb_prop in H as [H1 H2].
    destruct (tree (rlhs r)) as [tl|] eqn:El; [|discriminate H4]. unfold treed in H3. destruct (tree (rrhs r)) as [tr|] eqn:Er; [|discriminate H3].
    split; [split; [|split; [|split]]|].
    - split; [exact (nodes_ok _ H1)|eauto].
    - split; [exact (nodes_ok _ H2)|eauto].
    - intros v t I E. rewrite El in E. injection E as <-. rewrite forallb_forall in H4. exact (occursb_ok _ _ (H4 v I)).
    - intros v E. now rewrite E in H5.
    - intros n o I E. rewrite forallb_forall in H6. specialize (H6 n I). rewrite E in H6. destruct (l_to_var L o); [discriminate H6|reflexivity].
  Qed.
  Lemma fits_b_ok : forall rs : ruleset O, forallb (fun e => fit_b (snd e)) rs = true -> Forall (fun e => open_fit L (snd e)) rs.
  Proof. intros rs H. apply Forall_forall. intros e I. rewrite forallb_forall in H. exact (fit_b_ok _ (H e I)). Qed.
End Checked.

(* ---- the recipe ---- *)
Lemma exp_known : forallb (workload_b exp_lang abc) exp_recipe = true.
Proof. vm_compute. reflexivity. Qed.
Lemma exp_given : forallb (fun m => forallb (fun e => fit_b exp_lang (snd e)) (the m)) [exp_rational; exp_starting; exp_exploratory] = true.
Proof. vm_compute. reflexivity. Qed.
Section Recipe.
  Variable ex : ruleset exp_op.
  Hypothesis Hx : exp_exploratory = Val ex.
  Let fit (e : string * rule exp_op) := open_fit exp_lang (snd e).
  Definition good_state (s : ruleset exp_op * ruleset exp_op) : Prop := NoDup (map fst (fst s)) /\ Forall fit (fst s).
  Lemma ex_fit : Forall fit ex.
  Proof. pose proof exp_given as G. cbn [forallb] in G. apply andb_prop in G as [_ G]. apply andb_prop in G as [_ G]. apply andb_prop in G as [G _]. rewrite Hx in G. exact (fits_b_ok exp_lang exp_eqb_eq _ G). Qed.
  Lemma layer_finishes : forall wl s, In wl exp_recipe -> good_state s -> exists w, wl = Val w /\ forall keep, all_finish exp_lang keep (open_fit exp_lang) w (fst s) false.
  Proof.
    intros wl s I (N & F). pose proof exp_known as K. rewrite forallb_forall in K. destruct (workload_b_ok _ _ _ (K wl I)) as (w & ss & ts & E & Fo & Fr & Le).
    exists w. split; [exact E|]. intros keep. refine (exp_finishes keep w ss ts (fst s) false Fo Fr _ F). cbn in Le. lia.
  Qed.
  Lemma layer_good : forall wl s s', In wl exp_recipe -> good_state s -> exp_layer wl ex s s' -> good_state s'.
  Proof.
    intros wl s s' I G (w & r & E & (keep & fuel & R) & ->). destruct (layer_finishes wl s I G) as (w' & E' & H). rewrite E in E'. injection E' as <-.
    destruct (H keep) as (_ & _ & _ & H4). destruct (H4 fuel ex r (proj1 G) ex_fit R) as [_ F]. destruct G as [N Fs]. destruct (forwarding_valid exp_lang keep fuel ex w (fst s) r N R) as [Nr V]. split; cbn [fst].
    - now apply extend_nodup'.
    - unfold fit. rewrite Forall_forall in *. intros e J. apply extend_in' in J as [J|J]; [exact (Fs e J)|].
      apply F, extend_keeps; [exact Nr|exact N|exact J|exact (proj2 (V e J))].
  Qed.
  Lemma after_good : forall ls s s', incl ls exp_recipe -> good_state s -> after_layers ex ls s s' -> good_state s'.
  Proof.
    induction ls as [|wl ls IH]; intros s s' I G H; cbn in H; [now subst|]. destruct H as (s1 & H1 & H2).
    apply (IH s1 s'); [intros x J; apply I; now right| |exact H2]. exact (layer_good wl s s1 (I wl (or_introl eq_refl)) G H1).
  Qed.
  Lemma layers_run : forall ls s, incl ls exp_recipe -> good_state s -> exists s', after_layers ex ls s s'.
  Proof.
    induction ls as [|wl ls IH]; intros s I G; [now exists s|]. destruct (layer_finishes wl s (I wl (or_introl eq_refl)) G) as (w & E & H).
    destruct (H (fun _ _ _ => true)) as (_ & H2 & _). destruct (fo_run _ _ _ _ _ (H2 ex ex_fit)) as (f0 & r & R).
    assert (L1 : exp_layer wl ex s (extend (fst s) r, extend (snd s) r)).
    { exists w, r. split; [exact E|]. split; [|reflexivity]. exists (fun _ _ _ => true), f0. now apply R. }
    destruct (IH (extend (fst s) r, extend (snd s) r)) as (s' & A); [intros x J; apply I; now right|exact (layer_good wl s _ (I wl (or_introl eq_refl)) G L1)|].
    exists s', (extend (fst s) r, extend (snd s) r). split; [exact L1|exact A].
  Qed.
End Recipe.
Lemma start_good : forall rational starting, exp_rational = Val rational -> exp_starting = Val starting -> good_state (extend rational starting, extend [] starting).
Proof.
  intros rational starting E1 E2. split; [exact (proj1 (proj1 (exp_start_layered _ _ E1 E2)))|].
  pose proof exp_given as G. cbn [forallb] in G. apply andb_prop in G as [G1 G]. apply andb_prop in G as [G2 _]. rewrite E1 in G1. rewrite E2 in G2. cbn [the] in G1, G2.
  apply (fits_b_ok exp_lang exp_eqb_eq) in G1, G2. cbn [fst]. rewrite Forall_forall in *. intros e J. apply extend_in' in J as [J|J]; auto.
Qed.
Theorem exp_recipe_goes_on : forall rational starting ex, exp_rational = Val rational -> exp_starting = Val starting -> exp_exploratory = Val ex ->
  forall done next rest s, exp_recipe = done ++ next :: rest -> after_layers ex done (extend rational starting, extend [] starting) s ->
  exists w, next = Val w /\ forall keep, forwards exp_lang keep ex w (fst s).
Proof.
  intros rational starting ex E1 E2 E3 done next rest s Er A.
  assert (G : good_state s). { refine (after_good ex E3 done _ s _ (start_good _ _ E1 E2) A). rewrite Er. intros x J. apply in_or_app. now left. }
  destruct (layer_finishes next s) as (w & E & H); [rewrite Er; apply in_or_app; right; now left|exact G|]. exists w. split; [exact E|].
  intros keep. destruct (H keep) as (_ & H2 & _). exact (H2 ex (ex_fit ex E3)).
Qed.
Theorem exp_recipe_same : forall new, exponential_rules new <->
  exists rational starting ex s, exp_rational = Val rational /\ exp_starting = Val starting /\ exp_exploratory = Val ex /\
    after_layers ex exp_recipe (extend rational starting, extend [] starting) s /\ new = snd s.
Proof.
  intros new. split.
  - intros (m1 & m2 & ex & E1 & E2 & E3 & s1 & s2 & s3 & s4 & s5 & s6 & L1 & L2 & L3 & L4 & L5 & L6 & E). exists m1, m2, ex, s6.
    split; [exact E1|]. split; [exact E2|]. split; [exact E3|]. split; [|exact E].
    exists s1. split; [exact L1|]. exists s2. split; [exact L2|]. exists s3. split; [exact L3|]. exists s4. split; [exact L4|]. exists s5. split; [exact L5|]. exists s6. split; [exact L6|]. reflexivity.
  - intros (m1 & m2 & ex & s & E1 & E2 & E3 & A & E). exists m1, m2, ex. split; [exact E1|]. split; [exact E2|]. split; [exact E3|].
    destruct A as (s1 & L1 & s2 & L2 & s3 & L3 & s4 & L4 & s5 & L5 & s6 & L6 & A). cbn in A. subst. exists s1, s2, s3, s4, s5, s6. auto 10.
Qed.
Theorem exp_recipe_runs : exists new, exponential_rules new.
Proof.
  assert (V1 : exp_rational = Val (the exp_rational)) by (vm_compute; reflexivity). assert (V2 : exp_starting = Val (the exp_starting)) by (vm_compute; reflexivity).
  assert (V3 : exp_exploratory = Val (the exp_exploratory)) by (vm_compute; reflexivity).
  destruct (layers_run _ V3 exp_recipe _ (incl_refl _) (start_good _ _ V1 V2)) as (s & A). exists (snd s). apply exp_recipe_same. eexists _, _, _, s. split; [exact V1|]. split; [exact V2|]. split; [exact V3|]. split; [exact A|reflexivity].
Qed.
