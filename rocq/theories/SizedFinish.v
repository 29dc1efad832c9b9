(* The sized tests can be finished. *)
From Coq Require Import NArith.
From Verif Require Import Base BaseProofs Sexp SexpProofs Reader ReaderProofs EnumSpec Lang LangProofs Syntax Rule Ruleset RulesetProofs RuleSpec PosDom BoolDom DomainSpec Workload Egraph Synth SynthSpec Infer InferSpec InferProofs Domains DomainSound TotalSpec TotalDomains
  PlainProofs SyntaxProofs OpsSpec LearnSpec LearntSpec LiveSpec FinishSpec FinishDomains FinishRecursive GrammarProofs.
From Verif Require Import CanonProofs Recipes RecipesSpec RecipesProofs SizedTests SizedSpec SizedProofs SizedDomains.
Open Scope string_scope.
Open Scope list_scope.

Section Reads.
  Context {O C : Type} (L : lang O C).
  Variable vals vars uops bops : list string.
  Hypothesis Ap : apart vals vars uops bops = true.
  Hypothesis some : vars <> [].
  Hypothesis letters : length vars <= 26.
  Local Notation l := (WLang vals vars [uops; bops]).
  Hypothesis Kn : names_known L l.
  Lemma open_lterm : forall n u, open_terms vals vars uops bops n u <-> lterm l true u /\ EnumSpec.size Atoms u <= n.
  Proof.
    intros n u. pose proof Ap as A. unfold apart in A. apply andb_prop in A as [_ Dj]. rewrite forallb_forall in Dj.
    assert (Dj' : forall v, In v (w_vars l) -> ~ In v (w_vals l) /\ ~ In v (concat (w_ops l))).
    { intros v I. specialize (Dj v I). apply andb_prop in Dj as [D1 D2]. apply negb_true_iff, mem_str_nin in D1. apply negb_true_iff, mem_str_nin in D2. cbn. rewrite app_nil_r. auto. }
    unfold open_terms. split.
    - intros (B & Sz & Hv). split; [|exact Sz]. destruct (built_lterm_vals _ _ _ _ _ B) as [c Lt]. apply (lterm_var l Dj' u c Lt) in Hv. now subst c.
    - intros (Lt & Sz). split; [exact (lterm_built l (or_introl eq_refl) u true Lt)|]. split; [exact Sz|]. exact (proj1 (lterm_var l Dj' u true Lt) eq_refl).
  Qed.
  Lemma test_reads : forall n, 1 <= n -> exists w ss ts, sized_test vals vars uops bops n = Val w /\ force w = Val ss /\ Forall2 (reads L) ss ts /\ mentions_var (l_to_var L) ts /\ length (wvars L ts) <= 26.
  Proof.
    intros n Hn. assert (names : plain_names l) by (apply plain_namesb_ok; pose proof Ap as A; unfold apart in A; apply andb_prop in A as [A _]; apply andb_prop in A as [A _]; apply andb_prop in A as [A _]; exact A).
    destruct (sized_lists _ _ _ _ n Ap Hn) as (w & us & Ew & Ef & _ & Iff).
    assert (X : exists ts, Forall2 (reads L) us ts /\ incl (flat_map (tvars (l_to_var L)) ts) (w_vars l)).
    { assert (F : forall u, In u us -> lterm l true u) by (intros u Iu; apply Iff in Iu; now apply open_lterm in Iu). clear - F names Kn. induction us as [|u us IH]; [exists []; split; [constructor|intros x []]|].
      destruct IH as (ts & R & V); [intros u' I'; apply F; now right|]. destruct (lterm_reads L l names Kn u true (F u (or_introl eq_refl))) as (W & t & Et & Vt).
      exists (t :: ts). split; [constructor; [|exact R]|cbn [flat_map]; apply incl_app; assumption].
      unfold reads, parse_rec. rewrite <- (sapp_nil (display u)), (parse_display u "" W); [|exact Logic.I]. now rewrite Et. }
    destruct X as (ts & R & V). exists w, us, ts. split; [exact Ew|]. split; [exact Ef|]. split; [exact R|]. split.
    - assert (exists v, In v vars) as (v & Iv) by (clear - some; destruct vars as [|v vs]; [congruence|exists v; now left]).
      assert (Iu : In (Atom v) us). { apply Iff, open_lterm. split; [now constructor|cbn; lia]. }
      destruct Kn as (Kv & _). destruct (Kv v Iv) as (o & Eo & Vo). clear - R Iu Eo Vo names Iv. induction R as [|s t us ts Rs _ IH]; [destruct Iu|]. destruct Iu as [->|Iu].
      + exists t, o, [], v. split; [now left|]. unfold reads, parse_rec in Rs. assert (W : words (Atom v)) by (apply (names v); now left). rewrite <- (sapp_nil (display (Atom v))), (parse_display (Atom v) "" W) in Rs; [|exact Logic.I].
        cbn in Rs. rewrite Eo in Rs. cbn in Rs. injection Rs as Rs. pose proof (tree_to_rec t) as H. rewrite <- Rs in H. cbn in H. injection H as <-. split; [now left|exact Vo].
      + destruct (IH Iu) as (t' & o' & us' & s' & It & H). exists t', o', us', s'. split; [now right|exact H].
    - etransitivity; [|exact letters]. unfold wvars. apply NoDup_incl_length; [apply first_seen_nodup|]. intros x I. apply (proj1 (first_seen_in _ _)) in I. exact (V x I).
  Qed.
End Reads.

Lemma new_kept : forall O (new prior : ruleset O), NoDup (map fst new) -> NoDup (map fst prior) -> (forall e, In e new -> ~ In (fst e) (map fst prior)) -> incl new (extend new prior).
Proof.
  intros O new prior Nn Np D [k r] I. destruct (extend_spec prior new Nn) as [_ Lk]. apply lookup_some_in. rewrite Lk.
  assert (lookup (rev prior) k = None) as ->. { apply lookup_none. intros J. apply (D (k, r) I). rewrite map_rev in J. now apply in_rev in J. }
  now apply lookup_in_nodup.
Qed.
Section Kinds.
  Context {O C : Type} (L : lang O C) (kind : rule O -> Prop) (iter : nat -> res workload).
  Hypothesis fin : forall n keep prior fast, 1 <= n -> Forall (fun e => kind (snd e)) prior -> exists w, iter n = Val w /\ all_finish L keep kind w prior fast.
  Local Notation good rs := (NoDup (map fst rs) /\ Forall (fun e => kind (snd e)) rs).
  Lemma good_join : forall a new : ruleset O, good a -> NoDup (map fst new) -> (forall e, In e new -> ~ In (fst e) (map fst a)) -> Forall (fun e => kind (snd e)) (extend new a) -> good (extend a new).
  Proof.
    intros a new [Na Fa] Nn D F. split; [now apply extend_nodup'|]. rewrite Forall_forall in *. intros e I. apply extend_in' in I as [I|I]; [auto|]. apply F. now apply (new_kept _ new a).
  Qed.
  Lemma good_internal : forall n w keep fuel prior fast ae new, 1 <= n -> iter n = Val w -> good prior -> run_workload_internal L keep fuel w prior fast ae new -> good (extend prior new).
  Proof.
    intros n w keep fuel prior fast ae new Hn Ew G R. destruct (fin n keep prior fast Hn (proj2 G)) as (w' & Ew' & _ & _ & Ag & _). rewrite Ew in Ew'. injection Ew' as <-.
    destruct (workload_valid L keep fuel w prior fast ae new (proj1 G) R) as [Nn D]. apply good_join; [exact G|exact Nn|intros e I; exact (proj2 (D e I))|]. exact (proj2 (Ag fuel ae new (proj1 G) R)).
  Qed.
  Lemma good_forwarding : forall n w keep fuel ex prior new, 1 <= n -> iter n = Val w -> Forall (fun e => kind (snd e)) ex -> good prior -> run_fast_forwarding L keep fuel ex w prior new -> good (extend prior new).
  Proof.
    intros n w keep fuel ex prior new Hn Ew Fe G R. destruct (fin n keep prior false Hn (proj2 G)) as (w' & Ew' & _ & _ & _ & Ag). rewrite Ew in Ew'. injection Ew' as <-.
    destruct (forwarding_valid L keep fuel ex w prior new (proj1 G) R) as [Nn D]. apply good_join; [exact G|exact Nn|intros e I; exact (proj2 (D e I))|]. exact (proj2 (Ag fuel ex new (proj1 G) Fe R)).
  Qed.
  Lemma good_climb : forall step : workload -> ruleset O -> ruleset O -> Prop, (forall n w prior new, 1 <= n -> iter n = Val w -> good prior -> step w prior new -> good (extend prior new)) ->
    forall ns all final, Forall (fun n => 1 <= n) ns -> good all -> climb step iter ns all final -> good final.
  Proof.
    intros step Hs. induction ns as [|n ns IH]; intros all final Fn G H; [cbn in H; now subst|]. cbn [climb] in H. destruct H as (w & new & Ew & St & H). inversion Fn as [|? ? N1 N2]; subst.
    apply (IH (extend all new) final N2); [|exact H]. exact (Hs n w all new N1 Ew G St).
  Qed.
  Lemma some_climb : forall step : workload -> ruleset O -> ruleset O -> Prop, (forall n w prior new, 1 <= n -> iter n = Val w -> good prior -> step w prior new -> good (extend prior new)) ->
    (forall n prior, 1 <= n -> good prior -> exists w new, iter n = Val w /\ step w prior new) ->
    forall ns all, Forall (fun n => 1 <= n) ns -> good all -> exists final, climb step iter ns all final.
  Proof.
    intros step Hs Ex. induction ns as [|n ns IH]; intros all Fn G; [now exists all|]. inversion Fn as [|? ? N1 N2]; subst. destruct (Ex n all N1 G) as (w & new & Ew & St).
    destruct (IH (extend all new) N2 (Hs n w all new N1 Ew G St)) as (final & H). exists final. cbn [climb]. exists w, new. auto.
  Qed.
End Kinds.

(* ---- booleans ---- *)
Ltac known_names := split; [|split];
  [intros v I; cbn in I; repeat (destruct I as [<-|I]; [eexists; split; reflexivity|]); destruct I
  |intros v I; cbn in I; repeat (destruct I as [<-|I]; [eexists; split; reflexivity|]); destruct I
  |intros [|[|i]] ops o E Hi Io; cbn in E; [injection E as <-; cbn in Io; repeat (destruct Io as [<-|Io]; [eexists; split; reflexivity|]); destruct Io|injection E as <-; cbn in Io; repeat (destruct Io as [<-|Io]; [eexists; split; reflexivity|]); destruct Io|destruct i; discriminate E]].
Lemma bool_fin : forall n keep prior fast, 1 <= n -> Forall (fun e => bool_fit (snd e)) prior -> exists w, iter_bool n = Val w /\ all_finish bool_lang keep bool_fit w prior fast.
Proof.
  intros n keep prior fast Hn F. destruct (test_reads bool_lang ["true"; "false"] abc ["~"] ["&"; "|"; "^"; "->"] eq_refl ltac:(discriminate) ltac:(cbn; lia) ltac:(known_names) n Hn) as (w & ss & ts & Ew & Fo & Fr & Mv & Le).
  exists w. split; [exact Ew|]. exact (bool_finishes keep w ss ts prior fast Fo Fr Mv Le F).
Qed.
Lemma bool_tests_good : forall ns all, Forall (fun n => 1 <= n) ns -> bool_dsl ns all \/ bool_simple ns all -> NoDup (map fst all) /\ Forall (fun e => bool_fit (snd e)) all.
Proof.
  intros ns all Fn H. assert (Z : NoDup (map fst (@nil (string * rule bool_op))) /\ Forall (fun e => bool_fit (snd e)) (@nil (string * rule bool_op))) by (split; [apply NoDup_nil|apply Forall_nil]). destruct H as [H|H]; refine (good_climb bool_fit iter_bool _ _ ns [] all Fn Z H).
  - intros n w prior new Hn Ew G St. apply by_hand_internal in St as (keep & fuel & R). exact (good_internal bool_lang bool_fit iter_bool bool_fin n w keep fuel prior false true new Hn Ew G R).
  - intros n w prior new Hn Ew G (keep & fuel & R). exact (good_internal bool_lang bool_fit iter_bool bool_fin n w keep fuel prior false false new Hn Ew G R).
Qed.
Theorem bool_tests_finish : forall ns, Forall (fun n => 1 <= n) ns ->
  (exists all, bool_dsl ns all) /\
  forall all n keep, bool_dsl ns all \/ bool_simple ns all -> 1 <= n -> exists w, iter_bool n = Val w /\ finishes bool_lang keep w all false.
Proof.
  intros ns Fn. split.
  - refine (some_climb bool_fit iter_bool (by_hand bool_lang) _ _ ns [] Fn (conj (NoDup_nil _) (Forall_nil _))).
    + intros n w prior new Hn Ew G St. apply by_hand_internal in St as (keep & fuel & R). exact (good_internal bool_lang bool_fit iter_bool bool_fin n w keep fuel prior false true new Hn Ew G R).
    + intros n prior Hn G. destruct (bool_fin n (fun _ _ _ => true) prior false Hn (proj2 G)) as (w & Ew & Fi & _). destruct (fi_run _ _ _ _ _ Fi) as (f0 & new & R). exists w, new. split; [exact Ew|]. apply by_hand_internal. exists (fun _ _ _ => true), f0. apply R. lia.
  - intros all n keep H Hn. destruct (bool_tests_good ns all Fn H) as [_ F]. destruct (bool_fin n keep all false Hn F) as (w & Ew & Fi & _). eauto.
Qed.

(* ---- binary positives ---- *)
Lemma pos_fin : forall depth n keep prior fast, 1 <= n -> Forall (fun e => open_fit (pos_lang depth) (snd e)) prior -> exists w, iter_pos n = Val w /\ all_finish (pos_lang depth) keep (open_fit (pos_lang depth)) w prior fast.
Proof.
  intros depth n keep prior fast Hn F. destruct (test_reads (pos_lang depth) ["XH"] abc ["XO"; "XI"] ["+"; "*"] eq_refl ltac:(discriminate) ltac:(cbn; lia) ltac:(known_names) n Hn) as (w & ss & ts & Ew & Fo & Fr & _ & Le).
  exists w. split; [exact Ew|]. exact (pos_finishes depth keep w ss ts prior fast Fo Fr Le F).
Qed.
Lemma pos_read : forall depth o, pos_to_var o = None -> read_op (pos_lang depth) o (pos_arity o).
Proof. intros depth [] E; [exists "Z"|exists "S"|exists "XH"|exists "XO"|exists "XI"|exists "+"|exists "*"|discriminate E]; reflexivity. Qed.
Ltac plain_rule := split; [split; [|split; [|split]]|];
  [split; [repeat apply Forall_cons; [..|apply Forall_nil]; cbn [nop nch length]; first [reflexivity|match goal with |- read_op (pos_lang ?d) ?o _ => exact (pos_read d o eq_refl) end]|eexists; vm_compute; reflexivity]
  |split; [repeat apply Forall_cons; [..|apply Forall_nil]; cbn [nop nch length]; first [reflexivity|match goal with |- read_op (pos_lang ?d) ?o _ => exact (pos_read d o eq_refl) end]|eexists; vm_compute; reflexivity]
  |let E := fresh in intros v t I E; vm_compute in E; injection E as <-; cbn in I |- *; intuition
  |discriminate
  |let E := fresh in intros n o I E; cbn [rrhs] in I; repeat (destruct I as [<-|I]; [cbn in E; first [discriminate E|injection E as <-; reflexivity]|]); destruct I].
Lemma pos_given_fit : forall depth, (forall rs, pos_nat_rules = Val rs -> Forall (fun e => open_fit (pos_lang depth) (snd e)) rs) /\ forall rs, pos_exploratory = Val rs -> Forall (fun e => open_fit (pos_lang depth) (snd e)) rs.
Proof.
  intros depth. split; intros rs E.
  - assert (X : exists rs', pos_nat_rules = Val rs' /\ Forall (fun e => open_fit (pos_lang depth) (snd e)) rs'); [|destruct X as (rs' & E' & F); rewrite E in E'; injection E' as <-; exact F].
    eexists. split; [vm_compute; reflexivity|]. repeat apply Forall_cons; [..|apply Forall_nil]; cbn [snd]; plain_rule.
  - assert (X : exists rs', pos_exploratory = Val rs' /\ Forall (fun e => open_fit (pos_lang depth) (snd e)) rs'); [|destruct X as (rs' & E' & F); rewrite E in E'; injection E' as <-; exact F].
    eexists. split; [vm_compute; reflexivity|]. repeat apply Forall_cons; [..|apply Forall_nil]; cbn [snd]; plain_rule.
Qed.
Lemma pos_step_good : forall depth ex, pos_exploratory = Val ex -> forall n w prior new, 1 <= n -> iter_pos n = Val w -> NoDup (map fst prior) /\ Forall (fun e => open_fit (pos_lang depth) (snd e)) prior ->
  Recipes.forwarded (pos_lang depth) ex w prior new -> NoDup (map fst (extend prior new)) /\ Forall (fun e => open_fit (pos_lang depth) (snd e)) (extend prior new).
Proof.
  intros depth ex Ex n w prior new Hn Ew G (keep & fuel & R).
  exact (good_forwarding (pos_lang depth) (open_fit (pos_lang depth)) iter_pos (pos_fin depth) n w keep fuel ex prior new Hn Ew (proj2 (pos_given_fit depth) ex Ex) G R).
Qed.
Lemma pos_start_good : forall depth prior, pos_nat_rules = Val prior -> NoDup (map fst (extend [] prior)) /\ Forall (fun e => open_fit (pos_lang depth) (snd e)) (extend [] prior).
Proof.
  intros depth prior E. split; [apply extend_nodup'; constructor|]. pose proof (proj1 (pos_given_fit depth) prior E) as F. rewrite Forall_forall in *. intros e I. apply extend_in' in I as [[]|I]. auto.
Qed.
Theorem pos_tests_finish : forall depth ns, Forall (fun n => 1 <= n) ns ->
  (exists all, pos_lifting depth ns all) /\
  forall all n keep ex, pos_lifting depth ns all -> 1 <= n -> pos_exploratory = Val ex -> exists w, iter_pos n = Val w /\ forwards (pos_lang depth) keep ex w all.
Proof.
  intros depth ns Fn. split.
  - assert (exists ex, pos_exploratory = Val ex) as (ex & Ex) by (eexists; vm_compute; reflexivity). assert (exists prior, pos_nat_rules = Val prior) as (prior & Ep) by (eexists; vm_compute; reflexivity).
    destruct (some_climb (open_fit (pos_lang depth)) iter_pos (fun w p new => Recipes.forwarded (pos_lang depth) ex w p new) (pos_step_good depth ex Ex)) with (ns := ns) (all := extend [] prior) as (final & H); [|exact Fn|exact (pos_start_good depth prior Ep)|].
    + intros n pr Hn G. destruct (pos_fin depth n (fun _ _ _ => true) pr false Hn (proj2 G)) as (w & Ew & _ & Fo & _). destruct (fo_run _ _ _ _ _ (Fo ex (proj2 (pos_given_fit depth) ex Ex))) as (f0 & new & R). exists w, new. split; [exact Ew|]. exists (fun _ _ _ => true), f0. apply R. lia.
    + exists final, ex, prior. auto.
  - intros all n keep ex (ex' & prior & Ex' & Ep & H) Hn Ex. rewrite Ex in Ex'. injection Ex' as <-.
    destruct (good_climb (open_fit (pos_lang depth)) iter_pos (fun w p new => Recipes.forwarded (pos_lang depth) ex w p new) (pos_step_good depth ex Ex) ns _ _ Fn (pos_start_good depth prior Ep) H) as [_ F].
    destruct (pos_fin depth n keep all false Hn F) as (w & Ew & _ & Fo & _). exists w. split; [exact Ew|]. exact (Fo ex (proj2 (pos_given_fit depth) ex Ex)).
Qed.
