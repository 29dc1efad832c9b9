(* The recipes: their terms are terms of the language, their rules are true. *)
From Coq Require Import NArith ZArith QArith Qcanon.
From Verif Require Import EnumSpec Filter.
From Verif Require Import Base BaseProofs Sexp SexpProofs CanonProofs Reader ReaderProofs Lang LangProofs BoolDom BV BVSpec Rational RationalSpec Halide HalideSpec DomainSpec Syntax SyntaxProofs Rule RuleSpec Ruleset Workload WorkloadProofs
  Analysis Egraph EgraphSpec Synth SynthSpec Domains TotalSpec Match Infer InferSpec InferProofs LearnSpec LearnDomains OpsSpec OpsProofs OpsDomains SaveProofs SaveDomains LearntSpec LearntProofs GrammarProofs
  Recipes RecipesSpec RecipesSig.
Open Scope list_scope.

(* ---- reading terms ---- *)
Definition wordb (s : string) : bool := negb (String.eqb s "") && all_chars word_char s.
Lemma wordb_word : forall s, wordb s = true -> word s.
Proof. intros s E. apply andb_prop in E as [E1 E2]. apply negb_true_iff, String.eqb_neq in E1. split; assumption. Qed.
Section Reading.
  Context {O C : Type} (L : lang O C) (ar : O -> nat) (A : O -> bool).
  Local Notation Q := (over L ar (fun o => A o = true)).
  Definition op_known (h : string * nat) : bool :=
    wordb (fst h) && match l_from_op L (fst h) (snd h) with
                     | Some o => Nat.eqb (ar o) (snd h) && (match l_to_var L o with Some _ => true | None => false end || A o)
                     | None => false
                     end.
  Definition known (atoms : list string) (ops : list (string * nat)) : bool := forallb op_known (each 0 atoms ++ ops).
  Lemma op_known_spec : forall h, op_known h = true -> word (fst h) /\ exists o, l_from_op L (fst h) (snd h) = Some o /\ Q o (snd h).
  Proof.
    intros h E. unfold op_known in E. apply andb_prop in E as [E1 E2]. split; [exact (wordb_word _ E1)|]. destruct (l_from_op L (fst h) (snd h)) as [o|]; [|discriminate E2].
    exists o. split; [reflexivity|]. apply andb_prop in E2 as [E2 E3]. apply Nat.eqb_eq in E2. split; [auto|]. apply orb_prop in E3 as [E3|E3]; [left|right; exact E3].
    destruct (l_to_var L o); [discriminate|discriminate E3].
  Qed.
  Variable atoms : list string.
  Variable ops : list (string * nat).
  Hypothesis Kn : known atoms ops = true.
  Lemma built_reads : forall s, built atoms ops s -> words s /\ exists t, term_of_sexp (l_from_op L) s = Some t /\ fits Q t.
  Proof.
    unfold known in Kn. rewrite forallb_forall in Kn.
    induction s as [x|l IH] using sexp_ind'; intros B; inversion B as [? I|o args I F]; subst.
    - assert (K : op_known (x, 0) = true) by (apply Kn, in_or_app; left; apply in_map_iff; exists x; auto).
      apply op_known_spec in K as (W & o & E & H). cbn [fst snd] in *. split; [exact W|]. cbn [term_of_sexp]. rewrite E. exists (T o []). split; [reflexivity|]. constructor; [exact H|constructor].
    - inversion IH as [|? ? _ IH']; subst. assert (K : op_known (o, length args) = true) by (apply Kn, in_or_app; right; exact I).
      apply op_known_spec in K as (W & p & E & H). cbn [fst snd] in *.
      assert (X : (forall t, In t args -> words t) /\ exists ts,
        (fix go (l : list sexp) : option (list (term O)) := match l with [] => Some [] | x :: r => match term_of_sexp (l_from_op L) x, go r with Some t, Some ts => Some (t :: ts) | _, _ => None end end) args = Some ts
        /\ length ts = length args /\ Forall (fits Q) ts).
      { clear - F IH'. induction F as [|x l Bx _ IHf]; [split; [intros t []|]; exists []; repeat split; constructor|]. inversion IH' as [|? ? Hx IH'']; subst.
        destruct (Hx Bx) as (Wx & t & Et & Ft). destruct (IHf IH'') as (Ws & ts & Es & Ln & Fs). split; [intros y [<-|Iy]; auto|]. exists (t :: ts). rewrite Et, Es. cbn [length]. rewrite Ln. repeat split; auto. }
      destruct X as (Ws & ts & Es & Ln & Fs). split; [apply words_list; intros t [<-|It]; [exact W|exact (Ws t It)]|].
      cbn [term_of_sexp]. rewrite Es, Ln, E. exists (T p ts). split; [reflexivity|]. constructor; [now rewrite Ln|exact Fs].
  Qed.
  Lemma to_rec_inj : forall (t u : term O), to_rec t = to_rec u -> t = u.
  Proof. intros t u E. pose proof (tree_to_rec t) as H. rewrite E, tree_to_rec in H. now injection H. Qed.
  Lemma terms_read : forall wl, terms_over wl atoms ops -> all_read L wl.
  Proof.
    intros wl (w & us & E & Ef & F). exists w, us. assert (X : exists ts, Forall2 (reads L) us ts).
    { clear Ef. induction F as [|s us B _ (ts & IH)]; [exists []; constructor|]. destruct (built_reads s B) as (W & t & Et & _). exists (t :: ts). constructor; [|exact IH].
      unfold reads, parse_rec. rewrite <- (sapp_nil (display s)), (parse_display s "" W); [|exact Logic.I]. now rewrite Et. }
    destruct X as (ts & X). exists ts. auto.
  Qed.
  Lemma terms_fit : forall wl w, terms_over wl atoms ops -> wl = Val w -> workload_fits L Q w.
  Proof.
    intros wl w (w' & us & E & Ef & F) E' ss ts Es R. rewrite E in E'. injection E' as <-. rewrite Ef in Es. injection Es as <-. clear Ef E.
    induction R as [|s t us ts Rs _ IH]; [constructor|]. inversion F as [|? ? B F']; subst. constructor; [|exact (IH F')].
    destruct (built_reads s B) as (W & u & Eu & Fu). unfold reads, parse_rec in Rs. rewrite <- (sapp_nil (display s)), (parse_display s "" W), Eu in Rs; [|exact Logic.I].
    injection Rs as Rs. apply to_rec_inj in Rs. now subst.
  Qed.
End Reading.

(* ---- runs ---- *)
Section Runs.
  Context {O C : Type} (L : lang O C) (ar : O -> nat) (start : ruleset O -> Prop) (A : O -> bool).
  Local Notation Q := (over L ar (fun o => A o = true)).
  Hypothesis Lo : learns_only L ar (fun o => A o = true) (fun o => A o = true).
  Hypothesis again : forall rs, learnt L start rs -> NoDup (map fst rs) /\ start rs.
  Definition fine (rs : ruleset O) : Prop := learnt L start rs /\ Forall (fun e => rule_uses L Q (snd e)) rs.
  Lemma fine_none : fine [].
  Proof. split; constructor. Qed.
  Lemma fine_extend : forall a b, fine a -> fine b -> fine (extend a b).
  Proof.
    intros a b [La Fa] [Lb Fb]. split; [now constructor|]. rewrite Forall_forall in *. intros e I. apply extend_in' in I as [I|I]; auto.
  Qed.
  Lemma fine_given : forall rs, fine rs -> Forall (fun e => rhs_uses Q (snd e)) rs.
  Proof. intros rs [_ F]. revert F. apply Forall_impl. intros e. apply rule_uses_rhs. Qed.
  Lemma fine_learned : forall w prior fast new, fine prior -> workload_fits L Q w -> learned L w prior fast new -> fine new.
  Proof.
    intros w prior fast new Hp Hw (keep & fuel & R). destruct (again prior (proj1 Hp)) as [N S]. split; [exact (Lt_workload L start keep fuel w prior fast false new N S R)|].
    destruct (Lo keep fuel) as (U & _). exact (U w prior fast false new N Hw (fine_given _ Hp) R).
  Qed.
  Lemma fine_recursed : forall met l prior n all atoms ops, fine prior -> known L ar A atoms ops = true -> steps_over met l atoms ops -> recursed L met l prior n all -> fine all.
  Proof.
    intros met l prior n all atoms ops Hp Kn So (keep & fuel & R). destruct (again prior (proj1 Hp)) as [N S]. split; [exact (Lt_recursive L start keep fuel met l prior n all (proj1 Hp) R)|].
    destruct (Lo keep fuel) as (_ & _ & U). destruct Hp as [_ Fp]. pose proof Fp as Gp. rewrite Forall_forall in *. intros e I.
    assert (G : Forall (fun e => rhs_uses Q (snd e)) prior) by (revert Gp; rewrite <- Forall_forall; apply Forall_impl; intros x; apply rule_uses_rhs).
    destruct (U met l prior n all N (fun m w _ Ew => terms_fit L ar A atoms ops Kn _ w (So m) Ew) G R e I) as [I'|X]; auto.
  Qed.
End Runs.
Lemma learnt_mono : forall O C (L : lang O C) (S S' : ruleset O -> Prop), (forall rs, S rs -> S' rs) -> forall rs, learnt L S rs -> learnt L S' rs.
Proof. intros O C L S S' M rs H. induction H; [constructor|econstructor; eauto|eapply Lt_forwarding; eauto|eapply Lt_recursive; eauto|constructor; auto|eapply Lt_part; eauto]. Qed.

(* ---- the terms of recursive_rules ---- *)
Definition lang_ops (l : wlang) : list (string * nat) :=
  match w_ops l with
  | [a; b] => each 1 a ++ each 2 b
  | [a; b; c] => each 1 a ++ each 2 b ++ each 3 c
  | _ => []
  end.
Lemma lterm_built : forall l, length (w_ops l) = 2 \/ length (w_ops l) = 3 -> forall u b, lterm l b u -> built (w_vars l ++ w_vals l) (lang_ops l) u.
Proof.
  intros l Ln. induction u as [s|us IH] using sexp_ind'; intros b H.
  - constructor. apply in_or_app. inversion H; subst; auto.
  - inversion H as [| |i ops o bs args E Hi Io La F]; subst. inversion IH as [|? ? _ IH']; subst. constructor.
    + rewrite La. unfold lang_ops. destruct (w_ops l) as [|o1 [|o2 [|o3 [|? ?]]]]; cbn in Ln; try lia; destruct i as [|[|[|i]]]; try lia; cbn in E; try discriminate E; try (destruct i; discriminate E); injection E as ->;
        repeat (apply in_or_app; first [left; apply in_map_iff; exists o; now auto|right]); try (apply in_map_iff; exists o; now auto).
    + clear - F IH'. revert IH'. induction F as [|b u bs us Hu _ IHf]; intros IH'; [constructor|]. inversion IH'; subst. constructor; eauto.
Qed.
Definition placeholderb (s : string) : bool := String.eqb s "EXPR" || String.eqb s "VAR" || String.eqb s "VAL" || match s with String "O" (String "P" _) => true | _ => false end.
Definition plain_namesb (l : wlang) : bool := forallb (fun x => wordb x && negb (placeholderb x)) (w_vars l ++ w_vals l ++ concat (w_ops l)).
Lemma plain_namesb_ok : forall l, plain_namesb l = true -> plain_names l.
Proof.
  intros l E x I. unfold plain_namesb in E. rewrite forallb_forall in E. destruct (andb_prop _ _ (E x ltac:(apply in_or_app; destruct I as [I|[I|I]]; [auto|right; apply in_or_app; auto..]))) as [E1 E2].
  split; [exact (wordb_word _ E1)|]. apply negb_true_iff in E2. unfold placeholderb in E2. repeat (apply orb_false_iff in E2 as [E2 ?]). rewrite String.eqb_neq in *.
  intros [P|[P|[P|(i & P)]]]; try contradiction. subst x. cbn in *. discriminate.
Qed.
(* the terms for size 0 are enumerated *)
Definition zero_ok (met : metric) (l : wlang) : bool :=
  match sized_workload met 0 l with
  | Val w => match force w with Val us => forallb (fun u => match u with Atom x => mem_str x (w_vars l ++ w_vals l) | Lst _ => false end) us | Panic => false end
  | Panic => false
  end.
Lemma steps_ok : forall met l, plain_namesb l && (Nat.eqb (length (w_ops l)) 2 || Nat.eqb (length (w_ops l)) 3) && zero_ok met l = true -> steps_over met l (w_vars l ++ w_vals l) (lang_ops l).
Proof.
  intros met l E. apply andb_prop in E as [E E3]. apply andb_prop in E as [E1 E2].
  assert (Ln : length (w_ops l) = 2 \/ length (w_ops l) = 3) by (apply orb_prop in E2 as [E2|E2]; apply Nat.eqb_eq in E2; auto).
  intros [|n].
  - unfold zero_ok in E3. destruct (sized_workload met 0 l) as [w|] eqn:Ew; [|discriminate E3]. destruct (force w) as [us|] eqn:Ef; [|discriminate E3]. exists w, us. split; [reflexivity|]. split; [exact Ef|].
    rewrite forallb_forall in E3. apply Forall_forall. intros u I. specialize (E3 u I). destruct u as [x|?]; [|discriminate E3]. constructor. now apply mem_str_in.
  - destruct (sized_terms met n l (plain_namesb_ok l E1)) as (w & us & Ew & Ef & Iff); [lia|]. exists w, us. split; [exact Ew|]. split; [exact Ef|].
    apply Forall_forall. intros u I. apply Iff in I as [Lt _]. exact (lterm_built l Ln u true Lt).
Qed.
