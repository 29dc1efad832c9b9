(* Runs of recursive_rules can be finished. *)
From Coq Require Import NArith ZArith.
From Verif Require Import EnumSpec Filter.
From Verif Require Import Base BaseProofs Sexp SexpProofs Recipe Reader ReaderProofs Lang LangProofs BV BVSpec BoolDom PosDom Solid Syntax SyntaxProofs Rule RuleSpec Ruleset Workload Analysis Egraph EgraphSpec Synth Apply Sched Domains
  PlainProofs TotalSpec TotalDomains Match Minimize Infer InferSpec InferProofs LearnSpec GrammarProofs LearntSpec LiveSpec FinishSpec FinishDomains DomainSound.
Open Scope list_scope.

Section Rec.
  Context {O C : Type}.
  Variable L : lang O C.
  Variable keep : eg O C -> nat -> nat -> bool.
  Variable l : wlang.
  Hypothesis names : plain_names l.
  Hypothesis two : 2 <= length (w_ops l).
  Hypothesis some : w_vars l <> [].
  Hypothesis letters : length (w_vars l) <= 26.
  Hypothesis known : names_known L l.
  Lemma lterm_reads : forall u b, lterm l b u -> words u /\ exists t, term_of_sexp (l_from_op L) u = Some t /\ incl (tvars (l_to_var L) t) (w_vars l).
  Proof.
    destruct known as (Kv & Kc & Ko). induction u as [s|us IH] using sexp_ind'; intros b H.
    - inversion H as [v Iv|v Iv|]; subst.
      + destruct (Kv s Iv) as (o & E & V). split; [apply (names s); auto|]. cbn. rewrite E. eexists. split; [reflexivity|]. cbn. rewrite V. intros x [<-|[]]. exact Iv.
      + destruct (Kc s Iv) as (o & E & V). split; [apply (names s); auto|]. cbn. rewrite E. eexists. split; [reflexivity|]. cbn. rewrite V. intros x [].
    - inversion H as [| |i ops o bs args E Hi Io La F]; subst. inversion IH as [|? ? _ IH']; subst.
      assert (X : (forall t, In t args -> words t) /\ exists ts,
        (fix go (l : list sexp) : option (list (term O)) := match l with [] => Some [] | x :: r => match term_of_sexp (l_from_op L) x, go r with Some t, Some ts => Some (t :: ts) | _, _ => None end end) args = Some ts
        /\ length ts = length args /\ incl (flat_map (tvars (l_to_var L)) ts) (w_vars l)).
      { clear - F IH'. induction F as [|b x bs ts' Bx _ IHf]; [split; [intros t []|]; exists []; repeat split; intros x []|]. inversion IH' as [|? ? Hx IH'']; subst.
        destruct (Hx _ Bx) as (Wx & t & Et & Ft). destruct (IHf IH'') as (Ws & ts & Es & Ln & Fs). split; [intros y [<-|Iy]; auto|]. exists (t :: ts). rewrite Et, Es. cbn [length flat_map]. rewrite Ln.
        repeat split. apply incl_app; assumption. }
      destruct X as (Ws & ts & Es & Ln & Fs). destruct (Ko i ops o E Hi Io) as (p & Ep & Vp).
      assert (Wo : word o). { apply (names o). right. right. apply in_concat. exists ops. split; [exact (nth_error_In _ _ E)|exact Io]. }
      split; [apply words_list; intros t [<-|It]; [exact Wo|exact (Ws t It)]|]. cbn [term_of_sexp]. rewrite Es, Ln, La, Ep. eexists. split; [reflexivity|]. cbn [tvars]. rewrite Vp. exact Fs.
  Qed.
  Lemma sized_reads : forall met n, exists w ss ts, sized_workload met (S n) l = Val w /\ force w = Val ss /\ Forall2 (reads L) ss ts /\ mentions_var (l_to_var L) ts /\ length (wvars L ts) <= 26.
  Proof.
    intros met n. destruct (sized_terms met n l names two) as (w & us & Ew & Ef & Iff).
    assert (X : exists ts, Forall2 (reads L) us ts /\ incl (flat_map (tvars (l_to_var L)) ts) (w_vars l)).
    { assert (F : forall u, In u us -> lterm l true u) by (intros u Iu; now apply Iff in Iu). clear - F names known. induction us as [|u us IH]; [exists []; split; [constructor|intros x []]|].
      destruct IH as (ts & R & V); [intros u' I'; apply F; now right|]. destruct (lterm_reads u true (F u (or_introl eq_refl))) as (W & t & Et & Vt).
      exists (t :: ts). split; [constructor; [|exact R]|cbn [flat_map]; apply incl_app; assumption].
      unfold reads, parse_rec. rewrite <- (sapp_nil (display u)), (parse_display u "" W); [|exact Logic.I]. now rewrite Et. }
    destruct X as (ts & R & V). exists w, us, ts. split; [exact Ew|]. split; [exact Ef|]. split; [exact R|]. split.
    - destruct (w_vars l) as [|v vs] eqn:Ev; [congruence|]. assert (Iv : In v (w_vars l)) by (rewrite Ev; now left).
      assert (Iu : In (Atom v) us). { apply Iff. split; [now constructor|]. destruct met; cbn; lia. }
      destruct known as (Kv & _). destruct (Kv v Iv) as (o & Eo & Vo). clear - R Iu Eo Vo names Iv. induction R as [|s t us ts Rs _ IH]; [destruct Iu|]. destruct Iu as [->|Iu].
      + exists t, o, [], v. split; [now left|]. unfold reads, parse_rec in Rs. assert (W : words (Atom v)) by (apply (names v); auto). rewrite <- (sapp_nil (display (Atom v))), (parse_display (Atom v) "" W) in Rs; [|exact Logic.I].
        cbn in Rs. rewrite Eo in Rs. cbn in Rs. injection Rs as Rs. pose proof (tree_to_rec t) as H. rewrite <- Rs in H. cbn in H. injection H as <-. split; [now left|exact Vo].
      + destruct (IH Iu) as (t' & o' & us' & s' & It & H). exists t', o', us', s'. split; [now right|exact H].
    - etransitivity; [|exact letters]. unfold wvars. apply NoDup_incl_length; [apply first_seen_nodup|]. intros x I. apply (proj1 (first_seen_in _ _)) in I. exact (V x I).
  Qed.
  Variable kind : rule O -> Prop.
  Hypothesis fin : forall w ss ts prior fast, force w = Val ss -> Forall2 (reads L) ss ts -> mentions_var (l_to_var L) ts -> length (wvars L ts) <= 26 ->
    Forall (fun e => kind (snd e)) prior -> all_finish L keep kind w prior fast.
  Variable met : metric.
  Variable prior : ruleset O.
  Hypothesis prior_kind : Forall (fun e => kind (snd e)) prior.
  Local Notation good rs := (NoDup (map fst rs) /\ Forall (fun e => kind (snd e)) rs).
  Lemma good_extend : forall a, good a -> good (extend a prior).
  Proof.
    intros a [Na Fa]. split; [exact (extend_nodup' a prior Na)|]. apply Forall_forall. rewrite Forall_forall in *. intros e I. apply extend_in' in I as [I|I]; auto.
  Qed.
  Lemma recursive_good : forall fuel n rec, recursive_rules L keep fuel met l prior n rec -> good rec.
  Proof.
    intros fuel n rec R. induction R as [|n rec w new R IH Ew Rw]; [split; constructor|]. destruct (good_extend rec IH) as [Ne Fe].
    destruct (sized_reads met n) as (w' & ss & ts & Ew' & Fo & Fr & Mv & Lt). rewrite Ew in Ew'. injection Ew' as <-.
    destruct (fin w ss ts (extend rec prior) true Fo Fr Mv Lt Fe) as (_ & _ & Ag & _). exact (Ag fuel _ new Ne Rw).
  Qed.
  Theorem recursive_finishes : recursion_finishes L keep met l prior.
  Proof.
    assert (Nx : forall fuel n rec, recursive_rules L keep fuel met l prior n rec -> exists w, sized_workload met (S n) l = Val w /\ finishes L keep w (extend rec prior) true).
    { intros fuel n rec R. destruct (good_extend rec (recursive_good fuel n rec R)) as [_ Fe]. destruct (sized_reads met n) as (w & ss & ts & Ew & Fo & Fr & Mv & Lt).
      exists w. split; [exact Ew|]. exact (proj1 (fin w ss ts (extend rec prior) true Fo Fr Mv Lt Fe)). }
    split; [exact Nx|]. induction n as [|n [(f0 & rec & H)|(m & f0 & rec & w & B & H)]].
    - left. exists 0, []. intros f _. constructor.
    - destruct (Nx f0 n rec (H f0 (le_n _))) as (w & Ew & Fi). destruct (fi_run _ _ _ _ _ Fi) as (f1 & new & Hr).
      destruct new as [|e new].
      + destruct (Nat.ltb (S n) 3) eqn:En.
        * left. exists (f0 + f1), (extend [] (extend rec prior)). intros f Hf. apply (RR_more L keep f met l prior n rec w []); [apply H; lia|exact Ew|]. rewrite En. apply Hr. lia.
        * right. apply Nat.ltb_ge in En. exists n, (f0 + f1), rec, w. split; [lia|]. split; [exact Ew|]. intros f Hf. split; [apply H; lia|apply Hr; lia].
      + left. exists (f0 + f1), (extend (e :: new) (extend rec prior)). intros f Hf. apply (RR_more L keep f met l prior n rec w (e :: new)); [apply H; lia|exact Ew|].
        destruct (Hr f ltac:(lia)) as (g & c & cands & H1 & H2 & H3 & H4 & _). exists g, c, cands. repeat (split; [assumption|]). discriminate.
    - right. exists m, f0, rec, w. split; [lia|exact H].
  Qed.
End Rec.

Theorem bool_recursive : forall keep l met prior, plain_names l -> 2 <= length (w_ops l) -> w_vars l <> [] -> length (w_vars l) <= 26 -> names_known bool_lang l ->
  Forall (fun e => bool_fit (snd e)) prior -> recursion_finishes bool_lang keep met l prior.
Proof. intros keep l met prior P T S Le K. exact (recursive_finishes bool_lang keep l P T S Le K bool_fit (fun w ss ts pr fast => bool_finishes keep w ss ts pr fast) met prior). Qed.
Theorem bv_recursive : forall w check, (1 <= w <= 64)%N -> unsat_right w check -> forall keep l met prior, plain_names l -> 2 <= length (w_ops l) -> w_vars l <> [] -> length (w_vars l) <= 26 -> names_known (bv_lang w check) l ->
  Forall (fun e => bv_fit w check (snd e)) prior -> recursion_finishes (bv_lang w check) keep met l prior.
Proof. intros w check W U keep l met prior P T S Le K. exact (recursive_finishes (bv_lang w check) keep l P T S Le K (bv_fit w check) (fun wl ss ts pr fast => bv_finishes w check W U keep wl ss ts pr fast) met prior). Qed.
Theorem pos_recursive : forall depth keep l met prior, plain_names l -> 2 <= length (w_ops l) -> w_vars l <> [] -> length (w_vars l) <= 26 -> names_known (pos_lang depth) l ->
  Forall (fun e => open_fit (pos_lang depth) (snd e)) prior -> recursion_finishes (pos_lang depth) keep met l prior.
Proof. intros depth keep l met prior P T S Le K. exact (recursive_finishes (pos_lang depth) keep l P T S Le K (open_fit (pos_lang depth)) (fun w ss ts pr fast Fo Fr _ => pos_finishes depth keep w ss ts pr fast Fo Fr) met prior). Qed.
Theorem cf_recursive : forall keep l met prior, plain_names l -> 2 <= length (w_ops l) -> w_vars l <> [] -> length (w_vars l) <= 26 -> names_known cf_lang l ->
  Forall (fun e => open_fit cf_lang (snd e)) prior -> recursion_finishes cf_lang keep met l prior.
Proof. intros keep l met prior P T S Le K. exact (recursive_finishes cf_lang keep l P T S Le K (open_fit cf_lang) (fun w ss ts pr fast Fo Fr _ => cf_finishes keep w ss ts pr fast Fo Fr) met prior). Qed.
