(* Minimization can be finished from every state. *)
From Coq Require Import Permutation NArith ZArith.
From Verif Require Import Base BaseProofs Lang LangProofs Syntax Rule Ruleset RuleSpec RulesetProofs Workload Analysis Egraph EgraphSpec EgraphProofs Synth Apply Sched SynthSpec SynthProofs DeriveProofs
  Extract Match Minimize MinimizeProofs MinimizeLoop Infer InferProofs LiveSpec FinishSpec.
Open Scope list_scope.

Lemma inst_read : forall O C (L : lang O C) p, read_pat L p -> read_term L (instantiate (l_mk_var L) p).
Proof.
  intros O C L p [F (t & T)]. split; [|eexists; rewrite tree_inst, T; reflexivity].
  unfold instantiate. apply Forall_map. eapply Forall_impl; [|exact F]. intros [o ch] H. cbn in *. destruct o as [o|v]; cbn; [left; exact H|right]. subst ch. eauto.
Qed.

Section Min.
  Context {O C : Type}.
  Variable L : lang O C.
  Hypothesis eqb_eq : forall a b, l_eqb L a b = true <-> a = b.
  Variable keep : eg O C -> nat -> nat -> bool.
  Variable fit : rule O -> Prop.
  Hypothesis fit_rewrite : forall r, fit r -> rewrite_rule L r.
  Hypothesis live : forall rs, Forall (fun e => fit (snd e)) rs -> forall g, reached L keep rs g -> goes_on L keep rs g.
  (* candidates *)
  Variable R : rule O -> Prop.
  Hypothesis R_reverse : forall r r', R r -> reverse (l_name L) r = Val (Some r') -> R r'.
  Hypothesis R_name : forall r, R r -> exists o, reverse (l_name L) r = Val o.
  Hypothesis R_score : forall r, R r -> exists s, rule_score L r = Val s.
  Hypothesis R_valid : forall r, R r -> exists b, is_valid L r = Val b.
  Hypothesis R_rewrite : forall r, R r -> rewrite_rule L r.
  Hypothesis R_fit : forall r, R r -> is_valid L r = Val true -> fit r.
  Local Notation allR := (Forall (fun e : string * rule O => R (snd e))).
  Local Notation allfit := (Forall (fun e : string * rule O => fit (snd e))).

  Lemma loop_live : forall step m sel inv, allR m -> exists x, select_loop L step m sel inv = Val x.
  Proof.
    intros step m. induction m as [|[k r] m IH]; intros sel inv F; cbn [select_loop]; [destruct (Nat.ltb _ _); eauto|]. inversion F as [|? ? Hr Fm]; subst. cbn in Hr.
    destruct (Nat.ltb _ _); [|eauto]. destruct (R_valid r Hr) as (b & ->). cbn [rbind]. destruct (R_name r Hr) as (o & Eo). rewrite Eo. cbn [rbind].
    destruct (if b then _ else _) as [sel1 inv1]. destruct o as [r'|]; [|apply IH; exact Fm].
    destruct (if rs_contains m r' then is_valid L r' else Val false) as [b'|] eqn:E.
    - cbn [rbind]. destruct b'; apply IH; exact Fm.
    - exfalso. destruct (rs_contains m r'); [|discriminate E]. destruct (R_valid r' (R_reverse r r' Hr Eo)) as (b' & E'). congruence.
  Qed.
  Lemma select_live : forall m inv, allR m -> exists rest sel inv', select L 1 m inv = Val (rest, sel, inv').
  Proof.
    intros m inv F. unfold select. assert (exists sorted, sort_candidates L m = Val sorted) as (sorted & Es).
    { unfold sort_candidates. assert (exists l, rmapM (fun e => let* s := rule_score L (snd e) in Val (s, e)) m = Val l) as (l & ->); [|cbn; eauto].
      clear inv. induction F as [|e m He F (l & IH)]; [exists []; reflexivity|]. destruct (R_score _ He) as (s & E). exists ((s, e) :: l). cbn [rmapM]. rewrite E. cbn [rbind]. rewrite IH. reflexivity. }
    rewrite Es. cbn [rbind]. destruct (sort_candidates_spec L m sorted Es) as (Pm & _).
    destruct (loop_live 1 (rev sorted) [] inv) as ([[rest sel] inv'] & E).
    - apply Forall_forall. intros e I. apply in_rev in I. rewrite Forall_forall in F. apply F. eapply Permutation_in; [|exact I]. exact Pm.
    - rewrite E. cbn [rbind]. eauto.
  Qed.
  Lemma select_fit : forall m inv rest sel inv', allR m -> m <> [] -> select L 1 m inv = Val (rest, sel, inv') -> allR rest /\ allfit sel /\ length rest < length m.
  Proof.
    intros m inv rest sel inv' F Nm H. destruct (select_ok L 1 m inv rest sel inv' H) as (ps & So & Pm & _). rewrite Forall_forall in F.
    assert (Fp : forall e, In e (ps ++ rev rest) -> R (snd e)) by (intros e I; apply F; exact (Permutation_in _ Pm I)). split; [|split].
    - apply Forall_forall. intros e I. apply Fp, in_app_iff. right. now apply -> in_rev.
    - apply Forall_forall. intros e I. destruct (so_sel _ _ _ _ _ _ _ _ _ So e I) as [[]|(_ & V & p & Hp & X)].
      assert (Rp : R (snd p)) by (apply Fp, in_app_iff; auto). apply R_fit; [|exact V]. destruct X as [X|[X _]]; [rewrite X; exact Rp|exact (R_reverse _ _ Rp X)].
    - assert (Hps : ps <> []). { apply (so_pop _ _ _ _ _ _ _ _ _ So); [cbn; lia|]. intros E. rewrite E in Pm. apply Permutation_nil in Pm. contradiction. }
      rewrite <- (Permutation_length Pm), app_length, rev_length. destruct ps; [congruence|cbn; lia].
  Qed.
  (* both sides of the candidates *)
  Lemma sides_live : forall rs m g acc, allfit rs -> allR m -> reached L keep rs g ->
    exists g' acc', (forall f, 2 <= f -> add_sides L keep f g (map snd m) acc = Val (g', acc')) /\ reached L keep rs g'.
  Proof.
    intros rs m. induction m as [|[k r] m IH]; intros g acc Fr Fm Rg; cbn [map add_sides]; [exists g, acc; auto|]. inversion Fm as [|? ? Hr Fm']; subst. cbn [snd] in *.
    destruct (R_rewrite r Hr) as (P1 & P2 & _).
    destruct (go_add _ _ _ _ (live rs Fr g Rg) _ (inst_read _ _ L _ P1)) as (g1 & l & E1).
    assert (R1 : reached L keep rs g1) by (eapply (R_add L keep rs 2); [lia|exact Rg|exact (inst_read _ _ L _ P1)|apply E1; lia]).
    destruct (go_add _ _ _ _ (live rs Fr g1 R1) _ (inst_read _ _ L _ P2)) as (g2 & i & E2).
    assert (R2 : reached L keep rs g2) by (eapply (R_add L keep rs 2); [lia|exact R1|exact (inst_read _ _ L _ P2)|apply E2; lia]).
    destruct (IH g2 (acc ++ [(l, i, r)]) Fr Fm' R2) as (g' & acc' & E & R'). exists g', acc'. split; [|exact R'].
    intros f Hf. rewrite (E1 f Hf). cbn [rbind]. rewrite (E2 f Hf). cbn [rbind]. exact (E f Hf).
  Qed.
  Lemma apart_live : forall (out : eg O C) initial m, Forall (fun e : nat * nat * rule O => (exists a, find out (fst (fst e)) = Val a) /\ exists b, find out (snd (fst e)) = Val b) initial ->
    exists m', keep_apart out initial m = Val m'.
  Proof.
    intros out initial. induction initial as [|[[l i] r] initial IH]; intros m F; cbn [keep_apart]; [eauto|]. inversion F as [|? ? [(a & Ea) (b & Eb)] F']; subst. cbn in Ea, Eb.
    rewrite Ea. cbn [rbind]. rewrite Eb. cbn [rbind]. apply IH. exact F'.
  Qed.
  Lemma fit_readable : forall r, fit r -> readable r.
  Proof. intros r H. destruct (fit_rewrite r H) as ((_ & tl & T1) & (_ & tr & T2) & _). exists tl, tr. auto. Qed.
  Lemma repr_find : forall (g : eg O C) t i, repr g t i -> exists a, find g i = Val a.
  Proof. intros g t i H. inversion H as [? ? ch ? F (m & y & Hm & _ & _ & (r & E1 & E2))]; subst. eauto. Qed.

  Variable st : strategy.
  Hypothesis fair_st : fair st.
  Lemma next : forall m chosen invalid, allR m -> allfit chosen -> m <> [] -> next_round L keep st m chosen invalid.
  Proof.
    intros m chosen invalid Fm Fc Nm. destruct (select_live m invalid Fm) as (rest & sel & inv' & Es). destruct (select_fit _ _ _ _ _ Fm Nm Es) as (Fr & Fs & Ln).
    assert (Fe : allfit (extend chosen sel)). { apply Forall_forall. intros e I. rewrite Forall_forall in Fc, Fs. apply extend_in in I as [I|I]; auto. }
    destruct (sides_live (extend chosen sel) rest eg_default [] Fe Fr (R_new _ _ _)) as (g & initial & Ea & Rg).
    exists rest, sel, inv', g, initial. cbv zeta. split; [exact Es|]. split; [exact Ln|]. split; [exact Ea|]. split; [exact Rg|]. split; [exact (live _ Fe)|].
    intros f out S. destruct (add_sides_ok L eqb_eq keep 2 (map snd rest) eg_default [] g initial (Ea 2 (le_n 2)) (M_new L keep []) wf_default) as (_ & W & _ & new & -> & Hn & F).
    assert (all_hold L (unit_alg (O := O) (C := C)) (extend chosen sel)) as Hh. { unfold all_hold. eapply Forall_impl; [|exact Fe]. intros e He. apply unit_holds, fit_readable, He. }
    destruct (scheduled_moves L eqb_eq keep f unit_alg (unit_interprets L) st _ g out fair_st Hh W S) as [(Wo & Eo & _) _].
    destruct (apart_live out ([] ++ new) []) as (m' & E).
    - cbn [app]. eapply Forall_impl; [|exact F]. intros e (tl & tr & _ & _ & R1 & R2). split; eapply repr_find, (repr_ext _ _ Eo); eassumption.
    - exists m'. split; [exact E|]. destruct (keep_apart_ok out _ _ _ E) as (_ & _ & _ & K4 & _). cbn [app length] in K4.
      assert (length new = length rest) by (rewrite <- (map_length snd rest), <- Hn, map_length; reflexivity). lia.
  Qed.
  (* the rules kept are candidates *)
  Lemma apart_R : forall f m g initial out m', allR m -> add_sides L keep f eg_default (map snd m) [] = Val (g, initial) -> keep_apart (O := O) (C := C) out initial [] = Val m' -> allR m'.
  Proof.
    intros f m g initial out m' Fm Ea Ek. destruct (add_sides_ok L eqb_eq keep f (map snd m) eg_default [] g initial Ea (M_new L keep []) wf_default) as (_ & _ & _ & new & -> & Hn & _).
    destruct (keep_apart_ok out _ _ _ Ek) as (K1 & _). apply Forall_forall. intros e I. destruct (K1 e I) as [[]|(t & It & ->)]. cbn [app snd] in *.
    assert (In (snd t) (map snd m)) as X by (rewrite <- Hn; now apply in_map). apply in_map_iff in X as (e & <- & Ie). rewrite Forall_forall in Fm. exact (Fm e Ie).
  Qed.
  Lemma round_fit : forall fuel x y, round L keep fuel st x y -> allR (fst (fst x)) /\ allfit (snd (fst x)) -> allR (fst (fst y)) /\ allfit (snd (fst y)).
  Proof.
    intros fuel x y H [Fm Fc]. inversion H as [m chosen invalid rest sel inv' m' Nm Es (g & initial & out & Ea & S & Ek)]; subst. cbn [fst snd] in *.
    destruct (select_fit _ _ _ _ _ Fm Nm Es) as (Fr & Fs & _). split; [exact (apart_R fuel rest g initial out m' Fr Ea Ek)|].
    apply Forall_forall. intros e I. rewrite Forall_forall in Fc, Fs. apply extend_in in I as [I|I]; auto.
  Qed.
  Lemma rounds_fit : forall fuel x y, rounds L keep fuel st x y -> allR (fst (fst x)) /\ allfit (snd (fst x)) -> allR (fst (fst y)) /\ allfit (snd (fst y)).
  Proof. intros fuel x y H. induction H as [x|x y z H1 H IH]; [auto|]. intros F. exact (IH (round_fit fuel x y H1 F)). Qed.
  Lemma finish_from : forall n m chosen invalid, length m <= n -> allR m -> allfit chosen ->
    exists f0 chosen' invalid', forall f, f0 <= f -> rounds L keep f st (m, chosen, invalid) ([], chosen', invalid').
  Proof.
    induction n as [|n IH]; intros m chosen invalid Lm Fm Fc.
    { destruct m; [|cbn in Lm; lia]. exists 0, chosen, invalid. intros f _. apply Rs_done. }
    destruct m as [|e0 m0]. { exists 0, chosen, invalid. intros f _. apply Rs_done. } set (m := e0 :: m0) in *. assert (Nm : m <> []) by discriminate.
    destruct (next m chosen invalid Fm Fc Nm) as (rest & sel & inv' & g & initial & Es & Ln & Ea & Rg & Go & Ap).
    destruct (go_schedule _ _ _ _ (Go g Rg) st fair_st) as (f1 & out & S). destruct (Ap f1 out (S f1 (le_n _))) as (m' & Ek & Lm').
    destruct (select_fit _ _ _ _ _ Fm Nm Es) as (Fr & Fs & _).
    assert (Fe : allfit (extend chosen sel)). { apply Forall_forall. intros e I. rewrite Forall_forall in Fc, Fs. apply extend_in in I as [I|I]; auto. }
    destruct (IH m' (extend chosen sel) inv') as (f2 & ch & iv & H).
    - lia.
    - exact (apart_R 2 rest g initial out m' Fr (Ea 2 (le_n 2)) Ek).
    - exact Fe.
    - exists (2 + f1 + f2), ch, iv. intros f Hf. eapply Rs_more; [|apply H; lia]. apply Round with rest; [exact Nm|exact Es|]. exists g, initial, out. split; [apply Ea; lia|]. split; [apply S; lia|exact Ek].
  Qed.
End Min.
