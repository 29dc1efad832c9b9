(* The test that lifts rules about solids: what it learns from, and that it can be
   finished. *)
From Coq Require Import NArith ZArith.
From Verif Require Import EnumSpec Filter.
From Verif Require Import Base BaseProofs Sexp SexpProofs Reader Lang LangProofs Syntax Rule RuleSpec Ruleset Workload Recipe
  Egraph EgraphSpec Synth SynthSpec Domains DomainSound TotalSpec Match Infer InferProofs InferSpec LearnSpec OpsSpec SaveProofs SaveDomains LearntSpec LearntProofs
  Solid SolidProofs Recipes RecipesSpec RecipesExact RecipesLayers LiveSpec FinishSpec FinishDomains FinishExp SolidTest SolidTestSpec SolidTestTerms.
Open Scope string_scope.
Open Scope list_scope.

(* every solid is a term over eight variables *)
Definition solid_vars : list string := ["s"; "params"; "a"; "b"; "c"; "d"; "e"; "f"].
Local Notation known := (readsb cf_lang solid_vars).
Lemma known_trans : forall o v x, In o ["Scale"; "Trans"] -> known v = true -> known x = true -> known (Lst [Atom o; v; x]) = true.
Proof.
  intros o v x Io Hv Hx. unfold readsb in *. apply andb_prop in Hv as [Wv Hv]. apply andb_prop in Hx as [Wx Hx].
  destruct (term_of_sexp (l_from_op cf_lang) v) as [tv|] eqn:Ev; [|discriminate Hv]. destruct (term_of_sexp (l_from_op cf_lang) x) as [tx|] eqn:Ex; [|discriminate Hx].
  destruct Io as [<-|[<-|[]]]; cbn [term_of_sexp]; cbn [wordsb forallb]; rewrite Wv, Wx; rewrite Ev, Ex; cbn; rewrite app_nil_r, forallb_app; rewrite andb_true_iff; auto.
Qed.
Lemma solid_known : forall n u, In u (solids n) -> known u = true.
Proof.
  intros [|n]; [intros u []|]. induction n as [|n IH]; intros u I; [destruct I as [<-|[]]; reflexivity|].
  change (In u (Atom "s" :: primitives ++ transformed (solids (S n)))) in I. destruct I as [<-|I]; [reflexivity|]. apply in_app_or in I as [I|I].
  - revert u I. apply forallb_forall. vm_compute. reflexivity.
  - unfold transformed in I. apply in_flat_map in I as (o & Io & I). apply in_flat_map in I as (v & Iv & I). apply in_map_iff in I as (x & <- & Ix).
    apply known_trans; [exact Io| |exact (IH x Ix)]. revert v Iv. apply forallb_forall. vm_compute. reflexivity.
Qed.
Lemma solid_given : forallb (fun m => forallb (fun e => fit_b cf_lang (snd e)) (the m)) [cf_prior; cf_exploratory] = true.
Proof. vm_compute. reflexivity. Qed.
Definition fine (w : workload) : Prop := forall keep all, Forall (fun e => open_fit cf_lang (snd e)) all -> all_finish cf_lang keep (open_fit cf_lang) w all false.
Lemma solid_fine : forall n, 1 <= n -> exists w, iter_szalinski n = Val w /\ fine w.
Proof.
  intros n I. destruct (solid_terms n I) as (w0 & us & E0 & F0 & S0). assert (K : workload_b cf_lang solid_vars (iter_szalinski n) = true).
  { unfold workload_b. rewrite E0, F0. apply forallb_forall. intros u J. apply S0 in J. exact (solid_known n u J). }
  destruct (workload_b_ok _ _ _ K) as (w & ss & ts & E & Fo & Fr & Le).
  exists w. split; [exact E|]. intros keep all F. refine (cf_finishes keep w ss ts all false Fo Fr _ F). cbn in Le. lia.
Qed.
Section Test.
  Variable ex : ruleset cf_op.
  Hypothesis Hx : cf_exploratory = Val ex.
  Local Notation good all := (NoDup (map fst all) /\ Forall (fun e => open_fit cf_lang (snd e)) all).
  Lemma cf_ex_fit : Forall (fun e => open_fit cf_lang (snd e)) ex.
  Proof. pose proof solid_given as G. cbn [forallb] in G. apply andb_prop in G as [_ G]. apply andb_prop in G as [G _]. rewrite Hx in G. exact (fits_b_ok cf_lang cf_eqb_eq _ G). Qed.
  Lemma cf_layer_good : forall keep fuel w all r, fine w -> good all -> run_fast_forwarding cf_lang keep fuel ex w all r -> good (extend all r).
  Proof.
    intros keep fuel w all r Fw (N & Fa) R. destruct (Fw keep all Fa) as (_ & _ & _ & H4). destruct (H4 fuel ex r N cf_ex_fit R) as [_ F].
    destruct (forwarding_valid cf_lang keep fuel ex w all r N R) as [Nr V]. split; [now apply extend_nodup'|].
    rewrite Forall_forall in *. intros e J. apply extend_in' in J as [J|J]; [exact (Fa e J)|]. apply F, extend_keeps; [exact Nr|exact N|exact J|exact (proj2 (V e J))].
  Qed.
  Lemma cf_layers_good : forall keep fuel ws all learned all' learned', layers keep fuel ex ws all learned all' learned' -> Forall fine ws -> good all -> good all'.
  Proof.
    intros keep fuel ws all learned all' learned' H. induction H as [all learned|w ws all learned chosen all' learned' R _ IH]; intros Fw G; [exact G|].
    inversion Fw as [|? ? F1 F2]; subst. apply IH; [exact F2|]. exact (cf_layer_good keep fuel w all chosen F1 G R).
  Qed.
  Lemma cf_layers_run : forall keep ws all learned, Forall fine ws -> good all -> exists f0 all' learned', forall f, f0 <= f -> layers keep f ex ws all learned all' learned'.
  Proof.
    intros keep. induction ws as [|w ws IH]; intros all learned Fw G; [exists 0, all, learned; constructor|]. inversion Fw as [|? ? F1 F2]; subst.
    destruct (F1 keep all (proj2 G)) as (_ & H2 & _). destruct (fo_run _ _ _ _ _ (H2 ex cf_ex_fit)) as (f1 & r & R).
    destruct (IH (extend all r) (extend learned r) F2 (cf_layer_good keep f1 w all r F1 G (R f1 (le_n _)))) as (f2 & all' & learned' & H).
    exists (f1 + f2), all', learned'. intros f Hf. apply (Ls_more _ _ _ w ws all learned r); [apply R; lia|apply H; lia].
  Qed.
End Test.
Lemma cf_start_good : forall prior, cf_prior = Val prior -> NoDup (map fst prior) /\ Forall (fun e => open_fit cf_lang (snd e)) prior.
Proof.
  intros prior E. split.
  - assert (X : match cf_prior with Val m => nodup string_dec (map fst m) = map fst m | Panic => False end) by (vm_compute; reflexivity). rewrite E in X. rewrite <- X. apply NoDup_nodup.
  - pose proof solid_given as G. cbn [forallb] in G. apply andb_prop in G as [G _]. rewrite E in G. exact (fits_b_ok cf_lang cf_eqb_eq _ G).
Qed.
Lemma solids_fine : forall ns ws, Forall (le 1) ns -> rmapM iter_szalinski ns = Val ws -> Forall fine ws.
Proof.
  induction ns as [|n ns IH]; intros ws I E; cbn [rmapM] in E; [injection E as <-; constructor|].
  inversion I as [|? ? I1 I2]; subst. destruct (solid_fine n I1) as (w & Ew & Fw). rewrite Ew in E. cbn [rbind] in E. destruct (rmapM iter_szalinski ns) as [ws'|] eqn:Er; [|discriminate E]. cbn [rbind] in E. injection E as <-.
  constructor; [exact Fw|]. apply (IH ws'); [exact I2|reflexivity].
Qed.
Lemma solids_read : forall ns, Forall (le 1) ns -> exists ws, rmapM iter_szalinski ns = Val ws.
Proof.
  induction ns as [|n ns IH]; intros I; [now exists []|]. inversion I as [|? ? I1 I2]; subst. destruct (solid_fine n I1) as (w & Ew & _). destruct IH as (ws & E); [exact I2|].
  exists (w :: ws). cbn [rmapM]. rewrite Ew, E. reflexivity.
Qed.
Theorem solid_goes_on : forall keep fuel ns n all learned ex, Forall (le 1) ns -> 1 <= n -> cf_exploratory = Val ex -> solid_test keep fuel ns all learned ->
  exists w, iter_szalinski n = Val w /\ forall keep', forwards cf_lang keep' ex w all.
Proof.
  intros keep fuel ns n all learned ex Fn Hn Ex (prior & ex' & ws & Ep & Ex' & Ew & H). rewrite Ex in Ex'. injection Ex' as <-.
  pose proof (solids_fine ns ws Fn Ew) as Fw.
  pose proof (cf_layers_good ex Ex keep fuel ws prior [] all learned H Fw (cf_start_good prior Ep)) as [_ F].
  destruct (solid_fine n Hn) as (w & E & Hw). exists w. split; [exact E|]. intros keep'. destruct (Hw keep' all F) as (_ & H2 & _). exact (H2 ex (cf_ex_fit ex Ex)).
Qed.
Theorem solid_runs : forall keep ns, Forall (le 1) ns -> exists f0 all learned, forall f, f0 <= f -> solid_test keep f ns all learned.
Proof.
  intros keep ns Fn. assert (V1 : cf_prior = Val (the cf_prior)) by (vm_compute; reflexivity). assert (V2 : cf_exploratory = Val (the cf_exploratory)) by (vm_compute; reflexivity).
  destruct (solids_read ns Fn) as (ws & Ew). pose proof (solids_fine _ _ Fn Ew) as Fw.
  destruct (cf_layers_run _ V2 keep ws _ [] Fw (cf_start_good _ V1)) as (f0 & all & learned & H). exists f0, all, learned. intros f Hf.
  exists (the cf_prior), (the cf_exploratory), ws. split; [exact V1|]. split; [exact V2|]. split; [exact Ew|]. exact (H f Hf).
Qed.
Lemma cf_layers_learnt : forall keep fuel ex ws all learned all' learned', layers keep fuel ex ws all learned all' learned' -> cf_exploratory = Val ex ->
  NoDup (map fst all) -> read_rules cf_lang all -> learnt cf_lang (read_rules cf_lang) learned -> learnt cf_lang (read_rules cf_lang) learned'.
Proof.
  intros keep fuel ex ws all learned all' learned' H Ex. pose proof (rules_read _ _ cf_lang _ _ Ex) as Rx. induction H as [all learned|w ws all learned chosen all' learned' R _ IH]; intros N Ra Hl; [exact Hl|].
  assert (Lc : learnt cf_lang (read_rules cf_lang) chosen) by exact (Lt_forwarding _ _ keep fuel ex w all chosen N Ra Rx R).
  destruct (readable_ready _ _ _ _ _ cf_readable chosen Lc) as (_ & Rc & _). apply IH; [now apply extend_nodup'|exact (read_joined _ _ _ _ _ Ra Rc)|exact (Lt_extend _ _ _ _ Hl Lc)].
Qed.
Theorem solid_saved : forall keep fuel ns all learned, solid_test keep fuel ns all learned -> NoDup (map fst learned) /\ reloads cf_lang learned.
Proof.
  intros keep fuel ns all learned (prior & ex & ws & Ep & Ex & Ew & H).
  pose proof (cf_layers_learnt keep fuel ex ws prior [] all learned H Ex (proj1 (cf_start_good _ Ep)) (rules_read _ _ cf_lang _ _ Ep) (Lt_none _ _)) as Hl.
  destruct (readable_ready _ _ _ _ _ cf_readable learned Hl) as (N & _ & Re). auto.
Qed.
(* nothing is lost or replaced, and nothing is learnt twice *)
Lemma extend_both : forall (a r : ruleset cf_op), NoDup (map fst a) -> NoDup (map fst r) -> (forall e, In e r -> ~ In (fst e) (map fst a)) -> forall e, In e (extend a r) <-> In e a \/ In e r.
Proof.
  intros a r Na Nr D e. split; [apply extend_in'|]. intros [J|J]; [|now apply extend_has]. apply extend_keeps; auto. intros K. apply in_map_iff in K as (e' & Ek & I'). apply (D e' I'). rewrite Ek. now apply in_map.
Qed.
Lemma cf_layers_account : forall keep fuel ex ws all learned all' learned', layers keep fuel ex ws all learned all' learned' -> forall prior : ruleset cf_op,
  let ok (all learned : ruleset cf_op) := NoDup (map fst all) /\ NoDup (map fst learned) /\ (forall e, In e all <-> In e prior \/ In e learned) /\ (forall e, In e learned -> ~ In (fst e) (map fst prior)) in
  ok all learned -> ok all' learned'.
Proof.
  intros keep fuel ex ws all learned all' learned' H prior. induction H as [all learned|w ws all learned chosen all' learned' R _ IH]; intros ok K; [exact K|]. apply IH. destruct K as (Na & Nl & S & D).
  destruct (forwarding_valid cf_lang keep fuel ex w all chosen Na R) as [Nr V]. assert (Da : forall e, In e chosen -> ~ In (fst e) (map fst all)) by (intros e J; exact (proj2 (V e J))).
  assert (Ka : forall e, In e prior \/ In e learned -> In (fst e) (map fst all)) by (intros e J; apply in_map; now apply S).
  assert (Dl : forall e, In e chosen -> ~ In (fst e) (map fst learned)). { intros e J K. apply (Da e J). apply in_map_iff in K as (e' & Ek & I'). rewrite <- Ek. apply Ka. now right. }
  split; [now apply extend_nodup'|]. split; [now apply extend_nodup'|]. split.
  - intros e. rewrite (extend_both all chosen Na Nr Da), (extend_both learned chosen Nl Nr Dl), S. tauto.
  - intros e J K. apply (extend_both learned chosen Nl Nr Dl) in J as [J|J]; [exact (D e J K)|]. apply (Da e J). apply in_map_iff in K as (e' & Ek & I'). rewrite <- Ek. apply Ka. now left.
Qed.
Theorem solid_account : forall keep fuel ns all learned prior, cf_prior = Val prior -> solid_test keep fuel ns all learned ->
  (forall e, In e all <-> In e prior \/ In e learned) /\ (forall e, In e learned -> ~ In (fst e) (map fst prior)).
Proof.
  intros keep fuel ns all learned prior Ep (prior' & ex & ws & Ep' & Ex & Ew & H). rewrite Ep in Ep'. injection Ep' as <-.
  destruct (cf_layers_account keep fuel ex ws prior [] all learned H prior) as (_ & _ & A & B); [|auto]. split; [exact (proj1 (cf_start_good _ Ep))|]. split; [constructor|]. split; [intros e; cbn; tauto|intros e []].
Qed.
