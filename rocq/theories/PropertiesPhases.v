(* Property C77: variations of fast-forwarding, in which each of the three phases has
   its own rules and scheduler.  Reference notions: PhasesSpec.v, ForwardSpec.v
   ([consequence], [proposes], [sound_for]), PartialSpec.v ([safe_rule], [value]). *)
From Coq Require Import NArith Permutation Reals Qreals QArith Qcanon.
From Verif Require Import Base Sexp Lang Syntax Rule RuleSpec Ruleset RulesetProofs Workload Analysis Egraph EgraphSpec Synth SynthSpec Apply Sched Match Minimize Infer TotalSpec OpsSpec SaveDomains SafeSpec PartialSpec PartialProofs Script
  BV BoolDom NatDom PosDom BvBoolDom Rational Halide Domains Trig TrigSpec TrigField TrigProofs Exp ExpSpec ExpProofs Solid SolidProofs MaxMin MaxMinProofs ForwardSpec Phases PhasesSpec PhasesProofs.
From Verif Require Import PropertiesSat PropertiesTrig InferProofs.
From Verif Require PropertiesExp BaselineDerive.
Open Scope string_scope.
Open Scope list_scope.

(* ---- every variation learns consequences ---- *)
Theorem C77_consequences :
  (forall w check, (w <= 128)%N -> varies (bv_lang w check)) /\ varies bool_lang /\ (forall depth rng check, varies (nat_lang depth rng check)) /\
  (forall depth, varies (pos_lang depth)) /\ (forall check, varies (hal_lang check)) /\ varies bb_lang /\ (forall ov check, varies (math_lang ov check)) /\
  (forall order, varies (trig_lang order)) /\ varies exp_lang /\ varies cf_lang /\ varies mm_lang.
Proof.
  split; [intros w check H; exact (readable_varies _ _ _ _ _ (bv_readable w check H))|]. split; [exact (readable_varies _ _ _ _ _ bool_readable)|].
  split; [intros depth rng check; exact (readable_varies _ _ _ _ _ (nat_readable depth rng check))|]. split; [intros depth; exact (readable_varies _ _ _ _ _ (pos_readable depth))|].
  split; [intros check; exact (readable_varies _ _ _ _ _ (hal_readable check))|]. split; [exact (readable_varies _ _ _ _ _ bb_readable)|].
  split; [intros ov check; exact (readable_varies _ _ _ _ _ (math_readable ov check))|]. split; [intros order; exact (readable_varies _ _ _ _ _ (ex_intro _ _ (trig_readable order)))|].
  split; [exact (readable_varies _ _ _ _ _ (ex_intro _ _ exp_readable))|]. split; [exact (readable_varies _ _ _ _ _ cf_readable)|exact (readable_varies _ _ _ _ _ mm_readable)].
Qed.
Print Assumptions C77_consequences.
(* ---- and proposes what the first phase does not equate and the last one does ---- *)
Theorem C77_found :
  (forall w check, (w <= 128)%N -> varies_finds (bv_lang w check)) /\ varies_finds bool_lang /\ (forall depth rng check, varies_finds (nat_lang depth rng check)) /\
  (forall depth, varies_finds (pos_lang depth)) /\ (forall check, varies_finds (hal_lang check)) /\ varies_finds bb_lang /\ (forall ov check, varies_finds (math_lang ov check)) /\
  (forall order, varies_finds (trig_lang order)) /\ varies_finds exp_lang /\ varies_finds cf_lang /\ varies_finds mm_lang.
Proof.
  split; [intros w check H; exact (readable_varies_finds _ _ _ _ _ (bv_readable w check H))|]. split; [exact (readable_varies_finds _ _ _ _ _ bool_readable)|].
  split; [intros depth rng check; exact (readable_varies_finds _ _ _ _ _ (nat_readable depth rng check))|]. split; [intros depth; exact (readable_varies_finds _ _ _ _ _ (pos_readable depth))|].
  split; [intros check; exact (readable_varies_finds _ _ _ _ _ (hal_readable check))|]. split; [exact (readable_varies_finds _ _ _ _ _ bb_readable)|].
  split; [intros ov check; exact (readable_varies_finds _ _ _ _ _ (math_readable ov check))|]. split; [intros order; exact (readable_varies_finds _ _ _ _ _ (ex_intro _ _ (trig_readable order)))|].
  split; [exact (readable_varies_finds _ _ _ _ _ (ex_intro _ _ exp_readable))|]. split; [exact (readable_varies_finds _ _ _ _ _ cf_readable)|exact (readable_varies_finds _ _ _ _ _ mm_readable)].
Qed.
Print Assumptions C77_found.
(* fast-forwarding is one of the variations: the allowed rules, the exploratory ones, all *)
Theorem C77_forwarding : forall O C (L : lang O C) keep fuel ex w prior new, run_fast_forwarding L keep fuel ex w prior new <->
  exists allowed other o1 o3 om row, partition (fun r => Val (is_allowed_rewrite L (rlhs r) (rrhs r))) prior = Val (allowed, other) /\
    fair (Compress o1) /\ fair (Compress o3) /\ fair (Compress om) /\
    lifting_variation L keep fuel w (Phase allowed "A" (Compress o1)) (Phase ex "E" Simple) (Phase (extend prior ex) "R" (Compress o3)) (Phase prior "P" (Compress om)) new row.
Proof. exact forwarding_variation. Qed.
Print Assumptions C77_forwarding.
(* with safe rules, what is learned about complex and real numbers is true *)
Theorem C77_true : (forall order, (forall l, incl (order l) l) -> varies_safely (trig_lang order) trig_sem (fun _ => True)) /\ varies_safely exp_lang exp_sem positive_vars.
Proof.
  split.
  - intros order Ho keep fuel. exact (variation_safe (trig_lang order) trig_arity trig_plain _ (trig_readable order) keep fuel _ trig_sem says (fun _ => True) (trig_ok order Ho)).
  - intros keep fuel. exact (variation_safe exp_lang exp_arity exp_plain _ exp_readable keep fuel _ exp_sem exp_says positive_vars PropertiesExp.exp_ok).
Qed.
Print Assumptions C77_true.

(* ---- the five variations of the trigonometric test ---- *)
Definition ex_sets : phase_rules := Eval vm_compute in match lifting_rules same_order with Val r => r | Panic => Build_phase_rules [] [] [] [] end.
Definition ex_terms : workload := Eval vm_compute in match lifting_terms with Val w => w | Panic => WSet [] end.
Lemma sets_of : forall order, lifting_rules order = Val ex_sets.
Proof. intros order. vm_compute. reflexivity. Qed.
Lemma terms_of : lifting_terms = Val ex_terms. Proof. vm_compute. reflexivity. Qed.
Lemma sets_nodup : NoDup (map fst (r_all ex_sets)) /\ NoDup (map fst (r_rest ex_sets)) /\ NoDup (map fst (r_allowed ex_sets)) /\ NoDup (map fst (r_explore ex_sets)).
Proof. repeat split; apply BaselineDerive.nodup_of; vm_compute; reflexivity. Qed.
Lemma all_is : exists complex prior, complex_rules = Val complex /\ trig_prior = Val prior /\ trig_exploratory = Val (r_explore ex_sets) /\
  r_all ex_sets = extend (extend complex prior) (r_explore ex_sets).
Proof.
  pose proof (sets_of same_order) as E. unfold lifting_rules in E. destruct complex_rules as [complex|]; [|discriminate E]. destruct trig_prior as [prior|]; [|discriminate E]. destruct trig_exploratory as [explore|]; [|discriminate E].
  cbn [rbind] in E. destruct (partition _ _) as [[al ot]|]; [|discriminate E]. cbn [rbind] in E.
  apply (f_equal (fun r => match r with Val x => x | Panic => ex_sets end)) in E. cbv beta iota in E. rewrite <- E. cbn [r_all r_explore].
  exists complex, prior. repeat split.
Qed.
Lemma all_read : forall order, read_rules (trig_lang order) (r_all ex_sets).
Proof.
  intros order. destruct all_is as (complex & prior & Ec & Ep & Ex & Ea). rewrite Ea. apply Forall_forall. intros e J.
  apply extend_in' in J as [J|J]; [apply extend_in' in J as [J|J]|].
  - unfold complex_rules, rs_from_file in Ec. pose proof (SaveProofs.rules_read _ _ (trig_lang order) _ _ Ec) as F. rewrite Forall_forall in F. exact (F e J).
  - pose proof (SaveProofs.rules_read _ _ (trig_lang order) _ _ Ep) as F. rewrite Forall_forall in F. exact (F e J).
  - pose proof (SaveProofs.rules_read _ _ (trig_lang order) _ _ Ex) as F. rewrite Forall_forall in F. exact (F e J).
Qed.
Lemma all_app : r_all ex_sets = r_rest ex_sets ++ r_explore ex_sets.
Proof. vm_compute. reflexivity. Qed.
Lemma rest_explore : forall q, rule_of (r_all ex_sets) q <-> rule_of (r_rest ex_sets) q \/ rule_of (r_explore ex_sets) q.
Proof.
  intros q. rewrite all_app. split.
  - intros [k J]. apply in_app_iff in J as [J|J]; [left|right]; exists k; exact J.
  - intros [[k J]|[k J]]; exists k; apply in_app_iff; auto.
Qed.
Lemma allowed_filter : forall order, r_allowed ex_sets = List.filter (fun e => is_allowed_rewrite (trig_lang order) (rlhs (snd e)) (rrhs (snd e))) (r_all ex_sets).
Proof. intros order. vm_compute. reflexivity. Qed.
Lemma allowed_sets : forall order q, rule_of (r_allowed ex_sets) q <-> allowed_of (trig_lang order) (r_all ex_sets) q.
Proof.
  intros order q. rewrite (allowed_filter order). unfold rule_of, allowed_of, rule_of.
  assert (Ok : forall p, pat_allowed (trig_lang order) p = true <-> allowed_pat (trig_lang order) p).
  { intros p. unfold pat_allowed, allowed_pat. rewrite forallb_forall. split; intros H n.
    - intros o J E. specialize (H n J). rewrite E in H. exact H.
    - intros J. destruct (nop n) as [o|v] eqn:E; [exact (H n o J E)|reflexivity]. }
  split.
  - intros [k J]. apply filter_In in J as [J Al]. unfold is_allowed_rewrite in Al. apply andb_true_iff in Al as [A1 A2]. cbn [snd] in A1, A2. split; [exists k; exact J|]. split; apply Ok; assumption.
  - intros ([k J] & A1 & A2). exists k. apply filter_In. split; [exact J|]. unfold is_allowed_rewrite. cbn [snd]. apply andb_true_iff. split; apply Ok; assumption.
Qed.
(* The test reads 90 rules, 18 of them exploratory, and runs on 29 terms.  Whatever its
   five calls learn are consequences of the 90 rules, without imaginary unit, cis and
   square, that are not among the allowed rules; the rows name the phases. *)
Theorem C77_test : forall order, exists rs w ss, lifting_rules order = Val rs /\ lifting_terms = Val w /\ force w = Val ss /\ length ss = 29 /\
  length (r_all rs) = 90 /\ length (r_rest rs) = 72 /\ length (r_allowed rs) = 61 /\ length (r_explore rs) = 18 /\
  (forall q, rule_of (r_all rs) q <-> rule_of (r_rest rs) q \/ rule_of (r_explore rs) q) /\
  (forall q, rule_of (r_allowed rs) q <-> allowed_of (trig_lang order) (r_all rs) q) /\
  forall ord keep fuel p1 p2 p3 m new row, fair (Compress ord) -> In (p1, p2, p3, m) (lifting_calls ord rs) ->
    lifting_variation (trig_lang order) keep fuel w p1 p2 p3 m new row ->
    In (f_phase1 row, f_phase2 row, f_phase3 row)
      [("compress (R)", "compress (R)", "compress (R)"); ("eqsat (R)", "eqsat (R)", "eqsat (R)"); ("compress (A)", "compress (E)", "compress (R-E)");
       ("eqsat (A)", "eqsat (E)", "eqsat (R-E)"); ("compress (A)", "eqsat (E)", "compress (R-E)")] /\
    f_rules row = map fst new /\
    forall k r, In (k, r) new -> consequence (trig_lang order) (rule_of (r_all rs)) r /\
      without (fun o => o = TI \/ o = TCis \/ o = TSqr) (rlhs r) /\ without (fun o => o = TI \/ o = TCis \/ o = TSqr) (rrhs r) /\ ~ In k (map fst (r_allowed rs)).
Proof.
  intros order. destruct (force ex_terms) as [ss|] eqn:Ef; [|vm_compute in Ef; discriminate Ef]. exists ex_sets, ex_terms, ss.
  split; [exact (sets_of order)|]. split; [exact terms_of|]. split; [exact Ef|]. split; [vm_compute in Ef; injection Ef as <-; reflexivity|].
  split; [reflexivity|]. split; [reflexivity|]. split; [reflexivity|]. split; [reflexivity|]. split; [exact rest_explore|]. split; [exact (allowed_sets order)|].
  intros ord keep fuel p1 p2 p3 m new row Fo J Rn. assert (Al : forall q, rule_of (r_allowed ex_sets) q -> rule_of (r_all ex_sets) q) by (intros q H; exact (proj1 (proj1 (allowed_sets order q) H))).
  assert (H : fair_phases p1 p2 p3 /\ p_rules m = r_allowed ex_sets /\
    (forall p, In p [p1; p2; p3] -> forall q, rule_of (p_rules p) q -> rule_of (r_all ex_sets) q) /\
    In (phase_text p1, phase_text p2, phase_text p3) [("compress (R)", "compress (R)", "compress (R)"); ("eqsat (R)", "eqsat (R)", "eqsat (R)"); ("compress (A)", "compress (E)", "compress (R-E)");
       ("eqsat (A)", "eqsat (E)", "eqsat (R-E)"); ("compress (A)", "eqsat (E)", "compress (R-E)")]).
  { pose proof (fun q h => proj2 (rest_explore q) (or_introl h)) as Hr. pose proof (fun q h => proj2 (rest_explore q) (or_intror h)) as He. pose proof (fun q (h : rule_of (r_all ex_sets) q) => h) as Ha.
    unfold lifting_calls in J. cbn [In] in J.
    destruct J as [J|[J|[J|[J|[J|[]]]]]]; injection J as <- <- <- <-; (split; [unfold fair_phases; cbn [p_sched fair]; repeat split; exact Fo || exact Logic.I|]); (split; [reflexivity|]);
      (split; [intros p [<-|[<-|[<-|[]]]]; cbn [p_rules]; assumption|]); unfold phase_text; cbn [p_sched p_name sched_name String.append]; cbn [In]; auto 10. }
  destruct H as (Fp & Em & Hp & Ht).
  assert (Rd : forall p, In p [p1; p2; p3] -> read_rules (trig_lang order) (p_rules p)).
  { intros p I. apply Forall_forall. intros [k r] K. destruct (Hp p I r (ex_intro _ k K)) as [k' K']. pose proof (all_read order) as F. unfold read_rules in F. rewrite Forall_forall in F. exact (F (k', r) K'). }
  assert (I1 : In p1 [p1; p2; p3]) by (left; reflexivity). assert (I2 : In p2 [p1; p2; p3]) by (right; left; reflexivity). assert (I3 : In p3 [p1; p2; p3]) by (right; right; left; reflexivity).
  assert (Nm : NoDup (map fst (p_rules m))) by (rewrite Em; exact (proj1 (proj2 (proj2 sets_nodup)))).
  destruct (readable_varies _ _ _ _ _ (ex_intro _ _ (trig_readable order)) keep fuel ex_terms p1 p2 p3 m new row Fp (Rd p1 I1) (Rd p2 I2) (Rd p3 I3) Nm Rn) as (Er & _ & Hn).
  split; [|split; [exact Er|]].
  - destruct (variation_three _ _ _ _ _ _ _ _ _ _ Rn) as (g0 & g1 & g2 & g3 & c1 & c2 & inv & _ & _ & _ & _ & ->). exact Ht.
  - intros k r K. destruct (Hn k r K) as (Co & (t & Et & At) & (u & Eu & Au) & Nk). rewrite Em in Nk. split; [|split; [|split; [|exact Nk]]].
    + intros V A ok Cl Hh. apply (Co V A ok Cl). intros env D. destruct (Hh env D) as [Ia Hq]. split; [exact Ia|]. intros q [h|[h|h]]; apply Hq; [exact (Hp p1 I1 q h)|exact (Hp p2 I2 q h)|exact (Hp p3 I3 q h)].
    + exists t. split; [exact Et|]. revert At. apply LangProofs.tall_impl. intros [o|v]; auto. intros H [->|[->| ->]]; discriminate H.
    + exists u. split; [exact Eu|]. revert Au. apply LangProofs.tall_impl. intros [o|v]; auto. intros H [->|[->| ->]]; discriminate H.
Qed.
Print Assumptions C77_test.
(* ---- what the test can learn from the rules as they are ---- *)
Definition graph (r : res (eg trig_op string)) : eg trig_op string := match r with Val g => g | Panic => eg_default end.
Definition rules (r : res (ruleset trig_op)) : ruleset trig_op := match r with Val m => m | Panic => [] end.
Definition sel (m : ruleset trig_op) : ruleset trig_op * ruleset trig_op * ruleset trig_op := match select ex_trig 1 m [] with Val x => x | Panic => ([], [], []) end.
Definition ex_steps : list step := ex_collapse ++ [("?a ==> (* ?a 1)", "(sin a)", [("a", "(sin a)")]); ("(* ?a 0) ==> 0", "(* (sin a) 1)", [("a", "(sin a)")])].
Definition ex_g0 : eg trig_op string := Eval vm_compute in graph (to_egraph ex_trig ex_keep 60 ex_terms).
Definition ex_g1 : eg trig_op string := Eval vm_compute in graph (s_rebuild ex_trig ex_keep 60 ex_g0).
Definition ex_g2 : eg trig_op string := Eval vm_compute in graph (run_script ex_trig ex_keep 60 (r_rest ex_sets) ex_steps ex_g1).
Definition ex_g3 : eg trig_op string := Eval vm_compute in graph (s_rebuild ex_trig ex_keep 60 ex_g2).
Definition ex_c2 : ruleset trig_op := Eval vm_compute in rules (extract_candidates ex_trig 60 (fun l => l) (class_ids ex_g1) (fun l => l) ex_g1 ex_g3).
Definition ex_rest : ruleset trig_op := Eval vm_compute in fst (fst (sel ex_c2)).
Definition ex_sel : ruleset trig_op := Eval vm_compute in snd (fst (sel ex_c2)).
Definition ex_inv : ruleset trig_op := Eval vm_compute in snd (sel ex_c2).
Definition ex_call (n : nat) : phase trig_op * phase trig_op * phase trig_op * phase trig_op :=
  nth n (lifting_calls (fun l => l) ex_sets) (Phase [] "" Simple, Phase [] "" Simple, Phase [] "" Simple, Phase [] "" Simple).
Definition ex_chosen : ruleset trig_op := Eval vm_compute in extend (r_allowed ex_sets) ex_sel.
Definition ex_empty : eg trig_op string := Eval vm_compute in graph (s_rebuild ex_trig ex_keep 60 eg_default).
Definition ex_empty' : eg trig_op string := Eval vm_compute in graph (compress_with ex_trig ex_keep 60 (fun l => l) eg_default ex_empty).
Lemma same_list : forall A (l : list A), Permutation l ((fun l => l) l).
Proof. intros A l. apply Permutation_refl. Qed.
Lemma ex_minimized : minimize ex_trig ex_keep 60 (Compress (fun l => l)) (extend [] ex_c2) (r_allowed ex_sets) ex_sel [].
Proof.
  assert (Ec : extend [] ex_c2 = ex_c2) by (vm_compute; reflexivity). rewrite Ec. clear Ec. exists ex_chosen. split; [|vm_compute; reflexivity].
  assert (E1 : extend (r_allowed ex_sets) ex_sel = ex_chosen) by (vm_compute; reflexivity).
  refine (Rs_more _ _ _ _ _ ([], ex_chosen, []) _ _ (Rs_done _ _ _ _ _)). rewrite <- E1.
  apply (Round ex_trig ex_keep 60 _ _ (r_allowed ex_sets) [] [] ex_sel [] []); [discriminate|vm_compute; reflexivity|]. rewrite E1.
  exists eg_default, [], ex_empty'. split; [vm_compute; reflexivity|]. split; [|vm_compute; reflexivity].
  exists ex_empty. split; [|vm_compute; reflexivity]. exists eg_default. split; [|vm_compute; reflexivity].
  apply (run_script_ok ex_trig trig_eqb_eq ex_keep 60 ex_chosen []). reflexivity.
Qed.
Lemma ex_lifted : lifting_variation ex_trig ex_keep 60 ex_terms (Phase (r_allowed ex_sets) "A" Simple) (Phase (r_explore ex_sets) "E" Simple) (Phase (r_rest ex_sets) "R-E" Simple) (Phase (r_allowed ex_sets) "A" (Compress (fun l => l)))
  ex_sel (ff_phase (Phase (r_allowed ex_sets) "A" Simple) (Phase (r_explore ex_sets) "E" Simple) (Phase (r_rest ex_sets) "R-E" Simple) ex_sel).
Proof.
  exists ex_g0, ex_g1, ex_g1, ex_g3, [], ex_c2, []. cbn [p_rules p_sched]. split; [vm_compute; reflexivity|].
  split; [apply (script_simple ex_trig trig_eqb_eq ex_keep 60 (r_allowed ex_sets) [] ex_g0 ex_g0 ex_g1); vm_compute; reflexivity|].
  split; [apply (script_simple ex_trig trig_eqb_eq ex_keep 60 (r_explore ex_sets) [] ex_g1 ex_g1 ex_g1); vm_compute; reflexivity|].
  split; [exists (class_ids ex_g1), (fun l => l), (fun l => l); split; [split; [apply same_list|intros X; apply same_list]|]; split; [intros X; apply same_list|]; vm_compute; reflexivity|].
  split; [apply (script_simple ex_trig trig_eqb_eq ex_keep 60 (r_rest ex_sets) ex_steps ex_g1 ex_g2 ex_g3); vm_compute; reflexivity|].
  split; [exists (class_ids ex_g1), (fun l => l), (fun l => l); split; [split; [apply same_list|intros X; apply same_list]|]; split; [intros X; apply same_list|]; vm_compute; reflexivity|].
  split; [exact ex_minimized|reflexivity].
Qed.
(* The rules it reads equate 0 and 1 (C66): its fourth call, on its own 29 terms, can learn
   that the sine is 0 everywhere, and it is 1 at the half of PI. *)
Theorem C77_test_refuted : exists ord keep fuel rs w p1 p2 p3 m new row, fair (Compress ord) /\ lifting_rules same_order = Val rs /\ lifting_terms = Val w /\
  In (p1, p2, p3, m) (lifting_calls ord rs) /\ lifting_variation (trig_lang same_order) keep fuel w p1 p2 p3 m new row /\ f_rules row = ["(sin ?a) ==> 0"] /\
  forall k r, In (k, r) new -> exists tl tr v1 v2, tree (rlhs r) = Val tl /\ tree (rrhs r) = Val tr /\
    pvalue ex_trig trig_sem (fun _ => c0) (fun _ => cre (PI / 2)%R) tl = Val v1 /\ pvalue ex_trig trig_sem (fun _ => c0) (fun _ => cre (PI / 2)%R) tr = Val v2 /\ v1 <> v2.
Proof.
  exists (fun l => l), ex_keep, 60, ex_sets, ex_terms. do 4 eexists. exists ex_sel. eexists. split; [intros X; apply same_list|]. split; [exact (sets_of same_order)|]. split; [exact terms_of|].
  split; [right; right; right; left; reflexivity|]. split; [exact ex_lifted|]. split; [reflexivity|]. intros k r [J|[]]. injection J as <- <-.
  eexists. eexists. exists (csin (cre (PI / 2)%R)), (cre (Q2R 0)). split; [reflexivity|]. split; [reflexivity|]. split; [reflexivity|]. split; [reflexivity|].
  rewrite sin_real, sin_PI2. intros E. injection E as E. rewrite RMicromega.Q2R_0 in E. exact (R1_neq_R0 E).
Qed.
Print Assumptions C77_test_refuted.
(* a variation that all the theorems above are about, with what it learns *)
Example C77_hyp : exists p1 p2 p3 m new row, fair_phases p1 p2 p3 /\
  read_rules ex_trig (p_rules p1) /\ read_rules ex_trig (p_rules p2) /\ read_rules ex_trig (p_rules p3) /\ NoDup (map fst (p_rules m)) /\
  (forall q, run_rule p1 p2 p3 q -> safe_rule ex_trig trig_sem q) /\ lifting_variation ex_trig ex_keep 30 ex_tan p1 p2 p3 m new row /\
  f_phase1 row = "compress (A)" /\ f_phase2 row = "eqsat (E)" /\ f_phase3 row = "compress (R)" /\
  f_rules row = ["(tan ?a) ==> (/ (sin ?a) (cos ?a))"; "(/ (sin ?a) (cos ?a)) ==> (tan ?a)"] /\ workload_defined ex_trig trig_sem ex_tan (fun _ => c0).
Proof.
  destruct C66_hyp as (_ & Ex & (new & Rn & En) & Gv & _ & Wd). apply C77_forwarding in Rn as (al & ot & o1 & o3 & om & row & Pt & F1 & F3 & Fm & Lv).
  injection Pt as <- <-. assert (Ea : extend [] PropertiesTrig.ex_explore = PropertiesTrig.ex_explore) by (vm_compute; reflexivity). rewrite Ea in Lv.
  pose proof (SaveProofs.rules_read _ _ ex_trig _ _ Ex) as Rd.
  do 4 eexists. exists new, row. split; [|split; [|split; [|split; [|split; [|split; [|split; [exact Lv|]]]]]]].
  - split; [exact F1|]. split; [exact Logic.I|exact F3].
  - constructor.
  - exact Rd.
  - exact Rd.
  - constructor.
  - rewrite Forall_forall in Gv. intros q [[k []]|[[k J]|[k J]]]; exact (C66_rules same_order _ (Gv _ J)).
  - destruct Lv as (g & g1 & g2 & g3 & c1 & c2 & inv & _ & _ & _ & _ & _ & _ & _ & ->). repeat (split; [reflexivity|]). split; [exact En|exact Wd].
Qed.
