(* Property C76: the rule files herbie-trig.rules and herbie-exp.rules of baseline/.
   Herbie.v has their lines.  Reference notions: HerbieSpec.v ([real_sem], [agrees],
   [identity_on], [left_out], the exceptions by name), PartialSpec.v ([safe_rule],
   [value]), TrigSpec.v ([trig_sem]), BaselineSpec.v ([loads]). *)
From Coq Require Import Permutation Reals QArith Qcanon Qreals Lra.
From Verif Require Import Base Sexp Lang Syntax Rule RuleSpec Ruleset Workload Analysis Egraph EgraphSpec Synth SynthSpec SafeSpec PartialSpec PartialProofs Apply Sched Report Script
  Trig TrigSpec TrigField TrigProofs Exp ExpSpec ExpProofs BaselineSpec BaselineProofs BaselineDerive Herbie HerbieSpec HerbiePow HerbieDerive HerbieTrig HerbieExp HerbiePos.
From Verif Require Import PropertiesSat PropertiesBaseline.
Open Scope string_scope.
Open Scope list_scope.

Lemma trig_text : NoDup herbie_trig /\ clean herbie_trig = true. Proof. split; [apply nodup_of|]; vm_compute; reflexivity. Qed.
Lemma exp_text : NoDup herbie_exp /\ clean herbie_exp = true. Proof. split; [apply nodup_of|]; vm_compute; reflexivity. Qed.
Lemma trig_classified : forall order, Forall (tline (fun r => agrees (trig_lang order) trig_sem r /\
  (safe_rule (trig_lang order) trig_sem r <-> ~ In (rname r) trig_lossy) /\ (In (rname r) trig_lossy -> gap (trig_lang order) trig_sem r))) herbie_trig.
Proof.
  intros order.
  pose proof (marked _ _ _ _ _ _ (trig_safe order) (trig_agree order)) as A. pose proof (marked _ _ _ _ _ _ (trig_safe order) (trig_gap order)) as B.
  eapply Forall_impl; [|exact (both_lines _ _ _ _ _ A B)]. intros s. apply line_impl. intros r _ ((A1 & A2) & (B1 & _)). split; [destruct A2 as [X|X]; [exact (A1 X)|exact (safe_agrees _ _ _ X)]|]. split; [|exact B1].
  destruct A2 as [X|X]; split; auto; [intros S; elim (gap_unsafe _ _ _ (B1 X) S)|intros N; elim (N X)|]. intros _ Y. exact (gap_unsafe _ _ _ (B1 Y) X).
Qed.
(* ---- herbie-trig.rules: complex numbers ---- *)
(* where both sides have values these agree; in four rules the right-hand side lacks a
   value where the left-hand side has one *)
Theorem C76_trig : forall order, exists rs, loads trig_from_op trig_name herbie_trig rs /\ length rs = 45 /\ incl trig_lossy (map fst rs) /\
  forall k r, In (k, r) rs -> agrees (trig_lang order) trig_sem r /\ (safe_rule (trig_lang order) trig_sem r <-> ~ In k trig_lossy).
Proof.
  intros order. destruct trig_text as [N C]. destruct (file_loads _ _ _ _ (trig_classified order) N C) as (rs & Ld & H). exists rs. split; [exact Ld|]. destruct Ld as (_ & K & Kn).
  split; [rewrite <- (map_length fst rs), K; reflexivity|]. split; [rewrite K; apply incl_of; vm_compute; reflexivity|].
  intros k r J. destruct (H k r J) as (A & B & _). rewrite (Kn k r J) in B. auto.
Qed.
Print Assumptions C76_trig.
(* e-graphs made with the other 41 rules from terms that have values *)
Theorem C76_trig_rewriting : forall order, (forall l, incl (order l) l) -> forall keep rs against g env, loads trig_from_op trig_name herbie_trig against ->
  (forall e, In e rs -> In e against /\ ~ In (fst e) trig_lossy) -> made_of (trig_lang order) keep (rec_defined (trig_lang order) trig_sem env) rs g ->
  forall t u c, repr g t c -> repr g u c -> exists v, value (trig_lang order) trig_sem env t = Val v /\ value (trig_lang order) trig_sem env u = Val v.
Proof.
  intros order Ho keep rs against g env Ld Hr. refine (rewriting_safe (trig_lang order) trig_sem says trig_eqb_eq (fun _ => True) (fun env _ => conj (trig_steady order Ho env) (trig_starts order env)) keep rs g env Logic.I _).
  apply Forall_forall. intros [k r] J. destruct (Hr _ J) as [A B]. destruct trig_text as [N C]. pose proof (loaded _ _ _ _ _ (trig_classified order) N C Ld k r A) as (_ & S & _).
  apply S. rewrite (proj2 (proj2 Ld) k r A). exact B.
Qed.
Print Assumptions C76_trig_rewriting.
(* safe rules do not derive the four rules from their left-hand sides *)
Theorem C76_trig_reports : forall order, (forall l, incl (order l) l) -> forall rs against, Forall (fun e => safe_rule (trig_lang order) trig_sem (snd e)) rs ->
  loads trig_from_op trig_name herbie_trig against -> left_out (trig_lang order) true trig_lossy rs against.
Proof.
  intros order Ho rs against Hs Ld. destruct trig_text as [N C]. pose proof (loaded _ _ _ _ _ (trig_classified order) N C Ld) as H. destruct Ld as (_ & K & Kn).
  apply report_left; [rewrite K; exact N|exact Kn|rewrite K; apply incl_of; vm_compute; reflexivity|]. intros k r J I keep fuel iter.
  apply (gap_not_derived (trig_lang order) trig_sem (deriving_safe (trig_lang order) trig_sem says trig_eqb_eq (fun v => eq_refl) (trig_steady order Ho))); [exact Hs|].
  apply (H k r J). rewrite (Kn k r J). exact I.
Qed.
Print Assumptions C76_trig_reports.

(* ---- herbie-exp.rules: real numbers ---- *)
(* the meaning of powers and third roots is the usual one *)
Theorem C76_powers : forall x y, ((0 < x)%R -> real_pow x y = Val (exp (y * ln x))) /\ (forall n : nat, real_pow x (INR n) = Val (x ^ n)%R) /\
  (forall n : nat, x <> 0%R -> real_pow x (- INR n) = Val (1 / x ^ n)%R) /\ (real_cbrt x * real_cbrt x * real_cbrt x = x)%R.
Proof.
  intros x y. split; [exact (pow_pos x y)|].
  assert (A : forall n : nat, real_pow x (INR n) = Val (x ^ n)%R).
  { intros [|n]; [exact (pow_0 x)|]. rewrite INR_IZR_INZ, (pow_n x (Z.of_nat (S n))) by lia. now rewrite pow_powerRZ. }
  split; [exact A|]. split; [|exact (cbrt_cube x)]. intros n X. apply pow_inv; [exact (A n)|]. now apply pow_nonzero.
Qed.
Print Assumptions C76_powers.
Lemma exp_classified : Forall (eline (fun r => (agrees exp_lang real_sem r <-> ~ In (rname r) exp_wrong) /\
  (safe_rule exp_lang real_sem r <-> ~ In (rname r) (exp_wrong ++ exp_lossy)) /\ identity_on exp_lang real_sem (fun x => (0 < x)%R) r /\
  (In (rname r) exp_wrong -> clash exp_lang real_sem r) /\ (In (rname r) exp_lossy -> gap exp_lang real_sem r))) herbie_exp.
Proof.
  assert (F : Forall (eline (fun r => clash exp_lang real_sem r \/ (agrees exp_lang real_sem r /\ gap exp_lang real_sem r))) (exp_wrong ++ exp_lossy)).
  { apply Forall_app. split.
    - eapply Forall_impl; [|exact exp_clash]. intros s. apply line_impl. auto.
    - eapply Forall_impl; [|exact (both_lines _ _ _ _ _ exp_agree exp_gap)]. intros s. apply line_impl. auto. }
  assert (G : forall P l, Forall (eline P) l -> incl l (exp_wrong ++ exp_lossy) -> Forall (eline (fun r => In (rname r) l -> P r)) herbie_exp).
  { intros P l W I. rewrite Forall_forall in W. apply Forall_forall. intros s J. pose proof exp_positive as E. rewrite Forall_forall in E. destruct (E s J) as (r & R & Nm & _). exists r. split; [exact R|]. split; [exact Nm|].
    intros L. rewrite Nm in L. destruct (W s L) as (r' & R' & _ & H). rewrite R in R'. injection R' as <-. exact H. }
  pose proof (G _ _ exp_clash (fun s J => in_or_app _ _ _ (or_introl J))) as G1. pose proof (G _ _ exp_gap (fun s J => in_or_app _ _ _ (or_intror J))) as G2. pose proof (G _ _ exp_agree (fun s J => in_or_app _ _ _ (or_intror J))) as G3.
  pose proof (marked _ _ _ _ _ _ exp_safe F) as A. pose proof (both_lines _ _ _ _ _ A (both_lines _ _ _ _ _ exp_positive (both_lines _ _ _ _ _ G1 (both_lines _ _ _ _ _ G2 G3)))) as B.
  eapply Forall_impl; [|exact B]. intros s. apply line_impl. intros r _ ((A1 & A2) & P & B1 & B2 & B3).
  assert (Sa : safe_rule exp_lang real_sem r -> ~ In (rname r) (exp_wrong ++ exp_lossy)).
  { intros S I. apply in_app_or in I as [I|I]; [exact (clash_disagrees _ _ _ (B1 I) (safe_agrees _ _ _ S))|exact (gap_unsafe _ _ _ (B2 I) S)]. }
  split; [|split; [|auto]].
  - split; [intros Ag I; exact (clash_disagrees _ _ _ (B1 I) Ag)|]. intros N. destruct A2 as [I|S]; [|exact (safe_agrees _ _ _ S)]. apply in_app_or in I as [I|I]; [elim (N I)|exact (B3 I)].
  - split; [exact Sa|]. intros N. destruct A2 as [I|S]; [elim (N I)|exact S].
Qed.
(* four rules are false, and sixteen others lack a value on the right-hand side where the
   left-hand side has one; for positive variables all rules are true *)
Theorem C76_exp : exists rs, loads exp_from_op exp_name herbie_exp rs /\ length rs = 82 /\ incl (exp_wrong ++ exp_lossy) (map fst rs) /\ length (exp_wrong ++ exp_lossy) = 20 /\
  forall k r, In (k, r) rs -> (agrees exp_lang real_sem r <-> ~ In k exp_wrong) /\ (safe_rule exp_lang real_sem r <-> ~ In k (exp_wrong ++ exp_lossy)) /\
    identity_on exp_lang real_sem (fun x => (0 < x)%R) r.
Proof.
  destruct exp_text as [N C]. destruct (file_loads _ _ _ _ exp_classified N C) as (rs & Ld & H). exists rs. split; [exact Ld|]. destruct Ld as (_ & K & Kn).
  split; [rewrite <- (map_length fst rs), K; reflexivity|]. split; [rewrite K; apply incl_of; vm_compute; reflexivity|]. split; [reflexivity|].
  intros k r J. destruct (H k r J) as (A & B & D & _). rewrite (Kn k r J) in A, B. auto.
Qed.
Print Assumptions C76_exp.
(* e-graphs made with the other 62 rules from terms that have values *)
Theorem C76_exp_rewriting : forall keep rs against g env, positive_vars env -> loads exp_from_op exp_name herbie_exp against ->
  (forall e, In e rs -> In e against /\ ~ In (fst e) (exp_wrong ++ exp_lossy)) -> made_of exp_lang keep (rec_defined exp_lang real_sem env) rs g ->
  forall t u c, repr g t c -> repr g u c -> exists v, value exp_lang real_sem env t = Val v /\ value exp_lang real_sem env u = Val v.
Proof.
  intros keep rs against g env P Ld Hr. refine (rewriting_safe exp_lang real_sem exp_says exp_eqb_eq positive_vars (fun env P => conj (real_steady env) (real_starts env P)) keep rs g env P _).
  apply Forall_forall. intros [k r] J. destruct (Hr _ J) as [A B]. destruct exp_text as [N C]. pose proof (loaded _ _ _ _ _ exp_classified N C Ld k r A) as (_ & S & _).
  apply S. rewrite (proj2 (proj2 Ld) k r A). exact B.
Qed.
Print Assumptions C76_exp_rewriting.
(* rules that are safe for real numbers do not derive the false ones, nor the others
   from their left-hand sides *)
Theorem C76_exp_reports : forall rs against, Forall (fun e => safe_rule exp_lang real_sem (snd e)) rs -> loads exp_from_op exp_name herbie_exp against ->
  never_derived exp_lang exp_wrong rs against /\ left_out exp_lang true (exp_wrong ++ exp_lossy) rs against.
Proof.
  intros rs against Hs Ld. destruct exp_text as [N C]. pose proof (loaded _ _ _ _ _ exp_classified N C Ld) as H. destruct Ld as (_ & K & Kn).
  pose proof (deriving_safe exp_lang real_sem exp_says exp_eqb_eq (fun v => eq_refl) real_steady) as D.
  split; [intros keep fuel lo; revert keep fuel; apply report_left|apply report_left]; try (rewrite K; exact N); try exact Kn; try (rewrite K; apply incl_of; vm_compute; reflexivity); intros k r J I keep fuel iter;
    destruct (H k r J) as (_ & _ & _ & W & G); rewrite (Kn k r J) in W, G.
  - exact (clash_not_derived exp_lang real_sem D keep fuel lo iter rs r Hs (W I)).
  - apply in_app_or in I as [I|I]; [exact (clash_not_derived exp_lang real_sem D keep fuel true iter rs r Hs (W I))|exact (gap_not_derived exp_lang real_sem D keep fuel iter rs r Hs (G I))].
Qed.
Print Assumptions C76_exp_reports.

(* with the false rules 0 and 1 get into one class *)
Definition ex_file : ruleset exp_op := Eval vm_compute in match rs_from_file exp_from_op exp_name (Lines.unlines herbie_exp) with Val m => m | Panic => [] end.
Definition ex_00 : workload := WSet [Lst [Atom "pow"; Atom "0"; Atom "0"]].
Definition ex_steps : list step := [("(pow 0 ?a) ==> 0", "(pow 0 0)", [("a", "0")]); ("(pow ?a 0) ==> 1", "(pow 0 0)", [("a", "0")])].
Definition ex_h0 : eg exp_op Qc := Eval vm_compute in match to_egraph exp_lang ex_keep 10 ex_00 with Val g => g | Panic => eg_default end.
Definition ex_h1 : eg exp_op Qc := Eval vm_compute in match run_script exp_lang ex_keep 10 ex_file ex_steps ex_h0 with Val g => g | Panic => eg_default end.
Definition ex_h2 : eg exp_op Qc := Eval vm_compute in match s_rebuild exp_lang ex_keep 10 ex_h1 with Val g => g | Panic => eg_default end.
Definition ex_num (z : Z) : exp_op := ENum (Q2Qc (inject_Z z)).
Theorem C76_contradictory_refuted : exists rs, loads exp_from_op exp_name herbie_exp rs /\ exists g c, made_of exp_lang ex_keep (rec_defined exp_lang real_sem (fun _ => 1%R)) rs g /\
  lookup_expr exp_eqb g [Node (ex_num 0) []] = Val (Some c) /\ lookup_expr exp_eqb g [Node (ex_num 1) []] = Val (Some c).
Proof.
  destruct C76_exp as (rs & Ld & _). assert (rs = ex_file) as ->. { destruct Ld as (E & _). assert (E' : rs_from_file exp_from_op exp_name (Lines.unlines herbie_exp) = Val ex_file) by (vm_compute; reflexivity). congruence. }
  exists ex_file. split; [exact Ld|]. exists ex_h2. eexists. split; [|split; vm_compute; reflexivity].
  apply (Mo_run _ _ _ _ 10 Simple ex_h0); [|exact Logic.I|].
  - apply (Mo_workload _ _ _ _ 10 ex_00 [Lst [Atom "pow"; Atom "0"; Atom "0"]] [[Node (ex_num 0) []; Node (ex_num 0) []; Node EPow [0; 1]]]); [vm_compute; reflexivity|vm_compute; reflexivity| |vm_compute; reflexivity].
    constructor; [|constructor]. exists 1%R. unfold rec_defined, fold_rec. cbn -[real_pow Q2R]. rewrite lit_0, pow_0. reflexivity.
  - apply (script_simple exp_lang exp_eqb_eq ex_keep 10 ex_file ex_steps ex_h0 ex_h1 ex_h2); vm_compute; reflexivity.
Qed.
Print Assumptions C76_contradictory_refuted.

(* Rulesets, e-graphs and reports (of runs in which the limits leave no time) that the
   theorems above are about. *)
Definition but {O} (bad : list string) (m : ruleset O) : ruleset O := List.filter (fun e => negb (existsb (String.eqb (fst e)) bad)) m.
Lemma but_ok {O} bad (m : ruleset O) e : In e (but bad m) -> In e m /\ ~ In (fst e) bad.
Proof. intros J. apply filter_In in J as [J E]. split; [exact J|]. intros K. apply negb_true_iff in E. enough (X : existsb (String.eqb (fst e)) bad = true) by congruence. apply existsb_exists. exists (fst e). split; [exact K|apply String.eqb_refl]. Qed.
Definition same_order (l : list (node trig_op)) : list (node trig_op) := l.
Definition ex_trig : lang trig_op string := trig_lang same_order.
Definition ex_tfile : ruleset trig_op := Eval vm_compute in match rs_from_file trig_from_op trig_name (Lines.unlines herbie_trig) with Val m => m | Panic => [] end.
Definition ex_tsafe : ruleset trig_op := Eval vm_compute in but trig_lossy ex_tfile.
Definition ex_double : workload := WSet [Lst [Atom "sin"; Lst [Atom "*"; Atom "2"; Atom "a"]]].
Definition ex_tsteps : list step := [("(sin (* 2 ?a)) ==> (* 2 (* (sin ?a) (cos ?a)))", "(sin (* 2 a))", [("a", "a")])].
Definition ex_t0 : eg trig_op string := Eval vm_compute in match to_egraph ex_trig ex_keep 10 ex_double with Val g => g | Panic => eg_default end.
Definition ex_t1 : eg trig_op string := Eval vm_compute in match run_script ex_trig ex_keep 10 ex_tsafe ex_tsteps ex_t0 with Val g => g | Panic => eg_default end.
Definition ex_t2 : eg trig_op string := Eval vm_compute in match s_rebuild ex_trig ex_keep 10 ex_t1 with Val g => g | Panic => eg_default end.
Definition ex_esafe : ruleset exp_op := Eval vm_compute in but (exp_wrong ++ exp_lossy) ex_file.
Definition ex_sum : workload := WSet [Lst [Atom "exp"; Lst [Atom "+"; Atom "a"; Atom "b"]]].
Definition ex_esteps : list step := [("(exp (+ ?a ?b)) ==> (* (exp ?a) (exp ?b))", "(exp (+ a b))", [("a", "a"); ("b", "b")])].
Definition ex_e0 : eg exp_op Qc := Eval vm_compute in match to_egraph exp_lang ex_keep 10 ex_sum with Val g => g | Panic => eg_default end.
Definition ex_e1 : eg exp_op Qc := Eval vm_compute in match run_script exp_lang ex_keep 10 ex_esafe ex_esteps ex_e0 with Val g => g | Panic => eg_default end.
Definition ex_e2 : eg exp_op Qc := Eval vm_compute in match s_rebuild exp_lang ex_keep 10 ex_e1 with Val g => g | Panic => eg_default end.
Lemma idle_report {O C} (L : lang O C) keep fuel lo rs (against : ruleset O) : (exists p, partition (is_saturating L keep fuel) rs = Val p) -> NoDup (map fst against) ->
  (forall k r, In (k, r) against -> rname r = k /\ idle L keep fuel lo r = Val false) -> get_derivability L keep fuel lo rs against ([], map fst against).
Proof.
  intros P N H. exists [], against. split; [|reflexivity]. exists (fun _ => false). split.
  - intros [k r] I. exact (idle_derive _ _ _ _ _ _ _ P (proj2 (H k r I)) _).
  - rewrite (RulesetProofs.partition_spec (fun r => Val false) (fun _ => false) against).
    + f_equal. f_equal; [|]; clear; induction against as [|e a IH]; cbn; auto. now f_equal.
    + exact N.
    + apply Forall_forall. intros [k r] I. symmetry. exact (proj1 (H k r I)).
    + reflexivity.
Qed.
Definition all_idle {O C} (L : lang O C) lo (m : ruleset O) : bool :=
  forallb (fun e => String.eqb (rname (snd e)) (fst e) && match idle L ex_keep 10 lo (snd e) with Val b => negb b | Panic => false end) m.
Lemma all_idle_ok {O C} (L : lang O C) lo m : all_idle L lo m = true -> forall k r, In (k, r) m -> rname r = k /\ idle L ex_keep 10 lo r = Val false.
Proof.
  intros H k r J. unfold all_idle in H. rewrite forallb_forall in H. specialize (H _ J). cbn [fst snd] in H. apply andb_true_iff in H as [A B]. apply String.eqb_eq in A.
  destruct (idle L ex_keep 10 lo r) as [[|]|]; try discriminate B. auto.
Qed.
Example C76_hyp_trig : (forall l, incl (same_order l) l) /\ loads trig_from_op trig_name herbie_trig ex_tfile /\ length ex_tsafe = 41 /\
  (forall e, In e ex_tsafe -> In e ex_tfile /\ ~ In (fst e) trig_lossy) /\ Forall (fun e => safe_rule ex_trig trig_sem (snd e)) ex_tsafe /\
  made_of ex_trig ex_keep (rec_defined ex_trig trig_sem (fun _ => c0)) ex_tsafe ex_t2 /\
  (exists c, lookup_expr trig_eqb ex_t2 [Node (TConst "2") []; Node (TVar "a") []; Node TMul [0; 1]; Node TSin [2]] = Val (Some c) /\
    lookup_expr trig_eqb ex_t2 [Node (TConst "2") []; Node (TVar "a") []; Node TSin [1]; Node TCos [1]; Node TMul [2; 3]; Node TMul [0; 4]] = Val (Some c)) /\
  get_derivability ex_trig ex_keep 10 true ex_tsafe ex_tfile ([], map fst ex_tfile).
Proof.
  destruct (C76_trig same_order) as (rs & Ld & _ & _ & S). assert (rs = ex_tfile) as ->. { destruct Ld as (E & _). assert (E' : rs_from_file trig_from_op trig_name (Lines.unlines herbie_trig) = Val ex_tfile) by (vm_compute; reflexivity). congruence. }
  assert (B : forall e, In e ex_tsafe -> In e ex_tfile /\ ~ In (fst e) trig_lossy). { assert (E : ex_tsafe = but trig_lossy ex_tfile) by (vm_compute; reflexivity). rewrite E. exact (but_ok trig_lossy ex_tfile). }
  split; [intros l x J; exact J|]. split; [exact Ld|]. split; [reflexivity|]. split; [exact B|]. split.
  { apply Forall_forall. intros [k r] J. destruct (B _ J) as [J1 J2]. exact (proj2 (proj2 (S k r J1)) J2). }
  split; [|split; [eexists; split; vm_compute; reflexivity|]].
  - apply (Mo_run _ _ _ _ 10 Simple ex_t0); [|exact Logic.I|].
    + eapply (Mo_workload _ _ _ _ 10 ex_double); [reflexivity|vm_compute; reflexivity| |vm_compute; reflexivity].
      constructor; [|constructor]. unfold rec_defined, fold_rec. cbn -[csin cmul cre Q2R c0 parse_bigratio]. replace (parse_bigratio "2") with (Some (Q2Qc (2 # 1))) by (vm_compute; reflexivity). eexists. reflexivity.
    + apply (script_simple ex_trig trig_eqb_eq ex_keep 10 ex_tsafe ex_tsteps ex_t0 ex_t1 ex_t2); vm_compute; reflexivity.
  - apply idle_report; [eexists; vm_compute; reflexivity|apply nodup_of; vm_compute; reflexivity|apply all_idle_ok; vm_compute; reflexivity].
Qed.
Example C76_hyp_exp : loads exp_from_op exp_name herbie_exp ex_file /\ length ex_esafe = 62 /\ positive_vars (fun _ => 1%R) /\
  (forall e, In e ex_esafe -> In e ex_file /\ ~ In (fst e) (exp_wrong ++ exp_lossy)) /\ Forall (fun e => safe_rule exp_lang real_sem (snd e)) ex_esafe /\
  made_of exp_lang ex_keep (rec_defined exp_lang real_sem (fun _ => 1%R)) ex_esafe ex_e2 /\
  (exists c, lookup_expr exp_eqb ex_e2 [Node (EVar "a") []; Node (EVar "b") []; Node EAdd [0; 1]; Node EExp [2]] = Val (Some c) /\
    lookup_expr exp_eqb ex_e2 [Node (EVar "a") []; Node (EVar "b") []; Node EExp [0]; Node EExp [1]; Node EMul [2; 3]] = Val (Some c)) /\
  (forall lo, get_derivability exp_lang ex_keep 10 lo ex_esafe ex_file ([], map fst ex_file)).
Proof.
  destruct C76_exp as (rs & Ld & _ & _ & _ & S). assert (rs = ex_file) as ->. { destruct Ld as (E & _). assert (E' : rs_from_file exp_from_op exp_name (Lines.unlines herbie_exp) = Val ex_file) by (vm_compute; reflexivity). congruence. }
  assert (B : forall e, In e ex_esafe -> In e ex_file /\ ~ In (fst e) (exp_wrong ++ exp_lossy)). { assert (E : ex_esafe = but (exp_wrong ++ exp_lossy) ex_file) by (vm_compute; reflexivity). rewrite E. exact (but_ok (exp_wrong ++ exp_lossy) ex_file). }
  split; [exact Ld|]. split; [reflexivity|]. split; [intros v; exact Rlt_0_1|]. split; [exact B|]. split.
  { apply Forall_forall. intros [k r] J. destruct (B _ J) as [J1 J2]. destruct (S k r J1) as (_ & S1 & _). exact (proj2 S1 J2). }
  split; [|split; [eexists; split; vm_compute; reflexivity|]].
  - apply (Mo_run _ _ _ _ 10 Simple ex_e0); [|exact Logic.I|].
    + eapply (Mo_workload _ _ _ _ 10 ex_sum); [reflexivity|vm_compute; reflexivity| |vm_compute; reflexivity].
      constructor; [|constructor]. unfold rec_defined, fold_rec. cbn -[exp]. eexists. reflexivity.
    + apply (script_simple exp_lang exp_eqb_eq ex_keep 10 ex_esafe ex_esteps ex_e0 ex_e1 ex_e2); vm_compute; reflexivity.
  - intros lo. apply idle_report; [eexists; vm_compute; reflexivity|apply nodup_of; vm_compute; reflexivity|apply all_idle_ok; destruct lo; vm_compute; reflexivity].
Qed.
