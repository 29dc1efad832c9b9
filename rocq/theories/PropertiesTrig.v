(* C65 and C66: rewriting and fast-forwarding where operators have no value at some
   arguments; the trigonometric domain. *)
From Coq Require Import Reals QArith Qcanon Qreals Permutation.
From Verif Require Import Base Sexp Lang Syntax SyntaxProofs Rule RuleSpec Ruleset Workload Analysis AnalysisSpec Generalize Egraph EgraphSpec Synth Apply Sched SynthSpec SafeSpec PartialSpec PartialProofs
  Infer LearnSpec OpsSpec SaveProofs SaveDomains DomainSound Extract Match Minimize ForwardDomains ForwardSpec Domains Script Trig TrigSpec TrigField TrigRules TrigProofs PropertiesSat.
Open Scope string_scope.
Open Scope list_scope.

(* ---- C65: any language, any meaning ---- *)
Theorem C65_rewriting : forall O C V (L : lang O C) (sem : O -> list V -> res V) (says : interval C -> V -> Prop),
  (forall a b, l_eqb L a b = true <-> a = b) ->
  forall ok : (string -> V) -> Prop, (forall env, ok env -> steady L (at_env L sem says env) /\ starts L (at_env L sem says env)) ->
  rewrites_safely L sem ok.
Proof. intros O C V L sem says. exact (rewriting_safe L sem says). Qed.
Print Assumptions C65_rewriting.
Theorem C65_forwarding : forall O C V (L : lang O C) (sem : O -> list V -> res V) (says : interval C -> V -> Prop) ar P K, readable L ar P K ->
  forall ok : (string -> V) -> Prop, (forall env, ok env -> steady L (at_env L sem says env) /\ starts L (at_env L sem says env)) ->
  forwards_safely L sem ok.
Proof. intros O C V L sem says ar P K Rd. exact (forwarding_safe L sem says (re_eqb _ _ _ _ Rd) (re_var _ _ _ _ Rd) ar P K Rd). Qed.
Print Assumptions C65_forwarding.
Theorem C65_deriving : forall O C V (L : lang O C) (sem : O -> list V -> res V) (says : interval C -> V -> Prop),
  (forall a b, l_eqb L a b = true <-> a = b) -> (forall v, l_to_var L (l_mk_var L v) = Some v) ->
  (forall env, steady L (at_env L sem says env)) -> derives_safely L sem.
Proof. intros O C V L sem says. exact (deriving_safe L sem says). Qed.
Print Assumptions C65_deriving.

(* ---- C66: the trigonometric domain ---- *)
(* the meaning is the usual one on real numbers *)
Theorem C66_real : forall x : R, csin (cre x) = cre (sin x) /\ ccos (cre x) = cre (cos x) /\ (cos x <> 0%R -> ctan (cre x) = cre (tan x)).
Proof. intros x. split; [exact (sin_real x)|]. split; [exact (cos_real x)|exact (tan_real x)]. Qed.
Print Assumptions C66_real.
(* constants that are folded are written as the number that was computed *)
Theorem C66_constants : forall q, parse_bigratio (show_bigratio q) = Some q /\ trig_from_op (show_bigratio q) 0 = Some (TConst (show_bigratio q)).
Proof. intros q. split; [exact (parse_show_bigratio q)|]. exact (proj1 (proj2 (proj2 (trig_reads (TConst (show_bigratio q)) (show_real q))))). Qed.
Print Assumptions C66_constants.
(* the rules of the exploratory list, of prior_rules() and of complex.rules, except
   one, are safe *)
Theorem C66_rules : forall order e, given_rule e -> safe_rule (trig_lang order) trig_sem (snd e).
Proof. exact given_safe. Qed.
Print Assumptions C66_rules.
(* that one is not: with a = 0, b = c = 1 the left-hand side is 0 and the right-hand
   side has no value *)
Theorem C66_rules_refuted : forall order, exists m r, complex_rules = Val m /\ In (swapped_quotient, r) m /\ ~ safe_rule (trig_lang order) trig_sem r.
Proof. exact swapped_unsafe. Qed.
Print Assumptions C66_rules_refuted.

Lemma trig_ok : forall order, (forall l, incl (order l) l) -> forall env : string -> cx, True -> steady (trig_lang order) (at_env (trig_lang order) trig_sem says env) /\ starts (trig_lang order) (at_env (trig_lang order) trig_sem says env).
Proof. intros order Ho env _. split; [exact (trig_steady order Ho env)|exact (trig_starts order env)]. Qed.
(* e-graphs made with these rules from terms that have values *)
Theorem C66_rewriting : forall order, (forall l, incl (order l) l) -> forall keep rs g env, Forall given_rule rs ->
  made_of (trig_lang order) keep (rec_defined (trig_lang order) trig_sem env) rs g ->
  forall t u c, repr g t c -> repr g u c -> exists v, value (trig_lang order) trig_sem env t = Val v /\ value (trig_lang order) trig_sem env u = Val v.
Proof.
  intros order Ho keep rs g env Hr M. refine (rewriting_safe (trig_lang order) trig_sem says trig_eqb_eq (fun _ => True) (trig_ok order Ho) keep rs g env I _ M).
  revert Hr. apply Forall_impl. exact (given_safe order).
Qed.
Print Assumptions C66_rewriting.
(* fast-forwarding with these rules, and any other rules that are safe *)
Theorem C66_forwarding : forall order, (forall l, incl (order l) l) -> forall keep fuel ex w prior new, trig_exploratory = Val ex -> NoDup (map fst prior) -> read_rules (trig_lang order) prior ->
  (forall e, In e prior -> given_rule e \/ safe_rule (trig_lang order) trig_sem (snd e)) ->
  run_fast_forwarding (trig_lang order) keep fuel ex w prior new ->
  forall k r, In (k, r) new -> exists t1 t2, generalizes (trig_lang order) r t1 t2 /\ all_allowed trig_allowed t1 = true /\ all_allowed trig_allowed t2 = true /\
    forall env, workload_defined (trig_lang order) trig_sem w env -> exists v, value (trig_lang order) trig_sem env t1 = Val v /\ value (trig_lang order) trig_sem env t2 = Val v.
Proof.
  intros order Ho keep fuel ex w prior new Ex Nd Hp Hs R k r J.
  assert (Sp : Forall (fun e => safe_rule (trig_lang order) trig_sem (snd e)) prior). { apply Forall_forall. intros e He. destruct (Hs e He) as [G|G]; [exact (given_safe order e G)|exact G]. }
  assert (Se : Forall (fun e => safe_rule (trig_lang order) trig_sem (snd e)) ex). { apply Forall_forall. intros e He. apply given_safe. right. right. eauto. }
  destruct (forwarding_safe (trig_lang order) trig_sem says trig_eqb_eq (fun v => eq_refl) trig_arity trig_plain _ (trig_readable order) (fun _ => True) (trig_ok order Ho)
    keep fuel ex w prior new Nd Hp (rules_read _ _ (trig_lang order) _ _ Ex) Sp Se R k r J) as (t1 & t2 & G & A1 & A2 & V).
  exists t1, t2. split; [exact G|]. split; [exact A1|]. split; [exact A2|]. intros env. exact (V env I).
Qed.
Print Assumptions C66_forwarding.
(* and without imaginary unit, cis and square *)
Theorem C66_forbidden : forall order keep fuel ex w prior new, NoDup (map fst prior) -> read_rules (trig_lang order) prior -> read_rules (trig_lang order) ex ->
  run_fast_forwarding (trig_lang order) keep fuel ex w prior new ->
  forall k r, In (k, r) new -> without (fun o => o = TI \/ o = TCis \/ o = TSqr) (rlhs r) /\ without (fun o => o = TI \/ o = TCis \/ o = TSqr) (rrhs r).
Proof.
  intros order keep fuel ex w prior new N P E R k r J. destruct (readable_lifts _ _ _ trig_arity trig_plain (ex_intro _ _ (trig_readable order)) keep fuel ex w prior new N P E R k r J) as (_ & (t & Et & At) & (u & Eu & Au)).
  split; [exists t|exists u]; (split; [assumption|]); [revert At|revert Au]; apply LangProofs.tall_impl; intros [o|v]; auto; intros H [->|[->| ->]]; discriminate H.
Qed.
Print Assumptions C66_forbidden.
(* what is derivable from these rules *)
Theorem C66_deriving : forall order, (forall l, incl (order l) l) -> derives_safely (trig_lang order) trig_sem.
Proof. intros order Ho. exact (deriving_safe (trig_lang order) trig_sem says trig_eqb_eq (fun v => eq_refl) (trig_steady order Ho)). Qed.
Print Assumptions C66_deriving.

(* complex.rules as it is: 0 and 1 get into one class *)
Definition same_order (l : list (node trig_op)) : list (node trig_op) := l.
Definition ex_trig : lang trig_op string := trig_lang same_order.
Definition ex_01 : workload := WSet [Atom "0"; Atom "1"].
Definition ex_collapse : list step :=
 [("?a ==> (/ ?a 1)", "0", [("a", "0")]);
  ("?a ==> (/ ?a 1)", "1", [("a", "1")]);
  ("?a ==> (- ?a 0)", "1", [("a", "1")]);
  ("?a ==> (+ ?a 0)", "1", [("a", "1")]);
  (swapped_quotient, "(/ 0 1)", [("a", "0"); ("b", "1"); ("c", "1")]);
  ("(/ (+ ?a ?b) ?c) ==> (+ (/ ?b ?c) (/ ?a ?c))", "(/ 1 0)", [("a", "1"); ("b", "0"); ("c", "0")]);
  ("(/ 0 ?a) ==> 0", "(/ 0 0)", [("a", "0")]);
  ("(/ ?a ?a) ==> 1", "(/ 0 0)", [("a", "0")])].
Definition ex_complex : ruleset trig_op := match complex_rules with Val m => m | Panic => [] end.
Definition ex_start : eg trig_op string := match to_egraph ex_trig ex_keep 30 ex_01 with Val g => g | Panic => eg_default end.
Definition ex_ran : eg trig_op string := match run_script ex_trig ex_keep 30 ex_complex ex_collapse ex_start with Val g => g | Panic => eg_default end.
Definition ex_end : eg trig_op string := match s_rebuild ex_trig ex_keep 30 ex_ran with Val g => g | Panic => eg_default end.
Lemma const_defined : forall env s q, parse_bigratio s = Some q -> rec_defined ex_trig trig_sem env [Node (TConst s) []].
Proof. intros env s q E. exists (cre (Q2R (this q))). unfold fold_rec. cbn -[parse_bigratio cre Q2R]. rewrite E. reflexivity. Qed.
Theorem C66_rewriting_refuted : complex_rules = Val ex_complex /\ exists g c, made_of ex_trig ex_keep (rec_defined ex_trig trig_sem (fun _ => c0)) ex_complex g /\
  lookup_expr trig_eqb g [Node (TConst "0") []] = Val (Some c) /\ lookup_expr trig_eqb g [Node (TConst "1") []] = Val (Some c).
Proof.
  split; [vm_compute; reflexivity|]. exists ex_end, 6. split.
  - apply (Mo_run _ _ _ _ 30 Simple ex_start); [|exact I|].
    + apply (Mo_workload _ _ _ _ 30 ex_01 [Atom "0"; Atom "1"] [[Node (TConst "0") []]; [Node (TConst "1") []]]); [vm_compute; reflexivity|vm_compute; reflexivity| |vm_compute; reflexivity].
      constructor; [|constructor; [|constructor]]; (eapply const_defined; vm_compute; reflexivity).
    + apply (script_simple ex_trig trig_eqb_eq ex_keep 30 ex_complex ex_collapse ex_start ex_ran ex_end); vm_compute; reflexivity.
  - split; vm_compute; reflexivity.
Qed.
Print Assumptions C66_rewriting_refuted.

(* the quotient of sine and cosine: learned by fast-forwarding *)
Definition ex_tan : workload := WSet [Lst [Atom "/"; Lst [Atom "sin"; Atom "a"]; Lst [Atom "cos"; Atom "a"]]; Lst [Atom "tan"; Atom "a"]].
Definition ex_explore : ruleset trig_op := match trig_exploratory with Val m => m | Panic => [] end.
Definition ex_tan_steps : list step := [("(/ (sin ?a) (cos ?a)) ==> (tan ?a)", "(/ (sin a) (cos a))", [("a", "a")])].
Definition ex_tan0 : eg trig_op string := match to_egraph ex_trig ex_keep 30 ex_tan with Val g => g | Panic => eg_default end.
Definition ex_tan1 : eg trig_op string := match run_script ex_trig ex_keep 30 ex_explore ex_tan_steps ex_tan0 with Val g => g | Panic => eg_default end.
Definition ex_tan2 : eg trig_op string := match s_rebuild ex_trig ex_keep 30 ex_tan1 with Val g => g | Panic => eg_default end.
Lemma cos_0_nz : ccos c0 <> c0.
Proof. unfold c0 at 1. rewrite cos_real, cos_0. exact c1_nz. Qed.
Lemma reads_is : forall O C (L : lang O C) s t r u, TotalSpec.reads L s t -> parse_rec (l_from_op L) (display s) = Some r -> tree r = Val u -> t = u.
Proof. intros O C L s t r u R E U. unfold TotalSpec.reads in R. rewrite E in R. injection R as ->. rewrite tree_to_rec in U. now injection U. Qed.
Lemma tan_defined : workload_defined ex_trig trig_sem ex_tan (fun _ => c0).
Proof.
  intros ss ts F R. injection F as <-. inversion R as [|s1 t1 ss1 ts1 R1 R']; subst. inversion R' as [|s2 t2 ss2 ts2 R2 R'']; subst. inversion R''; subst.
  assert (E1 : t1 = T TDiv [T TSin [T (TVar "a") []]; T TCos [T (TVar "a") []]]).
  { eapply reads_is; [exact R1|vm_compute; reflexivity|reflexivity]. }
  assert (E2 : t2 = T TTan [T (TVar "a") []]).
  { eapply reads_is; [exact R2|vm_compute; reflexivity|reflexivity]. }
  subst. constructor; [|constructor; [|constructor]]; unfold defined; cbn -[csin ccos ctan cdiv c_dec c0];
    (destruct (c_dec (ccos c0)) as [E|_]; [elim (cos_0_nz E)|]); eexists; reflexivity.
Qed.
Example C66_hyp : (forall l, incl (same_order l) l) /\ trig_exploratory = Val ex_explore /\
  (exists new, run_fast_forwarding ex_trig ex_keep 30 ex_explore ex_tan [] new /\
    map fst new = ["(tan ?a) ==> (/ (sin ?a) (cos ?a))"; "(/ (sin ?a) (cos ?a)) ==> (tan ?a)"]) /\
  Forall given_rule ex_explore /\ made_of ex_trig ex_keep (rec_defined ex_trig trig_sem (fun _ => c0)) ex_explore ex_tan2 /\
  workload_defined ex_trig trig_sem ex_tan (fun _ => c0).
Proof.
  split; [intros l x J; exact J|]. split; [vm_compute; reflexivity|]. split.
  - eexists. split.
    + exists ex_tan0, [], [], ex_tan0, ex_tan2, ex_tan2. do 2 eexists. split; [vm_compute; reflexivity|]. split; [vm_compute; reflexivity|]. split; [|split; [|split; [|split; [|split]]]].
      * exists (fun l => l). split; [intros X; apply Permutation_refl|]. exists ex_tan0. split; [exists ex_tan0; split; [exists []; apply RS_refl|vm_compute; reflexivity]|vm_compute; reflexivity].
      * apply (script_simple ex_trig trig_eqb_eq ex_keep 30 ex_explore ex_tan_steps ex_tan0 ex_tan1 ex_tan2); vm_compute; reflexivity.
      * exists [0; 1; 2; 3; 4], (fun l => l), (fun l => l). split; [split; [vm_compute; apply Permutation_refl|intros X; apply Permutation_refl]|]. split; [intros X; apply Permutation_refl|]. vm_compute. reflexivity.
      * exists (fun l => l). split; [intros X; apply Permutation_refl|]. exists ex_tan2. split; [exists ex_tan2; split; [exists []; apply RS_refl|vm_compute; reflexivity]|vm_compute; reflexivity].
      * exists [0; 1; 2; 4], (fun l => l), (fun l => l). split; [split; [vm_compute; apply Permutation_refl|intros X; apply Permutation_refl]|]. split; [intros X; apply Permutation_refl|]. vm_compute. reflexivity.
      * exists (fun l => l). eexists. split; [intros X; apply Permutation_refl|]. eexists. split.
        eapply Rs_more; [|apply Rs_done]. eapply Round; [discriminate|vm_compute; reflexivity|].
        do 3 eexists. split; [vm_compute; reflexivity|]. split.
        { eexists. split; [eexists; split|].
          - apply (run_script_ok ex_trig trig_eqb_eq ex_keep 30 _ ex_tan_steps). vm_compute. reflexivity.
          - vm_compute. reflexivity.
          - vm_compute. reflexivity. }
        { vm_compute. reflexivity. }
        { vm_compute. reflexivity. }
    + vm_compute. reflexivity.
  - split; [apply Forall_forall; intros e J; right; right; exists ex_explore; split; [vm_compute; reflexivity|exact J]|].
    split; [|exact tan_defined]. apply (Mo_run _ _ _ _ 30 Simple ex_tan0); [|exact I|].
    + eapply (Mo_workload _ _ _ _ 30 ex_tan); [reflexivity|vm_compute; reflexivity| |vm_compute; reflexivity].
      constructor; [|constructor; [|constructor]]; unfold rec_defined, defined, fold_rec; cbn -[csin ccos ctan cdiv c_dec c0];
        (destruct (c_dec (ccos c0)) as [E|_]; [elim (cos_0_nz E)|]); eexists; reflexivity.
    + apply (script_simple ex_trig trig_eqb_eq ex_keep 30 ex_explore ex_tan_steps ex_tan0 ex_tan1 ex_tan2); vm_compute; reflexivity.
Qed.
Definition ex_zero : rule trig_op := Rule "(/ 0 ?a) ==> 0" [Node (EN (TConst "0")) []; Node (PV "a") []; Node (EN TDiv) [0; 1]] [Node (EN (TConst "0")) []] KRhs.
(* the domain meets what C65 asks for; a safe rule whose left-hand side has no value at
   some values of its variable *)
Example C65_hyp : readable ex_trig trig_arity trig_plain (fun _ => False) /\
  (forall env, steady ex_trig (at_env ex_trig trig_sem says env) /\ starts ex_trig (at_env ex_trig trig_sem says env)) /\
  In ("(/ 0 ?a) ==> 0", ex_zero) ex_complex /\ safe_rule ex_trig trig_sem ex_zero /\ forall genv, pden (l_to_var ex_trig) trig_sem genv (fun _ => c0) (rlhs ex_zero) = Panic.
Proof.
  assert (J : In ("(/ 0 ?a) ==> 0", ex_zero) ex_complex). { replace ("(/ 0 ?a) ==> 0", ex_zero) with (nth 51 ex_complex ("", ex_zero)) by (vm_compute; reflexivity). apply nth_In. apply Nat.ltb_lt. vm_compute. reflexivity. }
  assert (G : given_rule ("(/ 0 ?a) ==> 0", ex_zero)). { left. exists ex_complex. split; [vm_compute; reflexivity|]. split; [exact J|]. intros E. discriminate E. }
  split; [exact (trig_readable same_order)|]. split; [exact (fun env => trig_ok same_order (fun l x J => J) env I)|].
  split; [exact J|]. split; [exact (given_safe same_order _ G)|].
  intros genv. unfold pden, fold_rec. cbn -[c_dec c0 parse_bigratio cre cdiv]. destruct (parse_bigratio "0"); [|reflexivity]. cbn -[c_dec c0 cre cdiv]. destruct (c_dec c0) as [_|Ne]; [reflexivity|elim (Ne eq_refl)].
Qed.
