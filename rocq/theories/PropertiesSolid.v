(* C70: the domain of solids. *)
From Coq Require Import ZArith Reals Permutation Lra.
From Verif Require Import Base Sexp Lang LangProofs Syntax SyntaxProofs Rule RuleSpec Ruleset Workload Analysis AnalysisSpec Generalize Egraph EgraphSpec Synth Apply Sched SynthSpec
  Infer OpsSpec SaveProofs SaveDomains LearntProofs Extract Match Minimize ForwardSpec ForwardDomains Domains Script Solid SolidSpec SolidProofs PropertiesSat.
Open Scope string_scope.
Open Scope list_scope.

(* terms that mean the same have the same points *)
Theorem C70_points : forall t u, (forall env, meaning env t = meaning env u) -> same_points t u.
Proof. exact equal_points. Qed.
Print Assumptions C70_points.
(* the rules the domain starts from, and those that the test expects to derive *)
Theorem C70_rules : forall r, given_rule r -> equation r /\ preserves r.
Proof. intros r G. pose proof (given_equation r G) as E. split; [exact E|exact (equation_at r E)]. Qed.
Print Assumptions C70_rules.
Theorem C70_expected : exists m, cf_expected = Val m /\ Forall (fun e => equation (snd e) /\ preserves (snd e)) m.
Proof.
  destruct expected_equations as (m & E & F). exists m. split; [exact E|]. revert F. apply Forall_impl. intros e X. split; [exact X|exact (equation_at _ X)].
Qed.
Print Assumptions C70_expected.
Lemma cf_without : forall p, allowed_side cf_lang p -> without lowered p.
Proof.
  intros p (t & E & A). exists t. split; [exact E|]. revert A. apply tall_impl. intros [o|v]; [|auto]. cbn. intros A X.
  unfold lowered in X. cbn in X. repeat match type of X with _ \/ _ => destruct X as [X|X] end; try subst o; try discriminate A. destruct X.
Qed.
(* any number of layers, each with the rules of the layers before *)
Theorem C70_layers : forall keep fuel prior ex ws all learned, cf_prior = Val prior -> cf_exploratory = Val ex ->
  layers keep fuel ex ws prior [] all learned ->
  (forall k r, In (k, r) all -> equation r /\ preserves r) /\
  forall k r, In (k, r) learned -> equation r /\ preserves r /\ without lowered (rlhs r) /\ without lowered (rrhs r).
Proof.
  intros keep fuel prior ex ws all learned Ep Ex H.
  assert (Np : NoDup (map fst prior)).
  { assert (E : match cf_prior with Val m => nodup string_dec (map fst m) = map fst m | Panic => False end) by (vm_compute; reflexivity).
    rewrite Ep in E. rewrite <- E. apply NoDup_nodup. }
  destruct (layers_equations keep fuel ex ws prior [] all learned H Ex Np (rules_read _ _ cf_lang _ _ Ep)) as (Ha & _ & _ & _ & Hl).
  - intros k q J. apply given_equation. exists prior, k. auto.
  - constructor.
  - intros k r [].
  - split; [intros k r J; split; [exact (Ha k r J)|exact (equation_at r (Ha k r J))]|].
    intros k r J. destruct (Hl k r J) as (E & A & B). split; [exact E|]. split; [exact (equation_at r E)|]. split; apply cf_without; assumption.
Qed.
Print Assumptions C70_layers.
(* one layer; what is learned can be saved and read back *)
Theorem C70_forwarding : forall keep fuel ex w prior new, cf_exploratory = Val ex -> NoDup (map fst prior) -> read_rules cf_lang prior ->
  (forall k q, In (k, q) prior -> equation q) -> run_fast_forwarding cf_lang keep fuel ex w prior new ->
  reloads cf_lang new /\ forall k r, In (k, r) new -> equation r /\ preserves r /\ without lowered (rlhs r) /\ without lowered (rrhs r).
Proof.
  intros keep fuel ex w prior new Ex N Hp Ht R. destruct (layer_equation keep fuel ex w prior new Ex N Hp Ht R) as (_ & _ & Ln & H). split; [exact Ln|].
  intros k r J. destruct (H k r J) as (E & A & B). split; [exact E|]. split; [exact (equation_at r E)|]. split; apply cf_without; assumption.
Qed.
Print Assumptions C70_forwarding.
(* and with other rules for lowering: what is learned follows from what is given *)
Theorem C70_consequences : lifts cf_lang /\ finds cf_lang.
Proof. split; [exact (readable_lifts _ _ _ _ _ cf_readable)|exact (readable_finds _ _ _ _ _ cf_readable)]. Qed.
Print Assumptions C70_consequences.
(* rewriting: solids in one class have the same points *)
Theorem C70_rewriting : forall keep rs g, (forall k r, In (k, r) rs -> equation r) -> made cf_lang keep rs g ->
  forall t u c, repr g t c -> repr g u c -> same_points t u.
Proof.
  intros keep rs g H M t u c Rt Ru. apply equal_points. intros env.
  refine (C46_saturation_sound _ _ cf_lang cf_eqb_eq shape (set_vars cf_lang cf_alg env) rs (cf_interprets env) _ keep g M t u c Rt Ru).
  apply Forall_forall. intros [k r] J. apply equation_holds. exact (H k r J).
Qed.
Print Assumptions C70_rewriting.

(* ---- a run ---- *)
Definition get {A} (r : res (list A)) : list A := match r with Val m => m | Panic => [] end.
Definition graph (r : res (eg cf_op Z)) : eg cf_op Z := match r with Val g => g | Panic => eg_default end.
Definition ex_prior : ruleset cf_op := get cf_prior.
Definition ex_explore : ruleset cf_op := get cf_exploratory.
Definition ex_lit (z : string) : sexp := Lst [Atom "Lit"; Atom z].
Definition ex_work : workload := WSet [Lst [Atom "Trans"; Lst [Atom "Vec3"; ex_lit "0"; ex_lit "0"; ex_lit "0"]; Atom "s"]].
Definition ex_allowed : ruleset cf_op := get (rs_new cf_from_op cf_name frep_lines).
Definition ex_lower : list step := [("(Trans (Vec3 ?a ?b ?c) ?e) ==> (subst (op - x (Scalar ?a)) (op - y (Scalar ?b)) (op - z (Scalar ?c)) ?e)",
  "(Trans (Vec3 (Lit 0) (Lit 0) (Lit 0)) s)", [("a", "(Lit 0)"); ("b", "(Lit 0)"); ("c", "(Lit 0)"); ("e", "s")])].
Definition ex_simplify : list step :=
 [("(Lit ?x) ==> (Scalar (Lit ?x))", "(Lit 0)", [("x", "0")]);
  ("(op - ?a (Lit 0)) ==> ?a", "(op - x (Scalar (Lit 0)))", [("a", "x")]);
  ("(op - ?a (Lit 0)) ==> ?a", "(op - y (Scalar (Lit 0)))", [("a", "y")]);
  ("(op - ?a (Lit 0)) ==> ?a", "(op - z (Scalar (Lit 0)))", [("a", "z")]);
  ("(subst x y z ?a) ==> ?a", "(subst x y z s)", [("a", "s")])].
Definition ex_g0 := graph (to_egraph cf_lang ex_keep 30 ex_work).
Definition ex_g1 := graph (run_script cf_lang ex_keep 30 ex_explore ex_lower ex_g0).
Definition ex_g2 := graph (s_rebuild cf_lang ex_keep 30 ex_g1).
Definition ex_g3 := graph (run_script cf_lang ex_keep 30 (extend ex_prior ex_explore) ex_simplify ex_g2).
Definition ex_g4 := graph (s_rebuild cf_lang ex_keep 30 ex_g3).
Definition ex_g5 := graph (compress_with cf_lang ex_keep 30 (fun l => l) ex_g2 ex_g4).
Definition ex_cands : ruleset cf_op := get (extract_candidates cf_lang 30 (fun l => l) (class_ids ex_g2) (fun l => l) ex_g2 ex_g5).
Definition ex_none : rule cf_op := Rule "" [] [] KRhs.
Definition ex_new : ruleset cf_op := ex_cands.
Definition ex_chosen : ruleset cf_op := extend ex_prior (rev ex_new).
Definition ex_rest : ruleset cf_op := [nth 0 ex_cands ("", ex_none)].
Definition ex_shrink : list step := [("(Trans (Vec3 (Lit 0) (Lit 0) (Lit 0)) ?a) ==> ?a", "(Trans (Vec3 (Lit 0) (Lit 0) (Lit 0)) a)", [("a", "a")])].
Definition ex_added := match add_sides cf_lang ex_keep 30 eg_default (map snd ex_rest) [] with Val p => p | Panic => (eg_default, []) end.
Definition ex_s1 := graph (run_script cf_lang ex_keep 30 ex_chosen ex_shrink (fst ex_added)).
Definition ex_s2 := graph (s_rebuild cf_lang ex_keep 30 ex_s1).
Definition ex_s3 := graph (compress_with cf_lang ex_keep 30 (fun l => l) (fst ex_added) ex_s2).
Lemma ex_some : extend [] ex_cands <> [].
Proof. intros E. assert (F : length (extend [] ex_cands) = 2) by (vm_compute; reflexivity). rewrite E in F. discriminate F. Qed.
Lemma ex_run : run_fast_forwarding cf_lang ex_keep 30 ex_explore ex_work ex_prior ex_new.
Proof.
  exists ex_g0, (firstn 6 ex_prior), (skipn 6 ex_prior), ex_g0, ex_g2, ex_g5, [], ex_cands. split; [vm_compute; reflexivity|]. split; [vm_compute; reflexivity|]. split; [|split; [|split; [|split; [|split]]]].
  - exists (fun l => l). split; [intros X; apply Permutation_refl|]. exists ex_g0. split; [exists ex_g0; split; [exists []; apply RS_refl|vm_compute; reflexivity]|vm_compute; reflexivity].
  - apply (script_simple cf_lang cf_eqb_eq ex_keep 30 ex_explore ex_lower ex_g0 ex_g1 ex_g2); vm_compute; reflexivity.
  - exists (class_ids ex_g0), (fun l => l), (fun l => l). split; [split; [apply Permutation_refl|intros X; apply Permutation_refl]|]. split; [intros X; apply Permutation_refl|]. vm_compute. reflexivity.
  - exists (fun l => l). split; [intros X; apply Permutation_refl|]. exists ex_g4. split; [|vm_compute; reflexivity].
    apply (script_simple cf_lang cf_eqb_eq ex_keep 30 (extend ex_prior ex_explore) ex_simplify ex_g2 ex_g3 ex_g4); vm_compute; reflexivity.
  - exists (class_ids ex_g2), (fun l => l), (fun l => l). split; [split; [apply Permutation_refl|intros X; apply Permutation_refl]|]. split; [intros X; apply Permutation_refl|]. vm_compute. reflexivity.
  - exists (fun l => l), []. split; [intros X; apply Permutation_refl|].
    exists ex_chosen. split; [|vm_compute; reflexivity].
    refine (Rs_more _ _ _ _ _ ([], ex_chosen, []) _ _ (Rs_done _ _ _ _ _)).
    apply (Round cf_lang ex_keep 30 _ _ ex_prior [] ex_rest (rev ex_new) [] []); [apply ex_some|vm_compute; reflexivity|].
    exists (fst ex_added), (snd ex_added), ex_s3. split; [vm_compute; reflexivity|]. split; [|vm_compute; reflexivity].
    exists ex_s2. split; [|vm_compute; reflexivity]. exists ex_s1. split; [|vm_compute; reflexivity].
    apply (run_script_ok cf_lang cf_eqb_eq ex_keep 30 ex_chosen ex_shrink). vm_compute. reflexivity.
Qed.
(* The hypotheses of C70_layers, C70_forwarding and C70_rewriting are met by this run,
   which learns that a solid may be moved by nothing.  A cube of side 1 with a corner at
   the origin and its image under this rule are proper, and have the same points; the
   point (1, 1/2, 0) is in both. *)
Definition ex_number (z : Z) : term cf_op := T CLit [T (CLiteral z) []].
Definition ex_cube : term cf_op := T CCube [T CVec3 [ex_number 1; ex_number 1; ex_number 1]; T CFalse []].
Definition ex_moved : term cf_op := T CTrans [T CVec3 [ex_number 0; ex_number 0; ex_number 0]; ex_cube].
Definition ex_first : rule cf_op := Rule "?a ==> (Trans (Vec3 (Lit 0) (Lit 0) (Lit 0)) ?a)" [Node (PV "a") []]
  [Node (PV "a") []; Node (EN (CLiteral 0)) []; Node (EN CLit) [1]; Node (EN CVec3) [2; 2; 2]; Node (EN CTrans) [3; 0]] KRhs.
Lemma ex_in : In (rname ex_first, ex_first) (extend [] ex_new).
Proof.
  assert (F : List.find (fun e => String.eqb (fst e) (rname ex_first)) (extend [] ex_new) = Some (rname ex_first, ex_first)) by (vm_compute; reflexivity).
  exact (proj1 (List.find_some _ _ F)).
Qed.
Lemma ex_layers : layers ex_keep 30 ex_explore [ex_work] ex_prior [] (extend ex_prior ex_new) (extend [] ex_new).
Proof. apply (Ls_more _ _ _ _ _ _ _ ex_new); [exact ex_run|apply Ls_done]. Qed.
Example C70_hyp : cf_prior = Val ex_prior /\ cf_exploratory = Val ex_explore /\
  layers ex_keep 30 ex_explore [ex_work] ex_prior [] (extend ex_prior ex_new) (extend [] ex_new) /\
  map fst (extend [] ex_new) = ["?a ==> (Trans (Vec3 (Lit 0) (Lit 0) (Lit 0)) ?a)"; "(Trans (Vec3 (Lit 0) (Lit 0) (Lit 0)) ?a) ==> ?a"] /\
  made cf_lang ex_keep ex_explore ex_g2 /\
  forall num sol is_num, proper num is_num ex_cube /\ proper num is_num ex_moved /\ same_points ex_cube ex_moved /\
    inside num sol is_num ex_moved 1 (1/2) 0 /\ ~ inside num sol is_num ex_moved 2 0 0.
Proof.
  split; [vm_compute; reflexivity|]. split; [vm_compute; reflexivity|]. split; [|split; [vm_compute; reflexivity|split]].
  - exact ex_layers.
  - apply (M_run _ _ _ 30 Simple ex_g0); [apply (M_workload _ _ _ 30 ex_work); vm_compute; reflexivity|exact I|].
    apply (script_simple cf_lang cf_eqb_eq ex_keep 30 ex_explore ex_lower ex_g0 ex_g1 ex_g2); vm_compute; reflexivity.
  - intros num sol is_num. assert (P : proper num is_num ex_cube).
    { split; [|right; reflexivity]. exists 1%R, 1%R, 1%R. repeat split; lra. }
    split; [exact P|]. split; [split; [exists 0%R, 0%R, 0%R; repeat split|exact P]|]. split.
    + assert (Ep : cf_prior = Val ex_prior) by (vm_compute; reflexivity). assert (Ee : cf_exploratory = Val ex_explore) by (vm_compute; reflexivity).
      destruct (proj1 (proj2 (proj2 (C70_layers ex_keep 30 ex_prior ex_explore [ex_work] (extend ex_prior ex_new) (extend [] ex_new) Ep Ee ex_layers) _ ex_first ex_in))) as (tl & tr & E1 & E2 & S).
      injection E1 as <-. injection E2 as <-. exact (S (fun _ => ex_cube)).
    + cbn. split; [repeat split; lra|]. intros ((_ & X) & _). lra.
Qed.
