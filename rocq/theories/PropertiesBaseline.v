(* Property C71: the rule files of baseline/ that the recipes are compared with.
   Baselines.v has their lines.  Reference notions: BaselineSpec.v (the exceptions by
   name, [loads], [rational_values], [never_derived], [one_value]), LearntSpec.v
   ([identity], [rational_identity], [learnt]). *)
From Coq Require Import Permutation NArith ZArith QArith Qcanon.
From Verif Require Import Base Lang LangProofs Syntax Rule Ruleset Workload Recipe BV BVSpec BoolDom Rational RationalSpec Halide HalideSpec DomainSpec Domains.
From Verif Require Import Egraph EgraphSpec Synth SynthSpec Apply Sched Extract Match Minimize Infer Report OpsSpec LearntSpec LearntProofs Baselines BaselineSpec BaselineProofs.
From Verif Require Import BaselineHalide BaselineHalideA BaselineHalideB BaselineBV BaselineRational BaselineDerive PropertiesDomains PropertiesSat PropertiesInfer.
Open Scope string_scope.
Open Scope list_scope.

(* every rule of bool.rules is true *)
Theorem C71_bool : exists rs, loads bool_from_op bool_name bool_baseline rs /\
  forall k r, In (k, r) rs -> identity BVar (fun _ => True) bool_den r.
Proof. destruct bool_text as [N C]. exact (file_loads _ _ _ _ bool_lines N C). Qed.
Print Assumptions C71_bool.

(* every rule of bv32.rules is true at every width; bv4.rules has two rules that
   are true only up to width 4 *)
Theorem C71_bv : forall w, (w <= 128)%N ->
  (exists rs, loads (bv_from_op w) bv_name bv32_baseline rs /\ forall k r, In (k, r) rs -> identity VVar (inr w) (bv_den w) r) /\
  (exists rs, loads (bv_from_op w) bv_name bv4_baseline rs /\
    forall k r, In (k, r) rs -> (identity VVar (inr w) (bv_den w) r <-> (w <= 4)%N \/ ~ In k bv4_narrow)).
Proof.
  intros w Hw. split.
  - destruct bv32_text as [N C]. exact (file_loads _ _ _ _ (bv32_lines w Hw) N C).
  - destruct bv4_text as [N C]. destruct (N.le_gt_cases w 4) as [W|W].
    + pose proof (marked _ _ _ _ _ _ (bv4_lines w Hw) (narrow_lines w W)) as F. destruct (file_loads _ _ _ _ F N C) as (rs & Ld & H). exists rs. split; [exact Ld|].
      intros k r I. destruct (H k r I) as [A B]. fold (bv_id w r). tauto.
    + pose proof (marked_only _ _ _ _ _ _ (fun r A B => differs_not VVar (inr w) (bv_den w) r B A) (bv4_lines w Hw) (wide_lines w W)) as F.
      destruct (file_loads _ _ _ _ F N C) as (rs & Ld & H). exists rs. split; [exact Ld|]. intros k r I. pose proof (H k r I) as A. cbv beta in A.
      rewrite (proj2 (proj2 Ld) k r I) in A. unfold bv_id in A. rewrite A. split; [auto|]. intros [X|X]; [lia|exact X].
Qed.
Print Assumptions C71_bv.

(* halide.rules: all but 27 of 725 rules are true; six of these are true of 0 and 1,
   the other 21 when no variable is 0.  oopsla-halide.rules: all are true. *)
Theorem C71_halide :
  (exists rs, loads hal_from_op hal_name halide_baseline rs /\ length rs = 725 /\ incl halide_wrong (map fst rs) /\ NoDup halide_wrong /\ length halide_wrong = 27 /\
    forall k r, In (k, r) rs -> (identity HVar (fun _ => True) (hal_den div_smt) r <-> ~ In k halide_wrong) /\
      (In k halide_truth_values -> identity HVar is_truth (hal_den div_smt) r) /\
      (In k halide_divisors -> identity HVar nonzero_value (hal_den div_smt) r)) /\
  (exists rs, loads hal_from_op hal_name oopsla_halide rs /\ forall k r, In (k, r) rs -> identity HVar (fun _ => True) (hal_den div_smt) r).
Proof.
  split; [|destruct oopsla_text as [N C]; exact (file_loads _ _ _ _ oopsla_lines N C)].
  destruct halide_text as [N C].
  pose proof (marked_only _ _ _ _ _ _ (fun r A B => differs_not HVar (fun _ => True) (hal_den div_smt) r B A) halide_lines wrong_lines) as F.
  assert (G : forall P wrong, Forall (hline P) wrong -> Forall (hline (fun r => In (rname r) wrong -> P r)) halide_baseline).
  { intros P wrong W. assert (M : Forall (fun s => hline (fun _ => True) s \/ In s wrong) halide_baseline).
    { eapply Forall_impl; [|exact F]. intros s H. left. eapply line_impl; [|exact H]. auto. }
    eapply Forall_impl; [|exact (marked _ _ _ _ _ _ M W)]. intros s. apply line_impl. tauto. }
  pose proof (both_lines _ _ _ _ _ F (both_lines _ _ _ _ _ (G _ _ truth_lines) (G _ _ divisor_lines))) as F'.
  destruct (file_loads _ _ _ _ F' N C) as (rs & Ld & H). exists rs. split; [exact Ld|]. destruct Ld as (_ & K & Kn).
  split; [rewrite <- (map_length fst rs), K; vm_compute; reflexivity|].
  split; [rewrite K; apply incl_of; vm_compute; reflexivity|]. split; [apply nodup_of; vm_compute; reflexivity|]. split; [reflexivity|].
  intros k r I. destruct (H k r I) as (A & B & D). rewrite (Kn k r I) in *. auto.
Qed.
Print Assumptions C71_halide.

(* rational.rules and herbie-rational.rules: in every rule the two sides agree where
   both have values; all but 6 and 10 rules also agree on where they have values *)
Theorem C71_rational :
  (exists rs, loads math_from_op math_name rational_baseline rs /\ incl rational_undefined (map fst rs) /\
    forall k r, In (k, r) rs -> rational_values r /\ (rational_identity r <-> ~ In k rational_undefined)) /\
  (exists rs, loads math_from_op math_name herbie_rational rs /\ incl herbie_undefined (map fst rs) /\
    forall k r, In (k, r) rs -> rational_values r /\ (rational_identity r <-> ~ In k herbie_undefined)).
Proof.
  split.
  - destruct rational_text as [N C]. destruct (math_file _ _ N C rational_lines rational_agree rational_wrong rational_if_less) as (rs & Ld & H). exists rs. split; [exact Ld|]. split; [|exact H].
    rewrite (proj1 (proj2 Ld)). apply incl_of. vm_compute. reflexivity.
  - destruct herbie_text as [N C]. destruct (math_file _ _ N C herbie_lines herbie_agree herbie_wrong herbie_if_less) as (rs & Ld & H). exists rs. split; [exact Ld|]. split; [|exact H].
    rewrite (proj1 (proj2 Ld)). apply incl_of. vm_compute. reflexivity.
Qed.
Print Assumptions C71_rational.

(* So no ruleset a recipe learns derives these rules: whatever the runs do, a report
   has them among the rules that cannot be derived. *)
Theorem C71_reports :
  (forall check rs against, hal_unsat_right check -> learnt (hal_lang check) (read_rules (hal_lang check)) rs ->
    loads hal_from_op hal_name halide_baseline against -> never_derived (hal_lang check) halide_wrong rs against) /\
  (forall w check rs against, (4 < w)%N -> (w <= 64)%N -> unsat_right w check -> learnt (bv_lang w check) (read_rules (bv_lang w check)) rs ->
    loads (bv_from_op w) bv_name bv4_baseline against -> never_derived (bv_lang w check) bv4_narrow rs against) /\
  (forall ov check rs against, real_unsat_right check -> learnt (math_lang ov check) (read_rules (math_lang ov check)) rs -> Forall (fun e => strict_rule (snd e)) rs ->
    loads math_from_op math_name rational_baseline against -> never_derived (math_lang ov check) rational_undefined rs against) /\
  (forall ov check rs against, real_unsat_right check -> learnt (math_lang ov check) (read_rules (math_lang ov check)) rs -> Forall (fun e => strict_rule (snd e)) rs ->
    loads math_from_op math_name herbie_rational against -> never_derived (math_lang ov check) herbie_undefined rs against).
Proof.
  split; [exact halide_report|]. split; [exact bv_report|]. split; intros ov check rs against Hu Hl Hs Ld.
  - destruct rational_text as [N C]. refine (math_report ov check rs against _ _ _ Hu Hl Hs N C _ rational_lines rational_wrong Ld). apply incl_of. vm_compute. reflexivity.
  - destruct herbie_text as [N C]. refine (math_report ov check rs against _ _ _ Hu Hl Hs N C _ herbie_lines herbie_wrong Ld). apply incl_of. vm_compute. reflexivity.
Qed.
Print Assumptions C71_reports.

(* Two of the files contradict themselves: where all their rules hold all values are
   equal, so what they derive is no evidence that a rule is true. *)
Theorem C71_contradictory_refuted :
  (exists rs, loads hal_from_op hal_name halide_baseline rs /\ forall check, one_value (hal_lang check) rs) /\
  (exists rs, loads math_from_op math_name herbie_rational rs /\ forall ov check, one_value (math_lang ov check) rs).
Proof.
  split.
  - destruct C71_halide as [(rs & Ld & _) _]. exists rs. split; [exact Ld|]. intros check. exact (halide_one check rs Ld).
  - destruct C71_rational as [_ (rs & Ld & _)]. exists rs. split; [exact Ld|]. intros ov check. exact (herbie_one ov check rs Ld).
Qed.
Print Assumptions C71_contradictory_refuted.

(* A report on bv4.rules at width 8 for a learned ruleset (with runs in which the
   limits leave no time). *)
Definition idle {O C} (L : lang O C) keep fuel lo (r : rule O) : res bool :=
  let* g := derive_start L keep fuel lo r in let* g' := s_rebuild L keep fuel g in derive_answer L r g'.
Lemma idle_derive {O C} (L : lang O C) keep fuel lo rs r b : (exists p, partition (is_saturating L keep fuel) rs = Val p) -> idle L keep fuel lo r = Val b ->
  forall iter, can_derive L keep fuel lo iter rs r b.
Proof.
  intros ([sat other] & Hp) H iter. unfold idle in H. destruct (derive_start L keep fuel lo r) as [g|] eqn:Eg; [|discriminate H]. cbn [rbind] in H.
  destruct (s_rebuild L keep fuel g) as [g'|] eqn:Er; [|discriminate H]. cbn [rbind] in H. exists g, g'. split; [exact Eg|]. split; [|exact H].
  exists sat, other, g, g. split; [exact Hp|]. split; [|split; [exists []; apply RS_refl|exact Er]].
  clear. induction iter as [|n IH]; [apply SR_done|]. apply (SR_round _ _ _ _ _ _ g g g g); [exists []; apply RS_refl|exists []; apply RS_refl|exact IH].
Qed.
Example C71_hyp : exists new against can cannot,
  learnt (bv_lang 8 ex_check) (read_rules (bv_lang 8 ex_check)) new /\ unsat_right 8 ex_check /\ map fst new = ["(+ ?a ?b) ==> (+ ?b ?a)"; "(+ ?b ?a) ==> (+ ?a ?b)"] /\
  loads (bv_from_op 8) bv_name bv4_baseline against /\ get_derivability (bv_lang 8 ex_check) ex_keep 5 false new against (can, cannot).
Proof.
  assert (E : exists new, run_workload (bv_lang 8 ex_check) ex_keep 5 ex_w [] true new /\ map fst new = ["(+ ?a ?b) ==> (+ ?b ?a)"; "(+ ?b ?a) ==> (+ ?a ?b)"] /\
    exists p, partition (is_saturating (bv_lang 8 ex_check) ex_keep 5) new = Val p).
  { eexists. split.
    - do 3 eexists. split; [vm_compute; reflexivity|]. split; [|split; [|split]].
      + exists (fun l => l). split; [intros X; apply Permutation_refl|]. eexists. split; [eexists; split; [eexists; apply RS_refl|vm_compute; reflexivity]|vm_compute; reflexivity].
      + exists [0; 1; 2; 3], (fun l => l). split; [split; [vm_compute; apply Permutation_refl|intros X; apply Permutation_refl]|vm_compute; reflexivity].
      + exists (fun l => l). eexists. split; [intros X; apply Permutation_refl|]. eexists. split.
        * eapply Rs_more; [|apply Rs_done]. eapply Round; [discriminate|vm_compute; reflexivity|].
          do 3 eexists. split; [vm_compute; reflexivity|]. split.
          { eexists. split; [eexists; split|]. eexists. eapply RS_step.
            - eapply (RSearch _ _ _ _ _ _ _ 2 [("a", 0); ("b", 1)]); [right; left; reflexivity|]. split.
              + eexists. split; [reflexivity|]. apply PM_node with [1; 0].
                * repeat constructor; (eapply PM_var; [reflexivity|eqv_tac]).
                * exists (Node VAdd [1; 0]), 2. split; [cbn; tauto|]. split; [reflexivity|]. split; [repeat constructor; eqv_tac|eqv_tac].
              + repeat constructor.
            - eapply RS_step; [|apply RS_refl]. eapply RApply; [left; reflexivity|]. vm_compute. reflexivity.
            - vm_compute. reflexivity.
            - vm_compute. reflexivity. }
          { vm_compute. reflexivity. }
        * vm_compute. reflexivity.
      + discriminate.
    - split; [vm_compute; reflexivity|]. eexists. vm_compute. reflexivity. }
  destruct E as (new & R & E & P).
  assert (F : Forall (line (bv_from_op 8) bv_name (fun r => idle (bv_lang 8 ex_check) ex_keep 5 false r = Val false)) bv4_baseline).
  { unfold bv4_baseline. repeat apply Forall_cons; [..|apply Forall_nil]. all: eexists; split; [vm_compute; reflexivity|]; split; vm_compute; reflexivity. }
  destruct bv4_text as [N C]. destruct (file_loads _ _ _ _ F N C) as (against & Ld & H). exists new, against, [], bv4_baseline.
  split; [exact (Lt_workload _ _ _ _ _ [] _ _ _ (NoDup_nil _) (Forall_nil _) R)|]. split; [exact (ex_check_right 8)|]. split; [exact E|]. split; [exact Ld|].
  destruct Ld as (_ & K & Kn). exists [], against. split; [|unfold to_str_vec; now rewrite K]. exists (fun _ => false). split.
  - intros [k r] I. exact (idle_derive _ _ _ _ _ _ _ P (H k r I) _).
  - rewrite (RulesetProofs.partition_spec (fun r => Val false) (fun _ => false) against).
    + f_equal. f_equal; [|]; clear; induction against as [|e a IH]; cbn; auto. now f_equal.
    + rewrite K. exact N.
    + apply Forall_forall. intros [k r] I. symmetry. exact (Kn k r I).
    + reflexivity.
Qed.
