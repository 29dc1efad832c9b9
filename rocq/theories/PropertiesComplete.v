(* Property C69: what run_workload leaves unlearned.  Reference notions:
   CompleteSpec.v. *)
From Coq Require Import Permutation NArith.
From Verif Require Import Base Sexp Reader Filter Workload Recipe EnumSpec Lang LangProofs Syntax Rule Ruleset RuleSpec DomainSpec.
From Verif Require Import BV BVSpec BoolDom NatDom Rational Halide Egraph EgraphSpec Synth Domains Apply Sched SynthSpec Extract Match MatchSpec Minimize Infer.
From Verif Require Import DomainAlg Util Analysis TotalSpec LearnSpec OpsSpec LearntSpec ForwardSpec CompleteSpec CompleteProofs CompleteDomains TextProofs PropertiesSat PropertiesInfer.
Open Scope string_scope.
Open Scope list_scope.

(* Two terms of the workload with the same value at every sample: the prior and
   learned rules say that they are equal, or what the prior rules say they are equal
   to makes no rule. *)
Theorem C69_workload : complete bool_lang bool_arity /\ (forall w check, (w <= 128)%N -> complete (bv_lang w check) bv_arity) /\
  (forall depth rng check, complete (nat_lang depth rng check) nat_arity) /\ (forall check, complete (hal_lang check) hal_arity).
Proof. exact (conj bool_complete (conj bv_complete (conj nat_complete hal_complete))). Qed.
Print Assumptions C69_workload.

(* So do the rules of recursive_rules, for the terms of every size up to the last. *)
Theorem C69_recursive : forall O C (L : lang O C) ar, complete L ar -> forall keep fuel met l prior n all, fit_prior L ar prior ->
  recursive_rules L keep fuel met l prior n all ->
  fit_prior L ar all /\ forall m w, 0 < m <= n -> sized_workload met m l = Val w -> covers L ar w (rule_of all) (rule_of all).
Proof.
  intros O C L ar Cm keep fuel met l prior n all Fp R. split; [exact (proj1 (recursive_fit L ar Cm _ _ _ _ _ _ _ Fp R))|].
  exact (recursive_complete L ar Cm keep fuel met l prior n all Fp R).
Qed.
Print Assumptions C69_recursive.

(* Booleans: any two equivalent terms of the workload, and only for want of a way to
   write the rule. *)
Theorem C69_boolean : forall keep fuel w prior fast allow_empty new, fit_prior bool_lang bool_arity prior ->
  run_workload_internal bool_lang keep fuel w prior fast allow_empty new ->
  exists ts n vs, samples_of bool_lang w ts n vs /\
  forall t1 t2, In t1 ts -> In t2 ts -> (forall env, bool_den env t1 = bool_den env t2) ->
    settles bool_lang bool_arity (fun u1 u2 => (forall env, bool_den env u1 = bool_den env u2) /\ unwritable bool_lang u1 u2)
      (rule_of prior) (fun r => rule_of prior r \/ rule_of new r) (wvars bool_lang ts) n vs t1 t2.
Proof. exact bool_all. Qed.
Print Assumptions C69_boolean.

(* Bitvectors: the same for terms that are equal for all values, when the prior rules
   are true and the solver always answers, and rightly when it says that two terms
   differ. *)
Theorem C69_bitvectors : forall w check, (1 <= w <= 64)%N -> sat_right w check -> (forall a b, check a b <> SUnknown) ->
  forall keep fuel wl prior fast allow_empty new, fit_prior (bv_lang w check) bv_arity prior ->
  (forall k r, In (k, r) prior -> true_rule (bv_lang w check) VVar (inr w) (bv_den w) r) ->
  run_workload_internal (bv_lang w check) keep fuel wl prior fast allow_empty new ->
  exists ts n vs, samples_of (bv_lang w check) wl ts n vs /\
  forall t1 t2, In t1 ts -> In t2 ts -> (forall env, (forall s, inr w (env s)) -> bv_den w env t1 = bv_den w env t2) ->
    settles (bv_lang w check) bv_arity (unwritable (bv_lang w check)) (rule_of prior) (fun r => rule_of prior r \/ rule_of new r)
      (wvars (bv_lang w check) ts) n vs t1 t2.
Proof. exact bv_all. Qed.
Print Assumptions C69_bitvectors.

(* Such terms exist: (& a (~ a)) and (& b (~ b)) are both false, no rule can be
   written from one to the other, and nothing is learned. *)
Definition ex_false (x : string) : term bool_op := T BAnd [T (BVar x) []; T BNot [T (BVar x) []]].
Definition ex_falses : workload := WSet [Lst [Atom "&"; Atom "a"; Lst [Atom "~"; Atom "a"]]; Lst [Atom "&"; Atom "b"; Lst [Atom "~"; Atom "b"]]].
Theorem C69_left_out_refuted : exists n vs, run_workload_internal bool_lang ex_keep 5 ex_falses [] false true [] /\
  samples_of bool_lang ex_falses [ex_false "a"; ex_false "b"] n vs /\
  (forall env, bool_den env (ex_false "a") = bool_den env (ex_false "b")) /\ unwritable bool_lang (ex_false "a") (ex_false "b").
Proof.
  do 2 eexists. split; [|split; [|split]].
  - eexists. eexists. eexists. split; [vm_compute; reflexivity|]. split; [|split; [|split]].
    + exists (fun l => l). split; [intros X; apply Permutation_refl|]. eexists. split; [eexists; split; [eexists; apply RS_refl|vm_compute; reflexivity]|vm_compute; reflexivity].
    + exists [0; 1; 2; 3; 4; 5], (fun l => l). split; [split; [vm_compute; apply Permutation_refl|intros X; apply Permutation_refl]|vm_compute; reflexivity].
    + exists (fun l => l). eexists. split; [intros X; apply Permutation_refl|]. eexists. split; [apply Rs_done|]. vm_compute. reflexivity.
    + discriminate.
  - eexists. eexists. split; [vm_compute; reflexivity|]. split; [repeat constructor; vm_compute; reflexivity|]. split; [vm_compute; reflexivity|reflexivity].
  - intros env. cbn. destruct (env "a"), (env "b"); reflexivity.
  - split; intros X; [destruct (X "a") as [E|[E|[]]]|destruct (X "b") as [E|[E|[]]]]; try (left; reflexivity); discriminate E.
Qed.
Print Assumptions C69_left_out_refuted.

(* The recursive run of C52 meets the hypotheses; a and (& a a) are terms of its
   workload with the same values. *)
Example C69_hyp : exists prior all w n vs, rs_new bool_from_op bool_name ["(~ (~ ?a)) ==> ?a"] = Val prior /\ fit_prior bool_lang bool_arity prior /\
  recursive_rules bool_lang ex_keep 5 Lists ex_lang prior 1 all /\ sized_workload Lists 1 ex_lang = Val w /\
  samples_of bool_lang w [T (BVar "a") []; T BNot [T (BVar "a") []]; T BAnd [T (BVar "a") []; T (BVar "a") []]] n vs /\
  indistinct bool_lang n vs (T (BVar "a") []) (T BAnd [T (BVar "a") []; T (BVar "a") []]).
Proof.
  destruct C52_hyp as (_ & _ & prior & all & E & N & R & A). exists prior, all. do 3 eexists. split; [exact E|]. split; [|split; [exact R|]].
  - vm_compute in E. injection E as <-. constructor.
    + exact N.
    + repeat constructor.
    + repeat constructor.
    + constructor; [|constructor]. split; [reflexivity|]. split; [vm_compute; reflexivity|]. exists (T (EN BNot) [T (EN BNot) [T (PV "a") []]]), (T (PV "a") []).
      assert (Va : eov_ok bool_from_op bool_name bool_arity (PV "a")) by (split; [split; [discriminate|reflexivity]|intros [|c [|d x]] y X; discriminate X]).
      assert (Vn : eov_ok bool_from_op bool_name bool_arity (EN BNot)) by (apply bool_reads; exact I).
      split; [|split].
      * split; [reflexivity|]. split; [repeat constructor|]. split; [repeat (constructor; try assumption)|]. intros n v J X. cbn in J. destruct J as [<-|[<-|[<-|[]]]]; cbn in X; try discriminate X. injection X as <-. now left.
      * split; [reflexivity|]. split; [repeat constructor|]. split; [repeat (constructor; try assumption)|]. intros n v J X. cbn in J. destruct J as [<-|[]]; cbn in X. injection X as <-. now left.
      * intros x J. exact J.
    + repeat constructor.
  - split; [vm_compute; reflexivity|]. split.
    + eexists. eexists. split; [vm_compute; reflexivity|]. split; [repeat constructor; vm_compute; reflexivity|]. split; [vm_compute; reflexivity|reflexivity].
    + eexists. split; [vm_compute; reflexivity|]. split; [vm_compute; reflexivity|]. split; [repeat constructor; discriminate|discriminate].
Qed.
