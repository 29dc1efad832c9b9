(* Properties C39-C42: choosing rules among candidates.  Reference notions:
   MinimizeSpec.v (counting, the fate of a candidate), RuleSpec.v (well-formed
   rulesets), SynthSpec.v (rules that hold in an algebra). *)
From Coq Require Import NArith ZArith Permutation.
From Verif Require Import Base BaseProofs Sexp Workload Lang LangProofs Syntax SyntaxProofs Rule Ruleset RuleSpec RulesetProofs.
From Verif Require Import BV BVSpec BVProofs DomainSpec.
From Verif Require Import Analysis Egraph EgraphSpec EgraphProofs Synth Apply Sched SynthSpec SynthProofs DeriveProofs Domains DomainAlg.
From Verif Require Import Minimize MinimizeProofs MinimizeSpec ScoreProofs MinimizeLoop MinimizeSem CheckRules PropertiesDomains PropertiesSat.
Open Scope string_scope.
Open Scope list_scope.

(* ---------------- C39 ---------------- *)

Theorem C39_score_direction : forall O (name : O -> string) is_const l r,
  score name is_const l r = score name is_const r l.
Proof. exact @score_comm. Qed.
Print Assumptions C39_score_direction.

(* the five numbers, in terms of the two sides as trees *)
Theorem C39_score_counts : forall O (name : O -> string) is_const tl tr,
  exists vars consts ops, score name is_const (to_rec tl) (to_rec tr) =
    Val [vars; - consts; - Z.max (size_of tl) (size_of tr); - (size_of tl + size_of tr); - ops]%Z /\
    card (fun v => In v (ptvars tl) \/ In v (ptvars tr)) vars /\
    occurrences (constant is_const) (subterms tl ++ subterms tr) consts /\
    card (fun s => applied name tl s \/ applied name tr s) ops.
Proof. exact @score_spec. Qed.
Print Assumptions C39_score_counts.

(* [p] is the first rule taken, [ps] are the others that are taken, [rest] those
   that stay: nobody scores higher than [p], and nobody in [rest] higher than
   somebody in [ps] *)
Theorem C39_best_first : forall O C (L : lang O C) step m inv rest sel inv',
  select L step m inv = Val (rest, sel, inv') -> 0 < step -> m <> [] ->
  exists p ps, Permutation (p :: ps ++ rest) m /\
    (forall x y, In x (p :: ps) -> x = p \/ In y rest -> In y m -> exists sx sy, rule_score L (snd x) = Val sx /\ rule_score L (snd y) = Val sy /\
       (lex_lt sy sx \/ sy = sx)) /\
    (forall e, In e sel -> exists q, In q (p :: ps) /\ (snd e = snd q \/ reverse (l_name L) (snd q) = Val (Some (snd e)))).
Proof. exact @select_best. Qed.
Print Assumptions C39_best_first.

Definition ex_cands : list string := ["(+ ?x ?y) ==> (+ ?y ?x)"; "(+ ?a ?b) ==> (+ ?b ?a)"; "(& ?a 0) ==> 0"; "(+ ?a ?a) ==> ?a"].
(* two variables score higher than one *)
Example C39_hyp : exists m rest sel inv, rs_new (bv_from_op 4) bv_name ex_cands = Val m /\
  select (bv_lang 4 ex_check) 1 m [] = Val (rest, sel, inv) /\
  map fst sel = ["(+ ?a ?b) ==> (+ ?b ?a)"] /\
  map fst rest = ["(& ?a 0) ==> 0"; "(+ ?a ?a) ==> ?a"; "(+ ?x ?y) ==> (+ ?y ?x)"] /\
  map fst inv = ["(+ ?b ?a) ==> (+ ?a ?b)"].
Proof. do 4 eexists. repeat split; vm_compute; reflexivity. Qed.

(* ---------------- C40 ---------------- *)

(* every chain of rounds of the loop is at most as long as the list of candidates *)
Theorem C40_terminates : forall O C (L : lang O C), (forall a b, l_eqb L a b = true <-> a = b) ->
  forall keep fuel st from_op ar m prior, fair st -> ruleset_ok from_op (l_name L) ar m ->
  NoDup (map fst prior) -> Forall (fun e => readable (snd e)) prior ->
  forall n (s : nat -> mstate), s 0 = (m, prior, []) -> (forall i, i < n -> round L keep fuel st (s i) (s (S i))) -> n <= length m.
Proof. exact @minimize_bound. Qed.
Print Assumptions C40_terminates.

(* what comes back was a candidate, was accepted by the validator and is new *)
Theorem C40_returns_validated : forall O C (L : lang O C), (forall a b, l_eqb L a b = true <-> a = b) ->
  forall keep fuel st from_op ar m prior, fair st -> ruleset_ok from_op (l_name L) ar m -> Forall (fun e => rkind (snd e) = KRhs) m ->
  NoDup (map fst prior) -> Forall (fun e => readable (snd e)) prior ->
  forall new invalid, minimize L keep fuel st m prior new invalid ->
  NoDup (map fst new) /\ forall k r, In (k, r) new -> rname r = k /\ ~ In k (map fst prior) /\
    l_validate L (rlhs r) (rrhs r) = Val Valid /\
    exists r0, In (k, r0) m /\ tree (rlhs r) = tree (rlhs r0) /\ tree (rrhs r) = tree (rrhs r0).
Proof. exact @minimize_returns. Qed.
Print Assumptions C40_returns_validated.

(* Two of the four candidates come back.  The first is a renaming of the second and
   is merged by it, the last is not valid. *)
Example C40_hyp : exists m new invalid, rs_new (bv_from_op 4) bv_name ex_cands = Val m /\
  minimize (bv_lang 4 ex_check) ex_keep 5 Simple m [] new invalid /\
  map fst new = ["(+ ?a ?b) ==> (+ ?b ?a)"; "(& ?a 0) ==> 0"] /\
  map fst invalid = ["(+ ?b ?a) ==> (+ ?a ?b)"; "(+ ?a ?a) ==> ?a"; "?a ==> (+ ?a ?a)"].
Proof.
  do 3 eexists. split; [vm_compute; reflexivity|]. split.
  - eexists. split; [|vm_compute; reflexivity].
    eapply Rs_more; [|eapply Rs_more; [|apply Rs_done]].
    + eapply Round; [discriminate|vm_compute; reflexivity|].
      do 3 eexists. split; [vm_compute; reflexivity|]. split.
      * eexists. split.
        { eexists. eapply RS_step.
          - eapply (RSearch _ _ _ _ _ _ _ 6 [("a", 4); ("b", 5)]); [left; reflexivity|]. split.
            + eexists. split; [reflexivity|]. apply PM_node with [4; 5].
              * repeat constructor; (eapply PM_var; [reflexivity|eqv_tac]).
              * exists (Node VAdd [4; 5]), 6. split; [cbn; tauto|]. split; [reflexivity|]. split; [repeat constructor; eqv_tac|eqv_tac].
            + repeat constructor.
          - eapply RS_step; [|apply RS_refl]. eapply RApply; [left; reflexivity|]. vm_compute. reflexivity. }
        { vm_compute. reflexivity. }
      * vm_compute. reflexivity.
    + eapply Round; [discriminate|vm_compute; reflexivity|].
      do 3 eexists. split; [vm_compute; reflexivity|]. split.
      * eexists. split; [eexists; apply RS_refl|vm_compute; reflexivity].
      * vm_compute. reflexivity.
  - split; vm_compute; reflexivity.
Qed.

(* ---------------- C41 ---------------- *)

(* Where a candidate can go: it is in the result or in the prior, it was rejected by
   the validator, or its sides were merged by rules that are in the prior or are
   validated candidates named in the result or the prior. *)
Theorem C41_accounted : forall O C (L : lang O C), (forall a b, l_eqb L a b = true <-> a = b) ->
  forall keep fuel st from_op ar m prior, fair st -> ruleset_ok from_op (l_name L) ar m ->
  NoDup (map fst prior) -> Forall (fun e => readable (snd e)) prior ->
  forall new invalid, minimize L keep fuel st m prior new invalid ->
  forall k r, In (k, r) m -> In k (map fst new) \/ In k (map fst prior) \/
    (is_valid L r = Val false /\ In k (map fst invalid)) \/
    exists rules, merged_by L keep fuel st rules r /\
      forall x, In x rules -> (In x prior \/ picked L m x) /\ (In (fst x) (map fst prior) \/ In (fst x) (map fst new)).
Proof. exact @minimize_accounted. Qed.
Print Assumptions C41_accounted.

(* Read in an algebra: when the prior rules and the result hold, so does every
   candidate that was not rejected. *)
Theorem C41_nothing_lost : forall O C V (L : lang O C), (forall a b, l_eqb L a b = true <-> a = b) ->
  (forall v, l_to_var L (l_mk_var L v) = Some v) ->
  forall keep fuel st from_op ar (A : algebra O C V) m prior new invalid, fair st -> (exists v, a_dom A v) ->
  ruleset_ok from_op (l_name L) ar m -> Forall (fun e => rkind (snd e) = KRhs) m ->
  NoDup (map fst prior) -> Forall (fun e => readable (snd e)) prior ->
  (forall e, In e prior -> In (fst e) (map fst m) -> entry_ok from_op (l_name L) ar e /\ rkind (snd e) = KRhs) ->
  minimize L keep fuel st m prior new invalid ->
  (forall env, (forall v, a_dom A (env v)) ->
     interprets L (set_vars L A env) /\ all_hold L (set_vars L A env) prior /\ all_hold L (set_vars L A env) new) ->
  forall e, In e m -> is_valid L (snd e) = Val false \/ true_rule L A (snd e).
Proof. exact @minimize_true. Qed.
Print Assumptions C41_nothing_lost.

(* the candidate that disappears in C40_hyp does so by being merged: it is neither
   returned nor rejected *)
Example C41_hyp : exists m, rs_new (bv_from_op 4) bv_name ex_cands = Val m /\ ruleset_ok (bv_from_op 4) bv_name bv_arity m /\
  Forall (fun e => rkind (snd e) = KRhs) m /\
  (exists k r, In (k, r) m /\ k = "(+ ?x ?y) ==> (+ ?y ?x)" /\ is_valid (bv_lang 4 ex_check) r = Val true).
Proof.
  eexists. split; [vm_compute; reflexivity|]. split; [|split].
  - apply (ruleset_b_ok bv_eqb bv_eqb_eq). vm_compute. reflexivity.
  - repeat constructor.
  - do 2 eexists. split; [left; reflexivity|]. split; [reflexivity|vm_compute; reflexivity].
Qed.

(* ---------------- C42 ---------------- *)

(* Every rule in the second result is a candidate the validator did not accept, or
   the reverse of a candidate. *)
Theorem C42_invalid_origin : forall O C (L : lang O C), (forall a b, l_eqb L a b = true <-> a = b) ->
  forall keep fuel st from_op ar m prior, fair st -> ruleset_ok from_op (l_name L) ar m ->
  NoDup (map fst prior) -> Forall (fun e => readable (snd e)) prior ->
  forall new invalid, minimize L keep fuel st m prior new invalid ->
  forall k r, In (k, r) invalid -> rname r = k /\ exists p, In p m /\
    ((r = snd p /\ is_valid L r = Val false) \/ reverse (l_name L) (snd p) = Val (Some r)).
Proof. exact @minimize_invalid. Qed.
Print Assumptions C42_invalid_origin.

(* In one round: the reverse of a candidate is put there when the validator does not
   accept it or when it is not among the remaining candidates. *)
Theorem C42_round : forall O C (L : lang O C) step m inv rest sel inv',
  select L step m inv = Val (rest, sel, inv') ->
  forall k r, In (k, r) inv' -> In (k, r) inv \/ (rname r = k /\ exists p, In p m /\
    ((r = snd p /\ is_valid L r = Val false) \/
     (reverse (l_name L) (snd p) = Val (Some r) /\ (is_valid L r = Val false \/ ~ In k (map fst rest))))).
Proof. exact @select_invalid. Qed.
Print Assumptions C42_round.

(* The validator accepts the rule, and it is in the second result. *)
Theorem C42_not_rejected_refuted : exists m new invalid r, rs_new (bv_from_op 4) bv_name ["(+ ?a ?b) ==> (+ ?b ?a)"] = Val m /\
  minimize (bv_lang 4 ex_check) ex_keep 5 Simple m [] new invalid /\
  In (rname r, r) invalid /\ rname r = "(+ ?b ?a) ==> (+ ?a ?b)" /\ is_valid (bv_lang 4 ex_check) r = Val true.
Proof.
  do 3 eexists. eexists (Rule _ _ _ _). split; [vm_compute; reflexivity|]. split; [|split; [|split]].
  - eexists. split; [|vm_compute; reflexivity]. eapply Rs_more; [|apply Rs_done].
    eapply Round; [discriminate|vm_compute; reflexivity|].
    do 3 eexists. split; [vm_compute; reflexivity|]. split.
    + eexists. split; [eexists; apply RS_refl|vm_compute; reflexivity].
    + vm_compute. reflexivity.
  - left. reflexivity.
  - reflexivity.
  - vm_compute. reflexivity.
Qed.
Print Assumptions C42_not_rejected_refuted.
