(* Property C68: conditional rules of the rational domain.  Reference notions:
   ConditionalSpec.v (denominators of a term, the guarded right-hand side, value of a
   pattern), RationalSpec.v, OpsSpec.v and LearntSpec.v (rules that can be saved and
   read, rules that are true). *)
From Coq Require Import Permutation ZArith QArith Qcanon.
From Verif Require Import Base Sexp Reader Filter Workload Lang LangProofs Syntax Rule RuleSpec Ruleset Rational RationalSpec RationalValidate.
From Verif Require Import RationalProofs Egraph EgraphSpec Synth Domains Apply Sched Extract Match Minimize Infer OpsSpec LearntSpec.
From Verif Require Import Conditional ConditionalSpec ConditionalProofs ConditionalLearn.
From Verif Require Import PropertiesSat PropertiesLearnt.
Open Scope string_scope.
Open Scope list_scope.

(* the condition added to a rule: the only denominator that one side has and the
   other has not *)
Theorem C68_condition : forall (r : rule math_op) tl tr,
  pat_ok math_from_op math_name math_arity (rlhs r) tl -> pat_ok math_from_op math_name math_arity (rrhs r) tr -> incl (ptvars tr) (ptvars tl) ->
  (exists d n, only_one_sided tl tr d /\ add_condition r = Val (Some (Rule n (rlhs r) (to_rec (guarded d tl tr)) KPat)) /\
     rule_name math_name (rlhs r) (to_rec (guarded d tl tr)) = Val n /\
     pat_ok math_from_op math_name math_arity (to_rec (guarded d tl tr)) (guarded d tl tr) /\ incl (ptvars (guarded d tl tr)) (ptvars tl)) \/
  ((forall d, ~ only_one_sided tl tr d) /\ add_condition r = Val None).
Proof. exact add_condition_spec. Qed.
Print Assumptions C68_condition.

(* where the sides agree when both have values, guarding makes the rule keep every
   value, and having no value *)
Theorem C68_same : forall l tl r tr d,
  pat_ok math_from_op math_name math_arity l tl -> pat_ok math_from_op math_name math_arity r tr -> only_one_sided tl tr d ->
  unconditional tl -> unconditional tr -> agree tl tr ->
  forall env, pat_value env (guarded d tl tr) = pat_value env tl.
Proof. intros l tl r tr d (_ & Wl & Tl & _) (_ & Wr & Tr & _). exact (guarded_same tl tr d Tl Wl Tr Wr). Qed.
Print Assumptions C68_same.
(* and a solver that refutes every formula that is false accepts it *)
Theorem C68_accepted : forall check l tl r tr d v, real_complete check ->
  pat_ok math_from_op math_name math_arity l tl -> pat_ok math_from_op math_name math_arity r tr ->
  math_validate check l r = Val v -> only_one_sided tl tr d -> unconditional tl -> unconditional tr -> agree tl tr ->
  pat_ok math_from_op math_name math_arity (to_rec (guarded d tl tr)) (guarded d tl tr) ->
  math_validate check l (to_rec (guarded d tl tr)) = Val Valid.
Proof. exact guarded_accepted. Qed.
Print Assumptions C68_accepted.

(* With conditionals in the rule this fails: here is a rule whose sides agree
   wherever both have values, which a right solver rejects, whose guarded form a
   complete solver accepts, and whose guarded form turns 0 into a division by zero. *)
Definition asked (l r : pat math_op) : res zbool :=
  let* le := fold_rec math_to_z3 (instantiate MVar l) in
  let* re := fold_rec math_to_z3 (instantiate MVar r) in
  let* ls := pat_to_sexp l in
  let* ld := error_conditions ls (FBool true) in
  let* rs := pat_to_sexp r in
  let* rd := error_conditions rs (FBool true) in
  Val (FNot (math_assertion le re ld rd)).
Lemma asked_validate check l r f : asked l r = Val f ->
  math_validate check l r = Val (match check f with Unsat => Valid | Sat => Invalid | SUnknown => Unknown end).
Proof.
  unfold asked, math_validate. intros H.
  repeat match type of H with rbind ?e _ = _ => destruct e; cbn [rbind] in *; [|discriminate H] end.
  injection H as <-. reflexivity.
Qed.
Definition ex_if_l := "(if ?a (/ 1 ?a) 0)".
Definition ex_if_r := "(if (/ 1 (/ ?a ?a)) (if ?a (/ 1 ?a) 0) (+ (if ?a (/ 1 ?a) 0) 1))".
Local Notation ea := (T (PV "a") []).
Local Notation eq x := (T (EN (MLit (Q2Qc x))) []).
Local Notation ediv x y := (T (EN MDiv) [x; y]).
Definition ex_lt : term (eov math_op) := T (EN MIf) [ea; ediv (eq 1) ea; eq 0].
Definition ex_rt : term (eov math_op) := T (EN MIf) [ediv (eq 1) (ediv ea ea); ex_lt; T (EN MAdd) [ex_lt; eq 1]].
Definition ex_rule : rule math_op := Rule (ex_if_l ++ " ==> " ++ ex_if_r) (to_rec ex_lt) (to_rec ex_rt) KRhs.
Definition ex_rule' : rule math_op := Rule (ex_if_l ++ " ==> (if (/ ?a ?a) " ++ ex_if_r ++ " " ++ ex_if_l ++ ")") (to_rec ex_lt) (to_rec (guarded (ediv ea ea) ex_lt ex_rt)) KPat.
Lemma qself a : a <> Q2Qc 0 -> (a / a = Q2Qc 1)%Qc.
Proof. intros N. unfold Qcdiv. now apply Qcmult_inv_r. Qed.
Lemma qover a : a <> Q2Qc 0 -> (Q2Qc 1 / a)%Qc <> Q2Qc 0.
Proof. intros N H. pose proof (Qcmult_inv_r a N) as X. unfold Qcdiv in H. rewrite Qcmult_1_l in H. rewrite H in X. rewrite Qcmult_0_r in X. discriminate X. Qed.
Lemma ex_lt_value env : pat_value env ex_lt = Val (Some (if Qc_eq_dec (env "a") (Q2Qc 0) then Q2Qc 0 else (Q2Qc 1 / env "a")%Qc)).
Proof. unfold pat_value, math_den. cbn -[Q2Qc]. now destruct (Qc_eq_dec (env "a") (Q2Qc 0)). Qed.
Lemma ex_rt_value env : pat_value env ex_rt = Val (if Qc_eq_dec (env "a") (Q2Qc 0) then None else Some (Q2Qc 1 / env "a")%Qc).
Proof.
  unfold pat_value, math_den. cbn -[Q2Qc]. destruct (Qc_eq_dec (env "a") (Q2Qc 0)) as [|N]; [reflexivity|]. rewrite (qself _ N). reflexivity.
Qed.
Definition ex_f1 : zbool := match asked (rlhs ex_rule) (rrhs ex_rule) with Val f => f | Panic => FBool true end.
Definition ex_f2 : zbool := match asked (rlhs ex_rule') (rrhs ex_rule') with Val f => f | Panic => FBool true end.
Lemma ex_f1_sat : fden (fun _ => Q2Qc 0) (fun _ => Q2Qc 0) ex_f1 = true.
Proof. vm_compute. reflexivity. Qed.
Lemma ex_f2_unsat : forall div0 env, fden div0 env ex_f2 = false.
Proof.
  intros div0 env. unfold ex_f2.
  match goal with |- context [asked ?l ?r] => let x := eval vm_compute in (asked l r) in change (asked l r) with x end.
  cbv iota beta.
  assert (Z0 : forall c, {| this := 0; Qcanon.canon := c |} = Q2Qc 0) by (intros c; apply Qc_is_canon; reflexivity).
  assert (Z1 : forall c, {| this := 1; Qcanon.canon := c |} = Q2Qc 1) by (intros c; apply Qc_is_canon; reflexivity).
  rewrite !Z0, !Z1. cbn -[Q2Qc].
  destruct (Qc_eq_dec (env "a") (Q2Qc 0)) as [E|N].
  - rewrite E. destruct (Qc_eq_dec (div0 (Q2Qc 0)) (Q2Qc 0)) as [D|D].
    + reflexivity.
    + destruct (Qc_eq_dec (Q2Qc 1 / div0 (Q2Qc 0))%Qc (Q2Qc 0)) as [X|_]; [elim (qover _ D X)|]. reflexivity.
  - rewrite (qself _ N). destruct (Qc_eq_dec (Q2Qc 1) (Q2Qc 0)) as [X|_]; [discriminate X|].
    destruct (Qc_eq_dec (Q2Qc 1 / Q2Qc 1) (Q2Qc 0)) as [X|_]; [discriminate X|]. cbn -[Q2Qc]. destruct (Qc_eq_dec (Q2Qc 1 / env "a") (Q2Qc 1 / env "a")) as [_|X]; [|elim (X eq_refl)]. reflexivity.
Qed.
Theorem C68_if_refuted : exists r tl tr x tx, rule_from_string math_from_op math_name (ex_if_l ++ " ==> " ++ ex_if_r) = Val (Some (r, None)) /\
  tree (rlhs r) = Val tl /\ tree (rrhs r) = Val tr /\ agree tl tr /\
  (forall check, real_unsat_right check -> math_validate check (rlhs r) (rrhs r) <> Val Valid) /\
  add_condition r = Val (Some x) /\ rlhs x = rlhs r /\ tree (rrhs x) = Val tx /\
  (forall check, real_complete check -> math_validate check (rlhs x) (rrhs x) = Val Valid) /\
  forall env, env "a" = qzero -> pat_value env tl = Val (Some qzero) /\ pat_value env tx = Val None.
Proof.
  exists ex_rule, ex_lt, ex_rt, ex_rule', (guarded (ediv ea ea) ex_lt ex_rt).
  split; [vm_compute; reflexivity|]. split; [vm_compute; reflexivity|]. split; [vm_compute; reflexivity|].
  split; [|split; [|split; [vm_compute; reflexivity|split; [reflexivity|split; [vm_compute; reflexivity|split]]]]].
  - intros env p q. rewrite ex_lt_value, ex_rt_value. destruct (Qc_eq_dec (env "a") (Q2Qc 0)); congruence.
  - intros check Hu. rewrite (asked_validate check _ _ ex_f1) by (vm_compute; reflexivity). destruct (check ex_f1) eqn:E; try discriminate.
    specialize (Hu _ E (fun _ => Q2Qc 0) (fun _ => Q2Qc 0)). rewrite ex_f1_sat in Hu. discriminate.
  - intros check Hc. rewrite (asked_validate check _ _ ex_f2) by (vm_compute; reflexivity). rewrite (Hc _ ex_f2_unsat). reflexivity.
  - intros env E. rewrite ex_lt_value, E. split; [reflexivity|].
    assert (Vl := ex_lt_value env). assert (Vr := ex_rt_value env). unfold pat_value, math_den in *. cbn -[Q2Qc ex_lt ex_rt].
    rewrite Vl, Vr, E. reflexivity.
Qed.
Print Assumptions C68_if_refuted.

(* ---- running run_workload_conditional ---- *)
(* adding conditions never panics on what the first minimization rejects *)
Theorem C68_no_panic : forall ov check keep fuel w prior, NoDup (map fst prior) -> read_rules (math_lang ov check) prior ->
  forall fast g c cands order chosen invalid, to_egraph (math_lang ov check) keep fuel w = Val g ->
  compressed (math_lang ov check) keep fuel prior g c -> proposed (math_lang ov check) fuel fast c cands ->
  minimize (math_lang ov check) keep fuel (Compress order) cands prior chosen invalid ->
  exists added, with_condition invalid = Val added.
Proof.
  intros ov check keep fuel w prior Np Rp fast g c cands order chosen invalid E Cm Pr M.
  destruct (conditions_added ov check keep fuel w prior Rp fast g c cands order chosen invalid E Cm Pr M) as (added & H & _). now exists added.
Qed.
Print Assumptions C68_no_panic.
(* what is returned: no key twice, rules that can be printed and read back, every one of them true *)
Theorem C68_learned : forall ov check keep fuel w prior fast result, NoDup (map fst prior) -> read_rules (math_lang ov check) prior ->
  run_workload_conditional ov check keep fuel w prior fast result ->
  NoDup (map fst result) /\ read_rules (math_lang ov check) result /\ reloads (math_lang ov check) result /\
  (forall k r, In (k, r) result -> l_validate (math_lang ov check) (rlhs r) (rrhs r) = Val Valid) /\
  (real_unsat_right check -> forall k r, In (k, r) result -> rational_identity r).
Proof.
  intros ov check keep fuel w prior fast result Np Rp H. destruct (conditional_run ov check keep fuel w prior Np Rp fast result H) as (N & F & _).
  split; [exact N|]. destruct (sound_ready ov check result N F) as [R1 R2]. split; [exact R1|]. split; [exact R2|]. rewrite Forall_forall in F. split.
  - intros k r I. exact (proj1 (F _ I)).
  - intros Hu k r I. exact (sound_identity ov check Hu _ (F _ I)).
Qed.
Print Assumptions C68_learned.
(* and every rule is a candidate, or a candidate with the condition added, read in one
   of the two directions *)
Theorem C68_origin : forall ov check keep fuel w prior fast result, NoDup (map fst prior) -> read_rules (math_lang ov check) prior ->
  run_workload_conditional ov check keep fuel w prior fast result ->
  exists g c cands, to_egraph (math_lang ov check) keep fuel w = Val g /\ compressed (math_lang ov check) keep fuel prior g c /\
    proposed (math_lang ov check) fuel fast c cands /\ Forall (fun e => comes_from cands (snd e)) result.
Proof. intros ov check keep fuel w prior fast result Np Rp H. exact (proj2 (proj2 (conditional_run ov check keep fuel w prior Np Rp fast result H))). Qed.
Print Assumptions C68_origin.

(* no candidate is lost: each is a prior rule or a returned one by name, or follows
   from prior and validated rules of such names, or is rejected; and then the
   conditional form of the rejected rule, if it has one, is returned or prior by
   name, or follows, or is rejected itself *)
Theorem C68_accounted : forall ov check keep fuel w prior fast, NoDup (map fst prior) -> read_rules (math_lang ov check) prior ->
  Forall (fun e => DeriveProofs.readable (snd e)) prior ->
  forall result, run_workload_conditional ov check keep fuel w prior fast result ->
  let L := math_lang ov check in
  exists g c cands, to_egraph L keep fuel w = Val g /\ compressed L keep fuel prior g c /\ proposed L fuel fast c cands /\
    forall k r, In (k, r) cands -> let keys := map fst prior ++ map fst result in
      In k keys \/ follows L keep fuel prior keys r \/
      (is_valid L r = Val false /\ exists r', rname r' = k /\
        (add_condition r' = Val None \/
         exists x, add_condition r' = Val (Some x) /\
           (In (rname x) keys \/ exists x', rname x' = rname x /\ (is_valid L x' = Val false \/ follows L keep fuel prior keys x')))).
Proof. intros ov check keep fuel w prior fast Np Rp Dp result H. exact (conditional_accounted ov check keep fuel w prior Np Rp fast Dp result H). Qed.
Print Assumptions C68_accounted.

(* a / a and 1 agree wherever a / a has a value; the rule between them is rejected,
   and learned with its condition *)
Definition ex_check (f : zbool) : sat_result :=
  match f with
  | FNot (FAnd (FImplies (FNot (FAnd (FEq (RVar a1) (RNum z1)) (FAnd (FBool true) (FEq (RVar a2) (RNum z2)))))
                 (FImplies (FNot (FAnd (FEq (RVar a3) (RNum z3)) (FBool true)))
                    (FEq (RDiv (RVar a4) (RVar a5)) (RIte (FNot (FEq (RVar a6) (RNum z4))) (RNum z5) (RDiv (RVar a7) (RVar a8))))))
               (FIff (FOr (FAnd (FEq (RVar a9) (RNum z6)) (FAnd (FBool true) (FEq (RVar a10) (RNum z7)))) (FBool false))
                     (FOr (FAnd (FEq (RVar a11) (RNum z8)) (FBool true)) (FBool false)))) =>
      if forallb (String.eqb a1) [a2; a3; a4; a5; a6; a7; a8; a9; a10; a11] && forallb (qeqb qzero) [z1; z2; z3; z4; z6; z7; z8] && qeqb (Q2Qc 1) z5 then Unsat else SUnknown
  | _ => SUnknown
  end.
Lemma ex_check_right : real_unsat_right ex_check.
Proof.
  intros f H div0 env. unfold ex_check in H.
  repeat match type of H with
  | match ?x with _ => _ end = Unsat => is_var x; destruct x; try discriminate H
  end.
  match type of H with (if ?b then _ else _) = _ => destruct b eqn:E; [|discriminate H] end.
  cbn [forallb] in E. repeat apply andb_true_iff in E as [E ?].
  repeat match goal with X : _ && _ = true |- _ => apply andb_true_iff in X as [? ?] end.
  repeat match goal with X : String.eqb _ _ = true |- _ => apply String.eqb_eq in X; subst end.
  repeat match goal with X : qeqb _ _ = true |- _ => apply qeqb_spec in X; subst end.
  cbn -[Q2Qc qzero]. match goal with |- context [env ?s] => destruct (Qc_eq_dec (env s) qzero) as [E|N] end.
  - reflexivity.
  - change qzero with (Q2Qc 0) in N. match goal with |- context [Qc_eq_dec (env ?s) (Q2Qc 0)] => destruct (Qc_eq_dec (env s) (Q2Qc 0)) as [X|_]; [elim (N X)|] end.
    rewrite (qself _ N). reflexivity.
Qed.
Definition ex_w : workload := WSet [Lst [Atom "/"; Atom "a"; Atom "a"]; Atom "1"].
Example C68_hyp : real_unsat_right ex_check /\
  (exists r x, rule_from_string math_from_op math_name "(/ (* ?a ?b) ?b) ==> ?a" = Val (Some (r, None)) /\ add_condition r = Val (Some x) /\
     rname x = "(/ (* ?a ?b) ?b) ==> (if ?b ?a (/ (* ?a ?b) ?b))") /\
  exists result, run_workload_conditional no_ov ex_check ex_keep 9 ex_w [] false result /\
    map fst result = ["(/ ?a ?a) ==> (if ?a 1 (/ ?a ?a))"].
Proof.
  split; [exact ex_check_right|]. split; [do 2 eexists; split; [vm_compute; reflexivity|split; vm_compute; reflexivity]|].
  eexists. split.
  - do 3 eexists. exists (fun l => l). do 3 eexists. exists (fun l => l). do 2 eexists. split; [vm_compute; reflexivity|]. split; [|split; [|split; [|split; [|split; [|split; [|split]]]]]].
    + exists (fun l => l). split; [intros X; apply Permutation_refl|]. eexists. split; [eexists; split; [eexists; apply RS_refl|vm_compute; reflexivity]|vm_compute; reflexivity].
    + exists [0; 1; 2], (fun l => l). split; [split; [vm_compute; apply Permutation_refl|intros X; apply Permutation_refl]|vm_compute; reflexivity].
    + intros X; apply Permutation_refl.
    + eexists. split.
      * eapply Rs_more; [|apply Rs_done]. eapply Round; [discriminate|vm_compute; reflexivity|].
        do 3 eexists. split; [vm_compute; reflexivity|]. split; [|vm_compute; reflexivity].
        eexists. split; [eexists; split; [eexists; apply RS_refl|vm_compute; reflexivity]|vm_compute; reflexivity].
      * vm_compute. reflexivity.
    + vm_compute. reflexivity.
    + intros X; apply Permutation_refl.
    + eexists. split.
      * eapply Rs_more; [|apply Rs_done]. eapply Round; [discriminate|vm_compute; reflexivity|].
        do 3 eexists. split; [vm_compute; reflexivity|]. split; [|vm_compute; reflexivity].
        eexists. split; [eexists; split; [eexists; apply RS_refl|vm_compute; reflexivity]|vm_compute; reflexivity].
      * vm_compute. reflexivity.
    + vm_compute. reflexivity.
  - vm_compute. reflexivity.
Qed.
