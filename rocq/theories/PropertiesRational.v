(* Properties C26 and C27: the rational domain.  Reference notions: RationalSpec.v
   and [within] of DomainSpec.v. *)
From Coq Require Import QArith Qcanon.
From Verif Require Import Base BaseProofs EnumSpec Lang LangProofs Syntax SyntaxProofs Rule Ruleset RuleSpec RuleTextProofs.
From Verif Require Import DomainSpec Number Rational RationalSpec RationalProofs RationalValidate.
Open Scope string_scope.
Open Scope list_scope.

Definition qz (z : Z) : Qc := Q2Qc (inject_Z z).

(* ---------------- C26 ---------------- *)

(* The interval helpers give an interval, and it contains the result for all
   members of their arguments. *)
Theorem C26_interval_helpers : forall i j x y, within Qcle i x -> within Qcle j y ->
  (exists k, itv_neg i = Val k /\ within Qcle k (- x)%Qc) /\
  (exists k, itv_add i j = Val k /\ within Qcle k (x + y)%Qc) /\
  (exists k, itv_mul i j = Val k /\ within Qcle k (x * y)%Qc) /\
  (exists k, itv_recip i = Val k /\ within Qcle k (/ x)%Qc).
Proof.
  intros i j x y Hx Hy. split; [now apply itv_neg_sound|]. split; [now apply itv_add_sound|].
  split; [now apply itv_mul_sound|now apply itv_recip_sound].
Qed.
Print Assumptions C26_interval_helpers.

(* recip is exact on intervals without zero: it does not give up. *)
Theorem C26_recip_tight : forall a b, (a <= b)%Qc -> (0 < a)%Qc \/ (b < 0)%Qc ->
  itv_recip (Itv (Some a) (Some b)) = Val (Itv (Some (/ b)%Qc) (Some (/ a)%Qc)).
Proof. exact itv_recip_tight. Qed.
Print Assumptions C26_recip_tight.

(* abs is not sound: it panics on [-5, 3], and the interval it gives for
   [-5, infinity) misses the absolute value of 0. *)
Theorem C26_abs_refuted :
  (within Qcle (Itv (Some (qz (-5))) (Some (qz 3))) (qz 0) /\ itv_abs (Itv (Some (qz (-5))) (Some (qz 3))) = Panic) /\
  exists k, within Qcle (Itv (Some (qz (-5))) None) (qz 0) /\ itv_abs (Itv (Some (qz (-5))) None) = Val k /\
    ~ within Qcle k (qz 0).
Proof.
  split.
  - split; [split; intros ? E; inversion E; subst; vm_compute; discriminate|vm_compute; reflexivity].
  - eexists. split; [split; intros ? E; inversion E; subst; vm_compute; discriminate|].
    split; [vm_compute; reflexivity|]. intros [H _]. specialize (H _ eq_refl). apply H. vm_compute. reflexivity.
Qed.
Print Assumptions C26_abs_refuted.

(* Constant folding: the interval of a term contains its value; and when it is a
   single point the term has a value (it does not divide by zero) under every
   assignment, namely that point. *)
Theorem C26_folding : forall ov t i, fold_term (math_mk_interval ov) t = Val i -> forall env,
  exists v, math_den env t = Val v /\
    (forall q, v = Some q -> within Qcle i q) /\
    (forall c, i = Itv (Some c) (Some c) -> v = Some c).
Proof.
  intros ov t i H env. destruct (math_interval_term ov env t i H) as (v & E & R1 & R2). exists v. split; [exact E|].
  split; [exact R1|]. intros c ->. apply R2. apply get_const_point.
Qed.
Print Assumptions C26_folding.

(* Without overflow every closed term that has a value is folded to it. *)
Theorem C26_folding_complete : forall t i q, fold_term (math_mk_interval (fun _ _ _ => false)) t = Val i ->
  tvars math_to_var t = [] -> (exists env, math_den env t = Val (Some q)) -> i = Itv (Some q) (Some q).
Proof. intros t i q H Hv (env & E). exact (math_fold_complete env t i q H Hv E). Qed.
Print Assumptions C26_folding_complete.

(* Characteristic vectors: the entry of a row, when there is one, is the value of
   the term under the assignment of the row; without overflow it is missing only
   when the term divides by zero. *)
Theorem C26_cvec : forall ov n r vc env t c, r < n ->
  (forall s, In s (tvars math_to_var t) -> length (vc s) = n /\ nth r (vc s) None = Some (env s)) ->
  cvec_term (math_eval ov) math_to_var n vc t = Val c ->
  exists v, math_den env t = Val v /\ length c = n /\
    (forall q, nth r c None = Some q -> v = Some q) /\
    ((forall o x y, ov o x y = false) -> nth r c None = v).
Proof. intros ov n r vc env t c Hr Hv H. exact (math_cvec_row ov n r vc env Hr t c Hv H). Qed.
Print Assumptions C26_cvec.

Example C26_hyp :
  within Qcle (Itv (Some (qz (-2))) (Some (qz 3))) (qz 1) /\ within Qcle (Itv None (Some (qz (-1)))) (qz (-4)) /\
  (exists i, fold_term (math_mk_interval (fun _ _ _ => false)) (T MDiv [T MAdd [T (MLit (qz 1)) []; T (MLit (qz 2)) []]; T (MLit (qz 3)) []]) =
    Val i /\ i <> full) /\
  exists q, cvec_term (math_eval (fun _ _ _ => false)) math_to_var 2 (fun _ => [Some (qz 0); Some (qz 2)]) (T MDiv [T (MLit (qz 1)) []; T (MVar "x") []]) =
    Val [None; Some q].
Proof.
  split; [split; intros ? E; inversion E; subst; vm_compute; discriminate|].
  split; [split; intros ? E; inversion E; subst; vm_compute; discriminate|].
  split; [eexists; split; [vm_compute; reflexivity|discriminate]|eexists; vm_compute; reflexivity].
Qed.

(* ---------------- C27 ---------------- *)

(* Both sides of a validated rule, wherever both have a value, have the same.
   [inst_term] turns the pattern variables into variables of the language. *)
Theorem C27_values : forall check l tl r tr, real_unsat_right check ->
  pat_ok math_from_op math_name math_arity l tl -> pat_ok math_from_op math_name math_arity r tr ->
  math_validate check l r = Val Valid ->
  forall env p q, math_den env (inst_term MVar tl) = Val (Some p) -> math_den env (inst_term MVar tr) = Val (Some q) -> p = q.
Proof. intros check l tl r tr Hu Hl Hr H env p q. exact (validate_values check l tl r tr env p q Hu Hl Hr H). Qed.
Print Assumptions C27_values.

(* If no condition of a conditional contains a division, both sides divide by
   zero under the same assignments. *)
Theorem C27_errors : forall check l tl r tr, real_unsat_right check ->
  pat_ok math_from_op math_name math_arity l tl -> pat_ok math_from_op math_name math_arity r tr ->
  math_validate check l r = Val Valid ->
  safe_ifs (inst_term MVar tl) -> safe_ifs (inst_term MVar tr) ->
  forall env, math_den env (inst_term MVar tl) = Val None <-> math_den env (inst_term MVar tr) = Val None.
Proof. intros check l tl r tr Hu Hl Hr H Sl Sr env. exact (validate_errors check l tl r tr env Hu Hl Hr H Sl Sr). Qed.
Print Assumptions C27_errors.

(* "(if (/ 0 ?a) ?b ?b) ==> ?b" is validated by every solver that proves valid
   formulas, although its left side divides by zero when ?a is 0. *)
Definition ex_q : Qc := qzero.
Definition ex_ifl : pat math_op :=
  [Node (EN (MLit ex_q)) []; Node (PV "a") []; Node (EN MDiv) [0; 1]; Node (PV "b") []; Node (EN MIf) [2; 3; 3]].
Definition ex_ifr : pat math_op := [Node (PV "b") []].
Theorem C27_condition_errors_refuted : exists tl tr,
  tree ex_ifl = Val tl /\ tree ex_ifr = Val tr /\
  (forall check, (forall f, (forall div0 env, fden div0 env f = false) -> check f = Unsat) ->
     math_validate check ex_ifl ex_ifr = Val Valid) /\
  exists env q, math_den env (inst_term MVar tl) = Val None /\ math_den env (inst_term MVar tr) = Val (Some q).
Proof.
  eexists. eexists. split; [reflexivity|]. split; [reflexivity|]. split.
  - intros check H. unfold math_validate.
    destruct (fold_rec math_to_z3 (instantiate MVar ex_ifl)) as [le|] eqn:E1; vm_compute in E1; [|discriminate].
    destruct (fold_rec math_to_z3 (instantiate MVar ex_ifr)) as [re|] eqn:E2; vm_compute in E2; [|discriminate].
    inversion E1; inversion E2; subst le re. cbn [rbind].
    destruct (pat_to_sexp ex_ifl) as [ls|] eqn:E3; vm_compute in E3; [|discriminate]. inversion E3; subst ls. cbn [rbind].
    destruct (pat_to_sexp ex_ifr) as [rs|] eqn:E4; vm_compute in E4; [|discriminate]. inversion E4; subst rs. cbn [rbind].
    match goal with |- context [error_conditions ?s ?p] => destruct (error_conditions s p) as [lc|] eqn:E5; vm_compute in E5; [|discriminate] end.
    inversion E5; subst lc. cbn [rbind].
    match goal with |- context [error_conditions ?s ?p] => destruct (error_conditions s p) as [rc|] eqn:E6; vm_compute in E6; [|discriminate] end.
    inversion E6; subst rc. cbn [rbind].
    rewrite H; [reflexivity|]. intros div0 env. cbn [math_assertion fold_left app f_or fold_right fden rden].
    match goal with |- context [if negb ?c then env "b" else _] => destruct (negb c) end;
    destruct (Qc_eq_dec (env "b") (env "b")); try reflexivity; contradiction.
  - exists (fun _ => Q2Qc 0), (Q2Qc 0). split; vm_compute; reflexivity.
Qed.
Print Assumptions C27_condition_errors_refuted.

(* A literal that does not fit 32 bits makes validate panic. *)
Theorem C27_wide_literal_refuted : exists z, in_i64 z = true /\
  forall check r, math_validate check [Node (EN (MLit (qz z))) []] r = Panic.
Proof. exists 4294967296%Z. split; [reflexivity|]. intros check r. reflexivity. Qed.
Print Assumptions C27_wide_literal_refuted.

(* a solver that is right and proves one family of formulas *)
Definition ex_check (f : zbool) : sat_result :=
  match f with
  | FNot (FAnd (FImplies (FNot (FAnd (FEq (RVar c1) (RNum z1)) (FBool true)))
                 (FImplies (FNot (FAnd (FEq (RVar c2) (RNum z2)) (FBool true)))
                    (FEq (RAdd (RVar a) (RDiv (RVar b) (RVar c))) (RAdd (RDiv (RVar b') (RVar c')) (RVar a')))))
               (FIff (FOr (FAnd (FEq (RVar c3) (RNum z3)) (FBool true)) (FBool false))
                     (FOr (FAnd (FEq (RVar c4) (RNum z4)) (FBool true)) (FBool false)))) =>
      if String.eqb a a' && String.eqb b b' && String.eqb c c' && String.eqb c3 c4 && qeqb z3 z4 then Unsat else SUnknown
  | _ => SUnknown
  end.
Lemma ex_check_right : real_unsat_right ex_check.
Proof.
  intros f H div0 env. unfold ex_check in H.
  repeat match type of H with
  | match ?x with _ => _ end = Unsat => is_var x; destruct x; try discriminate H
  end.
  match type of H with (if ?b then _ else _) = _ => destruct b eqn:E; [|discriminate H] end.
  repeat apply andb_true_iff in E as [E ?].
  repeat match goal with X : String.eqb _ _ = true |- _ => apply String.eqb_eq in X; subst end.
  match goal with X : qeqb _ _ = true |- _ => apply qeqb_spec in X; subst end.
  cbn [fden rden]. rewrite Bool.eqb_reflx, andb_true_r.
  match goal with |- context [Qc_eq_dec (?x + ?y) (?y + ?x)] => destruct (Qc_eq_dec (x + y) (y + x)) as [|N]; [|destruct N; apply Qcplus_comm] end.
  rewrite !implb_true_r. reflexivity.
Qed.
Definition ex_dl : pat math_op :=
  [Node (PV "a") []; Node (PV "b") []; Node (PV "c") []; Node (EN MDiv) [1; 2]; Node (EN MAdd) [0; 3]].
Definition ex_dr : pat math_op :=
  [Node (PV "a") []; Node (PV "b") []; Node (PV "c") []; Node (EN MDiv) [1; 2]; Node (EN MAdd) [3; 0]].
Definition ex_dlt : term (eov math_op) := T (EN MAdd) [T (PV "a") []; T (EN MDiv) [T (PV "b") []; T (PV "c") []]].
Definition ex_drt : term (eov math_op) := T (EN MAdd) [T (EN MDiv) [T (PV "b") []; T (PV "c") []]; T (PV "a") []].
Lemma math_en_ok o : math_arity o <> 0 -> eov_ok math_from_op math_name math_arity (EN o).
Proof.
  intros H. destruct o; try (destruct (H eq_refl));
    (split; [split; [discriminate|reflexivity]|]; split; [apply split_arrow_none; reflexivity|];
     split; [reflexivity|intros c s E; discriminate E]).
Qed.
Lemma math_pv_ok s : word s -> split_arrow s = None -> eov_ok math_from_op math_name math_arity (PV s).
Proof. intros H1 H2. split; [exact H1|now apply split_arrow_none]. Qed.
Example C27_hyp : real_unsat_right ex_check /\
  pat_ok math_from_op math_name math_arity ex_dl ex_dlt /\ pat_ok math_from_op math_name math_arity ex_dr ex_drt /\
  math_validate ex_check ex_dl ex_dr = Val Valid /\
  safe_ifs (inst_term MVar ex_dlt) /\ safe_ifs (inst_term MVar ex_drt).
Proof.
  split; [exact ex_check_right|].
  assert (forall s, word s -> split_arrow s = None -> tall (eov_ok math_from_op math_name math_arity) (T (PV s) [])) as V.
  { intros s H1 H2. constructor; [now apply math_pv_ok|constructor]. }
  assert (tall (eov_ok math_from_op math_name math_arity) (T (EN MDiv) [T (PV "b") []; T (PV "c") []])) as D.
  { constructor; [apply math_en_ok; discriminate|].
    repeat (constructor; [apply V; [split; [discriminate|reflexivity]|reflexivity]|]). constructor. }
  assert (tall (eov_ok math_from_op math_name math_arity) (T (PV "a") [])) as A by (apply V; [split; [discriminate|reflexivity]|reflexivity]).
  split; [|split; [|split]].
  - split; [reflexivity|]. split; [repeat constructor|]. split.
    + constructor; [apply math_en_ok; discriminate|]. auto.
    + intros n v H E. cbn in H. repeat destruct H as [<-|H]; try contradiction; cbn in E; inversion E; subst; cbn; auto.
  - split; [reflexivity|]. split; [repeat constructor|]. split.
    + constructor; [apply math_en_ok; discriminate|]. auto.
    + intros n v H E. cbn in H. repeat destruct H as [<-|H]; try contradiction; cbn in E; inversion E; subst; cbn; auto.
  - vm_compute. reflexivity.
  - assert (forall s, safe_ifs (T (MVar s) [])) as S1 by (intros s; constructor; [intros t []|discriminate]).
    assert (safe_ifs (T MDiv [T (MVar "b") []; T (MVar "c") []])) as S2.
    { constructor; [|discriminate]. intros t Ht. cbn in Ht. repeat destruct Ht as [<-|Ht]; auto; contradiction. }
    split; (constructor; [|discriminate]); intros t Ht; cbn in Ht; repeat destruct Ht as [<-|Ht]; auto; contradiction.
Qed.
