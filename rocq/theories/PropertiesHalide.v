(* Property C28: the Halide domain.  Reference notions: HalideSpec.v. *)
From Coq Require Import ZArith.
From Verif Require Import Base BaseProofs Lang LangProofs Util UtilProofs Number Halide HalideSpec HalideProofs.
Open Scope string_scope.
Open Scope list_scope.
Local Open Scope Z_scope.

(* The interpreter: the entry of a row, when there is one, is the value of the
   term with division rounding towards zero; it is there when all values fit 64
   bits. *)
Theorem C28_interpreter : forall n r vc env t c, (r < n)%nat ->
  (forall s, In s (tvars hal_to_var t) -> length (vc s) = n /\ nth r (vc s) None = Some (env s)) ->
  cvec_term hal_eval hal_to_var n vc t = Val c ->
  exists v, hal_den div_trunc env t = Val v /\ length c = n /\
    (forall z, nth r c None = Some z -> z = v) /\
    (fits env t -> nth r c None = Some v).
Proof. intros n r vc env t c Hr Hv H. exact (hal_row n r vc env Hr t Hv c H). Qed.
Print Assumptions C28_interpreter.

(* The solver expression denotes the value of the term with SMT-LIB's division. *)
Theorem C28_encoding : forall env t e, fold_term hal_to_z3 t = Val e ->
  hal_den div_smt env t = Val (hint_den env e).
Proof. exact hal_enc_den. Qed.
Print Assumptions C28_encoding.

(* So the interpreter's value is the solver's unless a division rounds a negative
   dividend. *)
Theorem C28_agree : forall n r vc env t c e z, (r < n)%nat ->
  (forall s, In s (tvars hal_to_var t) -> length (vc s) = n /\ nth r (vc s) None = Some (env s)) ->
  cvec_term hal_eval hal_to_var n vc t = Val c -> nth r c None = Some z ->
  div_ok env t -> fold_term hal_to_z3 t = Val e -> z = hint_den env e.
Proof.
  intros n r vc env t c e z Hr Hv Hc Hz Hd He.
  destruct (hal_row n r vc env Hr t Hv c Hc) as (v & D & _ & Z1 & _). rewrite (Z1 z Hz).
  apply (hal_den_agree env t v Hd) in D. rewrite (hal_enc_den env t e He) in D. congruence.
Qed.
Print Assumptions C28_agree.

(* Validated rules are equalities for SMT-LIB's division under every assignment,
   and so for the interpreter where no division rounds a negative dividend. *)
Theorem C28_validated : forall check l r, hal_unsat_right check -> hal_validate check l r = Val Valid ->
  exists tl tr, tree (instantiate HVar l) = Val tl /\ tree (instantiate HVar r) = Val tr /\
    (forall env, exists v, hal_den div_smt env tl = Val v /\ hal_den div_smt env tr = Val v) /\
    (forall env a b, div_ok env tl -> div_ok env tr ->
       hal_den div_trunc env tl = Val a -> hal_den div_trunc env tr = Val b -> a = b).
Proof.
  intros check l r Hu H. destruct (hal_valid check l r Hu H) as (tl & tr & Tl & Tr & E).
  exists tl, tr. split; [exact Tl|]. split; [exact Tr|]. split; [exact E|].
  intros env a b Dl Dr Ha Hb. apply hal_den_agree in Ha, Hb; try assumption.
  destruct (E env) as (v & E1 & E2). congruence.
Qed.
Print Assumptions C28_validated.

(* The interpreter and the encoding disagree on -1/2, and
   "(/ (+ ?a 2) 2) ==> (+ (/ ?a 2) 1)", which every complete solver validates, is
   wrong for the interpreter at ?a = -1. *)
Definition ex_hl : pat hal_op :=
  [Node (PV "a") []; Node (EN (HLit 2)) []; Node (EN HAdd) [0; 1]%nat; Node (EN HDiv) [2; 1]%nat].
Definition ex_hr : pat hal_op :=
  [Node (PV "a") []; Node (EN (HLit 2)) []; Node (EN HDiv) [0; 1]%nat; Node (EN (HLit 1)) []; Node (EN HAdd) [2; 3]%nat].
Theorem C28_negative_dividend_refuted :
  (exists t e, cvec_term hal_eval hal_to_var 1 (fun _ => []) t = Val [Some 0] /\
     fold_term hal_to_z3 t = Val e /\ forall env, hint_den env e = -1) /\
  exists tl tr, tree (instantiate HVar ex_hl) = Val tl /\ tree (instantiate HVar ex_hr) = Val tr /\
    (forall check, hal_unsat_complete check -> hal_validate check ex_hl ex_hr = Val Valid) /\
    cvec_term hal_eval hal_to_var 1 (fun _ => [Some (-1)]) tl = Val [Some 0] /\
    cvec_term hal_eval hal_to_var 1 (fun _ => [Some (-1)]) tr = Val [Some 1].
Proof.
  split.
  - exists (T HDiv [T (HLit (-1)) []; T (HLit 2) []]). eexists. split; [reflexivity|]. split; [reflexivity|]. reflexivity.
  - eexists. eexists. split; [reflexivity|]. split; [reflexivity|]. split.
    + intros check H. unfold hal_validate, validate_neq. cbn [rbind]. 
      match goal with |- (let* l := ?x in _) = _ => let y := eval vm_compute in x in change x with y end. cbn [rbind].
      match goal with |- (let* l := ?x in _) = _ => let y := eval vm_compute in x in change x with y end. cbn [rbind].
      rewrite H; [reflexivity|]. intros env. cbn [hint_den hbool_den]. change (2 =? 0) with false. cbn iota.
      unfold div_smt. change (0 <? 2) with true. cbn iota. 
      replace (env "a" + 2) with (env "a" + 1 * 2) by lia. rewrite Z.div_add by lia. reflexivity.
    + split; reflexivity.
Qed.
Print Assumptions C28_negative_dividend_refuted.

(* Negating the smallest number panics in the interpreter. *)
Theorem C28_neg_min_refuted : exists t,
  cvec_term hal_eval hal_to_var 1 (fun _ => []) t = Panic /\
  hal_den div_trunc (fun _ => 0) t = Val (2 ^ 63).
Proof. exists (T HNeg [T (HLit (- 2 ^ 63)) []]). split; vm_compute; reflexivity. Qed.
Print Assumptions C28_neg_min_refuted.

(* a right solver, sample values and a term with an exact division of a negative *)
Definition ex_hcheck (a b : hint) : sat_result :=
  match a, b with
  | JAdd (JVar x) (JVar y), JAdd (JVar y') (JVar x') => if String.eqb x x' && String.eqb y y' then Unsat else SUnknown
  | _, _ => SUnknown
  end.
Example C28_hyp :
  hal_unsat_right ex_hcheck /\
  hal_validate ex_hcheck [Node (PV "a") []; Node (PV "b") []; Node (EN HAdd) [0; 1]%nat]
    [Node (PV "a") []; Node (PV "b") []; Node (EN HAdd) [1; 0]%nat] = Val Valid /\
  (exists vs, hal_init ["x"; "y"] = Val (49%nat, vs)) /\
  div_ok (fun _ => -4) (T HDiv [T (HVar "x") []; T (HLit 2) []]) /\
  fits (fun _ => -4) (T HDiv [T (HVar "x") []; T (HLit 2) []]) /\
  cvec_term hal_eval hal_to_var 1 (fun _ => [Some (-4)]) (T HDiv [T (HVar "x") []; T (HLit 2) []]) = Val [Some (-2)].
Proof.
  split.
  - intros a b H env. unfold ex_hcheck in H.
    repeat match type of H with match ?x with _ => _ end = Unsat => is_var x; destruct x; try discriminate H end.
    match type of H with (if ?b then _ else _) = _ => destruct b eqn:E; [|discriminate H] end.
    apply andb_true_iff in E as [E1 E2]. apply String.eqb_eq in E1, E2. subst. cbn. lia.
  - split; [reflexivity|]. split; [eexists; vm_compute; reflexivity|]. split; [|split; [|reflexivity]].
    + constructor.
      * intros t H. cbn in H. repeat destruct H as [<-|H]; try contradiction; constructor; cbn; try discriminate; intros t [].
      * intros _ x y a b E Hx Hy. inversion E; subst. inversion Hx; inversion Hy; subst. right. right. exists (-2). reflexivity.
    + constructor.
      * intros t H. cbn in H. repeat destruct H as [<-|H]; try contradiction; (constructor; [intros t []|]); intros v Hv; inversion Hv; subst; lia.
      * intros v Hv. vm_compute in Hv. inversion Hv; subst. lia.
Qed.
