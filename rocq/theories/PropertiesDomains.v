(* Properties C16-C28: domains (bitvectors, booleans, naturals, ...).
   The reference meanings are in BVSpec.v and DomainSpec.v. *)
From Coq Require Import NArith ZArith.
From Verif Require Import Base BaseProofs Lang Util BV BVSpec BoolDom DomainSpec.
From Verif Require Import LangProofs UtilProofs BVProofs BoolProofs.
Open Scope string_scope.
Open Scope list_scope.

(* ---------------- C16 ---------------- *)

(* Every operation returns a w-bit value and is arithmetic modulo 2^w (stated in
   the integers), bitwise logic, or the SMT-LIB shift. *)
Theorem C16_bv_arithmetic : forall w a b, (1 <= w <= 128)%N -> (a < 2 ^ w)%N -> (b < 2 ^ w)%N ->
  let m := (2 ^ Z.of_N w)%Z in let z := Z.of_N in
  z (bv_add w a b) = ((z a + z b) mod m)%Z /\
  z (bv_sub w a b) = ((z a - z b) mod m)%Z /\
  z (bv_mul w a b) = ((z a * z b) mod m)%Z /\
  z (bv_neg w a) = (- z a mod m)%Z /\
  z (bv_shl w a b) = ((z a * 2 ^ z b) mod m)%Z /\
  z (bv_shr w a b) = (z a / 2 ^ z b)%Z /\
  z (bv_not w a) = (m - 1 - z a)%Z /\
  (forall i, N.testbit (bv_not w a) i = (i <? w)%N && negb (N.testbit a i)) /\
  (forall i, N.testbit (bv_and w a b) i = N.testbit a i && N.testbit b i) /\
  (forall i, N.testbit (bv_or w a b) i = N.testbit a i || N.testbit b i) /\
  (forall i, N.testbit (bv_xor w a b) i = xorb (N.testbit a i) (N.testbit b i)).
Proof. exact bv_ops_Z. Qed.
Print Assumptions C16_bv_arithmetic.

Theorem C16_bv_results_in_range : forall w a b, (1 <= w <= 128)%N ->
  Forall (fun f : N -> N -> N -> N => f w a b < 2 ^ w)%N
    [bv_add; bv_sub; bv_mul; bv_shl; bv_shr; bv_and; bv_or; bv_xor;
     (fun w a _ => bv_neg w a); (fun w a _ => bv_not w a); (fun w a _ => bv_new w a)].
Proof. exact bv_ops_range. Qed.
Print Assumptions C16_bv_results_in_range.

(* shifting by the width or more gives zero *)
Theorem C16_bv_large_shift : forall w a b, (w <= b)%N -> bv_shl w a b = 0%N /\ bv_shr w a b = 0%N.
Proof. exact bv_large_shift. Qed.
Print Assumptions C16_bv_large_shift.

Theorem C16_bv_constants : forall w, (1 <= w <= 128)%N ->
  all_ones w = (2 ^ w - 1)%N /\ bv_neg_one w = (2 ^ w - 1)%N /\
  bv_min w = (2 ^ (w - 1))%N /\ bv_max w = (2 ^ (w - 1) - 1)%N.
Proof. exact consts_spec. Qed.
Print Assumptions C16_bv_constants.

(* the samples of the variables are distinct w-bit values and contain the corner cases *)
Theorem C16_bv_samples : forall w, (1 <= w <= 128)%N ->
  NoDup (bv_samples w) /\ (forall a, In a (bv_samples w) -> (a < 2 ^ w)%N) /\
  In 0%N (bv_samples w) /\ In 1%N (bv_samples w) /\
  In (bv_min w) (bv_samples w) /\ In (bv_max w) (bv_samples w) /\ In (all_ones w) (bv_samples w).
Proof. exact bv_samples_spec. Qed.
Print Assumptions C16_bv_samples.
Example C16_hyp : bv_sub 8 3 5 = 254%N /\ bv_mul 128 (2 ^ 127) 3 = (2 ^ 127)%N /\
  bv_not 4 5 = 10%N /\ bv_shl 8 1 8 = 0%N /\ bv_neg 128 1 = (2 ^ 128 - 1)%N /\
  bv_samples 4 = [0; 1; 6; 7; 8; 9; 15]%N.
Proof. repeat split. Qed.

(* ---------------- C17 ---------------- *)

(* If the solver's "unsat" answers are right, a rule validated as Valid holds
   under every assignment of w-bit values to its variables.  Literals fit in 64
   bits, which is automatic for widths up to 64. *)
Theorem C17_bv_valid_rule_holds : forall w check l r, (w <= 128)%N -> unsat_right w check ->
  lits64 w l -> lits64 w r -> bv_validate check l r = Val Valid ->
  exists tl tr, tree (instantiate VVar l) = Val tl /\ tree (instantiate VVar r) = Val tr /\
    wf_term bv_arity tl /\ wf_term bv_arity tr /\
    forall env, (forall s, inr w (env s)) ->
      exists v, bv_den w env tl = Val v /\ bv_den w env tr = Val v.
Proof. exact bv_validate_sound. Qed.
Print Assumptions C17_bv_valid_rule_holds.

Theorem C17_bv_invalid_rule_fails : forall w check l r, (w <= 128)%N -> sat_right w check ->
  lits64 w l -> lits64 w r -> bv_validate check l r = Val Invalid ->
  exists tl tr env u v, tree (instantiate VVar l) = Val tl /\ tree (instantiate VVar r) = Val tr /\
    (forall s, inr w (env s)) /\ bv_den w env tl = Val u /\ bv_den w env tr = Val v /\ u <> v.
Proof. exact bv_validate_complete. Qed.
Print Assumptions C17_bv_invalid_rule_fails.

(* the interpreter that fills characteristic vectors computes the same meaning *)
Theorem C17_bv_interpreter_agrees : forall w n (vc : string -> cvec N) t, (w <= 128)%N ->
  (forall s, In s (tvars bv_to_var t) -> length (vc s) = n) ->
  tall (lit_ok w) t -> wf_term bv_arity t ->
  exists c, cvec_term (bv_eval w) bv_to_var n vc t = Val c /\ length c = n /\
    forall r env, r < n ->
      (forall s, In s (tvars bv_to_var t) -> nth r (vc s) None = Some (env s)) ->
      (forall s, inr w (env s)) ->
      exists v, bv_den w env t = Val v /\ nth r c None = Some v /\ inr w v.
Proof. exact bv_cvec_den. Qed.
Print Assumptions C17_bv_interpreter_agrees.

(* a solver that only knows (x + y) - (y + x) style facts is enough to meet the hypotheses *)
Definition ex_check (a b : zbv) : sat_result :=
  match a, b with
  | ZAdd (ZConst x) (ZConst y), ZAdd (ZConst y') (ZConst x') =>
      if String.eqb x x' && String.eqb y y' then Unsat else SUnknown
  | ZAnd (ZConst _) (ZNum 0), ZNum 0 => Unsat
  | _, _ => SUnknown
  end.
Lemma ex_check_right w : unsat_right w ex_check.
Proof.
  intros a b H env He. destruct a as [|? | a1 a2|? ?|? ?|? ?|? ?|a1 a2|? ?|? ?|?|?]; try discriminate H;
    destruct a1; try discriminate H; destruct a2 as [s2|v2| | | | | | | | | |]; try discriminate H.
  - destruct b as [| |b1 b2| | | | | | | | |]; try discriminate H.
    destruct b1; try discriminate H; destruct b2; try discriminate H. simpl in H |- *.
    destruct (String.eqb_spec s s1); destruct (String.eqb_spec s2 s0); simpl in H; try discriminate H.
    subst. unfold smt_add. f_equal. apply N.add_comm.
  - destruct v2; try discriminate H. destruct b as [|[|]| | | | | | | | | |]; try discriminate H. simpl.
    rewrite N.mod_0_l by (apply N.pow_nonzero; discriminate). apply N.land_0_r.
Qed.
Definition ex_bv_l : pat bv_op := [Node (PV "a") []; Node (PV "b") []; Node (EN VAdd) [0; 1]].
Definition ex_bv_r : pat bv_op := [Node (PV "b") []; Node (PV "a") []; Node (EN VAdd) [0; 1]].
Example C17_hyp : unsat_right 32 ex_check /\ lits64 32 ex_bv_l /\ lits64 32 ex_bv_r /\
  bv_validate ex_check ex_bv_l ex_bv_r = Val Valid.
Proof.
  split; [apply ex_check_right|]. split; [|split; [|reflexivity]];
  intros n c Hn Ho; simpl in Hn; repeat (destruct Hn as [<-|Hn]; [discriminate Ho|]); destruct Hn.
Qed.

(* With wider bitvectors a literal is truncated to 64 bits on its way to the
   solver, and a wrong rule is validated. *)
Theorem C17_bv128_literal_truncated_refuted : exists check l r tl tr env u v,
  unsat_right 128 check /\ bv_validate check l r = Val Valid /\
  tree (instantiate VVar l) = Val tl /\ tree (instantiate VVar r) = Val tr /\
  (forall s, inr 128 (env s)) /\ bv_den 128 env tl = Val u /\ bv_den 128 env tr = Val v /\ u <> v.
Proof.
  exists ex_check, [Node (PV "a") []; Node (EN (VLit (2 ^ 64))) []; Node (EN VAnd) [0; 1]],
    [Node (EN (VLit 0)) []], (T VAnd [T (VVar "a") []; T (VLit (2 ^ 64)) []]), (T (VLit 0) []),
    (fun _ => 2 ^ 64)%N, (2 ^ 64)%N, 0%N.
  split; [apply ex_check_right|]. repeat split; discriminate.
Qed.
Print Assumptions C17_bv128_literal_truncated_refuted.

(* ---------------- C18 ---------------- *)

(* cell cols i r is entry r of column i: the value of variable i in row r *)
Theorem C18_rows_shape : forall A (ts : list A) n, exists cols,
  self_product ts n = Val cols /\ length cols = n /\
  forall c, In c cols -> length c = length ts ^ n /\ incl c ts.
Proof. intros A. exact self_product_shape. Qed.
Print Assumptions C18_rows_shape.

Theorem C18_rows_complete : forall A (ts : list A) n cols (vs : list A),
  self_product ts n = Val cols -> length vs = n -> incl vs ts ->
  exists r, r < length ts ^ n /\ forall i, i < n -> cell cols i r = nth_error vs i.
Proof. intros A. exact self_product_complete. Qed.
Print Assumptions C18_rows_complete.

Theorem C18_rows_distinct : forall A (ts : list A) n cols r s,
  NoDup ts -> self_product ts n = Val cols -> r < length ts ^ n -> s < length ts ^ n ->
  (forall i, i < n -> cell cols i r = cell cols i s) -> r = s.
Proof. intros A. exact self_product_distinct. Qed.
Print Assumptions C18_rows_distinct.
Example C18_hyp : self_product [true; false] 2 = Val [[true; false; true; false]; [true; true; false; false]].
Proof. reflexivity. Qed.

(* ---------------- C19 ---------------- *)

Theorem C19_bool_cvec_iff_equivalent : forall vars n vcs t1 t2,
  NoDup vars -> bool_init vars = Val (n, vcs) ->
  wf_term bool_arity t1 -> wf_term bool_arity t2 ->
  incl (tvars bool_to_var t1) vars -> incl (tvars bool_to_var t2) vars ->
  exists c1 c2, cvec_term bool_eval bool_to_var n (var_cvec vcs) t1 = Val c1 /\
    cvec_term bool_eval bool_to_var n (var_cvec vcs) t2 = Val c2 /\
    (c1 = c2 <-> forall env, bool_den env t1 = bool_den env t2).
Proof. exact bool_cvec_iff. Qed.
Print Assumptions C19_bool_cvec_iff_equivalent.

(* initialisation succeeds for every nonempty list of variables *)
Theorem C19_bool_init_total : forall vars, vars <> [] ->
  exists vcs, bool_init vars = Val (2 ^ length vars, vcs).
Proof. exact bool_init_total. Qed.
Print Assumptions C19_bool_init_total.

Definition ex_bv_x : term bool_op := T (BVar "x") [].
Definition ex_bv_y : term bool_op := T (BVar "y") [].
Example C19_hyp : exists vcs, bool_init ["x"; "y"] = Val (4, vcs) /\
  cvec_term bool_eval bool_to_var 4 (var_cvec vcs) (T BImplies [ex_bv_x; ex_bv_y]) =
    Val [Some true; Some true; Some false; Some true] /\
  cvec_term bool_eval bool_to_var 4 (var_cvec vcs) (T BOr [T BNot [ex_bv_x]; ex_bv_y]) =
    Val [Some true; Some true; Some false; Some true].
Proof. eexists. repeat split. Qed.

(* ---------------- C21 ---------------- *)

(* The analysis of an operator never panics on finite operand intervals, gives a
   finite nonempty interval again, and contains the result for all operand
   values within the operand intervals. *)
Theorem C21_bool_interval_total : forall o args,
  (forall i, In i args -> exists l h, low i = Some l /\ high i = Some h /\ ble l h) ->
  length args = bool_arity o -> exists i, bool_mk_interval o args = Val i /\
    exists l h, low i = Some l /\ high i = Some h /\ ble l h.
Proof. exact bool_interval_total. Qed.
Print Assumptions C21_bool_interval_total.

Theorem C21_bool_interval_sound : forall o args xs v env,
  (forall i, In i args -> low i <> None /\ high i <> None) ->
  length args = bool_arity o -> Forall2 (within ble) args xs ->
  with_vars bool_to_var env bool_sem o xs = Val v ->
  exists i, bool_mk_interval o args = Val i /\ within ble i v /\ low i <> None /\ high i <> None.
Proof. intros o args xs v env H1 H2 H3. exact (bool_interval_sound o args xs v H1 H2 H3 env). Qed.
Print Assumptions C21_bool_interval_sound.

(* The interval of a whole term contains its value under every assignment. *)
Theorem C21_bool_interval_of_term : forall t, wf_term bool_arity t ->
  exists l h, fold_term bool_mk_interval t = Val (Itv (Some l) (Some h)) /\ ble l h /\
    forall env v, bool_den env t = Val v -> ble l v /\ ble v h.
Proof. exact bool_interval_term. Qed.
Print Assumptions C21_bool_interval_of_term.

(* A term whose interval is one point can be replaced by that constant. *)
Theorem C21_bool_folded_constant : forall t c, wf_term bool_arity t ->
  fold_term bool_mk_interval t = Val (Itv (Some c) (Some c)) ->
  forall env, bool_den env t = Val c.
Proof. exact bool_folded. Qed.
Print Assumptions C21_bool_folded_constant.
Example C21_hyp :
  let t := T BAnd [ex_bv_x; T BNot [T (BLit true) []]] in
  wf_term bool_arity t /\ fold_term bool_mk_interval t = Val (Itv (Some false) (Some false)) /\
  fold_term bool_mk_interval (T BXor [ex_bv_x; ex_bv_y]) = Val (Itv (Some false) (Some true)).
Proof. repeat split; repeat constructor. Qed.
