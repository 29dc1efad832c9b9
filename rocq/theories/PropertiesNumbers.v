(* Properties C22-C25: naturals, binary positives and the bitvector/boolean
   bridge.  The reference meanings are in DomainSpec.v and RuleSpec.v. *)
From Coq Require Import NArith ZArith.
From Verif Require Import Base BaseProofs Lang Syntax Rule Ruleset RuleSpec BV.
From Verif Require Import NatDom PosDom BvBoolDom DomainSpec LangProofs NatProofs LiftProofs.
Open Scope string_scope.
Open Scope list_scope.

(* ---------------- C22 ---------------- *)

(* On operand intervals with a natural lower bound the analysis of an operator
   does not panic and gives such an interval again. *)
Theorem C22_nat_interval_total : forall o args,
  (forall i, In i args -> exists l, low i = Some l /\ (0 <= l)%Z /\
     forall h, high i = Some h -> (l <= h)%Z) ->
  length args = nat_arity o -> exists i, nat_mk_interval o args = Val i /\
    exists l, low i = Some l /\ (0 <= l)%Z /\ forall h, high i = Some h -> (l <= h)%Z.
Proof. exact nat_interval_total. Qed.
Print Assumptions C22_nat_interval_total.

(* The interval of an operator contains the result for all operands within the
   operand intervals. *)
Theorem C22_nat_interval_sound : forall o args xs v env i,
  (forall i, In i args -> exists l, low i = Some l /\ (0 <= l)%Z /\
     forall h, high i = Some h -> (l <= h)%Z) ->
  Forall2 (fun i x => within Z.le i (Z.of_N x)) args xs ->
  with_vars nat_to_var env nat_sem o xs = Val v -> nat_mk_interval o args = Val i ->
  within Z.le i (Z.of_N v).
Proof. exact nat_interval_sound. Qed.
Print Assumptions C22_nat_interval_sound.

(* The interval of a whole term exists and contains its value under every
   assignment. *)
Theorem C22_nat_interval_of_term : forall t, wf_term nat_arity t ->
  exists i, fold_term nat_mk_interval t = Val i /\
    forall env, exists v, nat_den env t = Val v /\ within Z.le i (Z.of_N v).
Proof.
  intros t Ht. destruct (nat_interval_term t Ht) as (i & E & _ & H). exists i. split; [exact E|].
  intros env. destruct (nat_den_total env t Ht) as (v & Hv). exists v. split; [exact Hv|]. exact (H env v Hv).
Qed.
Print Assumptions C22_nat_interval_of_term.

(* A constant found by the analysis is natural and is the value of the term. *)
Theorem C22_nat_folded_constant : forall t c, wf_term nat_arity t ->
  fold_term nat_mk_interval t = Val (Itv (Some c) (Some c)) ->
  (0 <= c)%Z /\ forall env, nat_den env t = Val (Z.to_N c).
Proof. exact nat_folded. Qed.
Print Assumptions C22_nat_folded_constant.

(* mk_constant c ends and builds a term that denotes c, for every natural c. *)
Theorem C22_nat_constant : forall c, (0 <= c)%Z ->
  exists t, (forall fuel, Z.to_nat c <= fuel -> nat_constant fuel c = Val t) /\
    wf_term nat_arity t /\ forall env, nat_den env t = Val (Z.to_N c).
Proof. exact nat_constant_val. Qed.
Print Assumptions C22_nat_constant.

(* For a negative number it never ends. *)
Theorem C22_nat_constant_negative_diverges : forall c, (c < 0)%Z -> forall fuel, nat_constant fuel c = Panic.
Proof. intros c H fuel. exact (nat_constant_negative c fuel H). Qed.
Print Assumptions C22_nat_constant_negative_diverges.

Definition ex_nx : term nat_op := T (NVar "x") [].
Definition ex_n2 : term nat_op := T NS [T NS [T NZ []]].
Example C22_hyp :
  let t := T NMul [T NAdd [ex_nx; ex_n2]; T NS [T NZ []]] in
  wf_term nat_arity t /\ fold_term nat_mk_interval t = Val (Itv (Some 2%Z) None) /\
  fold_term nat_mk_interval (T NMul [ex_n2; ex_n2]) = Val (Itv (Some 4%Z) (Some 4%Z)) /\
  nat_constant 3 2 = Val ex_n2.
Proof. repeat split; repeat constructor. Qed.

(* ---------------- C23 ---------------- *)

Theorem C23_nat_validated_rule_holds : forall check l r,
  (forall a b, check a b = Unsat -> forall env, zint_den env a = zint_den env b) ->
  nat_validate check l r = Val Valid ->
  exists tl tr, tree (instantiate NVar l) = Val tl /\ tree (instantiate NVar r) = Val tr /\
    forall env, exists v, nat_den env tl = Val v /\ nat_den env tr = Val v.
Proof. exact nat_validate_sound. Qed.
Print Assumptions C23_nat_validated_rule_holds.

(* The solver may use negative integers for its counterexample, yet a rejected
   rule is false for naturals too. *)
Theorem C23_nat_rejected_rule_fails : forall check l r,
  (forall a b, check a b = Sat -> exists env, zint_den env a <> zint_den env b) ->
  nat_validate check l r = Val Invalid ->
  exists tl tr, tree (instantiate NVar l) = Val tl /\ tree (instantiate NVar r) = Val tr /\
    ~ forall env, nat_den env tl = nat_den env tr.
Proof. exact nat_validate_complete. Qed.
Print Assumptions C23_nat_rejected_rule_fails.

(* The cvec of a term is its value under the assignment of each row. *)
Theorem C23_nat_cvec : forall n vc t,
  (forall s, In s (tvars nat_to_var t) -> length (vc s) = n) -> wf_term nat_arity t ->
  exists c, cvec_term nat_eval nat_to_var n vc t = Val c /\ length c = n /\
    forall r env, r < n ->
      (forall s, In s (tvars nat_to_var t) -> nth r (vc s) None = Some (Z.of_N (env s))) ->
      exists v, nat_den env t = Val v /\ nth r c None = Some (Z.of_N v).
Proof. exact nat_cvec_den. Qed.
Print Assumptions C23_nat_cvec.

(* a toy solver that is right: it knows commutativity and what is false at (1,2) *)
Definition ex_check (a b : zint) : sat_result :=
  match a, b with
  | IAdd (IConst x) (IConst y), IAdd (IConst y') (IConst x') =>
      if String.eqb x x' && String.eqb y y' then Unsat else SUnknown
  | _, _ =>
      let env s := if String.eqb s "a" then 1%Z else 2%Z in
      if Z.eqb (zint_den env a) (zint_den env b) then SUnknown else Sat
  end.
Example C23_hyp :
  (forall a b, ex_check a b = Unsat -> forall env, zint_den env a = zint_den env b) /\
  (forall a b, ex_check a b = Sat -> exists env, zint_den env a <> zint_den env b) /\
  (let* l := unwrap (parse_pat nat_from_op "(+ ?a ?b)") in
   let* r := unwrap (parse_pat nat_from_op "(+ ?b ?a)") in nat_validate ex_check l r) = Val Valid /\
  (let* l := unwrap (parse_pat nat_from_op "(+ ?a ?b)") in
   let* r := unwrap (parse_pat nat_from_op "(* ?b ?a)") in nat_validate ex_check l r) = Val Invalid.
Proof.
  assert (forall a b (x : sat_result), (let env s := if String.eqb s "a" then 1%Z else 2%Z in
      if Z.eqb (zint_den env a) (zint_den env b) then SUnknown else Sat) = x ->
      x <> Unsat /\ (x = Sat -> exists env, zint_den env a <> zint_den env b)) as H.
  { intros a b x. cbv zeta. destruct (Z.eqb_spec (zint_den (fun s => if String.eqb s "a" then 1%Z else 2%Z) a)
      (zint_den (fun s => if String.eqb s "a" then 1%Z else 2%Z) b)) as [E|E]; intros <-;
      (split; [discriminate|]); intros Hx; [discriminate|eauto]. }
  split; [|split; [|split; reflexivity]]; intros a b Hc.
  - intros env. destruct a; cbn [ex_check] in Hc; try (apply H in Hc; destruct Hc as [Hc _]; congruence).
    destruct a1; try (apply H in Hc; destruct Hc as [Hc _]; congruence).
    destruct a2; try (apply H in Hc; destruct Hc as [Hc _]; congruence).
    destruct b; try (apply H in Hc; destruct Hc as [Hc _]; congruence).
    destruct b1; try (apply H in Hc; destruct Hc as [Hc _]; congruence).
    destruct b2; try (apply H in Hc; destruct Hc as [Hc _]; congruence).
    destruct (String.eqb_spec s s2), (String.eqb_spec s0 s1); simpl in Hc; try discriminate.
    subst. simpl. apply Z.add_comm.
  - destruct a; cbn [ex_check] in Hc; try (apply H in Hc; destruct Hc as [_ Hc]; auto; fail).
    destruct a1; try (apply H in Hc; destruct Hc as [_ Hc]; auto; fail).
    destruct a2; try (apply H in Hc; destruct Hc as [_ Hc]; auto; fail).
    destruct b; try (apply H in Hc; destruct Hc as [_ Hc]; auto; fail).
    destruct b1; try (apply H in Hc; destruct Hc as [_ Hc]; auto; fail).
    destruct b2; try (apply H in Hc; destruct Hc as [_ Hc]; auto; fail).
    destruct (String.eqb s s2 && String.eqb s0 s1); discriminate.
Qed.

(* ---------------- C24 ---------------- *)

(* mk_constant ends within the 64 bits of a usize and denotes its argument. *)
Theorem C24_pos_constant : forall c, (c < 2 ^ 64)%N ->
  exists t, pos_constant 63 c = Val t /\ wf_term pos_arity t /\ forall env, pos_den env t = Val c.
Proof. exact pos_constant_val. Qed.
Print Assumptions C24_pos_constant.

(* The exploratory rules all parse and preserve the value. *)
Theorem C24_pos_exploratory_rules_sound : exists m, pos_exploratory = Val m /\ length m = 6 /\
  Forall (fun e => rule_sound pos_to_var pos_sem (snd e) /\ fst e = rname (snd e)) m.
Proof. exact pos_exploratory_sound. Qed.
Print Assumptions C24_pos_exploratory_rules_sound.

(* So do the rules of naturals they are combined with. *)
Theorem C24_pos_nat_rules_sound : exists m, pos_nat_rules = Val m /\ length m = 12 /\
  Forall (fun e => rule_sound pos_to_var pos_sem (snd e) /\ fst e = rname (snd e)) m.
Proof. exact pos_nat_rules_sound. Qed.
Print Assumptions C24_pos_nat_rules_sound.

Example C24_hyp : pos_constant 63 6 = Val (T PXO [T PXI [T PXH []]]) /\
  pos_den (fun _ => 0%N) (T PXO [T PXI [T PXH []]]) = Val 6%N /\
  (let* m := pos_exploratory in
   match lookup m "(XI ?a) ==> (+ ?a (+ ?a (S Z)))" with
   | Some r => pden pos_to_var pos_sem (fun _ => 0%N) (fun _ => 5%N) (rrhs r) | None => Panic end) = Val 11%N.
Proof. repeat split. Qed.

(* ---------------- C25 ---------------- *)

(* Every exploratory rule preserves the value; the rule that introduces bv does
   so under its condition, that the matched class is a bitvector. *)
Theorem C25_bridge_rules_sound : exists m, bb_exploratory = Val m /\ length m = 9 /\
  Forall (fun e => fst e = rname (snd e) /\
    match rkind (snd e) with
    | KRhs => rule_sound bb_to_var bb_sem (snd e)
    | KGuard g => forall genv env v,
        (exists hi lo, env g = BV2 hi lo) ->
        pden bb_to_var bb_sem genv env (rlhs (snd e)) = Val v ->
        pden bb_to_var bb_sem genv env (rrhs (snd e)) = Val v
    | KPat => False
    end) m.
Proof. exact bb_exploratory_sound. Qed.
Print Assumptions C25_bridge_rules_sound.

(* The condition is_bv accepts only classes of bitvectors: every node it accepts
   has a bitvector as value. *)
Theorem C25_guard_is_bitvector : forall o args v (genv : string -> bbv),
  (forall s, exists hi lo, genv s = BV2 hi lo) -> bb_allowed o = true ->
  with_vars bb_to_var genv bb_sem o args = Val v -> exists hi lo, v = BV2 hi lo.
Proof. exact bb_allowed_bv. Qed.
Print Assumptions C25_guard_is_bitvector.

(* The bitwise meaning is that of BV<2>. *)
Theorem C25_bits_are_bv2 : forall a b, (a < 4)%N -> (b < 4)%N ->
  bb_sem XBand [bits2 a; bits2 b] = Val (bits2 (bv_and 2 a b)) /\
  bb_sem XBor [bits2 a; bits2 b] = Val (bits2 (bv_or 2 a b)) /\
  bb_sem XBxor [bits2 a; bits2 b] = Val (bits2 (bv_xor 2 a b)) /\
  bb_sem XBnot [bits2 a] = Val (bits2 (bv_not 2 a)).
Proof. exact bb_bits. Qed.
Print Assumptions C25_bits_are_bv2.

(* Constant folding: when every node of every class has the value of its class,
   the constant added to a class is its value. *)
Theorem C25_folding_sound : forall genv class val id c,
  (forall i n, In n (class i) ->
     with_vars bb_to_var genv bb_sem (nop n) (map val (nch n)) = Val (val i)) ->
  bb_custom_modify class id = Some c -> val id = bits2 c /\ (c < 4)%N.
Proof. exact bb_custom_modify_sound. Qed.
Print Assumptions C25_folding_sound.

Definition ex_class (i : nat) : list (node bb_op) :=
  match i with
  | 0 => [Node (XLit true) []]
  | 1 => [Node (XLit false) []; Node XNot [0]]
  | 2 => [Node XBnot [3]; Node XMake [0; 1]]
  | 3 => [Node (XVar "x") []]
  | _ => []
  end.
Definition ex_val (i : nat) : bbv :=
  match i with 0 => BB true | 1 => BB false | 2 => BV2 true false | _ => BV2 false true end.
Example C25_hyp :
  (forall i n, In n (ex_class i) ->
     with_vars bb_to_var (fun _ => BV2 false true) bb_sem (nop n) (map ex_val (nch n)) = Val (ex_val i)) /\
  bb_custom_modify ex_class 2 = Some 2%N /\
  (let* m := bb_exploratory in Val (map (fun e => rkind (snd e)) m)) =
    Val [KRhs; KRhs; KRhs; KRhs; KRhs; KRhs; KRhs; KRhs; KGuard "a"].
Proof.
  split; [|split; reflexivity]. intros i n H.
  do 4 (destruct i as [|i]; [simpl in H; repeat destruct H as [<-|H]; try reflexivity; contradiction|]).
  destruct H.
Qed.
