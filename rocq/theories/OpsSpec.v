(* Reference notions for the operators that occur in learned rules. *)
From Coq Require Import NArith.
From Verif Require Import Base Sexp Lang Syntax Rule Ruleset Workload Recipe Analysis BvBoolDom Egraph Synth Infer TotalSpec.
Open Scope list_scope.

(* every node of the term is an operator with a number of children in [Q] *)
Inductive fits {O} (Q : O -> nat -> Prop) : term O -> Prop :=
  | Fits o ts : Q o (length ts) -> Forall (fits Q) ts -> fits Q (T o ts).
(* the same for a flat term and for a pattern, which has no variable of the language *)
Definition uses {O} (Q : O -> nat -> Prop) (r : recexpr O) : Prop := Forall (fun n => Q (nop n) (length (nch n))) r.
Definition pat_uses {O C} (L : lang O C) (Q : O -> nat -> Prop) (p : pat O) : Prop :=
  Forall (fun n => match nop n with EN o => l_to_var L o = None /\ Q o (length (nch n)) | PV _ => True end) p.
Definition rhs_uses {O} (Q : O -> nat -> Prop) (r : rule O) : Prop :=
  Forall (fun n => match nop n with EN o => Q o (length (nch n)) | PV _ => True end) (rrhs r).
(* the terms of a workload *)
Definition workload_fits {O C} (L : lang O C) (Q : O -> nat -> Prop) (w : workload) : Prop :=
  forall ss ts, force w = Val ss -> Forall2 (reads L) ss ts -> Forall (fits Q) ts.

(* constants that an interval may end in *)
Definition ends {C} (K : C -> Prop) (i : interval C) : Prop :=
  (forall x, low i = Some x -> K x) /\ (forall x, high i = Some x -> K x).
(* [Q] has the variables and the constants in [K]; intervals of operators in [Q] end
   in [K]; the hooks of the language add nothing else *)
Record admits {O C} (L : lang O C) (Q : O -> nat -> Prop) (K : C -> Prop) : Prop := {
  ad_itv : forall o is i, Q o (length is) -> Forall (ends K) is -> l_itv L o is = Val i -> ends K i;
  ad_const : forall c, K c -> uses Q (l_const L c);
  ad_var : forall o k s, Q o k -> l_to_var L o = Some s -> Q (l_mk_var L s) 0;
  ad_custom : forall g i ts, (forall n j, In (n, j) (g_nodes g) -> Q (nop n) (length (nch n))) -> l_custom L g i = Val ts -> Forall (uses Q) ts;
  ad_init : forall vars n vs, (forall v, In v vars -> Q (l_mk_var L v) 0) -> l_init L vars = Val (n, vs) ->
    forall v c ts, In (v, c, ts) vs -> In v vars /\ Forall (uses Q) ts }.

(* variables and the operators in [A], with their number of children *)
Definition over {O C} (L : lang O C) (ar : O -> nat) (A : O -> Prop) (o : O) (k : nat) : Prop :=
  k = ar o /\ (l_to_var L o <> None \/ A o).
Definition rule_uses {O C} (L : lang O C) (Q : O -> nat -> Prop) (r : rule O) : Prop :=
  pat_uses L Q (rlhs r) /\ pat_uses L Q (rrhs r).
(* the operator comes from text *)
Definition read_op {O C} (L : lang O C) (o : O) (k : nat) : Prop := exists s, l_from_op L s k = Some o.
Definition read_rules {O C} (L : lang O C) (rs : ruleset O) : Prop := Forall (fun e => rhs_uses (read_op L) (snd e)) rs.
(* the ruleset written to a file and read again: the same rules in the same order *)
Definition reloads {O C} (L : lang O C) (m : ruleset O) : Prop :=
  exists m', rs_from_file (l_from_op L) (l_name L) (rs_to_file m) = Val m' /\ rs_eqb m m' = true /\
    Forall2 (fun e e' => fst e' = fst e /\ rname (snd e') = fst e /\
      tree (rlhs (snd e')) = tree (rlhs (snd e)) /\ tree (rrhs (snd e')) = tree (rrhs (snd e))) m m'.
(* what is learned from terms and rules over [A] is over [B] *)
Definition learns_only {O C} (L : lang O C) (ar : O -> nat) (A B : O -> Prop) : Prop :=
  let given rs := Forall (fun e => rhs_uses (over L ar A) (snd e)) rs in
  let learned rs := Forall (fun e => rule_uses L (over L ar B) (snd e)) rs in
  forall keep fuel,
  (forall w prior fast ae new, NoDup (map fst prior) -> workload_fits L (over L ar A) w -> given prior ->
     run_workload_internal L keep fuel w prior fast ae new -> learned new) /\
  (forall exploratory w prior new, NoDup (map fst prior) -> workload_fits L (over L ar A) w -> given prior -> given exploratory ->
     run_fast_forwarding L keep fuel exploratory w prior new -> learned new) /\
  (forall met l prior n all, NoDup (map fst prior) ->
     (forall m w, m <= n -> sized_workload met m l = Val w -> workload_fits L (over L ar A) w) -> given prior ->
     recursive_rules L keep fuel met l prior n all ->
     forall e, In e all -> In e prior \/ rule_uses L (over L ar B) (snd e)).
(* what the analysis of the mixed domain adds *)
Definition bb_added (o : bb_op) : Prop := match o with XNum c => (c < 4)%N | XFirst | XSecond | XMake => True | _ => False end.
