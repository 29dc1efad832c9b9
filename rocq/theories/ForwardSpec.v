(* Reference notions for fast-forwarding. *)
From Coq Require Import NArith.
From Verif Require Import Base Lang LangProofs BvBoolDom DomainSpec RuleSpec Rule Ruleset Analysis AnalysisSpec Egraph EgraphSpec Synth SynthSpec MatchSpec Workload Infer TotalSpec OpsSpec Domains DomainAlg DomainSound.
Open Scope list_scope.

(* In every algebra in which the given rules hold whenever the values of the variables
   are as in [ok], the two sides of the rule have the same value whenever the values
   of the variables are as in [ok]. *)
Definition consequence {O C} (L : lang O C) (given : rule O -> Prop) (r : rule O) : Prop :=
  forall V (A : algebra O C V) (ok : (string -> V) -> Prop), (forall env rho, ok env -> ok (fun x => env (rho x))) ->
    (forall env, ok env -> interprets L (set_vars L A env) /\ forall q, given q -> holds L (set_vars L A env) q) ->
    exists tl tr, tree (rlhs r) = Val tl /\ tree (rrhs r) = Val tr /\ forall s, ok s -> paval (a_sem A) s tl = paval (a_sem A) s tr.
(* Terms of one class are equal in every algebra in which the given rules hold. *)
Definition sound_for {O C} (L : lang O C) (given : rule O -> Prop) (g : eg O C) : Prop :=
  forall V (A : algebra O C V), interprets L A -> (forall q, given q -> holds L A q) ->
    forall t u c, repr g t c -> repr g u c -> aval (a_sem A) t = aval (a_sem A) u.

(* the operators of a pattern are allowed ones *)
Definition allowed_pat {O C} (L : lang O C) (p : pat O) : Prop := forall n o, In n p -> nop n = EN o -> l_allowed L o = true.
(* the rules of a ruleset; those that mention no forbidden operator *)
Definition rule_of {O} (rs : ruleset O) (r : rule O) : Prop := exists k, In (k, r) rs.
Definition allowed_of {O C} (L : lang O C) (rs : ruleset O) (r : rule O) : Prop := rule_of rs r /\ allowed_pat L (rlhs r) /\ allowed_pat L (rrhs r).
(* the term that the pattern denotes has allowed operators only *)
Definition allowed_side {O C} (L : lang O C) (p : pat O) : Prop :=
  exists t, tree p = Val t /\ tall (fun e => match e with EN o => l_allowed L o = true | PV _ => True end) t.
(* ... has none of the given operators *)
Definition without {O} (forbidden : O -> Prop) (p : pat O) : Prop :=
  exists t, tree p = Val t /\ tall (fun e => match e with EN o => ~ forbidden o | PV _ => True end) t.
(* From two classes of the first e-graph that are one in the second, and that both
   have a term without forbidden operators (of less than 2^64 - 1 nodes), the rules
   between smallest such terms are among the candidates [c]. *)
Definition proposes {O C} (L : lang O C) (g g' : eg O C) (c : ruleset O) : Prop :=
  let usable t := all_allowed (l_allowed L) t = true /\ (tsize t < usize_max)%N in
  forall t1 t2 i j, find g i = Val i -> find g j = Val j -> i <> j -> eqv g' i j -> repr g t1 i -> repr g t2 j -> usable t1 -> usable t2 ->
    exists e1 e2, smallest (l_allowed L) g i e1 /\ smallest (l_allowed L) g j e2 /\ forall k, named L e1 e2 k -> In k (map fst c).
(* The two terms are equal in every algebra in which the given rules hold. *)
Definition equal_under {O C} (L : lang O C) (given : rule O -> Prop) (t u : term O) : Prop :=
  forall V (A : algebra O C V), interprets L A -> (forall q, given q -> holds L A q) -> aval (a_sem A) t = aval (a_sem A) u.

(* fast-forwarding learns consequences of the rules it is given, without forbidden
   operators *)
Definition lifts {O C} (L : lang O C) : Prop :=
  forall keep fuel exploratory w prior new, NoDup (map fst prior) -> read_rules L prior -> read_rules L exploratory ->
    run_fast_forwarding L keep fuel exploratory w prior new ->
    forall k r, In (k, r) new -> consequence L (fun q => rule_of prior q \/ rule_of exploratory q) r /\ allowed_side L (rlhs r) /\ allowed_side L (rrhs r).
(* The e-graphs of the three phases and the candidates.  The first phase uses
   allowed rules only: what these do not equate, and the whole of the rules do, is
   proposed, between terms that are not larger. *)
Definition finds {O C} (L : lang O C) : Prop :=
  forall keep fuel exploratory w prior new, read_rules L prior -> read_rules L exploratory ->
    run_fast_forwarding L keep fuel exploratory w prior new ->
    let first := allowed_of L prior in
    let second q := allowed_of L prior q \/ rule_of exploratory q in
    let third q := rule_of prior q \/ rule_of exploratory q in
    exists g1 g2 g3 c1 c2,
      sound_for L first g1 /\ sound_for L second g2 /\ sound_for L third g3 /\
      (forall ss ts, force w = Val ss -> Forall2 (reads L) ss ts -> Forall (fun t => exists c, repr g1 t c) ts) /\
      (forall t c, repr g1 t c -> repr g2 t c) /\ (forall t c, repr g2 t c -> repr g3 t c) /\
      proposes L g1 g2 c1 /\ proposes L g2 g3 c2 /\ minimized L keep fuel (extend c1 c2) prior new /\
      (forall t1 t2 i j, repr g1 t1 i -> repr g1 t2 j -> eqv g3 i j -> all_allowed (l_allowed L) t1 = true -> all_allowed (l_allowed L) t2 = true ->
        (tsize t1 < usize_max)%N -> (tsize t2 < usize_max)%N -> ~ equal_under L first t1 t2 ->
        exists e1 e2 u1 u2, tree e1 = Val u1 /\ tree e2 = Val u2 /\ equal_under L second u1 t1 /\ equal_under L second u2 t2 /\
          (tcost (l_allowed L) u1 <= tsize t1)%N /\ (tcost (l_allowed L) u2 <= tsize t2)%N /\
          forall k, named L e1 e2 k -> In k (map fst c1) \/ In k (map fst c2)).

(* ---- two-bit vectors and booleans: the pair of bits of a term, a boolean b read as
   the pair (b, b) ---- *)
Definition bits_sem (o : bb_op) (vs : list (bool * bool)) : bool * bool :=
  match o, vs with
  | XLit b, _ => (b, b)
  | XNum v, _ => (N.testbit v 1, N.testbit v 0)
  | (XNot | XBnot), [(a, b)] => (negb a, negb b)
  | (XAnd | XBand), [(a, b); (c, d)] => (a && c, b && d)
  | (XOr | XBor), [(a, b); (c, d)] => (a || c, b || d)
  | (XXor | XBxor), [(a, b); (c, d)] => (xorb a c, xorb b d)
  | XImplies, [(a, b); (c, d)] => (implb a c, implb b d)
  | XMake, [(a, _); (_, d)] => (a, d)
  | XFirst, [(a, _)] => (a, a)
  | XSecond, [(_, b)] => (b, b)
  | _, _ => (false, false)
  end%bool.
Definition bits_of (v : bbv) : bool * bool := match v with BB b => (b, b) | BV2 hi lo => (hi, lo) end.
(* both sides have the same bits whatever the variables are *)
Definition bits_true (r : rule bb_op) : Prop :=
  exists tl tr, tree (rlhs r) = Val tl /\ tree (rrhs r) = Val tr /\ general bb_lang (rlhs r) /\ general bb_lang (rrhs r) /\
    forall s, paval bits_sem s tl = paval bits_sem s tr.
(* a rule between boolean formulas that is true *)
Definition boolean_op (o : bb_op) : Prop := match o with XNot | XAnd | XOr | XXor | XImplies | XLit _ => True | _ => False end.
Definition boolean_pat (p : pat bb_op) : Prop := forall n o, In n p -> nop n = EN o -> boolean_op o.
Definition boolean_rule (r : rule bb_op) : Prop :=
  boolean_pat (rlhs r) /\ boolean_pat (rrhs r) /\
  forall genv s, exists b, pden bb_to_var bb_sem genv (fun v => BB (s v)) (rlhs r) = Val (BB b) /\ pden bb_to_var bb_sem genv (fun v => BB (s v)) (rrhs r) = Val (BB b).
(* both sides, as bitvectors, have the same value wherever they are well-formed: as the
   allowed operators do not lead to booleans, this is so unless (bv x y) occurs *)
Definition bits_agree (r : rule bb_op) : Prop :=
  exists tl tr, tree (instantiate XVar (rlhs r)) = Val tl /\ tree (instantiate XVar (rrhs r)) = Val tr /\
    forall genv v v', bb_den genv tl = Val v -> DomainAlg.bb_den genv tr = Val v' -> v = v'.
