(* Reference notions for the vectors of classes after rules were run, and for what
   rules were learned. *)
From Verif Require Import Base Sexp Reader Lang Syntax Rule Ruleset RuleSpec LangProofs Util Analysis Egraph EgraphSpec Synth Apply Sched Workload BoolDom DomainSpec TotalSpec CalmSpec MatchSpec PlainSpec.
Open Scope list_scope.

(* what the first vector knows the second knows too *)
Definition below {C} (v w : cvec C) : Prop := Forall2 (fun a b => a = None \/ a = b) v w.

(* languages with samples: every variable gets a vector and nothing else, the
   interpreter answers for each sample (more when it is told more), and constants
   are terms without variables *)
Record sampled {O C} (L : lang O C) (ar : O -> nat) : Prop := {
  sp_eqb : forall a b, l_eqb L a b = true <-> a = b;
  sp_ceqb : forall a b, l_ceqb L a b = true -> a = b;
  sp_from_op : forall s n o, l_from_op L s n = Some o -> ar o = n;
  sp_var : forall s, l_to_var L (l_mk_var L s) = Some s;
  sp_only : forall o s, l_to_var L o = Some s -> o = l_mk_var L s;
  sp_leaf : forall s, ar (l_mk_var L s) = 0;
  sp_var_eval : forall n s cs v, l_eval L n (l_mk_var L s) cs = Val v -> v = [];
  sp_var_itv : forall s i a b, l_itv L (l_mk_var L s) [] = Val i -> low i = Some a -> high i = Some b -> l_ceqb L a b = false;
  sp_custom : forall g i, l_custom L g i = Val [];
  sp_const : forall c, Forall (fun n => l_to_var L (nop n) = None /\ typed_node ar n) (l_const L c);
  sp_init : forall vars n vs, l_init L vars = Val (n, vs) -> map (fun e => fst (fst e)) vs = vars /\
    forall x c ts, In (x, c, ts) vs -> length c = n /\ ts = [];
  sp_len : forall n o cs v, l_to_var L o = None -> Forall (fun c => length c = n) cs -> l_eval L n o cs = Val v -> length v = n;
  sp_mono : forall n o cs cs' v', l_to_var L o = None -> Forall2 below cs cs' -> l_eval L n o cs' = Val v' ->
    exists v, l_eval L n o cs = Val v /\ below v v' }.

(* a pattern without variables of the language (only pattern variables), and with
   the right number of children everywhere *)
Definition plain_pat {O C} (L : lang O C) (ar : O -> nat) (p : pat O) : Prop :=
  Forall (fun n => match nop n with EN o => l_to_var L o = None /\ length (nch n) = ar o | PV _ => True end) p.
Definition plain_rhs {O C} (L : lang O C) (ar : O -> nat) (r : rule O) : Prop := plain_pat L ar (rrhs r).
Definition plain_rules {O C} (L : lang O C) (ar : O -> nat) (rs : ruleset O) : Prop := Forall (fun e => plain_rhs L ar (snd e)) rs.

(* e-graphs that come from a workload by running rules of the given kind; nothing is
   said about their truth *)
Inductive grown {O C} (L : lang O C) (kind : rule O -> Prop) (keep : eg O C -> nat -> nat -> bool) (w : workload) : eg O C -> Prop :=
  | Gr_start fuel g : to_egraph L keep fuel w = Val g -> grown L kind keep w g
  | Gr_run fuel st rs g g' : grown L kind keep w g -> Forall (fun e => kind (snd e)) rs -> scheduled L keep fuel st rs g g' -> grown L kind keep w g'.
(* the same, with at least one run *)
Definition ran {O C} (L : lang O C) (kind : rule O -> Prop) (keep : eg O C -> nat -> nat -> bool) (w : workload) (g' : eg O C) : Prop :=
  exists fuel st rs g, grown L kind keep w g /\ Forall (fun e => kind (snd e)) rs /\ scheduled L keep fuel st rs g g'.

(* the terms of the workload and the samples their variables get *)
Definition samples_of {O C} (L : lang O C) (w : workload) (ts : list (term O)) (n : nat) (vs : list (string * cvec C)) : Prop :=
  exists ss ls, force w = Val ss /\ Forall2 (reads L) ss ts /\
    l_init L (first_seen (flat_map (tvars (l_to_var L)) ts)) = Val (n, ls) /\ vs = map fst ls.

(* two well-typed terms over the given variables that no sample tells apart *)
Definition untold {O C} (L : lang O C) (ar : O -> nat) (vars : list string) (n : nat) (vs : list (string * cvec C)) (t1 t2 : term O) : Prop :=
  wf_term ar t1 /\ wf_term ar t2 /\ incl (tvars (l_to_var L) t1) vars /\ incl (tvars (l_to_var L) t2) vars /\
  exists v1 v2, cvec_term (l_eval L) (l_to_var L) n (var_cvec vs) t1 = Val v1 /\ cvec_term (l_eval L) (l_to_var L) n (var_cvec vs) t2 = Val v2 /\
    length v1 = n /\ length v2 = n /\ agree v1 v2.
(* the sides of the rule are the two terms, with pattern variables for variables *)
Definition generalizes {O C} (L : lang O C) (r : rule O) (t1 t2 : term O) : Prop :=
  exists rho, (forall x y, In x (tvars (l_to_var L) t1 ++ tvars (l_to_var L) t2) -> In y (tvars (l_to_var L) t1 ++ tvars (l_to_var L) t2) -> rho x = rho y -> x = y) /\
    tree (rlhs r) = Val (gen_term (l_to_var L) rho t1) /\ tree (rrhs r) = Val (gen_term (l_to_var L) rho t2).
(* a rule with plain sides that generalizes two terms related by [R] *)
Definition from_terms {O C} (L : lang O C) (ar : O -> nat) (R : term O -> term O -> Prop) (r : rule O) : Prop :=
  plain_pat L ar (rlhs r) /\ plain_pat L ar (rrhs r) /\ rkind r = KRhs /\ exists t1 t2, R t1 t2 /\ generalizes L r t1 t2.
(* the variables of terms *)
Definition wvars {O C} (L : lang O C) (ts : list (term O)) : list string := first_seen (flat_map (tvars (l_to_var L)) ts).
(* a boolean rule both sides of which have the same truth value whatever is put in
   for the pattern variables *)
Definition tautology (r : rule bool_op) : Prop := exists tl tr, tree (instantiate BVar (rlhs r)) = Val tl /\ tree (instantiate BVar (rrhs r)) = Val tr /\
  forall env, exists v, bool_den env tl = Val v /\ bool_den env tr = Val v.
