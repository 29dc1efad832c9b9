(* Reference notions for C73: inference neither panics nor runs out of fuel. *)
From Verif Require Import Base Lang Rule Ruleset Egraph Synth Apply Sched SynthSpec OpsSpec.
Open Scope list_scope.

(* the variable is in the pattern *)
Fixpoint occurs {O} (v : string) (t : term (eov O)) : Prop :=
  match t with
  | T (PV w) _ => w = v
  | T (EN _) ts => fold_right (fun t P => occurs v t \/ P) False ts
  end.

(* A term, and a pattern, that can be read: its operators are spelt out, with as many
   children as they have here.  (The variables of a term can have any names.) *)
Definition read_term {O C} (L : lang O C) (r : recexpr O) : Prop :=
  Forall (fun n => read_op L (nop n) (length (nch n)) \/ exists v, n = Node (l_mk_var L v) []) r /\ exists t, tree r = Val t.
Definition read_pat {O C} (L : lang O C) (p : pat O) : Prop :=
  Forall (fun n => match nop n with EN o => read_op L o (length (nch n)) | PV _ => nch n = [] end) p /\ exists t, tree p = Val t.
(* A rewrite: every variable of the right side is on the left; no condition. *)
Definition rewrite_rule {O C} (L : lang O C) (r : rule O) : Prop :=
  read_pat L (rlhs r) /\ read_pat L (rrhs r) /\ (forall v t, In v (pvars (rrhs r)) -> tree (rlhs r) = Val t -> occurs v t) /\
  (forall v, rkind r <> KGuard v).

(* The e-graphs that come up while rules are run: runs of some of the rules may stop
   anywhere.  (With fuel at least 2; the fuel only bounds the rounds of rebuilding.) *)
Inductive reached {O C} (L : lang O C) (keep : eg O C -> nat -> nat -> bool) (rs : ruleset O) : eg O C -> Prop :=
  | R_new : reached L keep rs eg_default
  | R_workload fuel w g : 2 <= fuel -> to_egraph L keep fuel w = Val g -> reached L keep rs g
  | R_add fuel g r g' i : 2 <= fuel -> reached L keep rs g -> read_term L r -> s_add_expr L keep fuel g r = Val (g', i) -> reached L keep rs g'
  | R_runs fuel rules g g' : 2 <= fuel -> reached L keep rs g -> incl rules (map snd rs) -> runs L keep fuel rules g g' -> reached L keep rs g'
  | R_rebuild fuel g g' : 2 <= fuel -> reached L keep rs g -> s_rebuild L keep fuel g = Val g' -> reached L keep rs g'
  | R_compress fuel order part g out g' : 2 <= fuel -> reached L keep rs g -> fair (Compress order) -> incl part rs -> simple L keep fuel part g out ->
      compress_with L keep fuel order g out = Val g' -> reached L keep rs g'.

(* Nothing that is done next panics, and rebuilding ends: *)
Record goes_on {O C} (L : lang O C) (keep : eg O C -> nat -> nat -> bool) (rs : ruleset O) (g : eg O C) : Prop := {
  (* terms can be added *)
  go_add : forall r, read_term L r -> exists g' i, forall f, 2 <= f -> s_add_expr L keep f g r = Val (g', i);
  (* at every point of every run of some of the rules, the matches found so far can be
     applied, and rebuilding ends, with the same result whatever more fuel there is *)
  go_run : forall fuel rules g1 ms, 2 <= fuel -> incl rules (map snd rs) -> rsteps L keep fuel rules (g, []) (g1, ms) ->
    (forall r c s, In (r, c, s) ms -> exists g2 ids, forall f, 2 <= f -> apply_one L keep f r g1 c s = Val (g2, ids)) /\
    (exists f0 g2, forall f, f0 <= f -> s_rebuild L keep f g1 = Val g2);
  (* the classes that a run has merged can be merged in the e-graph it started from *)
  go_compress : forall fuel order out, 2 <= fuel -> fair (Compress order) -> simple L keep fuel rs g out ->
    exists f0 g', forall f, f0 <= f -> compress_with L keep f order g out = Val g';
  (* every scheduler has a run to its end *)
  go_schedule : forall st, fair st -> exists f0 g', forall f, f0 <= f -> scheduled L keep f st rs g g' }.

(* The rules can be sorted into saturating and other ones, and derivability has an
   answer, also for rules that are not true. *)
Record answers {O C} (L : lang O C) (keep : eg O C -> nat -> nat -> bool) (rs : ruleset O) : Prop := {
  an_partition : exists f0 a b, forall f, f0 <= f -> partition (is_saturating L keep f) rs = Val (a, b);
  an_derive : forall lhs_only iter r, read_pat L (rlhs r) -> read_pat L (rrhs r) ->
    (exists g, (forall f, 2 <= f -> derive_start L keep f lhs_only r = Val g) /\
      forall fuel out, 2 <= fuel -> saturating L keep fuel iter rs g out -> exists b, derive_answer L r out = Val b) /\
    (exists f0 b, forall f, f0 <= f -> can_derive L keep f lhs_only iter rs r b) }.

(* The e-graph of a workload is the same whatever the fuel is. *)
Definition steady {O C} (L : lang O C) (keep : eg O C -> nat -> nat -> bool) : Prop :=
  forall f f' w g, 2 <= f -> 2 <= f' -> to_egraph L keep f w = Val g -> to_egraph L keep f' w = Val g.
