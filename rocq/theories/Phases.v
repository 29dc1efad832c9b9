(* Model of the variations of fast-forwarding: Phase (src/lib.rs:149-167), the row that
   is logged (src/logger.rs:168-183), and lifting_variation and lifting_phases
   (tests/trig.rs:402-592). *)
From Verif Require Import Base Sexp Pattern Filter Workload Lang Syntax Rule Ruleset Egraph Synth Apply Sched Match Minimize Infer Recipes Trig.
Open Scope string_scope.
Open Scope list_scope.

(* src/lib.rs:149-156.  A strategy of Sched.v is a Scheduler with the order in which its
   hash map is visited; the limits are left out. *)
Record phase (O : Type) : Type := Phase { p_rules : ruleset O; p_name : string; p_sched : strategy }.
Arguments Phase {O}. Arguments p_rules {O}. Arguments p_name {O}. Arguments p_sched {O}.
(* src/lib.rs:158-167 *)
Definition sched_name (st : strategy) : string :=
  match st with Simple => "eqsat" | Saturating _ => "sat" | Compress _ => "compress" end.
Definition phase_text {O} (p : phase O) : string := (sched_name (p_sched p) ++ " (" ++ p_name p ++ ")")%string.
(* src/logger.rs:168-183, without the time *)
Record ff_row : Type := { f_phase1 : string; f_phase2 : string; f_phase3 : string; f_rules : list string }.
Definition ff_phase {O} (p1 p2 p3 : phase O) (rules : ruleset O) : ff_row :=
  {| f_phase1 := phase_text p1; f_phase2 := phase_text p2; f_phase3 := phase_text p3; f_rules := to_str_vec rules |}.

Section Variation.
  Context {O C : Type}.
  Variable L : lang O C.
  Variable keep : eg O C -> nat -> nat -> bool.
  Variable fuel : nat.
  (* tests/trig.rs:402-440, for any language: the rules it returns and the row it logs *)
  Definition lifting_variation (w : workload) (p1 p2 p3 minimizing : phase O) (sound : ruleset O) (row : ff_row) : Prop :=
    exists g g1 g2 g3 c1 c2 invalid, to_egraph L keep fuel w = Val g /\
      scheduled L keep fuel (p_sched p1) (p_rules p1) g g1 /\
      scheduled L keep fuel (p_sched p2) (p_rules p2) g1 g2 /\ extracted L fuel g1 g2 c1 /\
      scheduled L keep fuel (p_sched p3) (p_rules p3) g2 g3 /\ extracted L fuel g2 g3 c2 /\
      minimize L keep fuel (p_sched minimizing) (extend c1 c2) (p_rules minimizing) sound invalid /\
      row = ff_phase p1 p2 p3 sound.
End Variation.

(* ---- tests/trig.rs:444-592 (lifting_phases) ---- *)
(* 456-461: all, all_but_exploratory, allowed and exploratory *)
Record phase_rules : Type := { r_all : ruleset trig_op; r_rest : ruleset trig_op; r_allowed : ruleset trig_op; r_explore : ruleset trig_op }.
Definition lifting_rules (order : list (node trig_op) -> list (node trig_op)) : res phase_rules :=
  let* complex := complex_rules in
  let* prior := trig_prior in
  let* explore := trig_exploratory in
  let all := extend (extend complex prior) explore in
  let* (allowed, _) := partition (fun r => Val (is_allowed_rewrite (trig_lang order) (rlhs r) (rrhs r))) all in
  Val {| r_all := all; r_rest := remove_all all explore; r_allowed := allowed; r_explore := explore |}.
(* 463-471 *)
Definition lifting_terms : res workload :=
  let* lits := wnew ["a"; "b"; "c"; "0"; "(/ PI 6)"; "(/ PI 4)"; "(/ PI 3)"; "(/ PI 2)"; "PI"; "(* PI 2)"] in
  let* ops := wnew ["sin"; "cos"; "tan"] in
  let* app := wnew ["(OP V)"] in
  let* w := wplug app "OP" ops in
  let* w := wplug w "V" lits in
  let* p := pattern_from_str "(tan (/ PI 2))" in
  Val (wfilter w (Invert (Contains p))).
(* 473-591: the five calls; [order] visits the hash maps *)
Definition lifting_calls (order : list (list nat) -> list (list nat)) (rs : phase_rules) : list (phase trig_op * phase trig_op * phase trig_op * phase trig_op) :=
  let R st := Phase (r_all rs) "R" st in
  let A st := Phase (r_allowed rs) "A" st in
  let E st := Phase (r_explore rs) "E" st in
  let RE st := Phase (r_rest rs) "R-E" st in
  let compress := Compress order in
  [(R compress, R compress, R compress, A compress);
   (R Simple, R Simple, R Simple, A compress);
   (A compress, E compress, RE compress, A compress);
   (A Simple, E Simple, RE Simple, A compress);
   (A compress, E Simple, RE compress, A compress)].
