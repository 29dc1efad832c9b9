(* Model of the derivability reports: Ruleset::derive (src/enumo/ruleset.rs:477-479)
   and the rows src/logger.rs:51-205 hands to add_json_to_file.  Times are not
   modelled; a ruleset is reported by its names (to_str_vec). *)
From Verif Require Import Base Lines Lang Syntax Rule Ruleset Egraph Synth Apply Sched Minimize Recipe.
Open Scope string_scope.
Open Scope list_scope.

(* src/util.rs:67-74: [recipe] is the text of the file tests/recipes/name.rs *)
Definition count_lines (recipe : option string) : option nat := option_map (fun s => length (lines s)) recipe.
(* src/logger.rs:68-70 *)
Definition loc (recipe : option string) : string :=
  match count_lines recipe with Some n => show_nat n | None => "-" end.
(* src/lib.rs:109-115: Limits::deriving().iter *)
Definition deriving_iter : nat := 5.
(* src/logger.rs:63-66 *)
Definition skip_derive : list (string * string) := [("herbie", "rational_replicate"); ("herbie", "rational_best")].
Definition skipped (a b : string) : bool :=
  existsb (fun p => String.eqb (fst p) a && String.eqb (snd p) b) skip_derive.

(* { "can": .., "cannot": .. } *)
Definition split_names : Type := list string * list string.
(* { "lhs": .., "lhs_rhs": .. }, or {} for a skipped pair *)
Definition derivability : Type := option (split_names * split_names).
Record baseline_row : Type := { b_spec : string; b_name : string; b_loc : string; b_rules : list string;
  b_enumo : derivability; b_baseline : derivability }.
Record bv_row : Type := { v_domain : string; v_direct : list string; v_ported : list string;
  v_lhs : split_names; v_lhs_rhs : split_names }.

Section Report.
  Context {O C : Type}.
  Variable L : lang O C.
  Variable keep : eg O C -> nat -> nat -> bool.
  Variable fuel : nat.
  (* src/enumo/ruleset.rs:477-479: one run of can_derive for each rule *)
  Definition derive (lhs_only : bool) (rs against can cannot : ruleset O) : Prop :=
    exists answer : rule O -> bool,
      (forall e, In e against -> can_derive L keep fuel lhs_only deriving_iter rs (snd e) (answer (snd e))) /\
      partition (fun r => Val (answer r)) against = Val (can, cannot).
  (* src/logger.rs:190-205 *)
  Definition get_derivability (lhs_only : bool) (rs against : ruleset O) (out : split_names) : Prop :=
    exists can cannot, derive lhs_only rs against can cannot /\ out = (to_str_vec can, to_str_vec cannot).
  (* src/logger.rs:72-88 *)
  Definition both_ways (a b : string) (rs against : ruleset O) (out : derivability) : Prop :=
    if skipped a b then out = None
    else exists x y, get_derivability true rs against x /\ get_derivability false rs against y /\ out = Some (x, y).
  (* src/logger.rs:51-104 *)
  Definition write_baseline (rs : ruleset O) (spec : string) (baseline : ruleset O) (name : string) (recipe : option string) (row : baseline_row) : Prop :=
    b_spec row = spec /\ b_name row = name /\ b_loc row = loc recipe /\ b_rules row = to_str_vec rs /\
    both_ways spec name rs baseline (b_enumo row) /\ both_ways name spec baseline rs (b_baseline row).
  (* src/logger.rs:114-160 *)
  Definition write_bv_derivability (domain : string) (gen ported : ruleset O) (row : bv_row) : Prop :=
    exists sound bad, partition (is_valid L) ported = Val (sound, bad) /\
      v_domain row = domain /\ v_direct row = to_str_vec gen /\ v_ported row = to_str_vec sound /\
      get_derivability false sound gen (v_lhs_rhs row) /\ get_derivability true sound gen (v_lhs row).
End Report.
