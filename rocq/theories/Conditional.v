(* Model of the conditional rules of the rational domain (tests/rational.rs:243-315,
   373-437): a rejected rule is repaired by guarding it with a denominator that
   occurs in one of its sides only. *)
From Verif Require Import Base Sexp Reader Lang Syntax Rule Ruleset Rational Workload Egraph Synth Sched Minimize Infer Domains.
Open Scope string_scope.
Open Scope list_scope.

(* tests/rational.rs:243-259; the set as a list, list[i] panics when the list is too
   short *)
Fixpoint all_denominators (s : sexp) : res (list string) :=
  match s with
  | Atom _ => Val []
  | Lst [] => Panic
  | Lst (h :: l) =>
      let* own :=
        match h with
        | Atom w =>
            if String.eqb w "/"
            then match l with _ :: d :: _ => Val [display d] | _ => Panic end
            else Val []
        | Lst _ => Val []
        end in
      let* a := all_denominators h in
      let* b := rmapM all_denominators l in
      Val (own ++ a ++ concat b)
  end.

(* tests/rational.rs:265-275: the union without the intersection.  The order of a
   HashSet is unspecified; it does not matter below. *)
Definition one_sided (a b : list string) : list string :=
  nodup string_dec (filter (fun d => negb (mem d b)) a ++ filter (fun d => negb (mem d a)) b).

(* tests/rational.rs:261-315.  None is "no condition added".  The loop over further
   denominators (287-293) is never entered: a second one returns None. *)
Definition add_condition (r : rule math_op) : res (option (rule math_op)) :=
  let* ls := pat_to_sexp (rlhs r) in
  let* rs := pat_to_sexp (rrhs r) in
  let* ld := all_denominators ls in
  let* rd := all_denominators rs in
  match one_sided ld rd with
  | [d] =>
      let* c := unwrap (parse_str d) in
      let* rhs := unwrap (parse_pat math_from_op (display (Lst [Atom "if"; c; rs; ls]))) in
      let* n := rule_name math_name (rlhs r) rhs in
      if rewrite_ok (rlhs r) rhs then Val (Some (Rule n (rlhs r) rhs KPat)) else Panic
  | _ => Val None
  end.

(* tests/rational.rs:400-412: filter_map and collect into an IndexMap keyed by name *)
Fixpoint with_condition (invalid : list (string * rule math_op)) : res (list (string * rule math_op)) :=
  match invalid with
  | [] => Val []
  | (_, r) :: rest =>
      let* o := add_condition r in
      let* l := with_condition rest in
      Val (match o with Some x => (rname x, x) :: l | None => l end)
  end.

(* tests/rational.rs:373-437: the result when the function returns (printing is not
   modelled) *)
Definition run_workload_conditional ov check (keep : eg _ _ -> nat -> nat -> bool) (fuel : nat)
  (w : workload) (prior : ruleset math_op) (fast : bool) (result : ruleset math_op) : Prop :=
  let L := math_lang ov check in
  exists g c cands o1 chosen invalid added o2 chosen_conditional rest,
    to_egraph L keep fuel w = Val g /\ compressed L keep fuel prior g c /\ proposed L fuel fast c cands /\
    anyorder o1 /\ minimize L keep fuel (Compress o1) cands prior chosen invalid /\
    with_condition invalid = Val added /\
    anyorder o2 /\ minimize L keep fuel (Compress o2) (extend [] added) (rs_union prior chosen) chosen_conditional rest /\
    result = rs_union chosen chosen_conditional.
