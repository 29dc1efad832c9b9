(* Model of src/enumo/rule.rs (construction, naming, reading; the appliers and
   is_saturating need an e-graph and are in Apply.v). *)
From Verif Require Import Base Sexp Reader Lang Syntax.
Open Scope string_scope.
Open Scope list_scope.

(* How the rewrite of a rule applies its right-hand side: KRhs is the applier of
   src/enumo/rule.rs:66-100; KPat is egg's own pattern applier
   (tests/rational.rs:304); KGuard v is egg's pattern applier under the condition
   is_bv_str of tests/bv-bool.rs:33-36,61 on variable v. *)
Inductive kind := KRhs | KPat | KGuard (v : string).

(* src/enumo/rule.rs:9-18 *)
Record rule (O : Type) : Type :=
  Rule { rname : string; rlhs : pat O; rrhs : pat O; rkind : kind }.
Arguments Rule {O} rname rlhs rrhs rkind.
Arguments rname {O} r.
Arguments rlhs {O} r.
Arguments rrhs {O} r.
Arguments rkind {O} r.

Definition mem (x : string) (l : list string) : bool := existsb (String.eqb x) l.

(* egg Pattern::vars: the variables in order of first occurrence *)
Fixpoint pvars_from {O} (seen : list string) (p : pat O) : list string :=
  match p with
  | [] => []
  | n :: r =>
      match nop n with
      | PV v => if mem v seen then pvars_from seen r else v :: pvars_from (v :: seen) r
      | EN _ => pvars_from seen r
      end
  end.
Definition pvars {O} (p : pat O) : list string := pvars_from [] p.

(* egg Rewrite::new: an error unless every variable of the applier is bound by
   the searcher *)
Definition rewrite_ok {O} (l r : pat O) : bool :=
  forallb (fun v => mem v (pvars l)) (pvars r).

Section Names.
  Context {O : Type}.
  Variable from_op : string -> nat -> option O.
  Variable name : O -> string.

  (* format!("{} ==> {}", l, r) *)
  Definition rule_name (l r : pat O) : res string :=
    let* a := show_pat name l in
    let* b := show_pat name r in
    Val (a ++ " ==> " ++ b)%string.

  (* src/enumo/rule.rs:103-114 *)
  Definition rule_new (l r : pat O) : res (option (rule O)) :=
    let* n := rule_name l r in
    Val (if rewrite_ok l r then Some (Rule n l r KRhs) else None).

  (* Rewrite::new(..).unwrap() *)
  Definition rule_unwrap (l r : pat O) : res (rule O) :=
    let* o := rule_new l r in unwrap o.

  (* src/enumo/rule.rs:27-63; None is Err.  The same string is formatted twice
     there; once here. *)
  Definition rule_from_string (s : string) : res (option (rule O * option (rule O))) :=
    match split_arrow s with
    | Some (l, r) =>
        let* lp := unwrap (parse_pat from_op l) in
        let* rp := unwrap (parse_pat from_op r) in
        let* fw := rule_unwrap lp rp in
        if has_biarrow s
        then let* bw := rule_unwrap rp lp in Val (Some (fw, Some bw))
        else Val (Some (fw, None))
    | None => Val None
    end.
End Names.
