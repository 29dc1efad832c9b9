(* What it means for a rewrite rule to be sound: a reference meaning for
   patterns, independent of how rules are applied. *)
From Verif Require Import Base EnumSpec Lang LangProofs Syntax Rule Ruleset.
Open Scope list_scope.

Section Meaning.
  Context {O V : Type}.
  Variable to_var : O -> option string.
  Variable sem : O -> list V -> res V.

  (* value of a pattern: pattern variables from [env], variables of the language
     from [genv] *)
  Definition pat_sem (genv env : string -> V) (o : eov O) (args : list V) : res V :=
    match o with
    | PV v => Val (env v)
    | EN o => with_vars to_var genv sem o args
    end.
  Definition pden (genv env : string -> V) (p : pat O) : res V :=
    fold_rec (pat_sem genv env) p.

  (* wherever the left-hand side has a value, the right-hand side has the same *)
  Definition rule_sound (r : rule O) : Prop :=
    forall genv env v, pden genv env (rlhs r) = Val v -> pden genv env (rrhs r) = Val v.
End Meaning.

(* ---- text of rules ---- *)
(* the text does not contain the arrow that separates the sides of a rule *)
Definition no_arrow (s : string) : Prop := forall a b, s <> (a ++ "=>" ++ b)%string.

(* variables of a pattern *)
Definition pvar {O} (o : eov O) : option string :=
  match o with PV v => Some v | EN _ => None end.
Definition ptvars {O} (t : term (eov O)) : list string := tvars pvar t.

Section Text.
  Context {O : Type}.
  Variable from_op : string -> nat -> option O.
  Variable name : O -> string.
  Variable ar : O -> nat.

  (* number of children of an operator or variable in a pattern *)
  Definition par (o : eov O) : nat := match o with EN o => ar o | PV _ => 0 end.
  (* the printed operator is one word, reads back as itself, does not look like a
     pattern variable and does not contain an arrow *)
  Definition eov_ok (o : eov O) : Prop :=
    match o with
    | EN o => word (name o) /\ no_arrow (name o) /\ from_op (name o) (ar o) = Some o /\
              (forall c s, name o <> String "?" (String c s))
    | PV v => word v /\ no_arrow v
    end.
  (* the pattern [p] is well formed and is the tree [t] *)
  Definition pat_ok (p : pat O) (t : term (eov O)) : Prop :=
    tree p = Val t /\ wf_term par t /\ tall eov_ok t /\
    forall n v, In n p -> nop n = PV v -> In v (ptvars t).
  (* an entry of a ruleset as the constructors build it: it is stored under the
     text "lhs ==> rhs", its sides are well formed and the right side has no
     variable the left side lacks *)
  Definition entry_ok (e : string * rule O) : Prop :=
    let '(k, r) := e in
    rname r = k /\ rule_name name (rlhs r) (rrhs r) = Val k /\
    exists tl tr, pat_ok (rlhs r) tl /\ pat_ok (rrhs r) tr /\ incl (ptvars tr) (ptvars tl).
  Definition ruleset_ok (m : ruleset O) : Prop :=
    NoDup (map fst m) /\ Forall entry_ok m.

  (* a line of a rules file and the names of the rules it stands for *)
  Inductive rule_line : string -> list string -> Prop :=
    | RL_one l tl r tr sl sr : pat_ok l tl -> pat_ok r tr -> incl (ptvars tr) (ptvars tl) ->
        show_pat name l = Val sl -> show_pat name r = Val sr ->
        rule_line (sl ++ " ==> " ++ sr) [sl ++ " ==> " ++ sr]%string
    | RL_two l tl r tr sl sr : pat_ok l tl -> pat_ok r tr -> incl (ptvars tr) (ptvars tl) -> incl (ptvars tl) (ptvars tr) ->
        show_pat name l = Val sl -> show_pat name r = Val sr ->
        rule_line (sl ++ " <=> " ++ sr) [sl ++ " ==> " ++ sr; sr ++ " ==> " ++ sl]%string.
End Text.

(* [n] is the number of classes of the elements of [l] modulo [R]: there is a
   system of representatives with n elements *)
Definition classes_modulo {A} (R : A -> A -> Prop) (l : list A) (n : nat) : Prop :=
  exists reps, incl reps l /\ NoDup reps /\ length reps = n /\
    (forall x, In x l -> exists y, In y reps /\ (x = y \/ R x y)) /\
    (forall x y, In x reps -> In y reps -> x = y \/ ~ R x y).

(* histories of a ruleset and what they do to a finite map *)
Inductive rs_op (O : Type) := OpAdd (r : rule O) | OpExtend (m : ruleset O) | OpRemove (m : ruleset O).
Arguments OpAdd {O} r.
Arguments OpExtend {O} m.
Arguments OpRemove {O} m.
Definition spec_op {O} (f : string -> option (rule O)) (o : rs_op O) : string -> option (rule O) :=
  match o with
  | OpAdd r => fun k => if String.eqb k (rname r) then Some r else f k
  | OpExtend m => fun k => match lookup m k with Some r => Some r | None => f k end
  | OpRemove m => fun k => match lookup m k with Some _ => None | None => f k end
  end.

(* a term with its variables replaced by pattern variables *)
Fixpoint gen_term {O} (to_var : O -> option string) (rho : string -> string) (t : term O) : term (eov O) :=
  match t with
  | T o ts => match to_var o with
              | Some s => T (PV (rho s)) []
              | None => T (EN o) (map (gen_term to_var rho) ts)
              end
  end.

(* every entry has as many children as its operator takes (in Rust the type of
   the language guarantees this) *)
Definition wf_rec {O} (ar : O -> nat) (r : recexpr O) : Prop :=
  Forall (fun n => length (nch n) = ar (nop n)) r.

(* a pattern with its variables replaced by terms *)
Fixpoint psubst {O} (sigma : string -> term O) (t : term (eov O)) : term O :=
  match t with
  | T (PV v) _ => sigma v
  | T (EN o) ts => T o (map (psubst sigma) ts)
  end.

(* at most [n] distinct elements *)
Definition at_most {A} (n : nat) (l : list A) : Prop :=
  forall vs, NoDup vs -> incl vs l -> length vs <= n.
