(* Specification of the score of a rule, in terms of the two sides as trees, and of
   the fate of a candidate. *)
From Coq Require Import ZArith.
From Verif Require Import Base Lang Syntax Rule Ruleset RuleSpec Analysis Egraph EgraphSpec Synth Apply Sched SynthSpec Minimize.
Open Scope list_scope.

Fixpoint subterms {O} (t : term O) : list (term O) :=
  match t with T _ ts => t :: flat_map subterms ts end.
(* [n] is the number of strings with the property [P] *)
Definition card (P : string -> Prop) (n : Z) : Prop :=
  exists vs, NoDup vs /\ (forall v, In v vs <-> P v) /\ n = Z.of_nat (length vs).
(* [n] is the number of entries of [l] that satisfy [f] *)
Definition occurrences {A} (f : A -> bool) (l : list A) (n : Z) : Prop := n = Z.of_nat (length (List.filter f l)).
Definition size_of {O} (t : term O) : Z := Z.of_nat (length (subterms t)).
Definition constant {O} (is_const : O -> bool) (t : term (eov O)) : bool :=
  match t with T (EN o) _ => is_const o | T (PV _) _ => false end.
(* [s] names an operator applied to arguments somewhere in [t] *)
Definition applied {O} (name : O -> string) (t : term (eov O)) (s : string) : Prop :=
  exists o ts, In (T o ts) (subterms t) /\ ts <> [] /\ s = pat_name name o.

(* [a] comes before [b]: a smaller entry at the first difference *)
Inductive lex_lt : list Z -> list Z -> Prop :=
  | LL_here x y a b : (x < y)%Z -> length a = length b -> lex_lt (x :: a) (y :: b)
  | LL_next x a b : lex_lt a b -> lex_lt (x :: a) (x :: b).

Section Fate.
  Context {O C : Type}.
  Variable L : lang O C.
  Local Notation name := (l_name L).

  (* a validated candidate, possibly built again as the reverse of another one *)
  Definition picked (M0 : ruleset O) (e : string * rule O) : Prop :=
    fst e = rname (snd e) /\ is_valid L (snd e) = Val true /\ In (fst e) (map fst M0) /\
    exists p, In p M0 /\ (snd e = snd p \/ reverse name (snd p) = Val (Some (snd e))).
  (* a candidate that is not valid, or the reverse of a candidate *)
  Definition discarded (M0 : ruleset O) (e : string * rule O) : Prop :=
    fst e = rname (snd e) /\ exists p, In p M0 /\
      ((snd e = snd p /\ is_valid L (snd e) = Val false) \/ reverse name (snd p) = Val (Some (snd e))).

  (* the two sides of the rule [r] end up in one class when the rules are run on an
     e-graph made from terms without any rules *)
  Definition merged_by (keep : eg O C -> nat -> nat -> bool) fuel st (rules : ruleset O) (r : rule O) : Prop :=
    exists g out tl tr c, made L keep [] g /\ scheduled L keep fuel st rules g out /\
      tree (instantiate (l_mk_var L) (rlhs r)) = Val tl /\ tree (instantiate (l_mk_var L) (rrhs r)) = Val tr /\
      repr out tl c /\ repr out tr c.

  (* the two sides of a rule have the same value whatever its variables are *)
  Definition true_rule {V} (A : algebra O C V) (r : rule O) : Prop :=
    exists tl tr, tree (rlhs r) = Val tl /\ tree (rrhs r) = Val tr /\
      (closed L tl -> closed L tr -> forall s, (forall v, a_dom A (s v)) -> paval (a_sem A) s tl = paval (a_sem A) s tr).
End Fate.
