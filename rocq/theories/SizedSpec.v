(* Reference notions for the sized tests. *)
From Verif Require Import Base Sexp Lang Rule Ruleset Workload EnumSpec RecipesSpec.
Open Scope string_scope.
Open Scope list_scope.

(* The workload can be enumerated, and it lists exactly these terms, each of them once. *)
Definition lists (wl : res workload) (P : sexp -> Prop) : Prop :=
  exists w us, wl = Val w /\ force w = Val us /\ NoDup us /\ forall u, In u us <-> P u.
(* the terms with at most [n] atoms that have a variable *)
Definition open_terms (vals vars uops bops : list string) (n : nat) (u : sexp) : Prop :=
  built (vars ++ vals) (each 1 uops ++ each 2 bops) u /\ size Atoms u <= n /\ exists v, In v vars /\ occurs v u.

(* After one more size a test has what it had before and what the run over the terms of
   that size chose. *)
Definition one_more {O} (test : list nat -> ruleset O -> Prop) (iter : nat -> res workload) (run : workload -> ruleset O -> ruleset O -> Prop) : Prop :=
  forall ns n all, test (ns ++ [n]) all -> exists w mid new, iter n = Val w /\ test ns mid /\ run w mid new /\ forall e, In e all <-> In e mid \/ In e new.
