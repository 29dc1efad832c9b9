(* Model of the tests that enumerate a domain by size and learn from one size after the
   other: iter_bool, dsl and simple (tests/bool.rs:131-280), iter_nat and simple
   (tests/nat.rs:184-245), iter_pos and rule_lifting (tests/pos.rs:121-248). *)
From Coq Require Import NArith QArith Qcanon.
From Verif Require Import Base Sexp Reader Pattern Filter Workload Recipe Lang Syntax Rule Ruleset NatDom PosDom BoolDom Analysis Egraph Synth Sched Match Minimize Infer Domains Recipes.
Open Scope string_scope.
Open Scope list_scope.

(* tests/bool.rs:131-138, tests/nat.rs:184-191, tests/pos.rs:121-128 and
   tests/maxmin.rs:460-467, with what is plugged as parameters *)
Definition sized_test (vals vars uops bops : list string) (n : nat) : res workload :=
  let* b := base_lang 2 in
  let* w := iter_metric b "EXPR" Atoms n in
  let* f := has_pat "VAR" in
  let* w := plug_new (wfilter w f) "VAL" vals in
  let* w := plug_new w "VAR" vars in
  let* w := plug_new w "OP1" uops in
  plug_new w "OP2" bops.
Definition iter_bool : nat -> res workload := sized_test ["true"; "false"] abc ["~"] ["&"; "|"; "^"; "->"].
Definition iter_nat : nat -> res workload := sized_test ["Z"] abc ["S"] ["+"; "*"].
Definition iter_pos : nat -> res workload := sized_test ["XH"] abc ["XO"; "XI"] ["+"; "*"].

(* One size after the other: what is learned from the terms of a size is added to the
   rules that the next run starts from. *)
Fixpoint climb {O} (step : workload -> ruleset O -> ruleset O -> Prop) (iter : nat -> res workload) (sizes : list nat) (all final : ruleset O) : Prop :=
  match sizes with
  | [] => final = all
  | n :: r => exists w new, iter n = Val w /\ step w all new /\ climb step iter r (extend all new) final
  end.
(* tests/bool.rs:146-151: Compress, cvec_match and minimize; the orders are those of the
   hash maps *)
Definition by_hand {O C} (L : lang O C) (w : workload) (all new : ruleset O) : Prop :=
  exists keep fuel g c cands, to_egraph L keep fuel w = Val g /\ compressed L keep fuel all g c /\ proposed L fuel false c cands /\ minimized L keep fuel cands all new.
(* tests/bool.rs:141-204 *)
Definition bool_dsl (sizes : list nat) (all : ruleset bool_op) : Prop := climb (by_hand bool_lang) iter_bool sizes [] all.
(* tests/bool.rs:207-280 *)
Definition bool_simple (sizes : list nat) (all : ruleset bool_op) : Prop := climb (fun w p new => learned bool_lang w p false new) iter_bool sizes [] all.
(* tests/nat.rs:194-217 *)
Definition nat_simple depth rng check (sizes : list nat) (all : ruleset nat_op) : Prop :=
  climb (fun w p new => learned (nat_lang depth rng check) w p false new) iter_nat sizes [] all.
(* tests/pos.rs:181-222 *)
Definition pos_lifting depth (sizes : list nat) (all : ruleset pos_op) : Prop :=
  exists ex prior, pos_exploratory = Val ex /\ pos_nat_rules = Val prior /\
    climb (fun w p new => forwarded (pos_lang depth) ex w p new) iter_pos sizes (extend [] prior) all.

(* the sizes, and the numbers of terms that the tests assert *)
Definition test_sizes : list nat := [3; 4; 5].
Definition asserted : list ((nat -> res workload) * nat * N) :=
  [(iter_bool, 3, 93%N); (iter_bool, 4, 348%N); (iter_bool, 5, 4599%N); (iter_nat, 3, 39%N); (iter_nat, 4, 132%N); (iter_nat, 5, 819%N);
   (iter_pos, 3, 51%N); (iter_pos, 4, 255%N); (iter_pos, 5, 1527%N)].

(* what the tests expect to derive *)
(* tests/bool.rs:169-200 and 246-277 *)
Definition bool_expected : list string :=
  ["(^ ?b ?a) ==> (^ ?a ?b)"; "(& ?b ?a) ==> (& ?a ?b)"; "(| ?b ?a) ==> (| ?a ?b)"; "(& ?a ?a) <=> ?a"; "?a <=> (~ (~ ?a))"; "?a <=> (| ?a ?a)";
   "(-> ?a ?a) ==> true"; "(^ ?a ?a) ==> false"; "(| ?a false) <=> ?a"; "?a <=> (-> true ?a)"; "?a <=> (& ?a true)"; "?a <=> (^ false ?a)";
   "(~ ?a) <=> (-> ?a false)"; "(~ ?a) <=> (^ ?a true)"; "(-> ?b (~ ?a)) <=> (~ (& ?b ?a))"; "(~ (^ ?b ?a)) ==> (^ ?b (~ ?a))"; "(-> (~ ?b) ?a) ==> (| ?a ?b)";
   "(-> ?b (~ ?a)) ==> (^ ?a (-> ?a ?b))"; "(| ?b ?a) ==> (-> (-> ?b ?a) ?a)"; "(-> ?b ?a) <=> (-> (| ?a ?b) ?a)"; "(| ?b ?a) <=> (| ?a (^ ?b ?a))";
   "(& ?b ?a) ==> (& ?b (-> ?b ?a))"; "(| ?b (& ?b ?a)) ==> ?b"; "(& ?a (| ?b ?a)) ==> ?a"; "(& ?a (-> ?b ?a)) ==> ?a"; "(-> (-> ?a ?b) ?a) ==> ?a";
   "(-> ?c (-> ?b ?a)) <=> (-> (& ?c ?b) ?a)"; "(| ?c (| ?b ?a)) ==> (| ?a (| ?b ?c))"; "(-> ?c (-> ?b ?a)) ==> (-> ?b (-> ?c ?a))"; "(^ ?c (^ ?b ?a)) ==> (^ ?a (^ ?c ?b))"].
(* tests/nat.rs:219-229 *)
Definition nat_expected : list string :=
  ["(+ ?b ?a) ==> (+ ?a ?b)"; "(* ?b ?a) ==> (* ?a ?b)"; "(+ Z ?a) <=> ?a"; "(* Z ?a) ==> Z"; "?a <=> (* ?a (S Z))"; "(+ ?b (S ?a)) <=> (S (+ ?b ?a))";
   "(+ ?b (* ?b ?a)) ==> (* ?b (S ?a))"; "(* ?c (* ?b ?a)) ==> (* ?a (* ?b ?c))"; "(+ ?c (+ ?b ?a)) ==> (+ ?a (+ ?b ?c))"].
(* tests/pos.rs:224-241 *)
Definition pos_expected : list string :=
  ["(+ ?b ?a) ==> (+ ?a ?b)"; "(* ?b ?a) ==> (* ?a ?b)"; "(+ Z ?a) ==> ?a"; "(* ?a Z) ==> Z"; "(S (+ ?b ?a)) ==> (+ ?b (S ?a))"; "(* ?a (S Z)) ==> ?a"; "(+ ?a (S Z)) ==> (S ?a)";
   "(+ ?c (+ ?b ?a)) ==> (+ ?a (+ ?b ?c))"; "(* (* ?c ?b) ?a) ==> (* ?b (* ?c ?a))"; "(+ ?b (* ?b ?a)) ==> (* ?b (S ?a))"; "(* (+ ?b ?b) ?a) ==> (* ?b (+ ?a ?a))"; "(+ ?a ?a) ==> (* ?a (S (S Z)))";
   "(XI ?a) <=> (+ (XO ?a) XH)"; "?a <=> (* ?a XH)"; "(XO ?a) <=> (+ ?a ?a)"; "(+ ?a (XO ?a)) <=> (* ?a (XI XH))"].
