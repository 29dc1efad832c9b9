(* tests/szalinski.rs: the workloads and the loop of the test rule_lifting. *)
From Coq Require Import ZArith.
From Verif Require Import Base Sexp Reader Workload Recipe Recipes Lang Rule Ruleset Egraph Infer Solid.
Open Scope string_scope.
Open Scope list_scope.

(* tests/szalinski.rs:238-262 *)
Definition iter_szalinski (n : nat) : res workload :=
  let* lang := wnew ["(TRANSFORMATION V3 SOLID)"; "(Cube V3 false)"; "(Cylinder V3 params true)"; "(Sphere SCALAR params)"; "s"] in
  let* w := iter_metric lang "SOLID" Depth n in
  let* w := plug_new w "V3" ["(Vec3 (Lit 0) (Lit 0) (Lit 0))"; "(Vec3 (Lit 1) (Lit 1) (Lit 1))"; "(Vec3 a a a)"; "(Vec3 a b c)"; "(Vec3 d e f)";
    "(Vec3 (op BOP a d) (op BOP b e) (op BOP c f))"] in
  let* w := plug_new w "TRANSFORMATION" ["Scale"; "Trans"] in
  let* w := plug_new w "SCALAR" ["a"; "(Lit 1)"] in
  plug_new w "BOP" ["+"; "*"; "/"].

(* 266-284, without printing and without the derivability check at the end (288-304).
   [layers] is the body of the loop; the limits are in [keep] and in which matches the
   runs apply. *)
Definition solid_test keep fuel (ns : list nat) (all learned : ruleset cf_op) : Prop :=
  exists prior ex ws, cf_prior = Val prior /\ cf_exploratory = Val ex /\ rmapM iter_szalinski ns = Val ws /\
    layers keep fuel ex ws prior [] all learned.
(* for i in 2..4 *)
Definition test_sizes : list nat := [2; 3].
