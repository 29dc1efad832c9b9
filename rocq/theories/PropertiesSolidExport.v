(* C80: rules about solids, printed for another tool.  Reference notions:
   SolidExportSpec.v (the terms in the other notation). *)
From Coq Require Import ZArith.
From Verif Require Import Base Sexp Lang Syntax Rule Ruleset Solid SolidTest SolidTestProofs SolidExport SolidExportSpec SolidExportProofs SolidExportLearned.
Open Scope string_scope.
Open Scope list_scope.

(* The replacements in the text of a term are a translation of the term. *)
Theorem C80_term : forall t, lettered t -> fix_ (show_term (pat_name cf_name) t) = spaced (exported t).
Proof. exact fixed_text. Qed.
Print Assumptions C80_term.
(* One numbered line for each rule, in order. *)
Theorem C80_lines : forall rs, Forall (fun e => exists tl tr, sides (snd e) tl tr) rs ->
  exists lines, export_print rs = Val (["RULER RULES START"] ++ lines ++ ["RULER RULES END"; ""; ""]) /\ length lines = length rs /\
    forall n k r tl tr, nth_error rs n = Some (k, r) -> sides r tl tr -> nth_error lines n = Some (exported_line (1 + n) (exported tl) (exported tr)).
Proof. exact export_text. Qed.
Print Assumptions C80_lines.
(* The rules that the test learns are such rules. *)
Theorem C80_learned : forall keep fuel ns all learned, solid_test keep fuel ns all learned -> Forall (fun e => exists tl tr, sides (snd e) tl tr) learned.
Proof. exact learned_sides. Qed.
Print Assumptions C80_learned.
(* a scaling by a product, and the literals 0, 1 and 2 *)
Definition ex_lines : res (ruleset cf_op) := rs_new cf_from_op cf_name
  ["(Scale (Vec3 (op * ?g ?f) (Lit 1) (Lit 0)) ?o) <=> (Trans (Vec3 ?g (Lit 2) ?f) (Scale ?g ?o))"].
Example C80_hyp : exists rs, ex_lines = Val rs /\ Forall (fun e => exists tl tr, sides (snd e) tl tr) rs /\
  export_print rs = Val ["RULER RULES START";
    "rw!(""ruler1""; ""(Affine Scale (Vec3 (* ?g ?f) 1 0) ?o)"" => ""(Affine Trans (Vec3 ?g (Lit 2) ?f) (Affine Scale ?g ?o))""),";
    "rw!(""ruler2""; ""(Affine Trans (Vec3 ?g (Lit 2) ?f) (Affine Scale ?g ?o))"" => ""(Affine Scale (Vec3 (* ?g ?f) 1 0) ?o)""),";
    "RULER RULES END"; ""; ""].
Proof.
  destruct ex_lines as [rs|] eqn:E; [|exfalso; revert E; vm_compute; discriminate]. exists rs. split; [reflexivity|]. vm_compute in E. injection E as <-. split; [|vm_compute; reflexivity].
  repeat constructor; do 2 eexists; (split; [reflexivity|]); (split; [reflexivity|]); cbn;
    repeat match goal with |- _ /\ _ => split | |- True => exact Logic.I | |- _ = _ => reflexivity
      | |- exists i, Util.letter i = Val "f" => exists 5 | |- exists i, Util.letter i = Val "g" => exists 6 | |- exists i, Util.letter i = Val "o" => exists 14 end.
Qed.
(* With longer names of variables the text can become that of another rule: op at the
   end of a name is taken for the operator. *)
Theorem C80_names_refuted : exists p, parse_pat cf_from_op "(Union ?top ?a)" = Some p /\ show_pat cf_name p = Val "(Union ?top ?a)" /\ fix_ "(Union ?top ?a)" = "(Union ?t?a)".
Proof. eexists. split; [vm_compute; reflexivity|]. split; vm_compute; reflexivity. Qed.
Print Assumptions C80_names_refuted.
