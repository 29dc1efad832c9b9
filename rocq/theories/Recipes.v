(* Model of the recipes that produce the rulesets of the evaluation:
   tests/recipes/*.rs and gen() of tests/bv8.rs, bv16.rs, bv32.rs, bv64.rs, bv128.rs.
   A recipe is the relation between what it starts from and what it returns when it
   returns.  Printing and measuring time are not modelled. *)
From Coq Require Import NArith QArith Qcanon.
From Verif Require Import Base Sexp Reader Pattern Filter Workload Recipe Lang Syntax Rule Ruleset BoolDom BV Rational Halide Trig Exp Egraph Synth Infer Domains Conditional.
Open Scope string_scope.
Open Scope list_scope.

(* The limits of a run decide which nodes and matches are kept and how long it goes
   on; every run may have others. *)
Definition learned {O C} (L : lang O C) w prior fast new : Prop := exists keep fuel, run_workload L keep fuel w prior fast new.
Definition recursed {O C} (L : lang O C) met l prior n all : Prop := exists keep fuel, recursive_rules L keep fuel met l prior n all.
Definition forwarded {O C} (L : lang O C) ex w prior new : Prop := exists keep fuel, run_fast_forwarding L keep fuel ex w prior new.

Definition abc : list string := ["a"; "b"; "c"].
(* "…".parse().unwrap() *)
Definition has_pat (s : string) : res filter := let* p := pattern_from_str s in Val (Contains p).
Definition plug_new (w : workload) (name : string) (l : list string) : res workload := let* pegs := wnew l in wplug w name pegs.

(* ---- tests/recipes/bool.rs ---- *)
(* 12-16 *)
Definition bool_wlang : wlang := WLang ["true"; "false"] abc [["~"]; ["&"; "|"; "^"]].
(* 21-30 *)
Definition bool_a7 : res workload :=
  let* b := base_lang 2 in
  let* w := iter_metric b "EXPR" Atoms 7 in
  let* w := wplug w "VAL" wempty in
  let* w := plug_new w "VAR" abc in
  let* w := plug_new w "OP1" ["~"] in
  let* w := plug_new w "OP2" ["&"; "|"; "^"] in
  Val (wfilter w (Canon abc)).
(* 7-41 *)
Definition bool_rules (all : ruleset bool_op) : Prop :=
  exists r5 w r7, recursed bool_lang Atoms bool_wlang [] 5 r5 /\ bool_a7 = Val w /\
    learned bool_lang w (extend [] r5) true r7 /\ all = extend (extend [] r5) r7.

(* ---- tests/recipes/bv4_base.rs, bv32.rs and bv4_fancy.rs ---- *)
Definition bv_ops : list (list string) := [["~"; "-"]; ["&"; "|"; "*"; "--"; "+"; "<<"; ">>"]].
(* bv4_base.rs:8-19, and bv128.rs:24-37 *)
Definition bv_wlang : wlang := WLang ["0"; "1"] abc bv_ops.
Definition bv4_rules check (all : ruleset bv_op) : Prop := recursed (bv_lang 4 check) Atoms bv_wlang [] 5 all.
Definition bv128_gen check (all : ruleset bv_op) : Prop :=
  exists r, recursed (bv_lang 128 check) Atoms bv_wlang [] 5 r /\ all = extend [] r.
(* bv32.rs:7-18 *)
Definition bv32_rules check (all : ruleset bv_op) : Prop := recursed (bv_lang 32 check) Atoms (WLang ["0"] abc bv_ops) [] 5 all.
(* bv4_fancy.rs:22-33 *)
Definition bv_a6 : res workload :=
  let* b := base_lang 2 in
  let* w := iter_metric b "EXPR" Atoms 6 in
  let* w := plug_new w "VAR" abc in
  let* w := wplug w "VAL" wempty in
  let* w := plug_new w "OP1" ["~"; "-"] in
  let* w := plug_new w "OP2" ["&"; "|"; "*"; "--"; "+"; "<<"; ">>"] in
  let w := wfilter w (Canon abc) in
  let* consts := wnew ["0"; "1"] in
  Val (WAppend [w; consts]).
(* bv4_fancy.rs:8-43 (width 4), tests/bv8.rs:25-62 and the same function of the tests
   of widths 16, 32 and 64 *)
Definition bv_fancy_rules (width : N) check (all : ruleset bv_op) : Prop :=
  exists r w new, recursed (bv_lang width check) Atoms bv_wlang [] 5 r /\ bv_a6 = Val w /\
    learned (bv_lang width check) w (extend [] r) true new /\ all = extend (extend [] r) new.

(* ---- tests/recipes/halide.rs ---- *)
(* 14, 21-25, 32-36, 44-56 *)
Definition hal_bool : wlang := WLang ["0"; "1"] abc [["!"]; ["&&"; "||"; "^"]].
Definition hal_rat : wlang := WLang ["-1"; "0"; "1"] abc [["-"]; ["+"; "-"; "*"; "min"; "max"]].
Definition hal_pred : wlang := WLang ["-1"; "0"; "1"] abc [["-"]; ["<"; "<="; "=="; "!="]; ["select"]].
Definition hal_full : wlang :=
  WLang ["-1"; "0"; "1"] abc [["-"; "!"]; ["&&"; "||"; "^"; "+"; "-"; "*"; "min"; "max"; "<"; "<="; "=="; "!="]; ["select"]].
(* 59-68 and 77-89, with the binary operators *)
Definition hal_nested (bops : list string) : res workload :=
  let* w := wnew ["(bop e e)"; "v"] in
  let* w := plug_new w "e" ["(bop v v)"; "(uop v)"; "v"] in
  let* w := plug_new w "bop" bops in
  let* w := plug_new w "uop" ["-"; "!"] in
  let* w := plug_new w "v" abc in
  Val (wfilter w (Canon abc)).
Definition hal_arith_ops : list string := ["+"; "-"; "*"; "<"; "max"; "min"].
Definition hal_full_ops : list string := ["&&"; "||"; "!="; "<="; "=="; "<"; "max"; "min"].
(* 101-108, 110-112 and 126, with the operators *)
Definition hal_select (ops : list string) : res workload :=
  let* w := wnew ["(select V V V)"; "(select V (OP V V) V)"; "(select V V (OP V V))"; "(select V (OP V V) (OP V V))"; "(OP V (select V V V))"] in
  let* w := plug_new w "V" ["a"; "b"; "c"; "d"] in
  plug_new w "OP" ops.
(* 9-141 *)
Definition halide_rules check (all : ruleset hal_op) : Prop :=
  let L := hal_lang check in
  exists bool_only rat_only pred_only full w1 new1 w2 new2 w3 new3 w4 new4,
    recursed L Atoms hal_bool [] 5 bool_only /\
    let a1 := extend [] bool_only in
    recursed L Atoms hal_rat a1 5 rat_only /\
    let a2 := extend a1 rat_only in
    recursed L Atoms hal_pred a2 5 pred_only /\
    let a3 := extend a2 pred_only in
    recursed L Atoms hal_full a3 4 full /\
    let a4 := extend a3 full in
    hal_nested hal_arith_ops = Val w1 /\ learned L w1 a4 true new1 /\
    let a5 := extend a4 new1 in
    hal_nested hal_full_ops = Val w2 /\ learned L w2 a5 true new2 /\
    let a6 := extend a5 new2 in
    hal_select ["+"; "-"; "*"] = Val w3 /\ learned L w3 rat_only true new3 /\
    let a7 := extend a6 new3 in
    hal_select ["min"; "max"] = Val w4 /\ learned L w4 rat_only true new4 /\
    all = extend a7 new4.

(* ---- tests/recipes/rational_replicate.rs ---- *)
(* 11-15 *)
Definition rat_ops : res workload :=
  let* b := base_lang 2 in
  let* w := plug_new b "OP1" ["~"; "fabs"] in
  plug_new w "OP2" ["+"; "-"; "*"; "/"].
(* 19-23 *)
Definition rat_layer1 : res workload :=
  let* vars := wnew abc in
  let* consts := wnew ["0"; "-1"; "1"] in
  let* l := rat_ops in
  let* w := wplug l "VAL" consts in
  let* w := wplug w "VAR" vars in
  wplug w "EXPR" (wappend vars consts).
(* 36-46 *)
Definition rat_layer2 : res workload :=
  let* l := rat_ops in
  let* layer1 := rat_layer1 in
  let* fa := has_pat "a" in
  let* fb := has_pat "b" in
  let* fc := has_pat "c" in
  let* w := wplug l "EXPR" layer1 in
  let* w := wplug (wfilter w (Filter.FOr [fa; fb; fc])) "VAL" wempty in
  wplug w "VAR" wempty.
(* 7-57 *)
Definition replicate_rules ov check (all : ruleset math_op) : Prop :=
  let L := math_lang ov check in
  exists w1 r1 w2 r2, rat_layer1 = Val w1 /\ learned L w1 [] false r1 /\
    rat_layer2 = Val w2 /\ learned L w2 (extend [] r1) true r2 /\ all = extend (extend [] r1) r2.

(* ---- tests/recipes/rational_best.rs ---- *)
(* 15-33 *)
Definition rat_factor : res workload :=
  let* m := wnew ["var"; "(* expr expr)"] in
  let* m := iter_metric m "expr" Atoms 3 in
  let* m := plug_new m "var" ["a"; "b"] in
  let* t := wnew ["var"; "(bop expr expr)"] in
  let* t := iter_metric t "expr" Depth 2 in
  let* t := wplug t "var" m in
  let* t := plug_new t "bop" ["+"; "-"] in
  let* d := wnew ["(/ v v)"] in
  wplug d "v" t.
(* str::contains("/") *)
Fixpoint has_char (c : ascii) (s : string) : bool :=
  match s with EmptyString => false | String d r => Ascii.eqb c d || has_char c r end.
(* 37-49; printing a pattern of a rule does not fail, but is modelled with a panic *)
Definition without_division (rs : ruleset math_op) : res (ruleset math_op) :=
  rfilter (fun e => let* s := show_pat math_name (rlhs (snd e)) in Val (negb (has_char "/" s))) rs.
(* 9-53 *)
Definition best_rules ov check (all : ruleset math_op) : Prop :=
  exists rules w keep fuel factor kept, replicate_rules ov check rules /\ rat_factor = Val w /\
    run_workload_conditional ov check keep fuel w rules false factor /\
    without_division factor = Val kept /\ all = extend rules kept.

(* ---- tests/recipes/exponential.rs ---- *)
(* 22-30 *)
Definition exp_constant : res workload := wnew ["(exp 0)"; "(exp 1)"; "(log 1)"; "(sqrt 1)"; "(cbrt 1)"; "(pow a 1)"; "(pow 1 a)"].
(* the two filters of 45-50, 65-70, 91-96 and 117-122 *)
Definition no_twice (w : workload) : res workload :=
  let* e := has_pat "(exp (exp ?a))" in
  let* l := has_pat "(log (log ?a))" in
  Val (wfilter (wfilter w (Invert e)) (Invert l)).
(* 36-50 (exp, with + and * below and above), 56-70 (log, with * below and + above).
   The lower layer is plugged under the name "bup", which does not occur in it. *)
Definition exp_two_layers (hole uop : string) (below above : list string) : res workload :=
  let* lower := wnew ["v"; "(uop v)"; "(bop v v)"] in
  let* lower := plug_new lower "v" abc in
  let* lower := plug_new lower "uop" [uop] in
  let* lower := plug_new lower hole below in
  let* upper := wnew ["(uop v)"; "(bop v v)"] in
  let* upper := wplug upper "v" lower in
  let* upper := plug_new upper "uop" [uop] in
  let* upper := plug_new upper "bop" above in
  no_twice upper.
Definition exp_exp : res workload := exp_two_layers "bup" "exp" ["+"; "*"] ["+"; "*"].
Definition exp_log : res workload := exp_two_layers "bup" "log" ["*"] ["+"].
(* 76-96, 102-122 and 128-143 *)
Definition exp_layers (vars uops bops : list string) (last : workload -> res workload) : res workload :=
  let* vs := wnew vars in
  let* lang := wnew ["v"; "(uop v)"; "(bop v v)"] in
  let* lower := wplug lang "v" vs in
  let* lower := plug_new lower "uop" uops in
  let* lower := plug_new lower "bup" bops in
  let* upper := wplug lang "v" (WAppend [lower; vs]) in
  let* upper := plug_new upper "uop" uops in
  let* upper := plug_new upper "bop" bops in
  last upper.
Definition exp_no_pow : res workload := exp_layers abc ["exp"; "log"; "sqrt"; "cbrt"] ["+"; "*"] no_twice.
Definition exp_simple : res workload := exp_layers abc ["exp"; "log"; "sqrt"; "cbrt"] ["+"; "*"; "pow"] no_twice.
Definition exp_div : res workload := exp_layers ["a"; "b"] ["sqrt"; "cbrt"] ["/"] (fun w => Val (wfilter w (Canon ["a"; "b"]))).
(* a layer of 155-184: learn from a workload, add to both rulesets *)
Definition exp_layer (wl : res workload) (ex : ruleset exp_op) (before after : ruleset exp_op * ruleset exp_op) : Prop :=
  exists w r, wl = Val w /\ forwarded exp_lang ex w (fst before) r /\ after = (extend (fst before) r, extend (snd before) r).
(* 148-187 *)
Definition exponential_rules (new : ruleset exp_op) : Prop :=
  exists rational starting ex, exp_rational = Val rational /\ exp_starting = Val starting /\ exp_exploratory = Val ex /\
  exists s1 s2 s3 s4 s5 s6,
    exp_layer exp_constant ex (extend rational starting, extend [] starting) s1 /\ exp_layer exp_exp ex s1 s2 /\ exp_layer exp_log ex s2 s3 /\
    exp_layer exp_no_pow ex s3 s4 /\ exp_layer exp_simple ex s4 s5 /\ exp_layer exp_div ex s5 s6 /\ new = snd s6.

(* ---- tests/recipes/trig.rs ---- *)
(* Filter::Invert(Box::new(Filter::Or(vec![Filter::Contains(…), …]))) *)
Definition none_of (pats : list string) : res filter := let* fs := rmapM has_pat pats in Val (Invert (Filter.FOr fs)).
Definition not_has (s : string) : res filter := let* f := has_pat s in Val (Invert f).
(* 23-36 *)
Definition trig_constants : res workload :=
  let* valid := not_has "(tan (/ PI 2))" in
  let* app := wnew ["(op v)"] in
  let* w := plug_new app "op" ["sin"; "cos"; "tan"] in
  let* w := plug_new w "v" ["0"; "(/ PI 6)"; "(/ PI 4)"; "(/ PI 3)"; "(/ PI 2)"; "PI"; "(* PI 2)"] in
  Val (wfilter w valid).
(* 38-41 *)
Definition trig_simple : res workload :=
  let* app := wnew ["(op v)"] in
  let* w := plug_new app "op" ["sin"; "cos"; "tan"] in
  plug_new w "v" ["a"; "(~ a)"; "(+ PI a)"; "(- PI a)"; "(+ a a)"].
(* 43 and 63 *)
Definition trig_wkld2 : res workload :=
  let* consts := trig_constants in
  let* simple := trig_simple in
  let* neg := wnew ["(~ x)"] in
  let* neg := wplug neg "x" simple in
  Val (WAppend [consts; simple; neg]).
(* 18-22, 45-52 and 69-70 *)
Definition trig_wkld3 : res workload :=
  let* no_trig_2x := none_of ["(sin (+ ?a ?a))"; "(cos (+ ?a ?a))"; "(tan (+ ?a ?a))"] in
  let* w2 := trig_wkld2 in
  let* app := wnew ["(op v)"] in
  let* squares := wnew ["(sqr x)"] in
  let* squares := wplug squares "x" app in
  let* squares := plug_new squares "op" ["sin"; "cos"; "tan"] in
  let* squares := plug_new squares "v" ["a"; "b"] in
  let* add := wnew ["(+ e e)"; "(- e e)"] in
  let* sums := wplug add "e" squares in
  Val (WAppend [wfilter w2 no_trig_2x; sums]).
(* 97 *)
Definition trig_consts : res workload := wnew ["-2"; "-1"; "0"; "1"; "2"].
(* 99-102 *)
Definition trig_coangle : res workload :=
  let* app := wnew ["(op v)"] in
  let* w := plug_new app "op" ["sin"; "cos"] in
  plug_new w "v" ["a"; "(- (/ PI 2) a)"; "(+ (/ PI 2) a)"; "(* 2 a)"].
(* 137 *)
Definition trig_wkld4 : res workload :=
  let* s := trig_coangle in
  let* c := trig_consts in
  Val (WAppend [s; c]).
(* 95-96, 104-107, 127, 129-130 and 143 *)
Definition trig_wkld5 : res workload :=
  let* shift := wnew ["x"; "(- 1 x)"; "(+ 1 x)"] in
  let* scale := wnew ["x"; "(/ x 2)"] in
  let* app := wnew ["(op v)"] in
  let* sq := wnew ["(sqr x)"] in
  let* sq := wplug sq "x" app in
  let* sq := plug_new sq "op" ["sin"; "cos"] in
  let* sq := plug_new sq "v" ["a"] in
  let* s := trig_coangle in
  let* shifted := wplug shift "x" s in
  let* scaled := wplug scale "x" (WAppend [shifted; sq]) in
  let* c := trig_consts in
  Val (WAppend [scaled; c]).
(* 109-112 *)
Definition trig_two_var : res workload :=
  let* app := wnew ["(op v)"] in
  let* w := plug_new app "op" ["sin"; "cos"] in
  plug_new w "v" ["a"; "b"; "(+ a b)"; "(- a b)"].
(* 76-79 and 116-119 *)
Definition trig_products : res workload :=
  let* f := none_of ["(* (cos ?x) (cos ?x))"; "(* (sin ?x) (sin ?x))"] in
  let* t := trig_two_var in
  let* w := wnew ["(* x y)"] in
  let* w := wplug w "x" t in
  let* w := wplug w "y" t in
  Val (wfilter w f).
(* 96, 113-115, 128, 132 and 149 *)
Definition trig_wkld6 : res workload :=
  let* t := trig_two_var in
  let* sums := wnew ["(+ x y)"; "(- x y)"] in
  let* sums := wplug sums "x" t in
  let* sums := wplug sums "y" t in
  let* prods := trig_products in
  let* scale := wnew ["x"; "(/ x 2)"] in
  let* scaled := wplug scale "x" (WAppend [sums; prods]) in
  let* c := trig_consts in
  Val (WAppend [scaled; c]).
(* 81-91, 121-125, 134 and 155 *)
Definition trig_wkld7 : res workload :=
  let* two_x := not_has "(+ ?x ?x)" in
  let* trivial := none_of ["(cos (?op ?a ?b))"; "(sin (?op ?a ?b))"] in
  let* no_sub := none_of ["(cos (- ?a ?b))"; "(sin (- ?a ?b))"] in
  let* prods := trig_products in
  let* w := wnew ["(+ x y)"; "(- x y)"] in
  let* w := wplug w "x" prods in
  let* w := wplug w "y" prods in
  let w := wfilter (wfilter w two_x) trivial in
  let* t := trig_two_var in
  let* c := trig_consts in
  Val (WAppend [wfilter t no_sub; w; c]).
(* a step of the recipe: learn from a workload, add to both rulesets *)
Definition trig_layer order (wl : res workload) (ex : ruleset trig_op) (before after : ruleset trig_op * ruleset trig_op) : Prop :=
  exists w r, wl = Val w /\ forwarded (trig_lang order) ex w (fst before) r /\ after = (extend (fst before) r, extend (snd before) r).
(* 9-160 *)
Definition trig_rules order (new : ruleset trig_op) : Prop :=
  exists complex prior ex, complex_rules = Val complex /\ trig_prior = Val prior /\ trig_exploratory = Val ex /\
  exists s1 s2 s3 s4 s5 s6 s7,
    trig_layer order trig_constants ex (extend complex prior, []) s1 /\ trig_layer order trig_wkld2 ex s1 s2 /\ trig_layer order trig_wkld3 ex s2 s3 /\
    trig_layer order trig_wkld4 ex s3 s4 /\ trig_layer order trig_wkld5 ex s4 s5 /\ trig_layer order trig_wkld6 ex s5 s6 /\ trig_layer order trig_wkld7 ex s6 s7 /\
    new = snd s7.
