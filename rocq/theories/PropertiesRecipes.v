(* Property C72: the recipes of the evaluation.  Reference notions: RecipesSpec.v
   (terms of a workload, what a recipe returns), LearntSpec.v (identities). *)
From Coq Require Import NArith ZArith QArith Qcanon.
From Verif Require Import EnumSpec Filter.
From Verif Require Import Base Sexp Reader Lang LangProofs BoolDom BV BVSpec Number Rational RationalSpec Halide HalideSpec DomainSpec Syntax Rule RuleSpec Ruleset Workload
  Egraph Synth Domains TotalSpec Match Infer LearnSpec PartialSpec OpsSpec LearntSpec Conditional ForwardSpec Trig TrigProofs Exp ExpSpec ExpProofs ExpRules SafeSpec PropertiesExp
  Recipes RecipesSpec RecipesSig RecipesProofs RecipesDomains RecipesLayers RecipesExact RecipesLayer2 RecipesKept.
Open Scope string_scope.
Open Scope list_scope.

(* ---- the terms of the workloads ---- *)
(* bool.rs and bv4_fancy.rs: every canonical term up to the size *)
Theorem C72_large : 
  exactly bool_a7 (fun u => built abc (each 1 ["~"] ++ each 2 ["&"; "|"; "^"]) u /\ EnumSpec.size Atoms u <= 7 /\ canonical abc u) /\
  exactly bv_a6 (fun u => (built abc (each 1 ["~"; "-"] ++ each 2 ["&"; "|"; "*"; "--"; "+"; "<<"; ">>"]) u /\ EnumSpec.size Atoms u <= 6 /\ canonical abc u) \/ u = Atom "0" \/ u = Atom "1").
Proof. split; [exact bool_a7_terms|exact bv_a6_terms]. Qed.
Print Assumptions C72_large.
(* halide.rs *)
Lemma abc_distinct : NoDup abc.
Proof. repeat constructor; cbn; intuition discriminate. Qed.
Theorem C72_halide_terms :
  (forall bops, bops = hal_arith_ops \/ bops = hal_full_ops -> exactly (hal_nested bops) (fun u => In u (map Atom abc ++ bin bops (shallow ["-"; "!"] bops abc)) /\ canonical abc u)) /\
  (forall ops, ops = ["+"; "-"; "*"] \/ ops = ["min"; "max"] -> exactly (hal_select ops) (fun u => In u (selections ops))).
Proof.
  split; [intros bops H; apply (same_set_canonical _ _ _ abc_distinct); destruct H as [->| ->]; vm_compute; reflexivity|].
  intros ops H. apply same_set_ok. destruct H as [->| ->]; vm_compute; reflexivity.
Qed.
Print Assumptions C72_halide_terms.
(* rational_replicate.rs and rational_best.rs *)
Theorem C72_rational_terms :
  exactly rat_layer1 (fun u => In u (shallow ["~"; "fabs"] ["+"; "-"; "*"; "/"] ["a"; "b"; "c"; "0"; "-1"; "1"])) /\
  exactly rat_layer2 (fun u => In u (over_layer ["~"; "fabs"] ["+"; "-"; "*"; "/"] (shallow ["~"; "fabs"] ["+"; "-"; "*"; "/"] ["a"; "b"; "c"; "0"; "-1"; "1"])) /\
    (occurs "a" u \/ occurs "b" u \/ occurs "c" u)) /\
  exactly rat_factor (fun u => In u (flat_map (fun x => map (op2 "/" x) polynomials) polynomials)).
Proof. split; [apply same_set_ok; vm_compute; reflexivity|]. split; [exact rat_layer2_terms|apply same_set_ok; vm_compute; reflexivity]. Qed.
Print Assumptions C72_rational_terms.
(* exponential.rs *)
Theorem C72_exponential_terms :
  let four := ["exp"; "log"; "sqrt"; "cbrt"] in
  let two_layers uops bops vars := shallow uops bops vars ++ over_layer uops bops (shallow uops bops vars) in
  exactly exp_constant (fun u => In u (op2 "pow" va (Atom "1") :: op2 "pow" (Atom "1") va :: op1 "exp" (Atom "0") :: un four [Atom "1"])) /\
  exactly exp_exp (fun u => In u (never_twice (over_layer ["exp"] ["+"; "*"] (shallow ["exp"] ["+"; "*"] abc)))) /\
  exactly exp_log (fun u => In u (never_twice (over_layer ["log"] ["+"] (shallow ["log"] ["+"] abc)))) /\
  exactly exp_no_pow (fun u => In u (never_twice (two_layers four ["+"; "*"] abc))) /\
  exactly exp_simple (fun u => In u (never_twice (two_layers four ["+"; "*"; "pow"] abc))) /\
  exactly exp_div (fun u => In u (two_layers ["sqrt"; "cbrt"] ["/"] ["a"; "b"]) /\ canonical ["a"; "b"] u).
Proof.
  cbv zeta. repeat (split; [apply same_set_ok; vm_compute; reflexivity|]). apply same_set_canonical; [repeat constructor; cbn; intuition discriminate|vm_compute; reflexivity].
Qed.
Print Assumptions C72_exponential_terms.
(* The comment of the logarithm layer and its list of operators are about the logarithm
   of a product; there is no product in it: the lower layer replaces "bup", a name that
   does not occur in it, and gets the operators of the upper one. *)
Theorem C72_log_refuted :
  (exists w us, exp_log = Val w /\ force w = Val us /\ forall u, In u us -> ~ occurs "*" u) /\
  (exists w us, exp_two_layers "bop" "log" ["*"] ["+"] = Val w /\ force w = Val us /\ In (op1 "log" (op2 "*" va vb)) us).
Proof.
  split.
  - assert (X : match exp_log with Val w => match force w with Val us => forallb (fun u => negb (existsb (String.eqb "*") (leaves u))) us | Panic => false end | Panic => false end = true) by (vm_compute; reflexivity).
    destruct exp_log as [w|]; [|discriminate X]. destruct (force w) as [us|] eqn:Ef; [|discriminate X]. exists w, us. split; [reflexivity|]. split; [exact Ef|]. intros u I O. rewrite forallb_forall in X. specialize (X u I). apply negb_true_iff in X.
    assert (Y : existsb (String.eqb "*") (leaves u) = true) by (apply existsb_exists; exists "*"; split; [exact O|reflexivity]). congruence.
  - assert (X : match exp_two_layers "bop" "log" ["*"] ["+"] with Val w => match force w with Val us => existsb (sexp_eqb (op1 "log" (op2 "*" va vb))) us | Panic => false end | Panic => false end = true) by (vm_compute; reflexivity).
    destruct (exp_two_layers "bop" "log" ["*"] ["+"]) as [w|]; [|discriminate X]. destruct (force w) as [us|] eqn:Ef; [|discriminate X]. exists w, us. split; [reflexivity|]. split; [exact Ef|].
    apply existsb_exists in X as (x & I & E). apply SexpProofs.sexp_eqb_eq in E. now subst.
Qed.
Print Assumptions C72_log_refuted.
(* trig.rs *)
Theorem C72_trig_terms :
  exactly trig_constants (fun u => In u at_constants) /\
  exactly trig_wkld2 (fun u => In u (at_constants ++ at_single ++ at_double ++ un ["~"] (at_single ++ at_double))) /\
  exactly trig_wkld3 (fun u => In u (at_constants ++ at_single ++ un ["~"] at_single ++ bin ["+"; "-"] (un ["sqr"] (un sct [va; vb])))) /\
  exactly trig_wkld4 (fun u => In u (at_coangles ++ numbers)) /\
  exactly trig_wkld5 (fun u => In u (and_halves (at_coangles ++ map (op2 "-" (Atom "1")) at_coangles ++ map (op2 "+" (Atom "1")) at_coangles ++ un ["sqr"] (un sc [va])) ++ numbers)) /\
  exactly trig_wkld6 (fun u => In u (and_halves (bin ["+"; "-"] at_two ++ distinct "*" at_two) ++ numbers)) /\
  exactly trig_wkld7 (fun u => In u (un sc [va; vb; op2 "+" va vb] ++ bin ["-"] (distinct "*" (un sc [va; vb])) ++ distinct "+" (distinct "*" (un sc [va; vb])) ++ numbers)).
Proof. repeat (split; [apply same_set_ok; vm_compute; reflexivity|]). apply same_set_ok. vm_compute. reflexivity. Qed.
Print Assumptions C72_trig_terms.

(* ---- every term is a term of the language ---- *)
Theorem C72_read :
  (all_read bool_lang bool_a7) /\
  (forall width check, In width [4; 8; 16; 32; 64]%N -> all_read (bv_lang width check) bv_a6) /\
  (forall check, all_read (hal_lang check) (hal_nested hal_arith_ops) /\ all_read (hal_lang check) (hal_nested hal_full_ops) /\
     all_read (hal_lang check) (hal_select ["+"; "-"; "*"]) /\ all_read (hal_lang check) (hal_select ["min"; "max"])) /\
  (forall ov check, Forall (all_read (math_lang ov check)) [rat_layer1; rat_layer2; rat_factor]) /\
  (Forall (all_read exp_lang) [exp_constant; exp_exp; exp_log; exp_no_pow; exp_simple; exp_div]) /\
  (forall order, Forall (all_read (trig_lang order)) [trig_constants; trig_wkld2; trig_wkld3; trig_wkld4; trig_wkld5; trig_wkld6; trig_wkld7]).
Proof.
  assert (R : forall O C (L : lang O C) ar atoms ops wl, known L ar (fun _ => true) atoms ops = true -> sig_among wl atoms ops = true -> all_read L wl).
  { intros O C L ar atoms ops wl Kn Si. exact (terms_read L ar _ atoms ops Kn wl (sig_terms _ _ _ Si)). }
  split; [apply (R _ _ _ bool_arity abc (each 1 ["~"] ++ each 2 ["&"; "|"; "^"])); vm_compute; reflexivity|].
  split. { intros width check H. apply (R _ _ _ bv_arity ["a"; "b"; "c"; "0"; "1"] (each 1 ["~"; "-"] ++ each 2 ["&"; "|"; "*"; "--"; "+"; "<<"; ">>"])); [|vm_compute; reflexivity]. destruct H as [<-|[<-|[<-|[<-|[<-|[]]]]]]; vm_compute; reflexivity. }
  split. { intros check. assert (K : known (hal_lang check) hal_arity (fun _ => true) ["a"; "b"; "c"; "d"] (each 1 ["-"; "!"] ++ each 2 ["+"; "-"; "*"; "<"; "max"; "min"; "&&"; "||"; "!="; "<="; "=="] ++ each 3 ["select"]) = true) by (vm_compute; reflexivity).
    split; [|split; [|split]]; apply (R _ _ _ hal_arity _ _ _ K); vm_compute; reflexivity. }
  split. { intros ov check. assert (K : known (math_lang ov check) math_arity (fun _ => true) ["a"; "b"; "c"; "0"; "-1"; "1"] (each 1 ["~"; "fabs"] ++ each 2 ["+"; "-"; "*"; "/"]) = true) by (vm_compute; reflexivity).
    repeat constructor; apply (R _ _ _ math_arity _ _ _ K); vm_compute; reflexivity. }
  split. { assert (K : known exp_lang exp_arity (fun _ => true) ["a"; "b"; "c"; "0"; "1"] (each 1 ["exp"; "log"; "sqrt"; "cbrt"] ++ each 2 ["+"; "*"; "/"; "pow"]) = true) by (vm_compute; reflexivity).
    repeat constructor; apply (R _ _ _ exp_arity _ _ _ K); vm_compute; reflexivity. }
  intros order. assert (K : known (trig_lang order) trig_arity (fun _ => true) ["a"; "b"; "0"; "1"; "2"; "3"; "4"; "6"; "-1"; "-2"; "PI"] (each 1 ["sin"; "cos"; "tan"; "~"; "sqr"] ++ each 2 ["+"; "-"; "*"; "/"]) = true) by (vm_compute; reflexivity).
  repeat constructor; apply (R _ _ _ trig_arity _ _ _ K); vm_compute; reflexivity.
Qed.
Print Assumptions C72_read.

(* ---- what the recipes return ---- *)
Theorem C72_bool : forall all, bool_rules all ->
  delivers bool_lang bool_arity (fun o => In o [BNot; BAnd; BOr; BXor] \/ exists b, o = BLit b) (identity BVar (fun _ => True) bool_den) all.
Proof.
  intros all H. destruct (bool_delivers all H) as (N & R & F). split; [exact N|]. split; [exact R|]. intros k r I. destruct (F k r I) as [G U]. split; [exact G|]. revert U. apply rule_uses_more.
  intros [ | | | | | |] E; try discriminate E; cbn; eauto 10.
Qed.
Print Assumptions C72_bool.
(* bit-vectors: literals are 0 and 1, in the recipe of 32 bits only 0 *)
Definition bv_listed (lits : list N) (o : bv_op) : Prop := In o [VNot; VNeg; VAnd; VOr; VMul; VSub; VAdd; VShl; VShr] \/ exists c, In c lits /\ o = VLit c.
Lemma bv_used_listed : forall top o, (top <= 1)%N -> bv_used top o = true -> bv_listed (if N.eqb top 0 then [0] else [0; 1])%N o.
Proof.
  intros top o T E. destruct o as [ | | | | | | | | | | |c]; try discriminate E; try (left; cbn; tauto). cbn in E. apply N.leb_le in E. right. exists c. split; [|reflexivity].
  destruct (N.eqb_spec top 0) as [->|N0]; cbn; lia.
Qed.
Lemma delivers_more : forall O C (L : lang O C) ar (A B : O -> Prop) good all, (forall o, A o -> B o) -> delivers L ar A good all -> delivers L ar B good all.
Proof. intros O C L ar A B good all M (N & R & F). split; [exact N|]. split; [exact R|]. intros k r I. destruct (F k r I) as [G U]. split; [exact G|]. revert U. now apply rule_uses_more. Qed.
Theorem C72_bv : 
  (forall check all, unsat_right 4 check -> bv4_rules check all -> delivers (bv_lang 4 check) bv_arity (bv_listed [0; 1]%N) (identity VVar (inr 4) (bv_den 4)) all) /\
  (forall check all, unsat_right 32 check -> bv32_rules check all -> delivers (bv_lang 32 check) bv_arity (bv_listed [0]%N) (identity VVar (inr 32) (bv_den 32)) all) /\
  (forall width check all, In width [4; 8; 16; 32; 64]%N -> unsat_right width check -> bv_fancy_rules width check all ->
     delivers (bv_lang width check) bv_arity (bv_listed [0; 1]%N) (identity VVar (inr width) (bv_den width)) all) /\
  (forall check all, bv128_gen check all -> delivers (bv_lang 128 check) bv_arity (bv_listed [0; 1]%N) (fun _ => True) all).
Proof.
  split; [|split; [|split]].
  - intros check all Hu H. apply (delivers_more _ _ _ _ _ _ _ _ (fun o => bv_used_listed 1 o ltac:(lia))). apply bv_delivers_true; try lia; [exact Hu|exact (bv4_fine check all H)].
  - intros check all Hu H. apply (delivers_more _ _ _ _ _ _ _ _ (fun o => bv_used_listed 0 o ltac:(lia))). apply bv_delivers_true; try lia; [exact Hu|exact (bv32_fine check all H)].
  - intros width check all Hw Hu H. apply (delivers_more _ _ _ _ _ _ _ _ (fun o => bv_used_listed 1 o ltac:(lia))). assert ((width <= 64)%N) by (cbn in Hw; lia).
    apply bv_delivers_true; try lia; [exact Hu|exact (bv_fancy_fine width check all Hw H)].
  - intros check all H. apply (delivers_more _ _ _ _ _ _ _ _ (fun o => bv_used_listed 1 o ltac:(lia))). refine (bv_delivers 128 check _ 1 all (bv128_fine check all H)). lia.
Qed.
Print Assumptions C72_bv.
(* no implication, no division, no other literals *)
Theorem C72_halide : forall check, hal_unsat_right check -> forall all, halide_rules check all ->
  delivers (hal_lang check) hal_arity (fun o => o <> HImplies /\ o <> HDiv /\ forall z, o = HLit z -> In z [-1; 0; 1]%Z) (identity HVar (fun _ => True) (hal_den div_smt)) all.
Proof.
  intros check Hu all H. refine (delivers_more _ _ _ _ _ _ _ _ _ (hal_delivers check Hu all H)). intros o E. split; [intros ->; discriminate E|]. split; [intros ->; discriminate E|].
  intros z ->. cbn in E. apply andb_prop in E as [E1 E2]. apply Z.leb_le in E1, E2. cbn. lia.
Qed.
Print Assumptions C72_halide.
(* no conditional; rational_best.rs adds rules of which the left side does not divide,
   and these may have conditionals *)
Theorem C72_rational : forall ov check, real_unsat_right check ->
  (forall all, replicate_rules ov check all -> delivers (math_lang ov check) math_arity (fun o => o <> MIf) rational_identity all) /\
  (forall all, best_rules ov check all -> delivers (math_lang ov check) math_arity (fun _ => True) rational_identity all /\
     exists rules, replicate_rules ov check rules /\ incl (map fst rules) (map fst all) /\ forall e, In e all -> In e rules \/ ForwardSpec.without (fun o => o = MDiv) (rlhs (snd e))).
Proof.
  intros ov check Hu. split; [|exact (best_delivers ov check Hu)]. intros all H. refine (delivers_more _ _ _ _ _ _ _ _ _ (replicate_delivers ov check Hu all H)). intros o E ->. discriminate E.
Qed.
Print Assumptions C72_rational.
(* exponentials: rules of the first layer are true for positive values; later layers
   start from these, and C67_chaining_refuted shows that they need not be *)
Theorem C72_exponential :
  (forall new, exponential_rules new -> delivers exp_lang exp_arity (fun o => exp_to_var o = None) (fun _ => True) new) /\
  (forall rational starting ex w new, exp_rational = Val rational -> exp_starting = Val starting -> exp_exploratory = Val ex -> exp_constant = Val w -> forwarded exp_lang ex w (extend rational starting) new ->
     forall k r, In (k, r) new -> exists t1 t2, generalizes exp_lang r t1 t2 /\
       forall env, positive_vars env -> exists v, value exp_lang exp_sem env t1 = Val v /\ value exp_lang exp_sem env t2 = Val v).
Proof.
  split; [exact exp_delivers|]. intros rational starting ex w new E1 E2 E3 Ew (keep & fuel & H) k r I.
  assert (exp_constant = Val ex_constants) as X by (vm_compute; reflexivity). rewrite X in Ew. injection Ew as <-.
  destruct (exp_start_layered _ _ E1 E2) as ((Nd & Rd) & _).
  assert (G : forall e, In e (extend rational starting) -> given_rule e \/ safe_rule exp_lang exp_sem (snd e)).
  { intros e J. left. apply InferProofs.extend_in' in J as [J|J]; [exists rational|exists starting]; auto. }
  destruct (C67_forwarding keep fuel ex ex_constants (extend rational starting) new E3 Nd Rd G H k r I) as (t1 & t2 & Ge & V).
  exists t1, t2. split; [exact Ge|]. intros env P. exact (V env P (constants_defined env P)).
Qed.
Print Assumptions C72_exponential.
(* The starting rules are among those that the recipe returns, and what it adds to them
   has neither the name of a starting rule nor that of a given rational rule. *)
Theorem C72_exponential_kept : forall new rational starting, exponential_rules new -> exp_rational = Val rational -> exp_starting = Val starting ->
  incl starting new /\ forall e, In e new -> In e starting \/ ~ In (fst e) (map fst rational) /\ ~ In (fst e) (map fst starting).
Proof. exact exp_kept. Qed.
Print Assumptions C72_exponential_kept.
(* no imaginary unit, no cis, no square; the rules of complex.rules are not all true,
   see C66_rules_refuted *)
Theorem C72_trig : forall order new, trig_rules order new ->
  delivers (trig_lang order) trig_arity trig_plain (fun r => ForwardSpec.without (fun o => o = TI \/ o = TCis \/ o = TSqr) (rlhs r) /\ ForwardSpec.without (fun o => o = TI \/ o = TCis \/ o = TSqr) (rrhs r)) new.
Proof. exact trig_delivers. Qed.
Print Assumptions C72_trig.

(* the first layer of the exponential recipe can be run, and learns two rules *)
Example C72_hyp : exists rational starting ex w new, exp_rational = Val rational /\ exp_starting = Val starting /\ exp_exploratory = Val ex /\ exp_constant = Val w /\
  forwarded exp_lang ex w (extend rational starting) new /\ length new = 2.
Proof.
  destruct C67_chaining_refuted as (E3 & (m1 & m2 & E1 & E2 & Ep) & R & _). exists m1, m2, ex_explore, ex_constants, ex_new. split; [exact E1|]. split; [exact E2|]. split; [exact E3|]. split; [vm_compute; reflexivity|].
  split; [eexists _, 30; rewrite <- Ep; exact R|reflexivity].
Qed.
