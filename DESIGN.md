# Formal model of ruler (enumo) in Rocq

The code in /repo (a Rust library for inferring rewrite rules plus its test
domains) is modelled as computable Gallina functions, one per Rust function, and,
where an external engine decides what happens, as relations (any behaviour of the
engine).  Everything is in `rocq/theories/*.v`:

* model files (`Sexp.v`, `Workload.v`, `Egraph.v`, ...): every definition cites the
  file and lines of /repo it models and says what it simplifies;
* `*Spec.v`: the reference notions the theorems are stated with, independent of the
  model's helpers (grammar of terms, integers modulo 2^w, classes and represented
  terms of an e-graph, algebras, ...);
* `*Proofs.v` and the other proof files: lemmas;
* `Properties*.v`: the property theorems, each followed by `Print Assumptions`, with
  `Example Cxx_hyp` showing that concrete, non-trivial cases meet the hypotheses, and
  `Cxx_..._refuted` theorems where the plain claim is false of the code;
* `ModelTests.v`: unit tests of /repo replayed on the model.

## Conventions

* Panics (`unwrap`, `assert!`, out-of-bounds indexing) are explicit: a function
  that can panic returns `res A := Val a | Panic`.
* `&mut` becomes a returned value.
* `usize` lengths and sizes are unbounded `nat` unless the property is about
  overflow (extraction cost saturates at 2^64-1; bitvectors wrap; i64 literals of
  Halide and rationals are range checked).
* `IndexMap` is an association list in insertion order; `HashMap` used only as a
  finite map is an association list, and where its iteration order is
  observable the order is an explicit parameter quantified over in the theorem
  (`order`, `arrange`, `uorder`: arbitrary permutations).
* The external engines are parameters, quantified over in every theorem: the SMT
  solver is a function answering sat/unsat/unknown with the hypothesis
  "unsat (sat) answers are right" where needed; egg's union-find may keep either
  class of a union (`keep`); egg's Runner is a nondeterministic transition relation
  (`rsteps`: search any rule, apply any match found so far, rebuild, stop anywhere),
  so limits, timeouts, match order and back-off are covered.
* Recursion that the code leaves to egg's rebuild or to constant folding has a `fuel`
  parameter; running out of fuel is a panic, and totality theorems say how much is
  enough.

## Trusted base

* Coq 8.16.1 kernel (including `vm_compute` for concrete witnesses).
* `Print Assumptions` answers "Closed under the global context" for every theorem in
  the `Properties*.v` files except those of C66 about values (`C66_real`,
  `C66_rules`, `C66_rules_refuted`, `C66_rewriting`, `C66_forwarding`,
  `C66_deriving`, `C66_rewriting_refuted`) and those of C67 other than
  `C67_constants`, those of C70 other than `C70_consequences`, `C72_exponential`, those of C76, `C77_true`, `C77_test_refuted` and `C79_learned`.  These are about real numbers and list the
  axioms of the standard library's `Reals`: `ClassicalDedekindReals.sig_forall_dec`,
  `ClassicalDedekindReals.sig_not_dec` and
  `FunctionalExtensionality.functional_extensionality_dep`; those of C67, C76, `C72_exponential` and `C77_true` also list
  `Classical_Prop.classic` (through powers and logarithms).
  `coqchk` lists these and seven items of the
  Coq standard library's ssreflect plugin files that get loaded with it:
  `Coq.ssr.ssrunder.Under_rel.{Under_rel, Under_relE, Under_rel_from_rel, Over_rel,
  over_rel, over_rel_done, under_rel_done}` (fields of a module type sealed there).
  No theorem depends on them.  It also lists the fields of two modules that the
  standard library's `Reals` seals with a module type,
  `Coq.Reals.Rdefinitions.RbaseSymbolsImpl.{R, Rabst, Rrepr, Rquot1, Rquot2, R0, R1,
  Rplus, Rmult, Ropp, Rlt, R0_def, R1_def, Rplus_def, Rmult_def, Ropp_def, Rlt_def}`
  and `Coq.Reals.Rdefinitions.RinvImpl.{Rinv, Rinv_def}`: they are defined there, and
  the theorems of C66, C67, C70, C76, C77 and C79 use them as real numbers.
* Faithfulness of the hand-written model; each definition cites file and lines.
* External crates, modelled from their documented or read behaviour, not verified:
  `egg` 0.9 (hash-consing, union, rebuild, analysis hooks, extractor, RecExpr,
  Pattern and Rewrite parsing, multi-node constants; flattened union-find),
  `itertools` 0.9 `multi_cartesian_product` (which yields nothing for zero
  factors), `indexmap` 1 (`remove` = swap_remove), `symbolic_expressions`
  (reader), `num-bigint`, `num-rational` (checked operations: exact or None, which
  of them overflow is a parameter), `z3`, `serde_json` (assumption `json_right`),
  `rayon` (order-preserving partition), `rand` (any stream of numbers), POSIX reads
  and writes of a local file.

## What is modelled

| /repo | model |
|-------|-------|
| src/enumo/sexp.rs, metric.rs, pattern.rs, filter.rs | Sexp.v, Pattern.v, Filter.v, Reader.v |
| src/enumo/workload.rs | Workload.v, Lines.v (files); to_egraph in Synth.v |
| src/recipe_utils.rs | Recipe.v (iter_metric, substitute, base_lang), Infer.v (run_workload, run_fast_forwarding, recursive_rules) |
| src/util.rs | Util.v; count_lines in Report.v |
| src/lib.rs | Lang.v (Interval), Analysis.v (cost), Sched.v (Limits::iter), Report.v |
| src/language.rs | Lang.v, Analysis.v (make, merge), Synth.v (modify, trait), Generalize.v, Minimize.v (score), Infer.v (is_allowed_rewrite) |
| src/enumo/rule.rs | Rule.v (text, naming), Apply.v (appliers, is_saturating) |
| src/enumo/ruleset.rs | Ruleset.v, Match.v (candidates), Minimize.v, Sched.v (can_derive), Report.v (derive) |
| src/enumo/scheduler.rs | Sched.v (with egg's Runner as a relation) |
| egg (external) | Egraph.v, Extract.v |
| src/bv.rs | BV.v, BVText.v |
| tests/bool.rs, nat.rs, pos.rs, bv-bool.rs | BoolDom.v, NatDom.v, PosDom.v, BvBoolDom.v |
| tests/rational.rs, halide.rs | Number.v, Rational.v, Conditional.v (add_condition, run_workload_conditional), Halide.v |
| tests/trig.rs, scripts/oopsla21/trig/complex.rules | Trig.v (rules, folding; meaning in TrigSpec.v) |
| tests/exponential.rs | Exp.v (rules, initialize_vars; meaning in ExpSpec.v) |
| tests/szalinski.rs | Solid.v (rules, loop of rule_lifting; meaning in SolidSpec.v), SolidTest.v (workloads, the test), SolidExport.v (export_print) |
| src/lib.rs Phase, src/logger.rs write_ff_phase, tests/trig.rs lifting_variation, lifting_phases | Phases.v (without times) |
| tests/bool.rs iter_bool, dsl, simple; tests/nat.rs iter_nat, simple; tests/pos.rs iter_pos, rule_lifting | SizedTests.v (without the derivability checks at the end) |
| tests/maxmin.rs | MaxMin.v (language, rules, workload; meaning in MaxMinSpec.v) |
| baseline/*.rules | Baselines.v, Herbie.v (transcribed line by line) |
| tests/recipes/*.rs, gen() of tests/bv8.rs to bv128.rs | Recipes.v (the calls; a recipe is a relation between its start and its result) |
| the domains as instances of SynthLanguage | Domains.v |
| src/logger.rs | Logger.v (file), Report.v (rows) |

Not modelled: progress and timing output (`println!`, durations; pretty_print
and export_print are modelled as the lines they print), node and
match limits as numbers (the Runner may stop anywhere), errors of the file system.

## Per property

| id | model | proof |
|----|-------|-------|
| C01 | Workload.v `force`, `filter`; Filter.v | induction on workloads; monotonicity makes peg filtering harmless |
| C02 | Filter.v `is_monotonic`, `test` | induction on filters and subterm relation |
| C03 | Filter.v `and`, `subsumed_by` | list induction with the minimised prefix as invariant |
| C04 | Sexp.v `plug`, cartesian product | equivalence with an inductive replacement relation; counting lemma |
| C05 | Workload.v `plug` | from C04 and C12; refuted for names `*`, `?x` and for `()` |
| C06 | Workload.v `append` | case analysis, Permutation; order refuted |
| C07 | Recipe.v `substitute` | induction on the substitution list |
| C08-C10 | Recipe.v `iter_metric`, `base_lang` | induction on n against an inductive grammar language |
| C11 | Pattern.v `matches_with` | induction generalised over the threaded substitution |
| C12 | Filter.v `test` | induction on terms |
| C13-C14 | Sexp.v `canon` | invariant on the threaded substitution (injective, prefix of the symbol list) |
| C15 | Reader.v, Lines.v | print/parse round trip with arbitrary suffix |
| C16 | BV.v over N | N.land/N.shiftl lemmas to mod/pow |
| C17 | BV.v interpreter + SMT semantics (BVSpec.v) | induction on terms; refuted for width 128 literals |
| C18 | Util.v `self_product` | closed form of column i, bijection of rows with assignments |
| C19, C21 | BoolDom.v | C18 + induction on terms |
| C20 | Synth.v `to_egraph`, initialize_vars of each domain | invariant on the data of classes; refuted without variables |
| C22-C25 | NatDom.v, PosDom.v, BvBoolDom.v | case analysis; polynomial identity argument for Z against N |
| C26-C27 | Rational.v | interval lemmas over Qc; encoding against a semantics with arbitrary division by zero |
| C28 | Halide.v | encoding against integer semantics; refuted for negative dividends and i64::MIN |
| C29-C31, C54 | Analysis.v | pointwise lemmas on vectors and intervals; flat RecExpr to tree |
| C32-C34 | Generalize.v, Rule.v, Syntax.v | induction with the renaming map as invariant; print/read round trips |
| C35-C38 | Ruleset.v | association list lemmas |
| C39-C42 | Minimize.v over Sched.v | invariants over the chain of rounds, termination by the number of candidates |
| C43-C45 | Extract.v, Match.v | extractor optimality; bucket lemmas |
| C46, C47, C56 | Egraph.v, Synth.v, Apply.v, Sched.v | valuation invariant preserved by each transition, per-domain algebras |
| C48, C50, C51 | Sched.v `compress`, Apply.v | exact effect of each operation in languages that only fold literals (Calm*.v, Plain*.v) |
| C49, C57 | Apply.v `is_saturating`, DataProofs.v | class-data invariants over all e-graphs that can be made |
| C52 | Infer.v | invariants of minimize; grammar exactness from C08-C10 |
| C53 | Logger.v | step semantics with crashes and interleavings; invariant of a single call |
| C55 | names and readers of the operators of every domain | print/read round trips |
| C58 | Report.v | partition lemma + C47 |
| C60 | Infer.v over to_egraph and the schedulers | invariant on operators, variables and vectors of all classes (InvProofs.v), kept by every transition; a rebuilt e-graph gives each term its vector; origin of candidates and of the rules minimize keeps |
| C59 | Infer.v, operators of every language | invariant on the operators of all classes (OpsProofs.v); each domain admits only what it can read back |
| C61 | Infer.v `run_fast_forwarding` | each phase is sound for its rules in every algebra (ForwardProofs.v); completeness of candidates from C45 |
| C62 | Infer.v, Ruleset.v files | C59 + print/read round trips of every domain (Save*.v); induction on the recipe |
| C63 | Infer.v, validators | candidates that minimize keeps were validated, validated rules are identities (C17, C23, C27, C28), rewriting with identities from C47 |
| C64 | C61 with tests/pos.rs and tests/bv-bool.rs | the exploratory rules hold in the numbers; booleans read as pairs of equal bits make sorts irrelevant |
| C65 | C46, C61 | "no value" as a value outside the domain; the valuation invariant for rules used from left to right only, with all classes inside the domain (Safe*.v, Partial*.v) |
| C66 | Trig.v | complex numbers as a field (TrigField.v); each rule by field and Euler's formulas (TrigRules.v); the merge of 0 and 1 by replaying a list of steps (Script.v) |
| C67 | Exp.v | each rule by field, case analysis on zero denominators and the laws of exp, ln and powers (ExpRules.v); a run of fast-forwarding and of rewriting replayed for the refutation |
| C68 | Conditional.v | texts of denominators are equal only for equal terms; values of the guarded side by cases; what minimize rejects was translated for the solver, so it prints and parses (ConditionalLearn.v) |
| C69 | Infer.v (no new model) | cvec_match proposes the smallest terms of every two classes with equal full vectors; minimize returns, explains or rejects each proposal; the e-graph's congruence is a consequence of the prior rules (CompleteProofs.v) |
| C70 | Solid.v | a meaning for all terms, also those that make no sense, in which every rule is an equation (SolidProofs.v); C61 carries this through the layers; the sign of the meaning of a solid decides its points |
| C71 | Baselines.v (the lines of the files), Ruleset.v, Report.v | the text of each line is parsed by computation; each rule is then proved for all values (BaselineHalide*.v, BaselineBV.v, BaselineRational.v) or refuted by a witness; soundness of learned rulesets (C63) excludes the refuted ones from what can be derived (BaselineDerive.v) |
| C72 | Recipes.v | terms of the small workloads by enumeration into a trie and comparison with the description, canonical ones through C13 and C14, the ones over base_lang through C08 and C09 (RecipesExact.v); operators of a workload by a signature check that is sound for every enumeration (RecipesSig.v); what runs return through C59, C62, C63 and C61 (RecipesDomains.v, RecipesLayers.v); that the exponential recipe keeps its starting rules by an invariant of its layers (RecipesKept.v) |
| C73 | Analysis.v, Egraph.v, Synth.v, Sched.v | classes are given values in the product of the samples and the assignments; an invariant says that data is about these values, so merges of classes with equal values succeed (LiveProofs.v, LivePower.v); rebuilding ends because each round either lowers a measure of the data (samples, cost of the simplest term, height of the interval) or merges classes; languages without samples need no truth (LiveQuiet.v), also when variables are linked with terms at the start (LiveLinks.v); instances in LiveDomains.v |
| C74 | Match.v, Generalize.v, Minimize.v, Infer.v | every candidate is over plain operators, has leaf variables and reads back, so that it can be named, scored, validated, added and run (FinishProofs.v, FinishRun.v); validated candidates (over booleans all candidates, by the samples) are identities, so C73 applies to the rules chosen so far; each round of select takes at least one candidate; instances in FinishDomains.v and FinishLinks.v; the layers of the exponential recipe by computation of what they list and induction over the layers (FinishExp.v) |
| C75 | MaxMin.v, Infer.v | the meaning of MaxMinSpec.v makes the lowering rules and mm_equations equations by cases; learned rules are consequences of the given ones (C61), so equations, and on terms of max, min and cheat the meaning is the number of the term; contradictory rules: equational derivations in an arbitrary algebra; the two runs are scripts whose steps are checked by computation |
| C76 | Herbie.v, Ruleset.v, Report.v | per rule: a proof that it is safe, or a point where the right-hand side has no value, or a point where the sides differ, over the complex numbers of TrigSpec.v and the real operations of HerbieSpec.v; these points exclude the rule from what safe rules derive (C66, C67); identities for positive variables through exp and ln; the collapse of 0 and 1 is a script |
| C77 | Phases.v, Infer.v, Sched.v, Minimize.v | the three e-graphs are related by moves in every algebra in which the rules of the phases hold (as in C61), candidates generalize terms of one class of the last, minimization keeps only candidates; what is proposed as in C61 too; the rulesets of the test are computed; the false rule is a scripted run of the fourth call |
| C78 | SizedTests.v, Infer.v, Workload.v | plugging pegs that occur in no other name is a bijection between the terms and the skeletons with a variable, counted by computation at the asserted sizes; what is learned by induction over the sizes as in the recipes (C60, C61, C64); that it is kept because minimizing returns no rule whose name is among the given ones; that runs can be finished as in FinishSpec.v; the expected rules by reading them and by the laws of the numbers |
| C79 | SolidTest.v, Solid.v, Workload.v | the skeletons by the grammar of iter_metric, the four plugs as replacements that go through lists, the pegs by computation, all by induction over the depth; what is learned from C70; all rules as given and learned by induction over the layers; that runs can be finished as in FinishSpec.v, because every listed term reads as a term over eight variables |
| C80 | SolidExport.v (`replace` as in std, `fix_`, `export_print`) | each of the five replacements by induction on terms with the text that follows as parameter: words are passed because no match begins in them, lists because their opening is known; literals by the injectivity of printed integers; letters of learned rules from generalisation by the invariant of OpsProofs.v |

## Where the plain claim is false of the code

Each is a `_refuted` theorem with a concrete witness, next to the strongest true
variant that was found:

* pushing a filter through plug can introduce a panic for terms containing `()`, and
  plug drops such terms (C01, C04, C05); plug names read as patterns (C05);
* append changes the order of terms (C06);
* iterating a grammar whose atom has no production of size 1 is not exhaustive (C08, C09);
* canonicalising with repeated symbols identifies different terms (C13);
* atoms with spaces do not survive a file (C15); some names of operators do not
  survive a rule file (C34); a named rule is lost (C35); removal reorders (C36); a
  rule with equal sides is counted differently by bidir_len and pretty_print (C38);
* BV128 literals above 2^64 are truncated in the SMT encoding: an unsound rule is accepted (C17);
* a workload without variables, or one that negates i64::MIN, panics (C20);
* the absolute value of a rational interval that straddles zero is wrong (C26);
* rational validation accepts rules whose conditional sides fail differently and a
  literal the solver reads differently (C27);
* Halide's division differs between interpreter and solver for negative dividends (C28);
* merging an empty vector sets the changed-flags wrongly (C29);
* a valid rule is put into the set of invalid rules (C42);
* candidates need not share a defined sample (C43, C44);
* Compress grows e-graphs of languages with multi-node constants (C48); the
  saturating classification is wrong in three cases (C49); distinct terms of a
  folding language share a class (C51);
* recursive_rules loses the prior rules for n = 0 and panics for one list of
  operators (C52);
* a rule whose right-hand side names a variable merges unequal terms without a panic (C60);
* the log loses rows after a crash and with concurrent writers (C53);
* one rule of complex.rules is false where a denominator vanishes, and the ruleset
  merges 0 and 1 (C66);
* in the exponential domain a rule learned by fast-forwarding need not be safe, and
  passing it on to a later layer is unsound; with strict division one of the given
  rules is not safe (C67);
* adding a condition to a rule with a conditional in it can introduce a division by
  zero that the validator does not see (C68);
* two equal terms of a workload with different variables give no rule (C69).
