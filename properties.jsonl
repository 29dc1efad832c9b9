{"id": "C01", "title": "Filtering a workload filters its terms", "statement": "Materialising w.filter(f) yields exactly the terms of w that satisfy f, in the same order and with the same multiplicity, however w was built (the push of monotonic filters into plugs and the fusion of nested filters never change the result). Terms contain no empty list (); with () the results still agree whenever both return, but the push-down can introduce a panic (shown).", "quantifier": "every workload expression (any nesting of sets, plugs, filters, appends), every filter, provided no evaluation panics", "why_tests_cant": "the optimiser rewrites arbitrarily nested workload expressions; tests only compare a few fixed ones", "anchors": ["src/enumo/workload.rs:Workload::filter", "src/enumo/workload.rs:Workload::force", "src/enumo/filter.rs:Filter::and", "src/enumo/filter.rs:Filter::is_monotonic"]}
{"id": "C02", "title": "Filters declared monotonic are monotonic", "statement": "If a filter is classified as monotonic then every subterm of a term satisfying it satisfies it too.", "quantifier": "every filter, every term and every subterm", "why_tests_cant": "quantifies over all terms and patterns", "anchors": ["src/enumo/filter.rs:Filter::is_monotonic", "src/enumo/filter.rs:Filter::test", "src/enumo/sexp.rs:Sexp::measure"]}
{"id": "C03", "title": "Filter conjunction is conjunction", "statement": "A term passes f.and(g) exactly when it passes f and passes g; dropping subsumed size bounds loses nothing.", "quantifier": "all filters f, g and all terms", "why_tests_cant": "flattening and subsumption interact over arbitrary filter lists", "anchors": ["src/enumo/filter.rs:Filter::and", "src/enumo/filter.rs:Filter::subsumed_by"]}
{"id": "C04", "title": "Plugging enumerates every independent replacement", "statement": "Plugging pegs for a name in a term produces exactly the terms obtained by replacing every occurrence of the name, independently, by some peg and changing nothing else; it produces |pegs|^occurrences results, and with distinct pegs and no placeholder inside the pegs no result twice.", "quantifier": "every term, name and list of pegs", "why_tests_cant": "cartesian products over arbitrarily shaped terms", "anchors": ["src/enumo/sexp.rs:Sexp::plug", "src/enumo/workload.rs:Workload::force"]}
{"id": "C05", "title": "Plugging an empty workload removes the terms that mention the name", "statement": "w.plug(name, empty), for a name that is an ordinary word (not the wildcard *, not starting with ?), keeps exactly the terms of w in which the name does not occur. For other names it does not (shown).", "quantifier": "every workload and every name", "why_tests_cant": "the implementation switches to a different mechanism (a pattern filter) whose parsing depends on the name", "anchors": ["src/enumo/workload.rs:Workload::plug", "src/enumo/filter.rs:Filter::Excludes", "src/enumo/pattern.rs:Pattern::from_symbolic_expr"]}
{"id": "C06", "title": "Append is union", "statement": "a.append(b) materialises to the terms of a together with the terms of b, none lost and none duplicated; a's terms come first except when b is an append and a is not (shown).", "quantifier": "all pairs of workloads", "why_tests_cant": "four constructor-dependent cases", "anchors": ["src/enumo/workload.rs:Workload::append"]}
{"id": "C07", "title": "substitute replaces consistently", "statement": "substitute(w, sub, atom) materialises to, for each term s of sub in order, every term of w with all occurrences of atom replaced by the same s.", "quantifier": "all workloads and atoms", "why_tests_cant": "ranges over arbitrary workloads", "anchors": ["src/recipe_utils.rs:substitute"]}
{"id": "C08", "title": "iter_metric only produces complete terms within the bound", "statement": "For n >= 1 every term produced by iter_metric(grammar, placeholder, metric, n) has metric at most n, is generated by the grammar, and contains no unexpanded placeholder, provided every production that mentions the placeholder increases the metric (without this it fails, shown).", "quantifier": "every grammar in which each production mentioning the placeholder is productive for the metric, every metric and every n >= 1", "why_tests_cant": "all bounds n; tests check counts for n <= 7 on one grammar", "anchors": ["src/recipe_utils.rs:iter_metric"]}
{"id": "C09", "title": "iter_metric misses no term within the bound", "statement": "Every term generated by the grammar whose metric is at most n (n >= 1) is produced by iter_metric, provided every production that mentions the placeholder increases the metric (without this it fails, shown).", "quantifier": "same as C08; all generated terms", "why_tests_cant": "completeness over an unbounded family of terms", "anchors": ["src/recipe_utils.rs:iter_metric", "src/recipe_utils.rs:base_lang"]}
{"id": "C10", "title": "base_lang enumerations contain no duplicates", "statement": "Iterating base_lang(k) to any bound under any metric lists every term at most once (so together with C08 and C09 exactly once).", "quantifier": "every k, every n, every metric", "why_tests_cant": "unbounded in n and k", "anchors": ["src/recipe_utils.rs:iter_metric", "src/recipe_utils.rs:base_lang"]}
{"id": "C11", "title": "Pattern matching is sound and complete", "statement": "A workload pattern matches a term exactly when some assignment of terms to the pattern's variables (the same term for every occurrence of a variable, anything for a wildcard) turns the pattern into the term.", "quantifier": "every pattern and term", "why_tests_cant": "non-linear patterns with threaded substitutions", "anchors": ["src/enumo/pattern.rs:Pattern::matches"]}
{"id": "C12", "title": "Contains and Excludes look at every subterm", "statement": "Contains(p) accepts a term iff some subterm (itself included) matches p, Excludes(p) iff none does; Or, And and Invert are the boolean connectives.", "quantifier": "every filter and term", "why_tests_cant": "ranges over all terms", "anchors": ["src/enumo/filter.rs:Filter::test"]}
{"id": "C13", "title": "Canonicalisation picks one representative per renaming class", "statement": "Canonicalising never panics and, for a list of distinct symbols, only renames the listed symbols injectively, is idempotent, and two terms have the same canonical form iff they differ by a one-to-one renaming of the listed symbols. With repeated symbols different terms are identified (shown).", "quantifier": "every term, every duplicate-free symbol list", "why_tests_cant": "alpha-equivalence over all terms", "anchors": ["src/enumo/sexp.rs:Sexp::canon", "src/enumo/sexp.rs:Sexp::mk_canon", "src/enumo/sexp.rs:Sexp::apply_subst"]}
{"id": "C14", "title": "The Canon filter keeps exactly one term per renaming class", "statement": "Among all injective renamings (over the listed symbols) of a term exactly one passes the Canon filter, so no equation is lost up to renaming.", "quantifier": "every term and duplicate-free symbol list", "why_tests_cant": "existence and uniqueness over whole classes", "anchors": ["src/enumo/filter.rs:Filter::Canon", "src/enumo/sexp.rs:Sexp::canon"]}
{"id": "C15", "title": "Writing a workload to a file and reading it back is lossless", "statement": "from_file(to_file(w)) has exactly the terms of w in order, provided atoms are words (no white space, parentheses or quotes); without this it fails (shown).", "quantifier": "every workload whose atoms are non-empty and free of whitespace, parentheses and quotes", "why_tests_cant": "all terms and all atom spellings", "anchors": ["src/enumo/workload.rs:Workload::to_file", "src/enumo/workload.rs:Workload::from_file", "src/enumo/sexp.rs:Display"]}
{"id": "C16", "title": "Bitvector operations are arithmetic modulo 2^N", "statement": "Every N-bit operation returns a value below 2^N and computes the mathematical operation modulo 2^N (add, sub, mul, neg, not, and, or, xor) or the SMT-LIB shift (result zero when the amount is at least N).", "quantifier": "all widths 1..128 and all operand values", "why_tests_cant": "2^256 operand pairs per operation", "anchors": ["src/bv.rs:BV"]}
{"id": "C17", "title": "A validated bitvector rule holds for all inputs", "statement": "If the SMT solver's answers are right, a rule reported Valid has two sides that evaluate to the same bitvector under every assignment (and a rule reported Invalid has a counterexample), for literals that fit in 64 bits, which is automatic for widths up to 64. For wider bitvectors a literal is truncated and a false rule can be reported Valid (shown).", "quantifier": "every pair of terms, every width, every assignment", "why_tests_cant": "depends on the encoding agreeing with the interpreter on all values", "anchors": ["src/bv.rs:impl_bv!::validate", "src/bv.rs:impl_bv!::eval"]}
{"id": "C18", "title": "Characteristic-vector inputs cover every assignment exactly once", "statement": "For n variables and k sample values the initial vectors have length k^n and the rows enumerate every assignment of samples to variables exactly once. The samples are both truth values for booleans, -10, -1, 0, 1, 2, 5, 100 for Halide, -1, 0, 1, 2, -3 for rationals, and for w-bit vectors the values next to the smallest and largest signed value and next to zero.", "quantifier": "all sample lists, all n >= 1, all widths", "why_tests_cant": "unbounded n and k", "anchors": ["src/util.rs:self_product", "src/bv.rs:initialize_vars", "tests/bool.rs:initialize_vars", "tests/halide.rs:initialize_vars", "tests/rational.rs:initialize_vars"]}
{"id": "C19", "title": "For booleans equal characteristic vectors means equivalent", "statement": "Two boolean terms have equal characteristic vectors iff they are equal under all assignments to the workload's variables (this is what justifies that boolean validation always answers Valid).", "quantifier": "all boolean terms over any set of variables", "why_tests_cant": "all terms, any number of variables", "anchors": ["tests/bool.rs:eval", "tests/bool.rs:initialize_vars", "tests/bool.rs:validate", "src/util.rs:self_product"]}
{"id": "C20", "title": "Workloads can be materialised into e-graphs", "statement": "A workload whose entries are all well-formed terms is turned into an e-graph without a panic: for positive numbers always; for bitvectors and booleans when at least one term has a variable; for rationals and Halide when moreover evaluating each term on the samples does not panic, in particular for terms without the operators that negate. A workload of closed terms only panics in the four domains that sample, and so does the negation of the smallest 64-bit integer (shown).", "quantifier": "all workloads, all numbers and depths of terms, all choices of the union-find", "why_tests_cant": "corner cases (no variables at all) are not in the test-suite", "anchors": ["src/enumo/workload.rs:Workload::to_egraph", "src/bv.rs:initialize_vars", "tests/bool.rs:initialize_vars", "tests/rational.rs:initialize_vars", "tests/halide.rs:initialize_vars"]}
{"id": "C21", "title": "Boolean interval analysis is sound and total", "statement": "Interval analysis of a boolean operator never panics and contains the operator's result for all operands within the operand intervals, so constants folded from it are correct.", "quantifier": "all operators and operand intervals/values", "why_tests_cant": "must hold for every node ever added to an e-graph", "anchors": ["tests/bool.rs:mk_interval", "src/language.rs:SynthAnalysis::modify"]}
{"id": "C22", "title": "Natural-number intervals and constants are sound", "statement": "For naturals the computed interval contains the value, the analysis never panics, a constant folded from it is the value, and mk_constant(c) ends and builds a term denoting c for every c >= 0. For a negative c it would recurse without end (shown); folded constants are never negative.", "quantifier": "all nodes, intervals, values and constants", "why_tests_cant": "unbounded naturals", "anchors": ["tests/nat.rs:mk_interval", "tests/nat.rs:mk_constant"]}
{"id": "C23", "title": "A validated natural-number rule holds for all naturals", "statement": "If the solver's answers are right, a rule accepted through the integer encoding has sides that agree under every assignment of naturals, and a rejected rule fails for some assignment of naturals although the solver searches the integers. The cvec of a term lists its values.", "quantifier": "all rule sides and assignments", "why_tests_cant": "infinite domain", "anchors": ["tests/nat.rs:validate", "tests/nat.rs:egg_to_z3"]}
{"id": "C24", "title": "Positive/binary number encoding is faithful", "statement": "mk_constant for the binary positive encoding denotes its argument and every exploratory rule preserves the denotation.", "quantifier": "all numbers and assignments", "why_tests_cant": "infinite domain", "anchors": ["tests/pos.rs:mk_constant", "tests/pos.rs:get_exploratory_rules"]}
{"id": "C25", "title": "The bitvector-to-boolean bridge is sound", "statement": "Every exploratory rule relating 2-bit vectors and booleans preserves meaning (the rule that splits a vector into bits, whenever its condition holds), the condition accepts only bitvector classes, and constant folding through the bridge is correct.", "quantifier": "all bit values", "why_tests_cant": "all assignments of all rules", "anchors": ["tests/bv-bool.rs:get_exploratory_rules", "tests/bv-bool.rs:custom_modify"]}
{"id": "C26", "title": "Rational interval arithmetic and constant folding are sound", "statement": "neg, add, mul and recip of intervals never panic on non-empty intervals and contain the results for all members; abs is not sound (shown: it panics on [-5,3] and misses 0 on [-5,inf)). A term's folded interval contains its value, a single-point interval means the term has exactly that value, and without overflow every closed term with a value is folded. Sample-vector entries are the term's value, missing only on division by zero or overflow.", "quantifier": "all intervals with optional end points and all rationals inside them; all terms and assignments", "why_tests_cant": "infinitely many intervals; sign case analysis", "anchors": ["tests/rational.rs:neg", "tests/rational.rs:add", "tests/rational.rs:mul", "tests/rational.rs:recip", "tests/rational.rs:_abs", "tests/rational.rs:mk_interval"]}
{"id": "C27", "title": "Validated rational rules preserve values and division errors", "statement": "If a right solver proves the generated query, the two sides agree under every assignment where both have a value; and if no condition of an `if` contains a division, then under every assignment either both sides divide by zero or neither does. A division inside a condition is not checked (shown by a rule every complete solver validates), and a literal wider than 32 bits makes validate panic (shown).", "quantifier": "all pairs of terms, all rational assignments, all interpretations of division by zero", "why_tests_cant": "nested conditionals and divisions", "anchors": ["tests/rational.rs:validate", "tests/rational.rs:error_conditions", "tests/rational.rs:egg_to_z3"]}
{"id": "C28", "title": "The Halide interpreter agrees with the Halide SMT encoding", "statement": "Every defined sample entry of a term is the term's value with division rounding towards zero (and 0 for division by zero), and entries are defined whenever all intermediate values fit 64 bits. The SMT encoding denotes the value with SMT-LIB division. The two agree when no division rounds a negative dividend, and then validated rules are sound for the interpreter; otherwise they do not (shown: -1/2, and a rule every complete solver validates that the interpreter breaks at -1). Negating the smallest integer panics (shown).", "quantifier": "all terms and all integer assignments", "why_tests_cant": "all values, including negative dividends", "anchors": ["tests/halide.rs:eval", "tests/halide.rs:egg_to_z3"]}
{"id": "C29", "title": "Merging e-class data is a sound order-independent join", "statement": "Merging two signatures that describe the same value keeps every defined sample, intersects the intervals, keeps the cheaper term and reports exactly which side changed; it panics exactly when samples conflict or intervals are disjoint, which cannot happen for data describing the same value. Merging any number of such signatures in any order gives the same samples, interval and cost. When exactly one side has no samples the report of which side changed is wrong (shown).", "quantifier": "all pairs of signatures", "why_tests_cant": "e-graphs merge classes in arbitrary orders", "anchors": ["src/language.rs:SynthAnalysis::merge", "src/lib.rs:Interval::new"]}
{"id": "C30", "title": "The stored simplest term denotes its e-node", "statement": "The term stored with a new e-class is well-formed and is the e-node applied to the stored terms of its children.", "quantifier": "all e-nodes and children data", "why_tests_cant": "index arithmetic over arbitrary shared terms", "anchors": ["src/language.rs:SynthAnalysis::make"]}
{"id": "C31", "title": "Extraction cost separates allowed from disallowed terms", "statement": "The extraction cost of a term is its size if all operators are allowed and the size fits in a machine word, and the maximal value exactly otherwise.", "quantifier": "all terms and operator sets", "why_tests_cant": "saturating arithmetic along arbitrary terms", "anchors": ["src/lib.rs:ExtractableAstSize"]}
{"id": "C32", "title": "Generalising a pair of terms is one consistent injective renaming", "statement": "Candidate rules built from two terms replace variables by pattern variables one-to-one, consistently on both sides and in both directions, and change nothing else; with at most 26 distinct variables this never fails, with more it panics (shown).", "quantifier": "all pairs of terms", "why_tests_cant": "all terms; shared traversal state", "anchors": ["src/enumo/ruleset.rs:add_from_recexprs", "src/language.rs:generalize", "src/language.rs:instantiate", "src/util.rs:letter"]}
{"id": "C33", "title": "A rule object exists iff its right side has no unbound variable", "statement": "Rule::new(l, r) succeeds exactly when every variable of r occurs in l; every candidate added to a ruleset is such a rule.", "quantifier": "all pattern pairs", "why_tests_cant": "all patterns", "anchors": ["src/enumo/rule.rs:Rule::new", "src/enumo/ruleset.rs:add_from_recexprs"]}
{"id": "C34", "title": "Rule names identify rules", "statement": "For rules whose operators and variables are spelled unambiguously, two rules have the same name iff they have the same sides, so the name-keyed ruleset is a set of rules; parsing a printed rule gives it back, and a two-way rule reads as its two directions. A variable spelled like a constant breaks this (shown).", "quantifier": "all well-formed rules", "why_tests_cant": "all terms and spellings", "anchors": ["src/enumo/rule.rs:Rule::new", "src/enumo/rule.rs:Rule::from_string", "src/enumo/ruleset.rs:Ruleset"]}
{"id": "C35", "title": "A ruleset written to a file reads back equal", "statement": "from_file(to_file(rs)) equals rs (same rules, same order) when every rule is named by its own text. A rule with another name is lost on reading (shown for the bitvector/boolean exploratory rules).", "quantifier": "all rulesets whose rules were built by the public constructors", "why_tests_cant": "all rulesets", "anchors": ["src/enumo/ruleset.rs:to_file", "src/enumo/ruleset.rs:from_file", "src/enumo/rule.rs:Rule::from_string"]}
{"id": "C36", "title": "Rulesets behave as insertion-ordered maps", "statement": "After any history of add, extend, union and remove_all the ruleset is the finite map keyed by rule name that the history describes; contains agrees with it; add, extend and union keep the order and append new names; equality is equality of names in order. remove_all does not keep the order (shown).", "quantifier": "all rulesets and operation sequences", "why_tests_cant": "histories of operations", "anchors": ["src/enumo/ruleset.rs:add", "src/enumo/ruleset.rs:extend", "src/enumo/ruleset.rs:union", "src/enumo/ruleset.rs:remove_all", "src/enumo/ruleset.rs:contains", "src/enumo/ruleset.rs:eq"]}
{"id": "C37", "title": "partition splits a ruleset exactly", "statement": "partition(f) returns two disjoint rulesets that together contain every rule, the first exactly those satisfying f, each in the original order; derive therefore classifies every rule of the other set exactly once.", "quantifier": "all rulesets and predicates", "why_tests_cant": "all rulesets", "anchors": ["src/enumo/ruleset.rs:partition", "src/enumo/ruleset.rs:derive"]}
{"id": "C38", "title": "bidir_len counts rules up to direction and agrees with pretty_print", "statement": "When no rule has two equal sides, bidir_len is the number of classes of rules modulo reversal and equals the number of lines pretty_print prints. With a rule whose sides are equal the two numbers differ (shown).", "quantifier": "all rulesets", "why_tests_cant": "arbitrary mixtures of one- and two-way rules", "anchors": ["src/enumo/ruleset.rs:bidir_len", "src/enumo/ruleset.rs:pretty_print"]}
{"id": "C39", "title": "The best-scoring candidate is selected first", "statement": "The score of a rule does not depend on its direction. It is, in this order and compared lexicographically: the number of distinct variables, minus the number of constants, minus the size of the larger side, minus the total size, minus the number of distinct operators. Selection takes a candidate of maximal score first, and nothing that stays scores higher than something that was taken.", "quantifier": "all candidate sets", "why_tests_cant": "all rulesets", "anchors": ["src/language.rs:score", "src/enumo/ruleset.rs:select"]}
{"id": "C40", "title": "minimize terminates and only returns validated new rules", "statement": "For every candidate set, prior and behaviour of the scheduler, minimize ends after at most as many rounds as there are candidates. Every returned rule was a candidate, was accepted by the validator and is not in the prior.", "quantifier": "all candidates, priors and behaviours of the scheduler and the validator", "why_tests_cant": "loop over an external engine", "anchors": ["src/enumo/ruleset.rs:minimize", "src/enumo/ruleset.rs:select", "src/enumo/ruleset.rs:shrink"]}
{"id": "C41", "title": "minimize loses no knowledge", "statement": "Every candidate that is not returned was already in the prior, was rejected by the validator, or had its two sides merged by running rules that are in the prior or are validated candidates named in the prior or the result. So in every interpretation in which the prior and the result hold, every candidate that was not rejected holds.", "quantifier": "all candidates, priors and scheduler behaviours", "why_tests_cant": "loop invariant over all iterations", "anchors": ["src/enumo/ruleset.rs:minimize", "src/enumo/ruleset.rs:shrink"]}
{"id": "C42", "title": "What minimize's second result contains", "statement": "Every rule in the second result of minimize is a candidate the validator did not accept or the reverse of a candidate. The reverse of a candidate is put there when the validator does not accept it or when it is not itself among the remaining candidates, so not every rule in it was rejected (shown).", "quantifier": "all candidate sets and validators", "why_tests_cant": "needs one-directional candidates", "anchors": ["src/enumo/ruleset.rs:minimize", "src/enumo/ruleset.rs:select"]}
{"id": "C43", "title": "Characteristic-vector matching proposes exactly the matching pairs", "statement": "For every e-graph and every storage order, cvec_match proposes rules from the smallest terms of two distinct classes iff both vectors have some defined sample and they agree wherever both are defined. It does not ask for a sample at which both are defined, although its comment does (shown).", "quantifier": "all e-graphs and vectors", "why_tests_cant": "bucketing by first sample must not lose pairs", "anchors": ["src/enumo/ruleset.rs:cvec_match"]}
{"id": "C44", "title": "Fast matching proposes exactly the pairs with identical vectors", "statement": "fast_cvec_match proposes exactly the pairs of distinct defined classes with identical vectors. Its rules are among those of cvec_match when vectors are not empty, and the same when every vector has a value for every sample. Without samples it proposes every pair and cvec_match none (shown).", "quantifier": "all e-graphs", "why_tests_cant": "all vectors", "anchors": ["src/enumo/ruleset.rs:fast_cvec_match"]}
{"id": "C45", "title": "extract_candidates proposes exactly newly merged pairs of allowed terms", "statement": "A rule is proposed iff it is made from the extracted terms of two distinct classes of the first e-graph that are one class in the second, where both classes contain a term of allowed operators (of fewer than 2^64 - 1 nodes). The extracted terms are then smallest terms of allowed operators.", "quantifier": "all pairs of e-graphs", "why_tests_cant": "all e-graphs", "anchors": ["src/enumo/ruleset.rs:extract_candidates", "src/lib.rs:ExtractableAstSize", "src/language.rs:is_allowed_rewrite"]}
{"id": "C46", "title": "Equality saturation is sound under every schedule", "statement": "If every rule of a ruleset holds in a model of the operators then, whatever the scheduler, limits, timeouts and match order, any two terms in the same class of the resulting e-graph are equal in the model.", "quantifier": "all e-graphs, rulesets, schedules, stopping points, limits", "why_tests_cant": "nondeterministic search with wall-clock limits", "anchors": ["src/enumo/scheduler.rs:Scheduler::run_internal", "src/enumo/rule.rs:apply_one", "src/enumo/rule.rs:apply_pat"]}
{"id": "C47", "title": "A derivable rule is a consequence", "statement": "If can_derive answers true, the rule holds in every model in which the rules of the ruleset hold, for both derivability modes and any limits.", "quantifier": "all rulesets, rules, limits", "why_tests_cant": "all models and schedules", "anchors": ["src/enumo/ruleset.rs:can_derive", "src/enumo/scheduler.rs:run_derive"]}
{"id": "C48", "title": "Compress merges what Simple merges, keeps the e-graph and adds no class where a constant is one node", "statement": "In every language, classes that the Simple scheduler (run on a copy) puts together are together after Compress, every term that was represented is still represented by its class, and the result is closed under congruence. In languages whose analysis knows literals only (bitvectors, Halide, Pos) nothing else is merged. Where constants are single nodes and there is no custom_modify (bitvectors, booleans, rationals, Halide) the number of classes does not grow; for naturals, which spell constants out, it can grow (shown).", "quantifier": "all e-graphs, rulesets, limits", "why_tests_cant": "all e-graphs and schedules", "anchors": ["src/enumo/scheduler.rs:Scheduler::Compress"]}
{"id": "C49", "title": "Rules classified as saturating add no e-classes", "statement": "In languages whose analysis knows literals only, a rule all of whose variables are pattern variables is classified as saturating exactly when every argument of its right-hand side occurs in its left-hand side. Running any number of such rules for any number of steps, in any order, from any e-graph a user can get at, adds no e-class once rebuilt, provided all classes are defined on some sample; bitvectors and Pos guarantee that. When a right-hand side is undefined on all samples (Halide overflow), when a rule mixes a variable of the language with a pattern variable of the same name, and in languages that spell out folded constants (naturals), rules classified as saturating do add classes (shown).", "quantifier": "all rules written in the rule syntax, all e-graphs reachable by building and running, all runs", "why_tests_cant": "all e-graphs", "anchors": ["src/enumo/rule.rs:is_saturating", "src/enumo/scheduler.rs:Scheduler::Saturating"]}
{"id": "C50", "title": "Applying a rule adds exactly the instantiated right-hand side", "statement": "Applying a rule at a match, at any time in a run: if the matched class is undefined on all its samples nothing happens; otherwise the missing parts of the instantiated right-hand side are added, each in a new class of its own, and its class is merged with the matched one exactly when it too is defined; in languages whose analysis knows literals only (bitvectors, Halide, Pos) nothing else changes. Rules with a plain or guarded applier do not look at samples; a guarded rule does nothing when its guard fails. In every language nothing is lost and what is reported as changed is in the matched class.", "quantifier": "all e-graphs reachable by building and running, at every point of a run, all rules and substitutions", "why_tests_cant": "all states", "anchors": ["src/enumo/rule.rs:apply_one", "src/enumo/rule.rs:apply_pat"]}
{"id": "C51", "title": "Materialised e-graphs represent exactly the workload", "statement": "After to_egraph every workload term is represented, in every language. In bitvectors, Halide and Pos the e-graph represents exactly the subterms of the workload, with one class per subterm and one subterm per class, the number of classes is the number of distinct subterms, and the vector of a class is the value of its term on the samples initialize_vars made for the variables in order of first occurrence. In languages that fold constants distinct terms can share a class (shown).", "quantifier": "all workloads", "why_tests_cant": "all workloads", "anchors": ["src/enumo/workload.rs:to_egraph"]}
{"id": "C52", "title": "Rule inference returns validated rules and keeps everything it was given and learned", "statement": "Every rule returned by run_workload or run_fast_forwarding was accepted by the validator and is not one of the prior rules; run_workload returns at least one rule. For sizes n >= 1 the result of recursive_rules contains the prior rules and all rules learned for smaller sizes, every other rule was validated, and for n >= 3 at least one is new. With two or more lists of operators the terms looked at for size n are exactly the terms over the language (operators with up to three arguments) that have a variable and whose size is at most n, and none contains a placeholder. For n = 0 the prior rules are lost, and with a single list of operators a placeholder stays and there is a panic (shown).", "quantifier": "all domains, workloads, metrics, sizes, languages, priors with distinct names, exploratory rules and runs of the schedulers", "why_tests_cant": "recursion over sizes with an external engine", "anchors": ["src/recipe_utils.rs:recursive_rules", "src/recipe_utils.rs:run_workload_internal", "src/recipe_utils.rs:run_fast_forwarding"]}
{"id": "C53", "title": "Logging appends one row and keeps the history", "statement": "Calls made one after the other do not panic on a readable log, and after k of them the log holds the previous rows followed by the k new rows in order, whatever the sizes of the reads and writes. After a crash during a call the file either still holds the previous rows or is a beginning of the new text; a file that cannot be read is left unchanged by later calls. A crash just after the truncation loses every logged row silently, and two concurrent successful calls can lose a new row or every logged row (shown).", "quantifier": "all logs, rows, numbers of calls, crash points, interleavings of two calls and sizes of reads and writes", "why_tests_cant": "crash points and schedules", "anchors": ["src/logger.rs:add_json_to_file"]}
{"id": "C54", "title": "Interval analysis and constant folding for bitvectors are exact", "statement": "The interval computed for a bitvector e-node contains the value of the node, and a class whose interval is a single value is folded to a literal that denotes exactly that value.", "quantifier": "all bitvector e-nodes, child intervals and values", "why_tests_cant": "all values of every width and all child intervals", "anchors": ["src/bv.rs:mk_interval", "src/bv.rs:mk_constant", "src/language.rs:SynthAnalysis::modify"]}
{"id": "C55", "title": "Printed terms read back as themselves in every domain", "statement": "In each of the seven domains the printed form of a term reads back as the same term, and two different terms have different texts, when literals are in range and variables are identifiers that do not spell a constant. Bitvector literals, decimal or binary, are taken modulo 2^N; machine integers and fractions of every sign read back with their value and nothing out of range is read as a number. A variable spelled like a literal or constant reads back as that constant, and a number that does not fit or a fraction with denominator zero silently becomes a variable (shown).", "quantifier": "all terms, literals and names of the bitvector, boolean, natural, positive, bitvector-boolean, Halide and rational languages", "why_tests_cant": "terms and literals are unbounded in number", "anchors": ["src/bv.rs:BV", "src/bv.rs:FromStr", "src/bv.rs:Display", "tests/bool.rs:Bool", "tests/nat.rs:Nat", "tests/pos.rs:Pos", "tests/bv-bool.rs:BvBool", "tests/halide.rs:Pred", "tests/rational.rs:Math"]}
{"id": "C56", "title": "Validated rules keep classes to one value, per domain", "statement": "In the bitvector, natural number and Halide domains, starting from any workloads and added terms and running any schedulers any number of times with rules that passed validation, two terms in one class have the same value under every assignment. The same holds for boolean rules that hold under every assignment, and for the rules written down for positives and for the bridge between bitvectors and booleans. Constant folding by intervals and literals is included.", "quantifier": "all workloads, histories of additions and runs, rulesets of validated rules, schedules, terms and assignments", "why_tests_cant": "all histories, schedules and assignments", "anchors": ["src/enumo/scheduler.rs:Scheduler::run_internal", "src/bv.rs:validate", "src/language.rs:SynthAnalysis", "tests/nat.rs", "tests/halide.rs", "tests/bool.rs", "tests/pos.rs", "tests/bv-bool.rs"]}
{"id": "C57", "title": "Characteristic vectors have one entry per sample", "statement": "In every e-graph reachable by building from workloads, adding terms and running schedulers, in each of the seven domains, a class has either no characteristic vector or exactly one entry per sample; in bitvectors, booleans, naturals, positives and bv-bool no entry is missing. Hence merging two classes fails while comparing vectors exactly when both have a value on some sample and the values differ; it never indexes out of bounds.", "quantifier": "all workloads, terms, rules, schedules and e-graphs reached", "why_tests_cant": "all reachable e-graphs; a shorter vector would only show as a panic deep inside a merge", "anchors": ["src/language.rs:SynthAnalysis::merge", "src/language.rs:SynthAnalysis::make", "src/util.rs:self_product", "tests/*.rs:eval, initialize_vars"]}
{"id": "C58", "title": "Derivability reports are complete and sound", "statement": "A derivability report lists every rule of the compared ruleset exactly once, as derivable or not, in order and as the run for that rule said; a bitvector rule reported as derivable from validated rules holds. The bitvector row lists exactly the ported rules the validator accepts and compares with these only; the baseline row reports both directions except for the two skipped pairs.", "quantifier": "all rulesets, all runs of the scheduler, both kinds of derivability", "why_tests_cant": "the number of rules, rulesets and runs is unbounded", "anchors": ["src/logger.rs:write_baseline", "src/logger.rs:write_bv_derivability", "src/logger.rs:get_derivability", "src/enumo/ruleset.rs:derive"]}
{"id": "C59", "title": "Learned rules use only the operators they were learned from", "statement": "If the terms of the workload and the right-hand sides of the prior and exploratory rules use only operators in a set A (and variables), each with its number of children, then the sides of every rule learned by run_workload, run_fast_forwarding or recursive_rules use only operators in A and no variable of the language. Where the e-graph analysis adds nodes of its own, exactly these may occur in addition: constants in the boolean and rational languages, Z and S in the natural language, two-bit literals, first, second and bv in the mixed language, exp and log in the language of exponentials, numbers and negation in trigonometry; nothing is added over bit-vectors, Halide, binary positives, solids, and maxima and minima.", "quantifier": "all sets of operators, workloads, rules, schedules, limits and orders of the engine, in the eleven modelled languages", "why_tests_cant": "workloads, runs and operator sets are unbounded", "anchors": ["src/recipe_utils.rs:run_workload_internal", "src/recipe_utils.rs:run_fast_forwarding", "src/recipe_utils.rs:recursive_rules", "src/language.rs:generalize", "src/language.rs:modify", "src/language.rs:mk_constant", "tests/bv-bool.rs:custom_modify", "tests/nat.rs:mk_constant"]}
{"id": "C60", "title": "Learned rules come from terms no sample tells apart, whatever rules were run", "statement": "Rules run on the e-graph of a workload may be false: a run either panics or returns an e-graph in which terms of one class agree at every sample where both have a value, are well typed and use the workload's variables only. Every rule learned by run_workload, run_fast_forwarding or recursive_rules has well-typed sides over pattern variables and generalizes two terms over the workload's variables that no sample tells apart. For booleans the samples are all assignments, so every learned rule is a tautology and rewriting with it is sound, although the boolean validator accepts everything. The right-hand sides of prior and exploratory rules must have the right number of children and must not mention a variable of the language: with such a variable unequal terms are merged silently (shown).", "quantifier": "all workloads, prior and exploratory rules (true or false), schedules, limits and orders of the engine, in the boolean, bitvector, natural, rational and Halide languages", "why_tests_cant": "runs, rule sets and workloads are unbounded, and the guarantee must hold for false rules too", "anchors": ["src/recipe_utils.rs:run_workload_internal", "src/recipe_utils.rs:run_fast_forwarding", "src/recipe_utils.rs:recursive_rules", "src/language.rs:merge", "src/language.rs:make", "src/enumo/ruleset.rs:cvec_match", "src/enumo/ruleset.rs:extract_candidates", "tests/bool.rs:validate"]}
{"id": "C61", "title": "Fast-forwarding learns consequences and misses nothing new", "statement": "A rule learned by fast-forwarding mentions no forbidden operator (no Z and S in the positive numbers, no boolean operator and no projection in the mixed domain) and follows from the prior and the exploratory rules: in every interpretation in which these hold its two sides are equal. The first phase uses only the prior rules without forbidden operators, the second adds the exploratory rules, the third uses everything, and each phase merges only terms that its rules make equal. Every term of the workload takes part, and every two of them (or terms found in the first phase) that end up merged, have no forbidden operators, and are not already equal under the rules of the first phase, have a candidate rule proposed between terms equal to them that are not larger.", "quantifier": "all workloads, prior and exploratory rulesets read from text, schedules, limits and orders of the engine, in the seven modelled languages, bitvectors up to 128 bits; all interpretations", "why_tests_cant": "what is learned depends on the schedule of three saturations and on all interpretations of the rules", "anchors": ["src/recipe_utils.rs:run_fast_forwarding", "src/enumo/ruleset.rs:extract_candidates", "src/enumo/ruleset.rs:minimize", "src/enumo/scheduler.rs:run", "src/language.rs:is_allowed_rewrite"]}
{"id": "C62", "title": "What a recipe learns can be saved, loaded and learned from again", "statement": "A ruleset obtained by any sequence of inference runs, joins and selections of rules has no key twice, is written to a file that reads back as the same rules in the same order, and has right-hand sides that came from text or could have, so it may be the prior ruleset of another run, for which the same holds. Nothing is assumed of the workloads; the rules to start from are rulesets read from text.", "quantifier": "all recipes (finite sequences of inference runs, extend and removals), workloads, schedules, limits and orders of the engine, in the eleven modelled languages, bitvectors up to 128 bits", "why_tests_cant": "recipes and runs are unbounded; one unreadable rule makes a saved file unusable", "anchors": ["src/recipe_utils.rs:run_workload_internal", "src/recipe_utils.rs:run_fast_forwarding", "src/recipe_utils.rs:recursive_rules", "src/enumo/ruleset.rs:to_file", "src/enumo/ruleset.rs:from_file", "src/enumo/ruleset.rs:extend", "src/enumo/ruleset.rs:remove_all", "src/enumo/rule.rs:from_string"]}
{"id": "C63", "title": "What a recipe learns is true", "statement": "Every rule of a ruleset obtained by any sequence of inference runs, joins and selections is an identity: both sides have the same value for all values of their variables (bitvectors up to 64 bits, naturals, Halide integers with the division of the solver, booleans); for rationals both sides agree wherever both have a value, and have a value at the same places if no condition of an if divides. Rewriting any terms with these rules only merges terms of equal value; for rationals this holds for rules without conditionals and with the same variables on both sides, otherwise a term without a value can be merged with a number (shown). The rules to start from may be false; a right solver is assumed, except for booleans, where there is none and the rules to start from must not mention a variable of the language.", "quantifier": "all recipes, workloads, prior and exploratory rules, schedules, limits and orders of the engine, all values of the variables", "why_tests_cant": "recipes, rules and values are unbounded; the guarantee must hold with false exploratory rules", "anchors": ["src/recipe_utils.rs:run_workload_internal", "src/recipe_utils.rs:run_fast_forwarding", "src/recipe_utils.rs:recursive_rules", "src/bv.rs:validate", "tests/nat.rs:validate", "tests/halide.rs:validate", "tests/rational.rs:validate", "tests/bool.rs:validate", "src/enumo/ruleset.rs:minimize"]}
{"id": "C64", "title": "Lifted rules are true", "statement": "With the exploratory rules of binary positives and true prior rules, every rule learned by fast-forwarding is an identity of positive numbers that mentions no variable of the language, so it may be a prior rule of the next run. With the exploratory rules that split two-bit vectors into booleans, and prior rules that are true boolean formulas or were lifted before, every rule learned is an identity of two-bit vectors. No validator is involved in either language.", "quantifier": "all workloads, true prior rulesets, schedules, limits and orders of the engine, all values of the variables", "why_tests_cant": "nothing checks these rules when they are learned; the sorts of bitvectors and booleans are not kept apart by the e-graph", "anchors": ["src/recipe_utils.rs:run_fast_forwarding", "tests/pos.rs:get_exploratory_rules", "tests/pos.rs:is_allowed_op", "tests/bv-bool.rs:get_exploratory_rules", "tests/bv-bool.rs:custom_modify", "tests/bv-bool.rs:is_allowed_op"]}
{"id": "C65", "title": "Rewriting with operators that have no value everywhere", "statement": "Call a rule safe if, wherever its left-hand side has a value, its right-hand side has the same value. In an e-graph made from terms that all have values, by adding terms that have values and by running safe rules under any schedule, all terms of a class have one common value: no term without a value is ever made. A rule learned by fast-forwarding with safe prior and exploratory rules generalizes two terms without forbidden operators that have the same value wherever all terms of the workload have values. A rule that is derivable from safe rules is true where both of its sides have values, and safe if derivability was tested from its left-hand side alone.", "quantifier": "all languages, all meanings in which operators may have no value at some arguments, all workloads, safe rulesets, schedules, limits and orders of the engine", "why_tests_cant": "domains without a validator (trigonometry, exponentials) rest on this alone; the harm of a rule shows only at values where a denominator vanishes and after further rewriting", "anchors": ["src/recipe_utils.rs:run_fast_forwarding", "src/enumo/scheduler.rs:run", "src/enumo/ruleset.rs:can_derive", "src/enumo/workload.rs:to_egraph", "src/language.rs:custom_modify"]}
{"id": "C66", "title": "The trigonometric rules are true of complex numbers", "statement": "Over the complex numbers, with sine, cosine and tangent defined by Euler's formulas (which are the usual functions on the reals), every exploratory rule, every rule of prior_rules() and every rule of complex.rules but one is safe; constant folding is exact and writes constants that read back as the number computed. Hence e-graphs made from terms that have values, with these rules, only merge terms of equal value, and a rule learned from such rules by fast-forwarding generalizes two terms, without cis, I or sqr, that have the same value wherever the workload has values. The exception, (/ ?a (- (/ ?b ?c) ?a)) ==> (/ ?c (- (/ ?b ?a) ?c)), is false at a = 0 (shown), and with complex.rules as it is rewriting merges 0 and 1 (shown).", "quantifier": "all workloads, rulesets drawn from these rules and other safe rules, schedules, limits and orders of the engine (including the order in which the nodes of a class are folded), all complex values of the variables", "why_tests_cant": "nothing validates rules in this domain; the values are real and complex numbers and the runs are unbounded", "anchors": ["tests/trig.rs:get_exploratory_rules", "tests/trig.rs:prior_rules", "tests/trig.rs:custom_modify", "tests/trig.rs:extract_constant", "tests/trig.rs:is_allowed_op", "scripts/oopsla21/trig/complex.rules", "tests/recipes/trig.rs:trig_rules"]}
{"id": "C67", "title": "The exponential rules are true of real numbers", "statement": "Over the real numbers, with logarithms, powers and roots of positive numbers only and quotients by zero equal to zero, each of the 154 rules given for the domain (exploratory, starting and rational rules) is safe: where its left-hand side has a value, its right-hand side has the same value. Hence, for positive values of the variables, e-graphs made from terms that have values, with these rules, only merge terms of equal value, and a rule learned from them by fast-forwarding generalizes two terms that have the same value wherever the workload has values. Constants read back as they are written. Two limits are shown: if a quotient by zero has no value, a rational rule is not safe; and the rules learned by one layer of the recipe are not always safe, so that rewriting with them merges -1 with a term whose value is 1 (the recipe passes learned rules on to later layers).", "quantifier": "all workloads, rulesets drawn from these rules and other safe rules, schedules, limits and orders of the engine, all positive real values of the variables", "why_tests_cant": "validation in this domain accepts every rule; the values are real numbers and the runs are unbounded", "anchors": ["tests/exponential.rs:get_exploratory_rules", "tests/exponential.rs:starting_exponential_rules", "tests/exponential.rs:rational_rules", "tests/exponential.rs:initialize_vars", "tests/recipes/exponential.rs:constant_rules", "src/recipe_utils.rs:run_fast_forwarding"]}
{"id": "C68", "title": "Rules made conditional keep values and the absence of values", "statement": "A rational rule gets a condition exactly if one denominator, and only one, occurs in one of its sides and not in the other; the new rule is lhs ==> (if denominator rhs lhs). If neither side has a conditional and the sides agree where both have values, the new rule keeps every value and every absence of a value, and a solver that refutes every false formula accepts it. (With conditionals in the sides this fails: shown is a rule that a right solver rejects, whose conditional form is accepted and turns 0 into a division by zero.) Learning rules with run_workload_conditional never panics when it adds conditions, and returns no key twice, only rules that can be printed and read back, only rules that are identities wherever both sides have values, and only candidates or candidates with their condition, in one of the two directions. No candidate is lost: each is, by name, a prior or a returned rule, or follows from such rules, or is rejected by the validator; and the conditional form of a rejected rule, if there is one, is again, by name, a prior or a returned rule, or follows from such rules, or is rejected.", "quantifier": "all rules over rationals that can be written, all workloads, prior rulesets read from text, schedules, limits and orders of the engine, all solvers that answer unsat rightly, all rational values of the variables", "why_tests_cant": "which rules are rejected and made conditional depends on the solver and on the schedule; the values range over all rationals", "anchors": ["tests/rational.rs:add_condition", "tests/rational.rs:all_denominators", "tests/rational.rs:run_workload_conditional", "tests/rational.rs:validate", "tests/recipes/rational_best.rs:best_enumo_recipe"]}
{"id": "C69", "title": "run_workload leaves no expressible equality of its terms unlearned", "statement": "Let two terms of the workload have the same value at every sample. After run_workload, the prior and learned rules together entail that they are equal; or the prior rules say that they are equal to two terms, neither larger than its original, between which there is no rule, either because each has a variable that the other has not (shown to happen) or because the validator does not accept it. For booleans only the first reason remains and the statement covers all equivalent terms of the workload; so it does for bitvectors if the prior rules are true and the solver always answers and is right when it answers sat. recursive_rules gives rules of which this holds for the terms of every size up to the last. The rules returned, with the prior rules, can be given to another run.", "quantifier": "all workloads, schedules, limits, iteration orders and settings of run_workload over booleans, bitvectors, naturals and Halide, all prior rulesets without names twice, named side conditions or variables of the language", "why_tests_cant": "a missing rule is visible only against all pairs of terms and all derivations from the ruleset, for every schedule and limit under which the e-graph was compressed", "anchors": ["src/recipe_utils.rs:run_workload", "src/recipe_utils.rs:run_workload_internal", "src/recipe_utils.rs:recursive_rules", "src/enumo/ruleset.rs:cvec_match", "src/enumo/ruleset.rs:fast_cvec_match", "src/enumo/ruleset.rs:minimize"]}
{"id": "C70", "title": "Rules lifted for solids keep the set of points", "statement": "A solid built from cubes, cylinders, spheres, translations, scalings, unions and intersections with positive dimensions and factors that are not zero is a set of points of space. Every rule that repeated fast-forwarding learns from the given rules, each layer using the rules of the layers before, turns solids into solids with the same points, whatever terms its variables stand for, and mentions no maximum, minimum, coordinate, substitution or Scalar. So do the rules for lowering solids to functions, the given rules about functions, and the rules that the test expects to derive. Rewriting with all of these, also without checking that the terms make sense, puts into one class only solids with the same points. What is learned can be saved and read back.", "quantifier": "all workloads, numbers of layers, schedules, limits and iteration orders; all solids, with free variables for numbers and for solids", "why_tests_cant": "the test only derives nine expected rules after one run; it does not evaluate any solid, the domain has no interpreter and its validator accepts every rule", "anchors": ["tests/szalinski.rs:rule_lifting", "tests/szalinski.rs:get_lifting_rules", "tests/szalinski.rs:get_subst_and_frep_rules", "tests/szalinski.rs:is_allowed_op", "src/recipe_utils.rs:run_fast_forwarding"]}
{"id": "C71", "title": "Which baseline rules are true, and what a report can say about the others", "statement": "The rule files of baseline/ that recipes are compared with load, one rule for each line. Every rule of bool.rules is true, every rule of bv32.rules is true at every width up to 128, and every rule of oopsla-halide.rules is true. bv4.rules has two rules that are false at every width above 4. halide.rules has 27 rules of 725 that are false: six need truth values and 21 a divisor that is not 0. In rational.rules and herbie-rational.rules the two sides of each rule agree where both have values, and 6 and 10 rules, listed by name, differ in where they have values. No ruleset that a recipe learns with a correct solver derives any of the listed rules (for rationals: rules without if and with the same variables on both sides), so every report lists them as not derivable. In the other direction a report means little: halide.rules and herbie-rational.rules each contradict themselves, all values are equal where all their rules hold (shown).", "quantifier": "all values of the variables for each of the rules; all learned rulesets, widths, limits and schedules for the reports", "why_tests_cant": "the tests only print the reports; they never evaluate a baseline rule, and no finite set of values settles that a rule over the integers, the rationals or all widths is true", "anchors": ["baseline/bool.rules", "baseline/bv4.rules", "baseline/bv32.rules", "baseline/halide.rules", "baseline/oopsla-halide.rules", "baseline/rational.rules", "baseline/herbie-rational.rules", "src/enumo/ruleset.rs:from_file", "src/enumo/ruleset.rs:derive", "src/logger.rs:write_baseline", "tests/halide.rs", "tests/rational.rs"]}
{"id": "C72", "title": "What the recipes of the evaluation enumerate and return", "statement": "Each workload of the recipes in tests/recipes can be enumerated, every term of it is a term of the language, and its terms are exactly the ones its construction describes: all canonical terms over a, b, c up to seven atoms (bool) and up to six atoms with 0 and 1 added (bit-vectors), one operator over terms of at most one operator and canonical, and selections (halide), one operator over three variables and three constants, one operator over such terms with a variable, and quotients of polynomials in a and b (rational), two layers without exp of exp or log of log (exponential), and the listed functions of angles (trig). One exception is a defect: the logarithm layer is meant to have products but has none, because a replacement names a hole that does not occur (shown). Whatever the limits of the runs, a ruleset that a recipe returns has no key twice, can be saved and read back as the same rules, and has only the operators and literals of the recipe (no implication or division for halide, no conditional for the replicated rational rules, no imaginary unit, cis or square for trig); with a correct solver the rules of bool, bit-vectors of width 4 to 64, halide and the rationals are identities. The best rational recipe keeps the replicated rules and adds only rules whose left side does not divide. The rules that the first exponential layer learns generalise pairs of terms with equal values for all positive values of the variables. The exponential recipe returns its starting rules and adds only rules that have neither the name of a starting rule nor that of a given rational rule.", "quantifier": "all runs of each recipe: all limits, schedules, iteration orders and answers of a solver; all terms of each workload", "why_tests_cant": "the tests run a recipe once and compare counts; the workloads are built by several replacements with names as text, where a wrong name goes unnoticed, and no test evaluates the returned rules", "anchors": ["tests/recipes/bool.rs", "tests/recipes/bv4_base.rs", "tests/recipes/bv4_fancy.rs", "tests/recipes/bv32.rs", "tests/recipes/halide.rs", "tests/recipes/rational_replicate.rs", "tests/recipes/rational_best.rs", "tests/recipes/exponential.rs", "tests/recipes/trig.rs", "tests/bv8.rs:gen", "tests/bv128.rs:gen", "src/recipe_utils.rs:recursive_rules", "src/recipe_utils.rs:run_fast_forwarding"]}
{"id": "C73", "title": "Inference with true rules neither panics nor hangs", "statement": "Take rules without conditions, each with its right-side variables on the left. Over booleans and over bit-vectors of width 1 to 128 let the rules be identities; over the binary positives, the solids and the exponentials (whose variables are linked with (exp (log v)) and (log (exp v)) at the start) they can be any. Then in every e-graph that comes up by turning a workload into one, adding terms, running some of the rules with any limits, rebuilding and compressing: a term can be added; every match found so far can be applied; rebuilding comes to an end; the classes that a run merged can be merged in the e-graph it started from; and the simple, the compressing and the saturating schedule have a run to the end. Runs may use different parts of the rules. The e-graph of a workload is the same for every sufficient bound on rebuilding. Sorting the rules into saturating and other ones gives an answer, and so does derivability, also for a rule that is not true; over Halide too this holds for any rules. With a rule that is not true a run can panic (shown: (~ ?a) ==> ?a with (~ true) merges true and false).", "quantifier": "all widths, rulesets, workloads, added terms, orders of matches, limits and interrupted runs", "why_tests_cant": "panics come from merging data of classes (disjoint intervals, different samples) deep in a run and depend on which matches were applied; that rebuilding ends needs an argument about all e-graphs", "anchors": ["src/language.rs:SynthAnalysis", "src/language.rs:merge", "src/language.rs:modify", "src/enumo/scheduler.rs:run", "src/enumo/scheduler.rs:run_internal", "src/enumo/ruleset.rs:can_derive", "src/enumo/ruleset.rs:partition", "src/lib.rs:Interval::new", "src/bv.rs", "tests/bool.rs", "tests/exponential.rs:initialize_vars"]}
{"id": "C74", "title": "A run of rule inference, or of fast-forwarding, can always be finished", "statement": "Take a workload whose terms can be read and mention at most 26 variables (over booleans and bit-vectors at least one), and prior rules without conditions, each with its right-side variables on the left. Over booleans and over bit-vectors of width 1 to 64, with a solver that answers unsat only when it is so, the prior rules are identities; over the binary positives, the solids and the exponentials their right sides contain no literal variable. Then inference from the workload never gets stuck, whatever happens on the way: the e-graph of the workload is built; in every e-graph that compressing with the prior rules can give, however its classes are laid out, candidates are proposed; after any number of rounds of minimization with any choices the next round can be made (choosing, validating, adding the others to a new e-graph, running the chosen rules, keeping what is still apart) and leaves fewer candidates, so that minimization ends; and there is a whole run with a result. The same holds for fast-forwarding with any exploratory rules of that kind: the allowed rules are sorted out, the exploratory rules and then all rules are run, and candidates are extracted both times. The result can be given to the next run together with the prior rules. Recursive inference by size over a language with at least two lists of operators, whose names are words that read as its variables (1 to 26), constants and operators, is covered: after any smaller sizes the next step can be finished, and there is a result for every size unless the step for some size from 3 on learns nothing, which the program answers with a panic. The recipe for exponentials is covered: whatever was learned in its first layers, the next of its six layers can be finished, and there is a result.", "quantifier": "all widths, workloads, prior and exploratory rulesets, layouts of e-graphs, orders of matches and of classes, interrupted runs, choices and numbers of rounds", "why_tests_cant": "a test takes one path through hash orders, limits and timeouts; here no reachable intermediate state may panic or loop, with any of the rules that can have been chosen before", "anchors": ["src/recipe_utils.rs:run_workload", "src/recipe_utils.rs:run_fast_forwarding", "src/enumo/ruleset.rs:minimize", "src/enumo/ruleset.rs:select", "src/enumo/ruleset.rs:shrink", "src/enumo/ruleset.rs:cvec_match", "src/enumo/ruleset.rs:extract_candidates", "src/enumo/workload.rs:to_egraph", "src/enumo/scheduler.rs:run", "src/recipe_utils.rs:recursive_rules", "tests/recipes/exponential.rs:make_rules"]}
{"id": "C75", "title": "The domain of maxima and minima: what it learns is as good as the rules it starts from, and its own rules are contradictory", "statement": "Lowering max and min to conditionals is right: the three lowering rules are equations in a meaning where max, min, comparison and the conditionals compute, and so are 21 of the 50 rules about conditionals that the domain's test starts from. From prior rules that are equations in this meaning, fast-forwarding learns only rules between terms of max, min, cheat and variables whose two sides have the same number whatever numbers the variables stand for, and which can be saved and read back. Whatever the rules are, no step panics, runs can be finished, and what is learned follows from what is given. But the 50 rules of the test contradict each other (shown): in every interpretation in which they hold all values are equal, already because of two, two, eight and seven of them taken alone, so that every rule follows from them; and on the test's own workload fast-forwarding with them can learn that the maximum of two numbers is the first and that it is the second (shown).", "quantifier": "all prior rulesets, workloads, interrupted runs, hash orders, values of variables, and all interpretations of the operators", "why_tests_cant": "the test prints what it learns and asserts nothing; whether rules are consistent is a question about all interpretations, and which consequences are found depends on limits and orders", "anchors": ["tests/maxmin.rs:get_nat_rules", "tests/maxmin.rs:get_exploratory_rules", "tests/maxmin.rs:is_allowed_op", "tests/maxmin.rs:iter_pos", "src/recipe_utils.rs:run_fast_forwarding"]}
{"id": "C76", "title": "Herbie's rule files for trigonometry and exponentials: which rules are true, and what a comparison with them can report", "statement": "The files herbie-trig.rules (45 rules) and herbie-exp.rules (82 rules), which learned rules are compared with, read into rulesets with one rule per line. All 45 trigonometric rules are true of complex numbers wherever both sides have values; 41 of them also have a value on the right wherever they have one on the left, and the four others, named, do not (shown). Over the real numbers, with 0^0 = 1, powers of negative numbers to whole exponents and third roots of negative numbers, 78 of the 82 exponential rules are true wherever both sides have values and four, named, are false (shown); 16 more, named, have no value on the right somewhere where they have one on the left; if all variables are positive every rule of the file is true and both sides have values. Rewriting terms that have values with the rules that are not named keeps every class to one value; with all rules of herbie-exp.rules 0 and 1 get into one class (shown). So every derivability report of a ruleset whose rules are true and keep values lists the four false rules among those that it cannot derive, and, when it starts from left-hand sides, all named rules: no such ruleset can reach the whole of either file.", "quantifier": "all rules of the two files, all values of their variables, all e-graphs built with them, all rulesets that are compared with them, all limits and orders of the runs", "why_tests_cant": "the tests only print the counts of a comparison; a rule is about all numbers, and what a run derives depends on limits and orders", "anchors": ["baseline/herbie-trig.rules", "baseline/herbie-exp.rules", "tests/trig.rs:run", "tests/exponential.rs:run", "src/enumo/ruleset.rs:from_file", "src/enumo/ruleset.rs:derive"]}
{"id": "C77", "title": "Variations of fast-forwarding: phases with their own rules and schedulers", "statement": "Fast-forwarding can be varied by giving each of its three phases, and minimization, its own rules and scheduler. Whatever the rules, schedulers, limits and orders, every variation, in every domain, learns only consequences of the rules of its three phases, without forbidden operators, under distinct names that are not among the rules it minimizes with, and the row it logs names the phases and lists exactly the rules that are returned. Two terms of the first e-graph that the rules of the first phase do not make equal, and that are in one class after the last, are proposed as candidates, as rules between terms that the first two phases prove equal to them and that are not larger. Fast-forwarding itself is one of these variations. If all rules of the phases keep values, a learned rule generalizes two terms that have one value wherever the terms of the workload have values. The test that compares five variations reads 90 rules, 18 of them exploratory and 61 without forbidden operators, and runs on 29 terms; what its calls learn follows from these 90 rules. As these make 0 equal to 1, its fourth call can learn that the sine of everything is 0 (shown).", "quantifier": "all domains, rulesets, workloads, schedulers, phases, limits and orders of the runs", "why_tests_cant": "the test runs five variations once each, checks nothing about what they learn, and is skipped in continuous integration; which rules are learned depends on limits and orders", "anchors": ["src/lib.rs:Phase", "src/enumo/scheduler.rs:Scheduler", "src/logger.rs:write_ff_phase", "tests/trig.rs:lifting_variation", "tests/trig.rs:lifting_phases", "src/enumo/ruleset.rs:extract_candidates", "src/enumo/ruleset.rs:minimize"]}
{"id": "C78", "title": "The tests that learn from one size of terms after the other", "statement": "The workloads of the tests of booleans, naturals, binary positives and maxima list, for every positive size, exactly the terms of the grammar with at most that many atoms in which a variable occurs, each of them once; at the sizes 3, 4 and 5 there are as many as the tests assert. Whatever sizes a test climbs through, and whatever limits and orders its runs have: the rules that the tests of booleans and naturals end with are true of every assignment, do not mention variables of the language, have distinct names and can be saved and read back (for naturals if the solver's answer that there is no counterexample is right); the rules lifted to binary positives are true of all positive numbers, and those that were not given do not mention zero and successor. One more size adds to the rules of a test what the run over the terms of that size chose, and nothing else; what a test learned from its first sizes is among its rules, unchanged, whatever sizes follow, and so are the rules that were given. Whatever was learned from some sizes, the run for the next size can be finished, so that the test of booleans that runs the steps itself and the test of positives always can have a result. All rules that the three tests expect to be derivable are readable and true.", "quantifier": "all sizes, all lists of sizes, all limits and orders of the runs, all solvers whose proofs are right, all values", "why_tests_cant": "the tests climb through the sizes 3 to 5 once, with one limit and one order of the hash maps, count the terms and derive a fixed list of rules; what they learn is not compared with the meaning of the operators", "anchors": ["tests/bool.rs:iter_bool", "tests/bool.rs:dsl", "tests/bool.rs:simple", "tests/nat.rs:iter_nat", "tests/nat.rs:simple", "tests/pos.rs:iter_pos", "tests/pos.rs:rule_lifting", "tests/maxmin.rs:iter_pos", "src/recipe_utils.rs:iter_metric", "src/recipe_utils.rs:run_workload", "src/recipe_utils.rs:run_fast_forwarding"]}
{"id": "C79", "title": "The test that lifts rules about solids", "statement": "The workload of the test of solids lists, for every positive depth n, exactly these terms: the variable s; from depth 2 on the cubes, cylinders and spheres over the given vectors and scalars, where in a vector of operations each of the three operators is chosen on its own; and every scaling and translation by such a vector of a term of the depth below. Whatever depths the test climbs through, and whatever limits and orders its runs have: at the end all rules are exactly the given rules and those learned, no learned rule has the name of a given one, every rule turns solids into solids with the same points, the learned ones mention no maximum, minimum, coordinate, substitution or Scalar, have distinct names and can be saved and read back. Whatever was learned from some depths, the run for the next depth can be finished, so the test always can have a result.", "quantifier": "all positive depths, all lists of depths, all limits and orders of the runs, all solids", "why_tests_cant": "the test climbs through the depths 2 and 3 once, with one limit and one order of the hash maps, and only derives nine rules at the end; it never lists the workload, and it cannot show that a run ends for every order", "anchors": ["tests/szalinski.rs:iter_szalinski", "tests/szalinski.rs:rule_lifting", "src/recipe_utils.rs:iter_metric", "src/recipe_utils.rs:run_fast_forwarding", "src/enumo/workload.rs:plug"]}
{"id": "C80", "title": "Rules about solids printed for another tool", "statement": "Printing rules about solids for the other tool writes, between the start and the end line, one line for each rule in the order of the ruleset, numbered from 1, with both sides translated as terms and not only as text: scalings and translations become affine transformations with the same arguments, an operation becomes a list that begins with its operator, the literals 0 and 1 become numbers, and everything else, other literals too, stays as it is. This holds for all rules in which the variables are single letters and the literals are machine integers, and every rule that the test of solids learns is such a rule, whatever the limits and orders of its runs. With longer names it can fail: a name that ends in op is taken for the operator and joined with what follows (shown).", "quantifier": "all terms and rulesets about solids with one-letter variables; all rules learned by the test, for all depths, limits and orders", "why_tests_cant": "the test prints the lines and does not look at them; that five replacements in text never hit a part of another word or run across brackets is a claim about all terms", "anchors": ["tests/szalinski.rs:export_print", "tests/szalinski.rs:fix", "tests/szalinski.rs:rule_lifting"]}
