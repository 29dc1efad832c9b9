(* The unit tests of /repo replayed on the model.  These are tests of the
   model's fidelity, not properties.  The larger bounds of the repository's tests
   were also checked with vm_compute but are left out because coqchk has no
   virtual machine. *)
From Verif Require Import Base Lines Sexp Reader Pattern Filter Workload Recipe.
Open Scope string_scope.
Open Scope list_scope.

Definition forced (w : res workload) : res (list sexp) := let* x := w in force x.
Definition count (w : res workload) : res nat := let* l := forced w in Val (length l).
Definition parses (ls : list string) : res (list sexp) := rmapM sexp_from_str ls.

(* src/recipe_utils.rs iter_metric_test *)
Definition it (k : nat) (m : metric) (n : nat) : res workload :=
  let* l := base_lang k in iter_metric l "EXPR" m n.
Example iter_atoms : map (fun n => count (it 2 Atoms n)) [1; 2; 3; 4] =
  map Val [2; 4; 10; 24].
Proof. vm_compute. reflexivity. Qed.
Example iter_depth : map (fun n => count (it 2 Depth n)) [1; 2] = map Val [2; 8].
Proof. vm_compute. reflexivity. Qed.
Example iter_lists : map (fun n => count (it 2 Lists n)) [1; 2] = map Val [8; 38].
Proof. vm_compute. reflexivity. Qed.
(* iter_metric_fast, base_lang_test, empty_plug *)
Example iter_fast : map (fun n => count (it 3 Atoms n)) [3; 4] = map Val [10; 32].
Proof. vm_compute. reflexivity. Qed.
Example base_lang_sizes : map (fun n => count (base_lang n)) [0; 1; 2; 3] = map Val [2; 3; 4; 5].
Proof. vm_compute. reflexivity. Qed.
Example empty_plug_test : count (let* w := it 3 Atoms 4 in wplug w "OP3" (WSet [])) = Val 24.
Proof. vm_compute. reflexivity. Qed.

(* src/enumo/workload.rs filter_optimization, contains, plug, append *)
Example filter_optimization :
  count (let* w := wnew ["x"] in let* p := wnew ["a"; "b"; "c"] in let* q := wplug w "x" p in
         Val (wfilter q (MetricLt Atoms 2))) = Val 3.
Proof. vm_compute. reflexivity. Qed.
Example contains3 :
  forced (let* w := it 3 Atoms 3 in let* p := pattern_from_str "VAR" in Val (wfilter w (Contains p))) =
  parses ["VAR"; "(OP1 VAR)"; "(OP1 (OP1 VAR))"; "(OP2 VAR VAR)"; "(OP2 VAR VAL)"; "(OP2 VAL VAR)"].
Proof. vm_compute. reflexivity. Qed.
Example contains4 :
  forced (let* w := it 3 Atoms 4 in let* p := pattern_from_str "VAR" in Val (wfilter w (Contains p))) =
  parses ["VAR"; "(OP1 VAR)"; "(OP1 (OP1 VAR))"; "(OP1 (OP1 (OP1 VAR)))"; "(OP1 (OP2 VAR VAR))";
          "(OP1 (OP2 VAR VAL))"; "(OP1 (OP2 VAL VAR))"; "(OP2 VAR VAR)"; "(OP2 VAR VAL)";
          "(OP2 VAR (OP1 VAR))"; "(OP2 VAR (OP1 VAL))"; "(OP2 VAL VAR)"; "(OP2 VAL (OP1 VAR))";
          "(OP2 (OP1 VAR) VAR)"; "(OP2 (OP1 VAR) VAL)"; "(OP2 (OP1 VAL) VAR)"; "(OP3 VAR VAR VAR)";
          "(OP3 VAR VAR VAL)"; "(OP3 VAR VAL VAR)"; "(OP3 VAR VAL VAL)"; "(OP3 VAL VAR VAR)";
          "(OP3 VAL VAR VAL)"; "(OP3 VAL VAL VAR)"].
Proof. vm_compute. reflexivity. Qed.
Example plug_test :
  forced (let* w1 := wnew ["x"; "(x x)"; "(x x x)"] in let* w2 := wnew ["1"; "2"] in wplug w1 "x" w2) =
  parses ["1"; "2"; "(1 1)"; "(1 2)"; "(2 1)"; "(2 2)"; "(1 1 1)"; "(1 1 2)"; "(1 2 1)"; "(1 2 2)";
          "(2 1 1)"; "(2 1 2)"; "(2 2 1)"; "(2 2 2)"].
Proof. vm_compute. reflexivity. Qed.
(* src/enumo/sexp.rs multi_plug, measure_*, canon *)
Example multi_plug :
  forced (let* w := wnew ["(a b)"; "(a)"; "(b)"] in let* a := wnew ["1"; "2"; "3"] in
          let* b := wnew ["x"; "y"] in let* w1 := wplug w "a" a in wplug w1 "b" b) =
  parses ["(1 x)"; "(1 y)"; "(2 x)"; "(2 y)"; "(3 x)"; "(3 y)"; "(1)"; "(2)"; "(3)"; "(x)"; "(y)"].
Proof. vm_compute. reflexivity. Qed.
Definition exprs := ["a"; "(a b)"; "(a b c)"; "(a (b c))"; "(a b (c d))"; "(a (b (c d)))"; "(a (b c) (d e))"].
Definition measures m := rmapM (fun s => let* t := sexp_from_str s in measure m t) exprs.
Example measure_test : measures Atoms = Val [1; 2; 3; 3; 4; 4; 5] /\
  measures Lists = Val [0; 1; 1; 2; 2; 3; 3] /\ measures Depth = Val [1; 2; 2; 3; 3; 4; 3].
Proof. vm_compute. auto. Qed.
Example canon_test :
  rmapM (fun s => let* t := sexp_from_str s in canon ["a"; "b"; "c"] t)
    ["(+ (/ c b) a)"; "(+ (- c c) (/ a a))"; "a"; "b"; "x"; "(+ a a)"; "(+ b b)"; "(+ a b)";
     "(+ b a)"; "(+ a x)"; "(+ x a)"; "(+ b x)"; "(+ x b)"; "(+ a (+ b c))"; "(+ a (+ c b))"] =
  parses ["(+ (/ a b) c)"; "(+ (- a a) (/ b b))"; "a"; "a"; "x"; "(+ a a)"; "(+ a a)"; "(+ a b)";
     "(+ a b)"; "(+ a x)"; "(+ x a)"; "(+ a x)"; "(+ x a)"; "(+ a (+ b c))"; "(+ a (+ b c))"].
Proof. vm_compute. reflexivity. Qed.
(* src/enumo/pattern.rs matches *)
Example matches_test :
  rmapM (fun p => let* p := pattern_from_str p in
                  rmapM (fun s => let* t := sexp_from_str s in Val (matches p t))
                        ["a"; "x"; "(+ x y)"; "(+ y y)"; "(+ (* a b) (* a b))"])
        ["*"; "x"; "(+ ?x ?x)"] =
  Val [[true; true; true; true; true]; [false; true; false; false; false];
       [false; false; false; true; true]].
Proof. vm_compute. reflexivity. Qed.
