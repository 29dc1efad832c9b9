(* Model of the SynthLanguage trait (src/language.rs:157-326) as a record of
   functions, of the analysis that ties it to e-graphs (src/language.rs:8-147), and
   of Workload::to_egraph (src/enumo/workload.rs:59-91). *)
From Verif Require Import Base Sexp Reader Lang Util Syntax Rule Analysis Generalize Egraph Workload.
Open Scope list_scope.

Record lang (O C : Type) : Type := Lang {
  l_eqb : O -> O -> bool;                              (* Eq *)
  l_from_op : string -> nat -> option O;               (* FromOp *)
  l_name : O -> string;                                (* Display *)
  l_to_var : O -> option string;
  l_mk_var : string -> O;
  l_is_const : O -> bool;
  l_eval : nat -> O -> list (cvec C) -> res (cvec C);
  l_itv : O -> list (interval C) -> res (interval C);  (* mk_interval *)
  l_allowed : O -> bool;                               (* is_allowed_op *)
  l_ceqb : C -> C -> bool;                             (* Eq, Ord of Constant *)
  l_cleb : C -> C -> bool;
  (* the nodes mk_constant adds, the constant last *)
  l_const : C -> recexpr O;
  (* custom_modify: the terms it adds to the class *)
  l_custom : egraph O (sig O C) nat -> nat -> res (list (recexpr O));
  (* initialize_vars: cvec_len, and the variables to add with their vectors and the
     terms that are made equal to them *)
  l_init : list string -> res (nat * list (string * cvec C * list (recexpr O)));
  l_validate : pat O -> pat O -> res validation }.
Arguments l_eqb {O C} l.
Arguments l_from_op {O C} l.
Arguments l_name {O C} l.
Arguments l_to_var {O C} l.
Arguments l_mk_var {O C} l.
Arguments l_is_const {O C} l.
Arguments l_eval {O C} l.
Arguments l_itv {O C} l.
Arguments l_allowed {O C} l.
Arguments l_ceqb {O C} l.
Arguments l_cleb {O C} l.
Arguments l_const {O C} l.
Arguments l_custom {O C} l.
Arguments l_init {O C} l.
Arguments l_validate {O C} l.

(* EGraph<L, SynthAnalysis>; the state of the analysis is cvec_len *)
Definition eg (O C : Type) : Type := egraph O (sig O C) nat.
(* src/language.rs:17-24 *)
Definition eg_default {O C} : eg O C := empty 0.

Section Synth.
  Context {O C : Type}.
  Variable L : lang O C.
  Variable keep : eg O C -> nat -> nat -> bool.
  Variable fuel : nat.

  Fixpoint slookup (m : list (nat * sig O C)) (k : nat) : option (sig O C) :=
    match m with [] => None | (k', v) :: r => if Nat.eqb k k' then Some v else slookup r k end.
  Definition is_leaf (o : O) : bool :=
    match l_to_var L o with Some _ => true | None => l_is_const L o end.
  (* src/language.rs:41-75 (make, Analysis.v).  The data of the children come as a
     list; the default is never used: only children are looked up. *)
  Definition s_make (cvec_len : nat) (n : node O) (ds : list (sig O C)) : res (sig O C) :=
    make is_leaf (l_eval L) (l_itv L) cvec_len
      (fun i => match slookup (combine (nch n) ds) i with Some d => d | None => Sig [] [] full end) n.
  Fixpoint rec_eqb (a b : recexpr O) : bool :=
    match a, b with
    | [], [] => true
    | x :: a, y :: b => node_eqb (l_eqb L) x y && rec_eqb a b
    | _, _ => false
    end.
  Definition s_merge : sig O C -> sig O C -> res (sig O C * (bool * bool)) :=
    merge (l_allowed L) (l_ceqb L) (l_cleb L) rec_eqb.
  (* src/language.rs:135-146 *)
  Definition const_stage (g : eg O C) (i : nat) : res (list (recexpr O)) :=
    let* d := class_data g i in
    Val (match low (sg_itv d), high (sg_itv d) with
         | Some a, Some b => if l_ceqb L a b then [l_const L a] else []
         | _, _ => []
         end).
  (* src/language.rs:132-147 *)
  Definition s_modify : eg O C -> nat -> res (eg O C) :=
    modify (l_eqb L) s_make s_merge keep [l_custom L; const_stage] fuel.
  Definition s_add : eg O C -> node O -> res (eg O C * nat) := add (l_eqb L) s_make s_modify.
  Definition s_union : eg O C -> nat -> nat -> res (eg O C * bool) := union s_merge keep s_modify.
  Definition s_add_expr : eg O C -> recexpr O -> res (eg O C * nat) := add_expr (l_eqb L) s_make s_modify.
  Definition s_rebuild : eg O C -> res (eg O C) := rebuild (l_eqb L) s_make s_merge keep s_modify fuel.

  (* egraph[id].data.cvec = c *)
  Definition set_cvec (g : eg O C) (i : nat) (c : cvec C) : res (eg O C) :=
    let* r := find g i in
    let* d := index (g_data g) r in
    Val (EG (g_reps g) (g_nodes g) (set_nth (g_data g) r (Sig c (sg_simplest d) (sg_itv d))) (g_an g)).
  (* tests/bv-bool.rs:88-97, tests/exponential.rs:52-66: terms made equal to a
     variable (the other domains have none).  Each term is added and merged before
     the next; the rebuild of exponential.rs:64 is left out. *)
  Fixpoint link_all (g : eg O C) (i : nat) (ts : list (recexpr O)) : res (eg O C) :=
    match ts with
    | [] => Val g
    | t :: r =>
        let* (g1, j) := s_add_expr g t in
        let* (g2, _) := s_union g1 i j in
        link_all g2 i r
    end.
  Fixpoint init_vars (g : eg O C) (vs : list (string * cvec C * list (recexpr O))) : res (eg O C) :=
    match vs with
    | [] => Val g
    | (v, c, ts) :: r =>
        let* (g1, i) := s_add g (Node (l_mk_var L v) []) in
        let* g2 := set_cvec g1 i c in
        let* g3 := link_all g2 i ts in
        init_vars g3 r
    end.
  (* initialize_vars of the domains: src/bv.rs:218-240, tests/nat.rs:99-112, ... *)
  Definition initialize_vars (g : eg O C) (vars : list string) : res (eg O C) :=
    let* (n, vs) := l_init L vars in
    init_vars (EG (g_reps g) (g_nodes g) (g_data g) n) vs.

  (* src/enumo/workload.rs:73-84 *)
  Definition rec_vars (vars : list string) (r : recexpr O) : list string :=
    fold_left (fun vars n => match l_to_var L (nop n) with
                             | Some v => if mem v vars then vars else vars ++ [v]
                             | None => vars
                             end) r vars.
  Definition all_vars (rs : list (recexpr O)) : list string := fold_left rec_vars rs [].
  Fixpoint add_all_exprs (g : eg O C) (rs : list (recexpr O)) : res (eg O C) :=
    match rs with
    | [] => Val g
    | r :: rs' => let* (g1, _) := s_add_expr g r in add_all_exprs g1 rs'
    end.
  (* src/enumo/workload.rs:59-91 *)
  Definition to_egraph (w : workload) : res (eg O C) :=
    let* sexps := force w in
    let* rs := rmapM (fun s => unwrap (parse_rec (l_from_op L) (display s))) sexps in
    let* g := initialize_vars eg_default (all_vars rs) in
    add_all_exprs g rs.
End Synth.
