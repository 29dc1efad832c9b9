(* Properties C33-C38: rules and rulesets.  Reference notions: RuleSpec.v. *)
From Verif Require Import Base BaseProofs EnumSpec Lang LangProofs Syntax Rule Ruleset RuleSpec SyntaxProofs.
From Verif Require Import Generalize GeneralizeProofs RuleTextProofs RulesetProofs NatDom BvBoolDom PropertiesData.
Open Scope string_scope.
Open Scope list_scope.

(* ---------------- C33 ---------------- *)

(* Rule::new gives a rule exactly when every variable of the right side occurs
   on the left side. *)
Theorem C33_rule_new : forall O (name : O -> string) l r tl tr, tree l = Val tl -> tree r = Val tr ->
  ((exists x, rule_new name l r = Val (Some x)) <->
   forall v, (exists n, In n r /\ nop n = PV v) -> exists n, In n l /\ nop n = PV v) /\
  forall x, rule_new name l r = Val (Some x) -> rlhs x = l /\ rrhs x = r /\ rule_name name l r = Val (rname x).
Proof.
  intros O name l r tl tr Hl Hr.
  assert (exists n, rule_name name l r = Val n) as (n & Hn).
  { unfold rule_name, show_pat, show_rec. destruct l; [discriminate|]. destruct r; [discriminate|].
    rewrite Hl, Hr. cbn [rbind]. eauto. }
  unfold rule_new. rewrite Hn. cbn [rbind]. split.
  - rewrite <- rewrite_ok_iff. destruct (rewrite_ok l r); split; eauto; try discriminate. intros (x & E). discriminate.
  - intros x E. destruct (rewrite_ok l r); inversion E. auto.
Qed.
Print Assumptions C33_rule_new.

(* The two candidates of a pair of terms: each direction is kept exactly when the
   variables of its right side occur on its left side. *)
Theorem C33_candidates : forall O (op_eqb : O -> O -> bool) to_var mk_var name ar e1 t1 e2 t2,
  (forall a b, op_eqb a b = true -> a = b) -> (forall s, to_var (mk_var s) = Some s) ->
  (forall o, to_var o <> None -> ar o = 0) ->
  wf_rec ar e1 -> wf_rec ar e2 -> tree e1 = Val t1 -> tree e2 = Val t2 ->
  at_most 26 (tvars to_var t1 ++ tvars to_var t2) ->
  exists l r rho nf nb fw bw,
    (forall s s', In s (tvars to_var t1 ++ tvars to_var t2) -> In s' (tvars to_var t1 ++ tvars to_var t2) ->
       rho s = rho s' -> s = s') /\
    tree l = Val (gen_term to_var rho t1) /\ tree r = Val (gen_term to_var rho t2) /\
    candidate_pair op_eqb to_var mk_var name e1 e2 = Val (fw, bw) /\
    (incl (tvars to_var t2) (tvars to_var t1) -> fw = Some (Rule nf l r KRhs)) /\
    (~ incl (tvars to_var t2) (tvars to_var t1) -> fw = None) /\
    (incl (tvars to_var t1) (tvars to_var t2) -> bw = Some (Rule nb r l KRhs)) /\
    (~ incl (tvars to_var t1) (tvars to_var t2) -> bw = None).
Proof.
  intros O op_eqb to_var mk_var name ar e1 t1 e2 t2 H1 H2 H3 W1 W2 T1 T2 Hm.
  destruct (candidate_pair_spec op_eqb to_var mk_var H1 H2 ar H3 name e1 t1 e2 t2 W1 W2 T1 T2 Hm)
    as (l & r & rho & nf & nb & Hi & _ & L & R & _ & _ & fw & bw & H).
  exists l, r, rho, nf, nb, fw, bw. tauto.
Qed.
Print Assumptions C33_candidates.

(* Adding candidates keeps a ruleset well formed: every rule in it is stored
   under its own text and has no variable on the right that the left lacks. *)
Theorem C33_added_candidates_are_rules : forall O (op_eqb : O -> O -> bool) to_var mk_var from_op name ar m e1 t1 e2 t2,
  (forall a b, op_eqb a b = true -> a = b) -> (forall s, to_var (mk_var s) = Some s) ->
  (forall o, to_var o <> None -> ar o = 0) -> ruleset_ok from_op name ar m ->
  wf_rec ar e1 -> wf_rec ar e2 -> tree e1 = Val t1 -> tree e2 = Val t2 ->
  tall (fun o => to_var o = None -> eov_ok from_op name ar (EN o)) t1 ->
  tall (fun o => to_var o = None -> eov_ok from_op name ar (EN o)) t2 ->
  at_most 26 (tvars to_var t1 ++ tvars to_var t2) ->
  exists m' fw bw, add_from_recexprs op_eqb to_var mk_var name m e1 e2 = Val m' /\ ruleset_ok from_op name ar m' /\
    candidate_pair op_eqb to_var mk_var name e1 e2 = Val (fw, bw) /\
    forall k, In k (map fst m') <-> In k (map fst m) \/ exists x, (fw = Some x \/ bw = Some x) /\ k = rname x.
Proof.
  intros O op_eqb to_var mk_var from_op name ar m e1 t1 e2 t2 H1 H2 H3 Hm W1 W2 T1 T2 A1 A2 Hv.
  destruct (add_from_recexprs_ok op_eqb to_var mk_var from_op name ar H1 H2 H3 m e1 t1 e2 t2 Hm W1 W2 T1 T2 A1 A2 Hv) as (m' & E & H).
  destruct (add_from_recexprs_keys op_eqb to_var mk_var name m e1 e2 m' E) as (fw & bw & C & K).
  exists m', fw, bw. auto.
Qed.
Print Assumptions C33_added_candidates_are_rules.

Lemma nat_ops_ok o : nat_to_var o = None -> eov_ok nat_from_op nat_name nat_arity (EN o).
Proof.
  intros H. destruct o; try discriminate H;
    (split; [split; [discriminate|reflexivity]|]; split; [apply split_arrow_none; reflexivity|];
     split; [reflexivity|intros c s E; discriminate E]).
Qed.
Example C33_hyp :
  (forall o, nat_to_var o = None -> eov_ok nat_from_op nat_name nat_arity (EN o)) /\
  ruleset_ok nat_from_op nat_name nat_arity [] /\
  (let* m := add_from_recexprs nat_op_eqb nat_to_var NVar nat_name [] ex_e1 ex_e2 in Val (map fst m)) =
    Val ["(* (+ ?a ?b) ?a) ==> (* ?b ?a)"; "(* ?b ?a) ==> (* (+ ?a ?b) ?a)"] /\
  (let* m := add_from_recexprs nat_op_eqb nat_to_var NVar nat_name [] ex_e1 [Node (NVar "y") []] in Val (map fst m)) =
    Val ["(* (+ ?a ?b) ?a) ==> ?b"].
Proof. split; [exact nat_ops_ok|]. repeat split; constructor. Qed.

(* ---------------- C34 ---------------- *)

(* Names are equal exactly when both sides are. *)
Theorem C34_name_identifies : forall O (from_op : string -> nat -> option O) name ar l tl r tr l' tl' r' tr',
  pat_ok from_op name ar l tl -> pat_ok from_op name ar r tr ->
  pat_ok from_op name ar l' tl' -> pat_ok from_op name ar r' tr' ->
  (rule_name name l r = rule_name name l' r' <-> tl = tl' /\ tr = tr').
Proof. exact @rule_name_inj. Qed.
Print Assumptions C34_name_identifies.

(* Reading the name of a rule gives a rule with the same name and sides. *)
Theorem C34_reads_back : forall O (from_op : string -> nat -> option O) name ar l tl r tr n,
  pat_ok from_op name ar l tl -> pat_ok from_op name ar r tr -> incl (ptvars tr) (ptvars tl) ->
  rule_name name l r = Val n ->
  exists l' r', rule_from_string from_op name n = Val (Some (Rule n l' r' KRhs, None)) /\
    pat_ok from_op name ar l' tl /\ pat_ok from_op name ar r' tr.
Proof.
  intros O from_op name ar l tl r tr n Hl Hr Hi Hn. exists (to_rec tl), (to_rec tr).
  split; [exact (from_string_name from_op name ar l tl r tr n Hl Hr Hi Hn)|].
  split; [destruct Hl as (_ & ? & ? & _)|destruct Hr as (_ & ? & ? & _)]; now apply to_rec_ok.
Qed.
Print Assumptions C34_reads_back.

(* "l <=> r" reads as the two rules "l ==> r" and "r ==> l". *)
Theorem C34_two_way : forall O (from_op : string -> nat -> option O) name ar l tl r tr,
  pat_ok from_op name ar l tl -> pat_ok from_op name ar r tr ->
  incl (ptvars tr) (ptvars tl) -> incl (ptvars tl) (ptvars tr) ->
  exists sl sr l' r', show_pat name l = Val sl /\ show_pat name r = Val sr /\
    rule_from_string from_op name (sl ++ " <=> " ++ sr) =
      Val (Some (Rule (sl ++ " ==> " ++ sr) l' r' KRhs, Some (Rule (sr ++ " ==> " ++ sl) r' l' KRhs))) /\
    pat_ok from_op name ar l' tl /\ pat_ok from_op name ar r' tr.
Proof.
  intros O from_op name ar l tl r tr Hl Hr Hi Hj.
  exists (show_term (pat_name name) tl), (show_term (pat_name name) tr), (to_rec tl), (to_rec tr).
  split; [exact (pat_ok_show from_op name ar _ _ Hl)|]. split; [exact (pat_ok_show from_op name ar _ _ Hr)|].
  split; [exact (from_string_two_way from_op name ar l tl r tr Hl Hr Hi Hj)|].
  split; [destruct Hl as (_ & ? & ? & _)|destruct Hr as (_ & ? & ? & _)]; now apply to_rec_ok.
Qed.
Print Assumptions C34_two_way.

(* A variable spelled like a constant makes two different rules share a name. *)
Theorem C34_odd_spelling_refuted : exists l r l' r' : pat nat_op,
  rule_name nat_name l r = rule_name nat_name l' r' /\ tree l <> tree l'.
Proof.
  exists [Node (EN (NVar "Z")) []], [Node (EN NZ) []], [Node (EN NZ) []], [Node (EN NZ) []].
  split; [reflexivity|discriminate].
Qed.
Print Assumptions C34_odd_spelling_refuted.

(* sample rules over naturals *)
Definition ex_pl : pat nat_op := [Node (PV "a") []; Node (PV "b") []; Node (EN NAdd) [0; 1]].
Definition ex_pr : pat nat_op := [Node (PV "b") []; Node (PV "a") []; Node (EN NAdd) [0; 1]].
Definition ex_tl : term (eov nat_op) := T (EN NAdd) [T (PV "a") []; T (PV "b") []].
Definition ex_tr : term (eov nat_op) := T (EN NAdd) [T (PV "b") []; T (PV "a") []].
Lemma ex_pv_ok s : word s -> split_arrow s = None -> eov_ok nat_from_op nat_name nat_arity (PV s).
Proof. intros H1 H2. split; [exact H1|now apply split_arrow_none]. Qed.
Lemma ex_pl_ok : pat_ok nat_from_op nat_name nat_arity ex_pl ex_tl.
Proof.
  split; [reflexivity|]. split; [repeat constructor|]. split.
  - constructor; [apply nat_ops_ok; reflexivity|].
    repeat (constructor; [constructor; [apply ex_pv_ok; [split; [discriminate|reflexivity]|reflexivity]|constructor]|]). constructor.
  - intros n v H E. cbn in H. repeat destruct H as [<-|H]; try contradiction; cbn in E; inversion E; subst; cbn; auto.
Qed.
Lemma ex_pr_ok : pat_ok nat_from_op nat_name nat_arity ex_pr ex_tr.
Proof.
  split; [reflexivity|]. split; [repeat constructor|]. split.
  - constructor; [apply nat_ops_ok; reflexivity|].
    repeat (constructor; [constructor; [apply ex_pv_ok; [split; [discriminate|reflexivity]|reflexivity]|constructor]|]). constructor.
  - intros n v H E. cbn in H. repeat destruct H as [<-|H]; try contradiction; cbn in E; inversion E; subst; cbn; auto.
Qed.
Lemma ex_zero_ok : pat_ok nat_from_op nat_name nat_arity [Node (EN NZ) []] (T (EN NZ) []).
Proof.
  split; [reflexivity|]. split; [repeat constructor|]. split.
  - constructor; [apply nat_ops_ok; reflexivity|constructor].
  - intros n v H E. cbn in H. destruct H as [<-|[]]. discriminate.
Qed.
Lemma ex_vars1 : incl (ptvars ex_tr) (ptvars ex_tl).
Proof. intros x H. cbn in *. tauto. Qed.
Lemma ex_vars2 : incl (ptvars ex_tl) (ptvars ex_tr).
Proof. intros x H. cbn in *. tauto. Qed.
Example C34_hyp :
  pat_ok nat_from_op nat_name nat_arity ex_pl ex_tl /\ pat_ok nat_from_op nat_name nat_arity ex_pr ex_tr /\
  incl (ptvars ex_tr) (ptvars ex_tl) /\ rule_name nat_name ex_pl ex_pr = Val "(+ ?a ?b) ==> (+ ?b ?a)".
Proof. split; [exact ex_pl_ok|]. split; [exact ex_pr_ok|]. split; [exact ex_vars1|reflexivity]. Qed.

(* ---------------- C35 ---------------- *)

Theorem C35_file_round_trip : forall O (from_op : string -> nat -> option O) name ar m,
  ruleset_ok from_op name ar m ->
  exists m', rs_from_file from_op name (rs_to_file m) = Val m' /\ rs_eqb m m' = true /\
    Forall2 (fun e e' => fst e' = fst e /\ rname (snd e') = fst e /\
      tree (rlhs (snd e')) = tree (rlhs (snd e)) /\ tree (rrhs (snd e')) = tree (rrhs (snd e))) m m'.
Proof.
  intros O from_op name ar m [Hn Hok]. destruct (file_roundtrip from_op name ar m Hn Hok) as (m' & E1 & E2 & E3 & _).
  exists m'. split; [exact E1|]. split; [exact E2|].
  clear - E3. induction E3 as [|e e' m m' (A & B & C & D) _ IH]; constructor; auto.
  split; [auto|]. split; [congruence|auto].
Qed.
Print Assumptions C35_file_round_trip.

(* Reading lines of the forms "l ==> r" and "l <=> r" gives exactly the rules they
   stand for: one for the first form, both directions for the second. *)
Theorem C35_reads_lines : forall O (from_op : string -> nat -> option O) name ar ls nss,
  Forall2 (rule_line from_op name ar) ls nss ->
  exists m, rs_new from_op name ls = Val m /\ ruleset_ok from_op name ar m /\
    forall k, In k (map fst m) <-> exists ns, In ns nss /\ In k ns.
Proof.
  intros O from_op name ar ls nss H.
  destruct (add_lines_spec from_op name ar ls nss H []) as (m & E & Hm & K); [split; constructor|].
  exists m. split; [exact E|]. split; [exact Hm|]. intros k. rewrite K. cbn. tauto.
Qed.
Print Assumptions C35_reads_lines.

(* A rule whose name is not its text is lost: the exploratory rules of the
   bitvector/boolean bridge. *)
Theorem C35_named_rule_lost_refuted : exists m m', bb_exploratory = Val m /\
  rs_from_file bb_from_op bb_name (rs_to_file m) = Val m' /\ length m = 9 /\ length m' = 8.
Proof. eexists. eexists. split; [vm_compute; reflexivity|]. split; [vm_compute; reflexivity|]. split; reflexivity. Qed.
Print Assumptions C35_named_rule_lost_refuted.

Definition ex_rs : ruleset nat_op :=
  [("(+ ?a ?b) ==> (+ ?b ?a)", Rule "(+ ?a ?b) ==> (+ ?b ?a)" ex_pl ex_pr KRhs);
   ("(+ ?b ?a) ==> (+ ?a ?b)", Rule "(+ ?b ?a) ==> (+ ?a ?b)" ex_pr ex_pl KRhs);
   ("(+ ?a ?b) ==> Z", Rule "(+ ?a ?b) ==> Z" ex_pl [Node (EN NZ) []] KRhs)].
Lemma ex_rs_ok : ruleset_ok nat_from_op nat_name nat_arity ex_rs.
Proof.
  split.
  - cbn. repeat constructor; cbn; intuition discriminate.
  - constructor; [|constructor; [|constructor; [|constructor]]]; (split; [reflexivity|]; split; [reflexivity|]).
    + exists ex_tl, ex_tr. split; [exact ex_pl_ok|]. split; [exact ex_pr_ok|exact ex_vars1].
    + exists ex_tr, ex_tl. split; [exact ex_pr_ok|]. split; [exact ex_pl_ok|exact ex_vars2].
    + exists ex_tl, (T (EN NZ) []). split; [exact ex_pl_ok|]. split; [exact ex_zero_ok|]. intros x [].
Qed.
Example C35_lines_hyp : Forall2 (rule_line nat_from_op nat_name nat_arity)
  ["(+ ?a ?b) <=> (+ ?b ?a)"; "(+ ?a ?b) ==> Z"]
  [["(+ ?a ?b) ==> (+ ?b ?a)"; "(+ ?b ?a) ==> (+ ?a ?b)"]; ["(+ ?a ?b) ==> Z"]].
Proof.
  constructor; [|constructor; [|constructor]].
  - exact (RL_two _ _ _ _ _ _ _ "(+ ?a ?b)" "(+ ?b ?a)" ex_pl_ok ex_pr_ok ex_vars1 ex_vars2 eq_refl eq_refl).
  - apply (RL_one _ _ _ _ _ _ _ "(+ ?a ?b)" "Z" ex_pl_ok ex_zero_ok); [intros x []|reflexivity|reflexivity].
Qed.
Example C35_hyp : ruleset_ok nat_from_op nat_name nat_arity ex_rs /\
  (let* m := rs_from_file nat_from_op nat_name (rs_to_file ex_rs) in Val (map fst m)) = Val (map fst ex_rs).
Proof. split; [exact ex_rs_ok|reflexivity]. Qed.

(* ---------------- C36 ---------------- *)

(* After any history of add, extend (and union) and remove_all the ruleset is the
   finite map the history describes, with distinct keys. *)
Theorem C36_history : forall O (ops : list (rs_op O)),
  (forall o, In o ops -> match o with OpAdd _ => True | OpExtend m | OpRemove m => NoDup (map fst m) end) ->
  let m := fold_left do_op ops [] in
  NoDup (map fst m) /\ forall k, lookup m k = fold_left spec_op ops (fun _ => None) k.
Proof.
  intros O ops H. apply history_spec; [constructor|reflexivity|].
  apply Forall_forall. intros o Ho. specialize (H o Ho). destruct o; exact H.
Qed.
Print Assumptions C36_history.

Theorem C36_contains : forall O (m : ruleset O) r, rs_contains m r = true <-> In (rname r) (map fst m).
Proof. intros O m r. exact (has_in m (rname r)). Qed.
Print Assumptions C36_contains.

(* Adding keeps the order; a new name goes to the end. *)
Theorem C36_add_order : forall O (m : ruleset O) r,
  map fst (rs_add m r) = if rs_contains m r then map fst m else map fst m ++ [rname r].
Proof. intros O m r. exact (insert_keys m (rname r) r). Qed.
Print Assumptions C36_add_order.

Theorem C36_extend_order : forall O (m other : ruleset O),
  map fst (rs_union m other) =
  fold_left (fun ks k => if existsb (String.eqb k) ks then ks else ks ++ [k]) (map fst other) (map fst m).
Proof. intros O m other. exact (extend_keys other m). Qed.
Print Assumptions C36_extend_order.

Theorem C36_equality : forall O (a b : ruleset O), rs_eqb a b = true <-> map fst a = map fst b.
Proof. exact @rs_eqb_spec. Qed.
Print Assumptions C36_equality.

(* Removing does not keep the order: the last rule takes the free place. *)
Theorem C36_removal_keeps_order_refuted : exists (m other : ruleset nat_op),
  NoDup (map fst m) /\ map fst (remove_all m other) <> List.filter (fun k => negb (has other k)) (map fst m).
Proof.
  exists ex_rs, (firstn 1 ex_rs). split; [exact (proj1 ex_rs_ok)|]. discriminate.
Qed.
Print Assumptions C36_removal_keeps_order_refuted.

Example C36_hyp :
  let r s := Rule s ex_pl ex_pr KRhs in
  let ops := [OpAdd (r "p"); OpAdd (r "q"); OpExtend ex_rs; OpAdd (r "p"); OpRemove (firstn 2 ex_rs)] in
  (forall o, In o ops -> match o with OpAdd _ => True | OpExtend m | OpRemove m => NoDup (map fst m) end) /\
  map fst (fold_left do_op ops []) = ["p"; "q"; "(+ ?a ?b) ==> Z"].
Proof.
  cbv zeta. split; [|reflexivity]. intros o Ho. cbn [In] in Ho.
  repeat destruct Ho as [<-|Ho]; try exact I; try contradiction; cbn; repeat constructor; cbn; intuition discriminate.
Qed.

(* ---------------- C37 ---------------- *)

(* partition keeps the rules satisfying the predicate, in order, on one side and
   the others, in order, on the other side. *)
Theorem C37_partition : forall O (f : rule O -> res bool) g m, NoDup (map fst m) ->
  (forall e, In e m -> fst e = rname (snd e)) -> (forall e, In e m -> f (snd e) = Val (g (snd e))) ->
  partition f m = Val (List.filter (fun e => g (snd e)) m, List.filter (fun e => negb (g (snd e))) m).
Proof. intros O f g m H1 H2. apply partition_spec; [exact H1|]. apply Forall_forall. exact H2. Qed.
Print Assumptions C37_partition.

(* Every rule is in exactly one part. *)
Theorem C37_partition_exact : forall O (f : rule O -> res bool) m a b, NoDup (map fst m) ->
  (forall e, In e m -> fst e = rname (snd e)) -> partition f m = Val (a, b) ->
  (forall e, In e a <-> In e m /\ f (snd e) = Val true) /\ (forall e, In e b <-> In e m /\ f (snd e) = Val false) /\
  (forall e, In e m -> (In e a /\ ~ In e b) \/ (In e b /\ ~ In e a)) /\ length a + length b = length m.
Proof.
  intros O f m a b H1 H2 H.
  set (g := fun r => match f r with Val c => c | Panic => false end).
  assert (forall e, In e m -> f (snd e) = Val (g (snd e))) as Hg.
  { intros e He. unfold g. destruct (f (snd e)) eqn:E; [reflexivity|]. rewrite (partition_panics f m e He E) in H. discriminate. }
  rewrite (C37_partition O f g m H1 H2 Hg) in H. inversion H; subst a b. clear H.
  assert (forall e, In e (List.filter (fun e => g (snd e)) m) <-> In e m /\ f (snd e) = Val true) as A.
  { intros e. rewrite filter_In. split; intros [X Y]; (split; [exact X|]); rewrite (Hg e X) in *; congruence. }
  assert (forall e, In e (List.filter (fun e => negb (g (snd e))) m) <-> In e m /\ f (snd e) = Val false) as B.
  { intros e. rewrite filter_In, negb_true_iff. split; intros [X Y]; (split; [exact X|]); rewrite (Hg e X) in *; congruence. }
  split; [exact A|]. split; [exact B|]. split.
  - intros e He. rewrite A, B. destruct (f (snd e)) as [[|]|] eqn:E; [left|right|rewrite (Hg e He) in E; discriminate];
      (split; [auto|intros [_ ?]; discriminate]).
  - exact (filter_split (fun e => g (snd e)) m).
Qed.
Print Assumptions C37_partition_exact.

Example C37_hyp :
  let f := fun r : rule nat_op => Val (Nat.eqb (length (rrhs r)) 1) in
  NoDup (map fst ex_rs) /\ (forall e, In e ex_rs -> fst e = rname (snd e)) /\
  partition f ex_rs = Val ([nth 2 ex_rs ("", Rule "" [] [] KRhs)], firstn 2 ex_rs).
Proof.
  cbv zeta. split; [exact (proj1 ex_rs_ok)|]. split; [|reflexivity].
  intros e He. cbn in He. repeat destruct He as [<-|He]; try reflexivity. contradiction.
Qed.

(* ---------------- C38 ---------------- *)

(* [ps] are the printed sides of the rules.  When no rule has equal sides,
   bidir_len is the number of rules up to direction and the number of lines
   printed. *)
Theorem C38_bidir_len : forall O (from_op : string -> nat -> option O) name ar m ps,
  ruleset_ok from_op name ar m ->
  Forall2 (fun e p => show_pat name (rlhs (snd e)) = Val (fst p) /\ show_pat name (rrhs (snd e)) = Val (snd p)) m ps ->
  (forall p, In p ps -> fst p <> snd p) ->
  exists n out, bidir_len name m = Val n /\ pretty_print name m = Val out /\ length out = n /\
    classes_modulo (fun p q => q = (snd p, fst p)) ps n.
Proof. intros O from_op name ar m ps [H1 H2]. exact (bidir_len_pretty from_op name ar m ps H1 H2). Qed.
Print Assumptions C38_bidir_len.

(* The number of classes is unique, so this determines bidir_len. *)
Theorem C38_classes_unique : forall (ps : list (string * string)) n n',
  classes_modulo (fun p q => q = (snd p, fst p)) ps n ->
  classes_modulo (fun p q => q = (snd p, fst p)) ps n' -> n = n'.
Proof.
  intros ps n n'. apply classes_unique.
  - intros [a b] [c d]; simpl; congruence.
  - intros [a b] [c d] [e f]; simpl; congruence.
Qed.
Print Assumptions C38_classes_unique.

(* With a rule whose sides are equal the two disagree: it is its own reverse, so
   it counts half, but a line is printed. *)
Theorem C38_trivial_rule_refuted : exists m : ruleset nat_op, ruleset_ok nat_from_op nat_name nat_arity m /\
  bidir_len nat_name m = Val 0 /\ pretty_print nat_name m = Val ["(+ ?a ?b) <=> (+ ?a ?b)"].
Proof.
  exists [("(+ ?a ?b) ==> (+ ?a ?b)", Rule "(+ ?a ?b) ==> (+ ?a ?b)" ex_pl ex_pl KRhs)].
  split; [|split; reflexivity]. split; [repeat constructor; intros []|]. constructor; [|constructor].
  split; [reflexivity|]. split; [reflexivity|]. exists ex_tl, ex_tl. split; [exact ex_pl_ok|]. split; [exact ex_pl_ok|apply incl_refl].
Qed.
Print Assumptions C38_trivial_rule_refuted.

Example C38_hyp :
  ruleset_ok nat_from_op nat_name nat_arity ex_rs /\ bidir_len nat_name ex_rs = Val 2 /\
  pretty_print nat_name ex_rs = Val ["(+ ?a ?b) <=> (+ ?b ?a)"; "(+ ?a ?b) ==> Z"].
Proof. split; [exact ex_rs_ok|]. split; reflexivity. Qed.
