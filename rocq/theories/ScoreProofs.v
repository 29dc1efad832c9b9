(* The score of a rule against MinimizeSpec.v. *)
From Coq Require Import ZArith Permutation.
From Verif Require Import Base BaseProofs Lang LangProofs Syntax SyntaxProofs Rule RuleSpec RuleTextProofs Minimize MinimizeProofs MinimizeSpec AnalysisProofs.
Open Scope list_scope.

Definition node_view {O} (n : node O) : O * bool := (nop n, match nch n with [] => false | _ => true end).
Definition term_view {O} (t : term O) : O * bool := match t with T o ts => (o, match ts with [] => false | _ => true end) end.

Lemma add_terms_ids {O} ts : forall (r : recexpr O) ids, length (snd (add_terms ts r ids)) = length ids + length ts.
Proof.
  induction ts as [|t ts IH]; intros r ids; cbn [add_terms]; [cbn; lia|]. destruct (add_term t r) as [r' i]. rewrite IH, app_length. cbn. lia.
Qed.
Lemma add_term_views {O} (t : term O) : forall r, Permutation (map node_view (fst (add_term t r))) (map node_view r ++ map term_view (subterms t)).
Proof.
  induction t as [o ts IH] using term_ind'. intros r. rewrite add_term_eq.
  pose proof (add_terms_ids ts r []) as Hl. cbn in Hl.
  assert (forall r ids, Permutation (map node_view (fst (add_terms ts r ids))) (map node_view r ++ map term_view (flat_map subterms ts))) as G.
  { clear Hl r. induction IH as [|t ts Ht _ IH]; intros r ids; cbn [add_terms flat_map]; [cbn; now rewrite app_nil_r|].
    specialize (Ht r). destruct (add_term t r) as [r' i]. cbn [fst] in Ht. rewrite IH, Ht, map_app. now rewrite <- app_assoc. }
  specialize (G r []). destruct (add_terms ts r []) as [r' ids]. cbn [fst snd] in *. cbn [subterms map].
  rewrite map_app. cbn [map]. rewrite G, <- app_assoc. apply Permutation_app_head. unfold node_view at 1. cbn [nop nch term_view].
  replace (match ids with [] => false | _ => true end) with (match ts with [] => false | _ => true end) by (destruct ids, ts; cbn in Hl; try discriminate; reflexivity).
  symmetry. apply Permutation_cons_append.
Qed.
Lemma to_rec_views {O} (t : term O) : Permutation (map node_view (to_rec t)) (map term_view (subterms t)).
Proof. exact (add_term_views t []). Qed.

Lemma size_sum {O} (t : term O) : fold_term (fun _ cs => Val (fold_left Z.add cs 1%Z)) t = Val (size_of t).
Proof.
  induction t as [o ts IH] using term_ind'. cbn [fold_term]. rewrite (rmapM_pure _ size_of) by (now apply Forall_forall). cbn [rbind].
  f_equal. unfold size_of at 2. cbn [subterms length]. rewrite Nat2Z.inj_succ.
  assert (forall k, fold_left Z.add (map size_of ts) k = (k + Z.of_nat (length (flat_map subterms ts)))%Z) as G.
  { clear. induction ts as [|t ts IH]; intros k; cbn [map fold_left flat_map]; [cbn; lia|]. rewrite IH, app_length. unfold size_of. lia. }
  rewrite G. lia.
Qed.
Lemma ast_size_spec {O} (p : pat O) t : tree p = Val t -> ast_size p = Val (size_of t).
Proof.
  intros H. unfold ast_size. destruct (fold_rec_of_tree (fun _ cs => Val (fold_left Z.add cs 1%Z)) p t) as (a & -> & E); [eauto|exact H|].
  now rewrite size_sum in E.
Qed.

Lemma distinct_card l (P : string -> Prop) : (forall v, In v l <-> P v) -> card P (distinct l).
Proof. intros H. exists (nodup string_dec l). split; [apply NoDup_nodup|]. split; [|reflexivity]. intros v. now rewrite nodup_In. Qed.
Lemma filter_perm_length {A} (f : A -> bool) a b : Permutation a b -> length (List.filter f a) = length (List.filter f b).
Proof. induction 1; cbn; try lia; destruct (f x); try destruct (f y); cbn; lia. Qed.
Lemma filter_map_len {A B} (f : B -> bool) (g : A -> B) l : length (List.filter f (map g l)) = length (List.filter (fun x => f (g x)) l).
Proof. induction l as [|x l IH]; cbn; [reflexivity|]. destruct (f (g x)); cbn; auto. Qed.

Lemma ptvars_sub {O} (t : term (eov O)) v : In v (ptvars t) <-> exists ts, In (T (PV v) ts) (subterms t).
Proof.
  unfold ptvars. induction t as [o ts IH] using term_ind'. cbn [tvars subterms]. rewrite in_app_iff, in_flat_map. rewrite Forall_forall in IH.
  split.
  - intros [H|(u & Hu & H)].
    + destruct o; cbn in H; [destruct H|]. destruct H as [->|[]]. exists ts. now left.
    + apply (IH u Hu) in H as (us & H). exists us. right. apply in_flat_map. eauto.
  - intros (us & [H|H]).
    + inversion H; subst. left. cbn. auto.
    + apply in_flat_map in H as (u & Hu & H). right. exists u. split; [exact Hu|]. apply (IH u Hu). eauto.
Qed.
Lemma to_rec_has {O} (t : term O) o b : (exists n, In n (to_rec t) /\ node_view n = (o, b)) <-> exists u, In u (subterms t) /\ term_view u = (o, b).
Proof.
  split; intros (x & Hx & E).
  - apply (in_map node_view), (Permutation_in _ (to_rec_views t)), in_map_iff in Hx as (u & Hu & X). exists u. split; [exact X|congruence].
  - apply (in_map term_view), (Permutation_in _ (Permutation_sym (to_rec_views t))), in_map_iff in Hx as (u & Hu & X). exists u. split; [exact X|congruence].
Qed.
Lemma pvars_to_rec {O} (t : term (eov O)) v : In v (pvars (to_rec t)) <-> In v (ptvars t).
Proof.
  rewrite pvars_in, ptvars_sub. split.
  - intros (n & Hn & E). destruct (proj1 (to_rec_has t (PV v) (snd (node_view n)))) as ([o ts] & Hu & X).
    + exists n. split; [exact Hn|]. unfold node_view. cbn. now rewrite E.
    + cbn in X. inversion X; subst. eauto.
  - intros (ts & H). destruct (proj2 (to_rec_has t (PV v) (snd (term_view (T (PV v) ts))))) as (n & Hn & X); [exists (T (PV v) ts); auto|].
    exists n. split; [exact Hn|]. unfold node_view in X. now inversion X.
Qed.
Lemma inner_names {O} (name : O -> string) (t : term (eov O)) s :
  In s (map (fun n => pat_name name (nop n)) (List.filter is_inner (to_rec t))) <-> applied name t s.
Proof.
  rewrite in_map_iff. unfold applied. split.
  - intros (n & <- & H). apply filter_In in H as [H1 H2]. destruct (proj1 (to_rec_has t (nop n) true)) as ([o ts] & Hu & X).
    + exists n. split; [exact H1|]. unfold node_view, is_inner in *. now rewrite H2.
    + cbn in X. inversion X as [[X1 X2]]. exists (nop n), ts. split; [congruence|]. split; [|reflexivity]. intros ->. discriminate X2.
  - intros (o & ts & H & N & ->). destruct (proj2 (to_rec_has t o true)) as (n & Hn & X).
    + exists (T o ts). split; [exact H|]. cbn. destruct ts; [congruence|reflexivity].
    + unfold node_view in X. inversion X as [[X1 X2]]. exists n. split; [reflexivity|]. apply filter_In. split; [exact Hn|]. unfold is_inner. now rewrite X2.
Qed.
Lemma const_count {O} (is_const : O -> bool) (t : term (eov O)) :
  length (List.filter (is_pconst is_const) (to_rec t)) = length (List.filter (constant is_const) (subterms t)).
Proof.
  pose (f := fun v : eov O * bool => match fst v with EN o => is_const o | PV _ => false end).
  transitivity (length (List.filter f (map node_view (to_rec t)))).
  - rewrite filter_map_len. reflexivity.
  - rewrite (filter_perm_length f _ _ (to_rec_views t)), filter_map_len. f_equal. apply filter_ext. intros [[o|v] ts]; reflexivity.
Qed.

Lemma score_spec {O} (name : O -> string) is_const tl tr :
  exists vars consts ops, score name is_const (to_rec tl) (to_rec tr) =
    Val [vars; - consts; - Z.max (size_of tl) (size_of tr); - (size_of tl + size_of tr); - ops]%Z /\
    card (fun v => In v (ptvars tl) \/ In v (ptvars tr)) vars /\
    occurrences (constant is_const) (subterms tl ++ subterms tr) consts /\
    card (fun s => applied name tl s \/ applied name tr s) ops.
Proof.
  unfold score. rewrite (ast_size_spec _ tl (tree_to_rec tl)), (ast_size_spec _ tr (tree_to_rec tr)). cbn [rbind].
  do 3 eexists. split; [reflexivity|]. split; [|split].
  - apply distinct_card. intros v. now rewrite in_app_iff, !pvars_to_rec.
  - unfold occurrences. rewrite !filter_app, !app_length, !const_count. reflexivity.
  - apply distinct_card. intros v. now rewrite filter_app, map_app, in_app_iff, !inner_names.
Qed.

Lemma lex_leb_spec a b : length a = length b -> (lex_leb a b = true <-> lex_lt a b \/ a = b).
Proof.
  revert b. induction a as [|x a IH]; intros [|y b] H; try discriminate H; cbn [lex_leb].
  - tauto.
  - injection H as H. specialize (IH b H). rewrite orb_true_iff, andb_true_iff, Z.ltb_lt, Z.eqb_eq, IH. split.
    + intros [X|[-> [X| ->]]]; [left; now constructor|left; now constructor|auto].
    + intros [X|X]; [inversion X; subst; auto|]. inversion X; subst. auto.
Qed.
Lemma score_length {O} (name : O -> string) is_const l r s : score name is_const l r = Val s -> length s = 5.
Proof.
  unfold score. intros H. apply rbind_val in H as (a & _ & H). apply rbind_val in H as (b & _ & H). inversion H. reflexivity.
Qed.
