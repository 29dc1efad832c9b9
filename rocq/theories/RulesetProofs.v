(* Rulesets as maps, partition, files, counting up to direction. *)
From Coq Require Import Permutation.
From Verif Require Import Base BaseProofs Lines Sexp Reader EnumSpec SexpProofs ReaderProofs.
From Verif Require Import Lang LangProofs Syntax Rule Ruleset RuleSpec SyntaxProofs RuleTextProofs.
Open Scope string_scope.
Open Scope list_scope.

(* ---- maps ---- *)
Section Map.
  Context {V : Type}.
  Implicit Types m : imap V.

  Lemma insert_lookup m k v k' : lookup (insert m k v) k' = if String.eqb k' k then Some v else lookup m k'.
  Proof.
    induction m as [|[a b] m IH]; cbn [insert lookup]; [reflexivity|].
    destruct (String.eqb_spec k a); cbn [lookup].
    - subst. destruct (String.eqb k' a); reflexivity.
    - rewrite IH. destruct (String.eqb_spec k' a), (String.eqb_spec k' k); subst; congruence.
  Qed.
  Lemma insert_keys m k v : map fst (insert m k v) = if has m k then map fst m else map fst m ++ [k].
  Proof.
    unfold has. induction m as [|[a b] m IH]; cbn [insert lookup map fst]; [reflexivity|].
    destruct (String.eqb_spec k a); cbn [map fst]; [reflexivity|]. rewrite IH.
    destruct (lookup m k); reflexivity.
  Qed.
  Lemma has_in m k : has m k = true <-> In k (map fst m).
  Proof.
    unfold has. destruct (lookup m k) eqn:E.
    - split; auto. intros _. apply lookup_some_in in E. apply (in_map fst) in E. exact E.
    - apply lookup_none in E. split; [discriminate|]. intros H. contradiction.
  Qed.
  Lemma insert_nodup m k v : NoDup (map fst m) -> NoDup (map fst (insert m k v)).
  Proof.
    intros H. rewrite insert_keys. destruct (has m k) eqn:E; [exact H|].
    eapply Permutation_NoDup; [apply Permutation_cons_append|]. constructor; [|exact H].
    intros Hx. apply has_in in Hx. congruence.
  Qed.

  Lemma lookup_rev_last m k e r : NoDup (map fst m) -> rev m = e :: r ->
    lookup (e :: rev r) k = lookup m k.
  Proof.
    intros H E. assert (m = rev r ++ [e]) as ->.
    { rewrite <- (rev_involutive m), E. reflexivity. }
    destruct e as [a b]. rewrite lookup_app. cbn [lookup].
    rewrite map_app in H. apply NoDup_remove in H as [_ H]. rewrite app_nil_r in H. cbn [fst] in H.
    destruct (String.eqb_spec k a) as [->|]; [|destruct (lookup (rev r) k); reflexivity].
    apply lookup_none in H. rewrite H. reflexivity.
  Qed.
  Lemma swap_remove_perm m k : Permutation (swap_remove m k)
    (List.filter (fun e => negb (String.eqb k (fst e))) m) \/ ~ NoDup (map fst m).
  Proof.
    induction m as [|[a b] m IH]; cbn [swap_remove List.filter fst]; [left; constructor|].
    destruct (in_dec string_dec a (map fst m)) as [Hi|Hi].
    { right. intros H. inversion H. contradiction. }
    destruct (String.eqb_spec k a) as [->|Hne]; cbn [negb].
    - left. assert (List.filter (fun e => negb (String.eqb a (fst e))) m = m) as ->.
      { clear - Hi. induction m as [|[x y] m IH]; cbn [List.filter fst]; [reflexivity|].
        destruct (String.eqb_spec a x); [subst; simpl in Hi; tauto|]. cbn [negb]. rewrite IH; [reflexivity|].
        simpl in Hi. tauto. }
      destruct (rev m) as [|e r] eqn:E.
      + assert (m = []) as ->; [|constructor]. rewrite <- (rev_involutive m), E. reflexivity.
      + assert (m = rev r ++ [e]) as ->; [rewrite <- (rev_involutive m), E; reflexivity|].
        apply Permutation_cons_append.
    - destruct IH as [IH|IH]; [left; constructor; exact IH|right]. intros H. inversion H. auto.
  Qed.
  Lemma filter_nodup_keys (p : string * V -> bool) m : NoDup (map fst m) -> NoDup (map fst (List.filter p m)).
  Proof.
    induction m as [|e m IH]; simpl; [auto|]. intros H. inversion H as [|? ? H1 H2]; subst.
    destruct (p e); simpl; auto. constructor; auto. intros Hi. apply H1.
    apply in_map_iff in Hi as (x & E & Hx). apply filter_In in Hx as [Hx _]. rewrite <- E. now apply in_map.
  Qed.
  Lemma perm_lookup m m' k : NoDup (map fst m) -> Permutation m m' -> lookup m k = lookup m' k.
  Proof.
    intros Hn Hp. assert (NoDup (map fst m')) as Hn'.
    { eapply Permutation_NoDup; [apply Permutation_map; exact Hp|exact Hn]. }
    destruct (lookup m k) as [v|] eqn:E.
    - symmetry. apply lookup_in_nodup; [exact Hn'|]. eapply Permutation_in; [exact Hp|]. now apply lookup_some_in.
    - symmetry. apply lookup_none. apply lookup_none in E. intros H. apply E.
      eapply Permutation_in; [apply Permutation_sym, Permutation_map; exact Hp|exact H].
  Qed.
  Lemma filter_key_lookup m k k' : lookup (List.filter (fun e => negb (String.eqb k (fst e))) m) k' =
    if String.eqb k' k then None else lookup m k'.
  Proof.
    induction m as [|[a b] m IH]; cbn [List.filter fst lookup]; [destruct (String.eqb k' k); reflexivity|].
    destruct (String.eqb_spec k a) as [->|Hne]; cbn [negb lookup].
    - rewrite IH. destruct (String.eqb k' a); reflexivity.
    - rewrite IH. destruct (String.eqb_spec k' a) as [->|]; [|reflexivity].
      destruct (String.eqb_spec a k); [subst; congruence|reflexivity].
  Qed.
  Lemma swap_remove_spec m k : NoDup (map fst m) ->
    NoDup (map fst (swap_remove m k)) /\
    forall k', lookup (swap_remove m k) k' = if String.eqb k' k then None else lookup m k'.
  Proof.
    intros H. destruct (swap_remove_perm m k) as [Hp|Hp]; [|contradiction].
    assert (NoDup (map fst (swap_remove m k))) as Hn.
    { eapply Permutation_NoDup; [apply Permutation_sym, Permutation_map; exact Hp|]. now apply filter_nodup_keys. }
    split; [exact Hn|]. intros k'. rewrite (perm_lookup _ _ k' Hn Hp). apply filter_key_lookup.
  Qed.

  Lemma extend_spec other : forall m, NoDup (map fst m) ->
    NoDup (map fst (extend m other)) /\
    forall k, lookup (extend m other) k = match lookup (rev other) k with Some v => Some v | None => lookup m k end.
  Proof.
    unfold extend. induction other as [|[a b] other IH]; intros m H; cbn [fold_left fst snd].
    - split; [exact H|reflexivity].
    - destruct (IH (insert m a b)) as [I1 I2]; [now apply insert_nodup|]. split; [exact I1|].
      intros k. rewrite I2. cbn [rev]. rewrite lookup_app. cbn [lookup].
      destruct (lookup (rev other) k); [reflexivity|]. rewrite insert_lookup. destruct (String.eqb k a); reflexivity.
  Qed.
  Lemma lookup_rev m k : NoDup (map fst m) -> lookup (rev m) k = lookup m k.
  Proof. intros H. symmetry. apply perm_lookup; [exact H|]. apply Permutation_rev. Qed.

  Lemma insert_fresh m k v : has m k = false -> insert m k v = m ++ [(k, v)].
  Proof.
    unfold has. induction m as [|[a b] m IH]; cbn [insert lookup]; [reflexivity|].
    destruct (String.eqb k a); [discriminate|]. intros H. rewrite IH by assumption. reflexivity.
  Qed.
  Lemma extend_keys other : forall m,
    map fst (extend m other) = fold_left (fun ks k => if existsb (String.eqb k) ks then ks else ks ++ [k]) (map fst other) (map fst m).
  Proof.
    unfold extend. induction other as [|[a b] other IH]; intros m; cbn [fold_left fst snd map]; [reflexivity|].
    rewrite IH, insert_keys. f_equal.
    assert (has m a = existsb (String.eqb a) (map fst m)) as ->; [|reflexivity].
    unfold has. clear. induction m as [|[x y] m IH]; cbn [lookup map fst existsb]; [reflexivity|].
    destruct (String.eqb a x); [reflexivity|exact IH].
  Qed.
End Map.

(* ---- partition ---- *)
Section Partition.
  Context {O : Type}.
  Implicit Types m : ruleset O.

  Definition keyed m : Prop := Forall (fun e => fst e = rname (snd e)) m.

  Lemma add_all_fresh rs : forall m, NoDup (map rname rs) -> (forall r, In r rs -> has m (rname r) = false) ->
    add_all m rs = m ++ map (fun r => (rname r, r)) rs.
  Proof.
    unfold add_all. induction rs as [|r rs IH]; intros m H1 H2; cbn [fold_left map]; [now rewrite app_nil_r|].
    inversion H1 as [|? ? N1 N2]; subst. unfold rs_add at 2. rewrite insert_fresh by (apply H2; left; reflexivity).
    rewrite IH; [rewrite <- app_assoc; reflexivity|exact N2|]. intros r' Hr'.
    destruct (has (m ++ [(rname r, r)]) (rname r')) eqn:E; [|reflexivity]. apply has_in in E.
    rewrite map_app, in_app_iff in E. destruct E as [E|[E|[]]].
    - apply has_in in E. rewrite H2 in E by (right; exact Hr'). discriminate.
    - cbn [fst] in E. destruct N1. rewrite E. now apply in_map.
  Qed.

  Lemma keyed_entries m : keyed m -> map (fun r => (rname r, r)) (map snd m) = m.
  Proof.
    induction 1 as [|[k r] m E _ IH]; cbn [map snd]; [reflexivity|]. cbn [fst snd] in E. subst. now rewrite IH.
  Qed.
  Lemma filter_tagged (g : rule O -> bool) (h : bool -> bool) rs :
    map snd (List.filter (fun t => h (fst t)) (combine (map g rs) rs)) = List.filter (fun r => h (g r)) rs.
  Proof. induction rs as [|r rs IH]; simpl; [reflexivity|]. destruct (h (g r)); simpl; congruence. Qed.
  Lemma filter_entries (p : rule O -> bool) m : keyed m ->
    map (fun r => (rname r, r)) (List.filter p (map snd m)) = List.filter (fun e => p (snd e)) m.
  Proof.
    induction 1 as [|[k r] m E _ IH]; cbn [map snd List.filter]; [reflexivity|]. cbn [fst snd] in E. subst.
    destruct (p r); cbn [map]; rewrite IH; reflexivity.
  Qed.
  Lemma rnames_keys m : keyed m -> map rname (map snd m) = map fst m.
  Proof. induction 1 as [|[k r] m E _ IH]; simpl in *; [reflexivity|]. congruence. Qed.
  Lemma nodup_filter_map {A B} (f : A -> B) p l : NoDup (map f l) -> NoDup (map f (List.filter p l)).
  Proof.
    induction l as [|e m IH]; simpl; [auto|]. intros H. inversion H as [|? ? H1 H2]; subst.
    destruct (p e); simpl; auto. constructor; auto. intros Hi. apply H1.
    apply in_map_iff in Hi as (x & E & Hx). apply filter_In in Hx as [Hx _]. rewrite <- E. now apply in_map.
  Qed.

  Lemma partition_spec (f : rule O -> res bool) g m : NoDup (map fst m) -> keyed m ->
    (forall e, In e m -> f (snd e) = Val (g (snd e))) ->
    partition f m = Val (List.filter (fun e => g (snd e)) m, List.filter (fun e => negb (g (snd e))) m).
  Proof.
    intros Hn Hk Hf. unfold partition. rewrite (rmapM_pure _ g).
    2:{ intros r Hr. apply in_map_iff in Hr as (e & <- & He). auto. }
    cbn [rbind]. f_equal.
    assert (forall p, add_all [] (List.filter p (map snd m)) = List.filter (fun e => p (snd e)) m) as G.
    { intros p. rewrite add_all_fresh; [|apply nodup_filter_map; rewrite rnames_keys; assumption|reflexivity].
      simpl. apply filter_entries. exact Hk. }
    f_equal.
    - rewrite (filter_tagged g (fun b => b)). apply G.
    - rewrite (filter_tagged g negb). apply (G (fun r => negb (g r))).
  Qed.

  Lemma insert_vals (m : ruleset O) k r e : In e (insert m k r) -> In e m \/ snd e = r.
  Proof.
    induction m as [|[k' v'] m IH]; simpl; [intros [<-|[]]; auto|].
    destruct (String.eqb k k'); simpl; intros [H|H]; auto. { right. now subst e. } destruct (IH H); auto.
  Qed.
  Lemma add_all_vals rs : forall m e, In e (add_all m rs) -> In e m \/ In (snd e) rs.
  Proof.
    unfold add_all. induction rs as [|r rs IH]; intros m e H; simpl in H; [auto|].
    apply IH in H as [H|H]; [|simpl; auto]. apply insert_vals in H as [H|H]; simpl; auto.
  Qed.
  Lemma partition_sub (f : rule O -> res bool) m a b : partition f m = Val (a, b) ->
    (forall e, In e a -> In (snd e) (map snd m)) /\ (forall e, In e b -> In (snd e) (map snd m)).
  Proof.
    intros H. unfold partition in H. destruct (rmapM f (map snd m)) as [bs|]; [|discriminate H]. cbn [rbind] in H.
    inversion H; subst a b. clear H.
    split; intros e I; apply add_all_vals in I as [[]|I]; apply in_map_iff in I as ([x r] & <- & I); apply filter_In in I as [I _];
      exact (in_combine_r _ _ _ _ I).
  Qed.
  Lemma partition_panics (f : rule O -> res bool) m e : In e m -> f (snd e) = Panic -> partition f m = Panic.
  Proof.
    intros He Hf. unfold partition.
    assert (rmapM f (map snd m) = Panic) as ->; [|reflexivity].
    induction m as [|x m IH]; [destruct He|]. cbn [map rmapM]. destruct He as [->|He].
    - rewrite Hf. reflexivity.
    - destruct (f (snd x)); [|reflexivity]. cbn [rbind]. rewrite IH by assumption. reflexivity.
  Qed.
End Partition.

(* ---- files ---- *)
Section Text.
  Context {O : Type}.
  Variable from_op : string -> nat -> option O.
  Variable name : O -> string.
  Variable ar : O -> nat.
  Notation pat_ok := (pat_ok from_op name ar).
  Notation entry_ok := (entry_ok from_op name ar).
  Notation show := (show_term (pat_name name)).

  (* same name and same sides, as trees *)
  Definition same_rule (e e' : string * rule O) : Prop :=
    fst e = fst e' /\ rname (snd e') = fst e' /\
    tree (rlhs (snd e)) = tree (rlhs (snd e')) /\ tree (rrhs (snd e)) = tree (rrhs (snd e')).

  Lemma add_line_ok m k r : entry_ok (k, r) -> has m k = false ->
    exists r', add_line from_op name m k = Val (m ++ [(k, r')]) /\ same_rule (k, r) (k, r') /\
      exists tl tr, tree (rlhs r) = Val tl /\ tree (rrhs r) = Val tr /\ r' = Rule k (to_rec tl) (to_rec tr) KRhs.
  Proof.
    intros (H1 & H2 & tl & tr & Hl & Hr & Hi) Hk.
    exists (Rule k (to_rec tl) (to_rec tr) KRhs). unfold add_line.
    rewrite (from_string_name from_op name ar _ _ _ _ _ Hl Hr Hi H2). cbn [rbind].
    unfold rs_add. cbn [rname]. rewrite insert_fresh by exact Hk.
    split; [reflexivity|]. split.
    - unfold same_rule. cbn. rewrite !tree_to_rec. destruct Hl as [-> _], Hr as [-> _]. auto.
    - exists tl, tr. destruct Hl as [-> _], Hr as [-> _]. auto.
  Qed.

  Lemma add_lines_ok m : forall acc, NoDup (map fst acc ++ map fst m) -> Forall entry_ok m ->
    exists m', add_lines from_op name acc (map fst m) = Val (acc ++ m') /\ Forall2 same_rule m m' /\
     Forall2 (fun e e' => exists tl tr, tree (rlhs (snd e)) = Val tl /\ tree (rrhs (snd e)) = Val tr /\
       e' = (fst e, Rule (fst e) (to_rec tl) (to_rec tr) KRhs)) m m'.
  Proof.
    induction m as [|[k r] m IH]; intros acc Hn Hok; cbn [map fst add_lines].
    - exists []. rewrite app_nil_r. auto.
    - inversion Hok as [|? ? Hk Hr]; subst. cbn [map fst] in Hn.
      assert (has acc k = false) as Hh.
      { destruct (has acc k) eqn:E; [|reflexivity]. apply has_in in E.
        apply NoDup_remove_2 in Hn. destruct Hn. apply in_app_iff. auto. }
      destruct (add_line_ok acc k r Hk Hh) as (r' & E & Hs & tl & tr & Hl & Hrr & Er). rewrite E. cbn [rbind].
      destruct (IH (acc ++ [(k, r')])) as (m' & E' & Hs' & Hq).
      + rewrite map_app. cbn [map fst]. rewrite <- app_assoc. exact Hn.
      + exact Hr.
      + exists ((k, r') :: m'). rewrite E', <- app_assoc. split; [reflexivity|]. split; [constructor; auto|].
        constructor; [|exact Hq]. exists tl, tr. subst r'. auto.
  Qed.

  Lemma same_rules_eqb m m' : Forall2 same_rule m m' -> rs_eqb m m' = true.
  Proof.
    intros H. unfold rs_eqb. rewrite (Forall2_length _ _ _ H), Nat.eqb_refl. cbn [andb].
    induction H as [|e e' m m' [He _] _ IH]; [reflexivity|]. cbn [combine forallb fst snd].
    rewrite He, String.eqb_refl. exact IH.
  Qed.

  Lemma show_no_char c t : c <> " "%char -> c <> "("%char -> c <> ")"%char ->
    tall (fun o => no_char c (pat_name name o)) t -> no_char c (show t).
  Proof.
    intros C1 C2 C3. induction t as [o ts IH] using term_ind'. intros Ht.
    inversion Ht as [? ? Ho Hts]; subst. destruct ts as [|t0 ts0]; [exact Ho|].
    remember (t0 :: ts0) as ts eqn:Ets.
    assert (show (T o ts) = String "(" (pat_name name o ++ fold_right (fun t acc => " " ++ show t ++ acc)%string ")" ts)%string) as ->
      by (subst; reflexivity).
    clear Ets Ht. unfold no_char in *. cbn [all_chars].
    rewrite all_chars_app, Ho. 
    assert (all_chars (fun d => negb (Ascii.eqb d c)) (fold_right (fun t acc => " " ++ show t ++ acc)%string ")" ts) = true) as ->.
    { induction ts as [|t ts IHts]; cbn [fold_right].
      - cbn [all_chars]. destruct (Ascii.eqb_spec ")" c); [congruence|reflexivity].
      - inversion IH; inversion Hts; subst. rewrite !all_chars_app. rewrite H1 by assumption.
        rewrite IHts by assumption. cbn [all_chars]. destruct (Ascii.eqb_spec " " c); [congruence|reflexivity]. }
    destruct (Ascii.eqb_spec "(" c); [congruence|reflexivity].
  Qed.
  Lemma pat_ok_no_char c p t : pat_ok p t -> word_char c = false ->
    c <> " "%char -> c <> "("%char -> c <> ")"%char -> no_char c (show t).
  Proof.
    intros (_ & _ & H & _) Hc C1 C2 C3. apply show_no_char; auto.
    eapply tall_mono; [|exact H]. intros o Ho. apply eov_ok_op in Ho as [[_ Hw] _].
    unfold no_char. revert Hw. generalize (pat_name name o). induction s as [|d s IH]; [reflexivity|].
    cbn [all_chars]. intros Hw. apply andb_prop in Hw as [H1 H2]. rewrite IH by assumption.
    destruct (Ascii.eqb_spec d c); [congruence|reflexivity].
  Qed.
  Lemma entry_line e : entry_ok e -> no_char newline (fst e) /\ no_char carriage (fst e).
  Proof.
    destruct e as [k r]. intros (H1 & H2 & tl & tr & Hl & Hr & Hi).
    rewrite (rule_name_show from_op name ar _ _ _ _ Hl Hr) in H2. inversion H2 as [E]. cbn [fst].
    assert (forall c, word_char c = false -> c <> " "%char -> c <> "("%char -> c <> ")"%char ->
      no_char c " ==> " -> no_char c (show tl ++ " ==> " ++ show tr)%string) as G.
    { intros c G1 G2 G3 G4 G5. unfold no_char. rewrite !all_chars_app.
      assert (no_char c (show tl)) as A1 by eauto using pat_ok_no_char.
      assert (no_char c (show tr)) as A2 by eauto using pat_ok_no_char.
      unfold no_char in *. rewrite A1, A2, G5. reflexivity. }
    split; apply G; try reflexivity; discriminate.
  Qed.

  Lemma file_roundtrip m : NoDup (map fst m) -> Forall entry_ok m ->
    exists m', rs_from_file from_op name (rs_to_file m) = Val m' /\ rs_eqb m m' = true /\ Forall2 same_rule m m' /\
     Forall2 (fun e e' => exists tl tr, tree (rlhs (snd e)) = Val tl /\ tree (rrhs (snd e)) = Val tr /\
       e' = (fst e, Rule (fst e) (to_rec tl) (to_rec tr) KRhs)) m m'.
  Proof.
    intros Hn Hok. unfold rs_from_file, rs_to_file, to_str_vec. rewrite lines_unlines.
    - destruct (add_lines_ok m [] Hn Hok) as (m' & E & Hs & Hq). exists m'. auto using same_rules_eqb.
    - intros l Hl. apply in_map_iff in Hl as (e & <- & He). rewrite Forall_forall in Hok. now apply entry_line, Hok.
  Qed.

End Text.

(* ---- counting up to direction ---- *)
Definition swap {A} (p : A * A) : A * A := (snd p, fst p).
Lemma swap_swap {A} (p : A * A) : swap (swap p) = p.
Proof. destruct p; reflexivity. Qed.

Definition pair_eqb (p q : string * string) : bool := String.eqb (fst p) (fst q) && String.eqb (snd p) (snd q).
Definition pmem (p : string * string) (l : list (string * string)) : bool := existsb (pair_eqb p) l.
Lemma pmem_in p l : pmem p l = true <-> In p l.
Proof.
  unfold pmem. rewrite existsb_exists. split.
  - intros (q & Hq & E). unfold pair_eqb in E. apply andb_prop in E as [E1 E2].
    apply String.eqb_eq in E1, E2. destruct p, q; simpl in *; subst; exact Hq.
  - intros H. exists p. split; [exact H|]. unfold pair_eqb. now rewrite !String.eqb_refl.
Qed.

Section Keep.
  Variable all : list (string * string).
  Definition revin p : bool := pmem (swap p) all.
  Fixpoint keep (pre rest : list (string * string)) : list (string * string) :=
    match rest with
    | [] => []
    | e :: r => if revin e && pmem (swap e) pre then keep (e :: pre) r else e :: keep (e :: pre) r
    end.

  Lemma keep_incl rest : forall pre, incl (keep pre rest) rest.
  Proof.
    induction rest as [|e r IH]; intros pre x Hx; cbn [keep] in Hx; [destruct Hx|].
    destruct (revin e && pmem (swap e) pre); [right; eapply IH; eauto|].
    destruct Hx as [->|Hx]; [left; reflexivity|right; eapply IH; eauto].
  Qed.
  Lemma keep_nodup rest : forall pre, NoDup rest -> NoDup (keep pre rest).
  Proof.
    induction rest as [|e r IH]; intros pre H; cbn [keep]; [constructor|]. inversion H; subst.
    destruct (revin e && pmem (swap e) pre); auto. constructor; auto. intros Hi. apply keep_incl in Hi. contradiction.
  Qed.
  Lemma keep_covers rest : forall pre, NoDup rest -> (forall x, In x rest -> ~ In x pre) ->
    forall x, In x rest -> In x (keep pre rest) \/ In (swap x) pre \/ In (swap x) (keep pre rest).
  Proof.
    induction rest as [|e r IH]; intros pre Hn Hd x Hx; [destruct Hx|]. inversion Hn as [|? ? N1 N2]; subst.
    cbn [keep]. destruct (revin e && pmem (swap e) pre) eqn:Ed.
    - apply andb_prop in Ed as [_ Ed]. apply pmem_in in Ed. destruct Hx as [->|Hx]; [auto|].
      destruct (IH (e :: pre) N2) with (x := x) as [H|[[H|H]|H]]; auto.
      + intros y Hy [->|Hp]; [contradiction|]. apply (Hd y); [right|]; assumption.
      + subst e. rewrite swap_swap in Ed. destruct (Hd x); [right|]; assumption.
    - destruct Hx as [->|Hx]; [left; left; reflexivity|].
      destruct (IH (e :: pre) N2) with (x := x) as [H|[[H|H]|H]]; auto; try (left; right; assumption); try (right; right; right; assumption).
      + intros y Hy [->|Hp]; [contradiction|]. apply (Hd y); [right|]; assumption.
      + right; right; left. exact H.
  Qed.
  Lemma keep_not_pre rest : forall pre x, In x (keep pre rest) -> revin x = true -> ~ In (swap x) pre.
  Proof.
    induction rest as [|e r IH]; intros pre x Hx Hr; cbn [keep] in Hx; [destruct Hx|].
    assert (In x (keep (e :: pre) r) -> ~ In (swap x) pre) as G.
    { intros H Hp. apply (IH (e :: pre) x H Hr). right. exact Hp. }
    destruct (revin e && pmem (swap e) pre) eqn:Ed; [auto|]. destruct Hx as [->|Hx]; [|auto].
    rewrite Hr in Ed. intros Hp. apply pmem_in in Hp. simpl in Ed. congruence.
  Qed.
  Lemma keep_one rest : forall pre, incl rest all -> (forall x, In x rest -> swap x <> x) ->
    forall x y, In x (keep pre rest) -> In y (keep pre rest) -> y <> swap x.
  Proof.
    induction rest as [|e r IH]; intros pre Hi Hs x y Hx Hy E; cbn [keep] in Hx, Hy; [destruct Hx|].
    assert (forall z, In z (keep (e :: pre) r) -> swap z <> e) as G.
    { intros z Hz Ez. apply (keep_not_pre _ _ _ Hz).
      - apply pmem_in. rewrite Ez. apply Hi. left. reflexivity.
      - rewrite Ez. left. reflexivity. }
    assert (incl r all /\ forall x, In x r -> swap x <> x) as [Hi' Hs'].
    { split; [intros z Hz; apply Hi; right; exact Hz|]. intros z Hz. apply Hs. right. exact Hz. }
    destruct (revin e && pmem (swap e) pre); [exact (IH (e :: pre) Hi' Hs' x y Hx Hy E)|].
    destruct Hx as [Ex|Hx]; destruct Hy as [Ey|Hy].
    - apply (Hs e); [left; reflexivity|congruence].
    - apply (G y Hy). subst. apply swap_swap.
    - apply (G x Hx). congruence.
    - exact (IH (e :: pre) Hi' Hs' x y Hx Hy E).
  Qed.
  Lemma keep_uni rest : forall pre,
    List.filter (fun p => negb (revin p)) (keep pre rest) = List.filter (fun p => negb (revin p)) rest.
  Proof.
    induction rest as [|e r IH]; intros pre; cbn [keep List.filter]; [reflexivity|].
    destruct (revin e) eqn:E; cbn [andb negb].
    - destruct (pmem (swap e) pre); cbn [List.filter]; rewrite ?E; cbn [negb]; apply IH.
    - cbn [List.filter]. rewrite E. cbn [negb]. now rewrite IH.
  Qed.
End Keep.

Lemma filter_split {A} (p : A -> bool) l :
  length (List.filter p l) + length (List.filter (fun x => negb (p x)) l) = length l.
Proof. induction l as [|a l IH]; simpl; [reflexivity|]. destruct (p a); simpl; lia. Qed.

Lemma keep_length all : NoDup all -> (forall x, In x all -> swap x <> x) ->
  length (keep all [] all) = length (List.filter (fun p => negb (revin all p)) all) + length (List.filter (revin all) all) / 2.
Proof.
  intros Hn Hs. rewrite <- (filter_split (revin all) (keep all [] all)), keep_uni.
  set (KB := List.filter (revin all) (keep all [] all)).
  assert (Permutation (List.filter (revin all) all) (KB ++ map swap KB)) as Hp.
  { apply NoDup_Permutation.
    - now apply NoDup_filter.
    - assert (NoDup KB) as H1 by now apply NoDup_filter, keep_nodup.
      assert (NoDup (map swap KB)) as H2.
      { clear - H1. induction H1 as [|x l H1 _ IH]; simpl; constructor; auto. intros Hi.
        apply in_map_iff in Hi as (y & E & Hy). apply (f_equal swap) in E. rewrite !swap_swap in E. subst. contradiction. }
      assert (forall x, In x KB -> ~ In x (map swap KB)) as H3.
      { intros x Hx Hx'. apply in_map_iff in Hx' as (y & E & Hy). unfold KB in *.
        apply filter_In in Hx as [Hx _]. apply filter_In in Hy as [Hy _].
        apply (keep_one all all [] (incl_refl all) Hs y x Hy Hx). congruence. }
      clearbody KB. clear - H1 H2 H3. revert H2 H3. generalize (map swap KB). intros l2 H2 H3.
      induction H1 as [|x l H _ IH]; simpl; [exact H2|]. constructor.
      + intros Hi. apply in_app_iff in Hi as [Hi|Hi]; [contradiction|]. apply (H3 x); [left; reflexivity|exact Hi].
      + apply IH. intros y Hy. apply H3. right. exact Hy.
    - intros x. rewrite in_app_iff, in_map_iff. unfold KB. rewrite filter_In. split.
      + intros [Hx Hr]. destruct (keep_covers all all [] Hn) with (x := x) as [H|[H|H]]; auto.
        * left. apply filter_In. auto.
        * destruct H.
        * right. exists (swap x). split; [apply swap_swap|]. apply filter_In. split; [exact H|].
          unfold revin. rewrite swap_swap. now apply pmem_in.
      + intros [H|(y & E & H)].
        * apply filter_In in H as [H1 H2]. split; [eapply keep_incl; eauto|exact H2].
        * apply filter_In in H as [H1 H2]. subst x. unfold revin in *. split; [now apply pmem_in|].
          rewrite swap_swap. apply pmem_in. eapply keep_incl; eauto. }
  apply Permutation_length in Hp. rewrite Hp, app_length, map_length.
  replace (length KB + length KB) with (length KB * 2) by lia. rewrite Nat.div_mul by lia. lia.
Qed.

Lemma keep_classes all : NoDup all -> (forall x, In x all -> swap x <> x) ->
  classes_modulo (fun p q => q = swap p) all (length (keep all [] all)).
Proof.
  intros Hn Hs. exists (keep all [] all). split; [apply keep_incl|]. split; [now apply keep_nodup|].
  split; [reflexivity|]. split.
  - intros x Hx. destruct (keep_covers all all [] Hn) with (x := x) as [H|[[]|H]]; auto; eauto.
  - intros x y Hx Hy. right. apply (keep_one all all []); auto using incl_refl.
Qed.

(* the number of classes is unique *)
Lemma classes_le {A} (R : A -> A -> Prop) l n n' :
  (forall x y, R x y -> R y x) -> (forall x y z, R x y -> R x z -> y = z) ->
  classes_modulo R l n -> classes_modulo R l n' -> n <= n'.
Proof.
  intros Hsym Hfun (r & R1 & R2 & <- & R3 & R4) (r' & S1 & S2 & <- & S3 & S4).
  (* every representative in r maps to one in r'; distinct ones to distinct ones *)
  assert (forall rs, NoDup rs -> incl rs r -> forall rs', NoDup rs' ->
    (forall x, In x rs -> exists y, In y rs' /\ (x = y \/ R x y)) -> length rs <= length rs') as G.
  { induction rs as [|x rs IH]; intros Hn Hi rs' Hn' Hc; simpl; [lia|]. inversion Hn as [|? ? N1 N2]; subst.
    destruct (Hc x (or_introl eq_refl)) as (y & Hy & Exy).
    apply in_split in Hy as (a & b & ->). apply NoDup_remove in Hn' as [Hn' Hy].
    rewrite app_length. simpl. rewrite Nat.add_succ_r, <- app_length. apply le_n_S. apply IH; auto.
    - intros z Hz. apply Hi. right. exact Hz.
    - intros z Hz. destruct (Hc z (or_intror Hz)) as (w & Hw & Ezw). exists w. split; [|exact Ezw].
      apply in_app_iff. apply in_app_iff in Hw as [Hw|[->|Hw]]; auto. exfalso.
      assert (In x r) as Hxr by (apply Hi; left; reflexivity).
      assert (In z r) as Hzr by (apply Hi; right; exact Hz).
      destruct (R4 x z Hxr Hzr) as [->|Hnr]; [contradiction|].
      destruct (R4 z x Hzr Hxr) as [->|Hnr']; [contradiction|].
      destruct Exy as [->|E1], Ezw as [->|E2]; try contradiction.
      apply Hsym in E1. apply Hsym in E2. assert (x = z) by eauto. subst. contradiction. }
  apply G; auto using incl_refl.
Qed.
Lemma classes_unique {A} (R : A -> A -> Prop) l n n' :
  (forall x y, R x y -> R y x) -> (forall x y z, R x y -> R x z -> y = z) ->
  classes_modulo R l n -> classes_modulo R l n' -> n = n'.
Proof. intros H1 H2 H3 H4. apply Nat.le_antisymm; eapply classes_le; eauto. Qed.

Section Count.
  Context {O : Type}.
  Variable from_op : string -> nat -> option O.
  Variable name : O -> string.
  Variable ar : O -> nat.
  Notation entry_ok := (entry_ok from_op name ar).
  Notation show := (show_term (pat_name name)).

  Definition sides_of (e : string * rule O) (p : string * string) : Prop :=
    show_pat name (rlhs (snd e)) = Val (fst p) /\ show_pat name (rrhs (snd e)) = Val (snd p).

  (* what [entry_ok] says of the printed sides *)
  Record text_entry (e : string * rule O) (p : string * string) : Prop := {
    te_sides : sides_of e p;
    te_key : fst e = (fst p ++ " ==> " ++ snd p)%string;
    te_a : split_arrow (fst p) = None;
    te_b : split_arrow (snd p) = None;
    te_tree : exists tl tr, pat_ok from_op name ar (rlhs (snd e)) tl /\ pat_ok from_op name ar (rrhs (snd e)) tr /\
      fst p = show tl /\ snd p = show tr /\ incl (ptvars tr) (ptvars tl) }.

  Lemma entry_text e p : entry_ok e -> sides_of e p -> text_entry e p.
  Proof.
    destruct e as [k r]. intros (H1 & H2 & tl & tr & Hl & Hr & Hi) (S1 & S2). cbn [snd] in *.
    rewrite (pat_ok_show from_op name ar _ _ Hl) in S1. rewrite (pat_ok_show from_op name ar _ _ Hr) in S2.
    assert (fst p = show tl) as E1 by congruence. assert (snd p = show tr) as E2 by congruence.
    rewrite (rule_name_show from_op name ar _ _ _ _ Hl Hr) in H2.
    constructor; cbn [fst snd].
    - split; cbn [snd]; [rewrite (pat_ok_show from_op name ar _ _ Hl)|rewrite (pat_ok_show from_op name ar _ _ Hr)]; congruence.
    - rewrite E1, E2. congruence.
    - rewrite E1. eauto using pat_ok_no_arrow.
    - rewrite E2. eauto using pat_ok_no_arrow.
    - exists tl, tr. auto.
  Qed.

  Lemma keys_pairs m ps : Forall2 text_entry m ps -> map fst m = map (fun p => fst p ++ " ==> " ++ snd p)%string ps.
  Proof. induction 1 as [|e p m ps H _ IH]; simpl; [reflexivity|]. rewrite IH, (te_key _ _ H). reflexivity. Qed.

  Lemma pairs_arrow m ps : Forall2 text_entry m ps -> forall p, In p ps -> split_arrow (fst p) = None /\ split_arrow (snd p) = None.
  Proof.
    induction 1 as [|e p m ps H _ IH]; intros q Hq; [destruct Hq|].
    destruct Hq as [->|Hq]; [destruct H; auto|auto].
  Qed.

  Lemma pairs_nodup m ps : Forall2 text_entry m ps -> NoDup (map fst m) -> NoDup ps.
  Proof.
    intros H. rewrite (keys_pairs _ _ H). apply NoDup_map_inv.
  Qed.

  Lemma has_pair m ps a b : Forall2 text_entry m ps -> split_arrow a = None ->
    (has m (a ++ " ==> " ++ b)%string = true <-> In (a, b) ps).
  Proof.
    intros H Ha. rewrite has_in, (keys_pairs _ _ H), in_map_iff. split.
    - intros ([x y] & E & Hi). destruct (pairs_arrow _ _ H _ Hi) as [Hx _]. cbn [fst snd] in *.
      apply one_way_inj in E as [-> ->]; auto.
    - intros Hi. exists (a, b). auto.
  Qed.

  Lemma forall2_in {A B} (R : A -> B -> Prop) l l' : Forall2 R l l' -> forall y, In y l' -> exists x, In x l /\ R x y.
  Proof.
    induction 1 as [|a b l l' H _ IH]; intros y Hy; [destruct Hy|]. destruct Hy as [->|Hy].
    - exists a. simpl. auto.
    - destruct (IH y Hy) as (x & Hx & HR). exists x. simpl. auto.
  Qed.

  Lemma reverse_in_spec m ps e p : Forall2 text_entry m ps -> text_entry e p ->
    reverse_in name m (snd e) = Val (revin ps p).
  Proof.
    intros Hm He. destruct He as [_ _ Ha Hb (tl & tr & Hl & Hr & E1 & E2 & Hi)].
    unfold reverse_in, reverse, rule_new. rewrite (rule_name_show from_op name ar _ _ _ _ Hr Hl). cbn [rbind].
    f_equal. unfold revin, swap. destruct (pmem (snd p, fst p) ps) eqn:Em.
    - apply pmem_in in Em. destruct (forall2_in _ _ _ Hm _ Em) as (e' & He' & T).
      destruct T as [_ _ _ _ (tl' & tr' & Hl' & Hr' & F1 & F2 & Hi')]. cbn [fst snd] in *.
      assert (tl' = tr) as -> by (eapply (pat_show_inj from_op name ar); eauto; congruence).
      assert (tr' = tl) as -> by (eapply (pat_show_inj from_op name ar); eauto; congruence).
      rewrite (proj2 (pat_ok_rewrite from_op name ar _ _ _ _ Hr Hl)) by assumption.
      unfold rs_contains. cbn [rname]. apply (has_pair _ _ _ _ Hm); [rewrite <- E2; exact Hb|]. congruence.
    - destruct (rewrite_ok (rrhs (snd e)) (rlhs (snd e))); [|reflexivity]. unfold rs_contains. cbn [rname].
      destruct (has m (show tr ++ " ==> " ++ show tl)%string) eqn:Eh; [|reflexivity].
      apply (has_pair _ _ _ _ Hm) in Eh; [|rewrite <- E2; exact Hb]. rewrite <- E1, <- E2 in Eh.
      apply pmem_in in Eh. congruence.
  Qed.

  Lemma rmapM_forall2 {A B C} (f : A -> res C) (g : B -> C) (R : A -> B -> Prop) l l' :
    (forall x y, R x y -> f x = Val (g y)) -> Forall2 R l l' -> rmapM f l = Val (map g l').
  Proof. intros Hf. induction 1 as [|x y l l' H _ IH]; cbn [rmapM map]; [reflexivity|]. rewrite (Hf _ _ H), IH. reflexivity. Qed.

  Lemma bidir_len_spec m ps : Forall2 text_entry m ps ->
    bidir_len name m = Val (length (List.filter (fun p => negb (revin ps p)) ps) + length (List.filter (revin ps) ps) / 2).
  Proof.
    intros Hm. unfold bidir_len.
    rewrite (rmapM_forall2 _ (revin ps) (fun r p => exists e, snd e = r /\ text_entry e p) _ ps).
    - cbn [rbind].
      assert (forall h l, length (List.filter h (map (revin ps) l)) = length (List.filter (fun p => h (revin ps p)) l)) as G.
      { intros h l. induction l as [|p l IH]; simpl; [reflexivity|]. destruct (h (revin ps p)); simpl; congruence. }
      rewrite (G (fun b => b)), (G negb). reflexivity.
    - intros r p (e & <- & He). now apply reverse_in_spec.
    - clear - Hm. assert (forall l l', Forall2 text_entry l l' -> Forall2 (fun r p => exists e, snd e = r /\ text_entry e p) (map snd l) l') as G.
      { induction 1; simpl; constructor; eauto. }
      apply G. exact Hm.
  Qed.

  Definition line2 (p : string * string) : string := (fst p ++ " <=> " ++ snd p)%string.

  Lemma pp_loop_spec m ps : Forall2 text_entry m ps -> forall es qs, Forall2 text_entry es qs -> NoDup qs -> incl qs ps ->
    forall pre strs, (forall q, In q qs -> ~ In q pre) ->
    (forall q, In q qs -> revin ps q = true -> (In (line2 (swap q)) strs <-> In (swap q) pre)) ->
    exists out, pp_loop name m es strs = Val out /\ length out = length strs + length (keep ps pre qs).
  Proof.
    intros Hm es qs H. induction H as [|e q es qs He Hes IH]; intros Hn Hi pre strs Hd Hinv; cbn [pp_loop keep].
    - exists strs. simpl. auto.
    - inversion Hn as [|? ? N1 N2]; subst. destruct e as [k r].
      pose proof (reverse_in_spec m ps _ _ Hm He) as Hrev. cbn [snd] in Hrev.
      assert (incl qs ps) as Hi' by (intros x Hx; apply Hi; right; exact Hx).
      assert (forall x, In x qs -> ~ In x (q :: pre)) as Hd'.
      { intros x Hx [->|Hp]; [contradiction|]. apply (Hd x); [right|]; assumption. }
      pose proof He as He0. destruct He0 as [[S1 S2] Hk Ha Hb _]. cbn [fst snd] in *.
      unfold pp_step. rewrite Hrev. cbn [rbind]. destruct (revin ps q) eqn:Er; cbn [andb].
      + rewrite S1, S2. cbn [rbind].
        assert (mem (snd q ++ " <=> " ++ fst q)%string strs = pmem (swap q) pre) as ->.
        { specialize (Hinv q (or_introl eq_refl) Er). unfold line2 in Hinv. cbn [swap fst snd] in Hinv.
          destruct (pmem (swap q) pre) eqn:Ep.
          - apply mem_in. apply Hinv. now apply pmem_in.
          - destruct (mem _ strs) eqn:Em; [|reflexivity]. apply mem_in in Em. apply Hinv in Em.
            apply pmem_in in Em. congruence. }
        destruct (pmem (swap q) pre) eqn:Ep; cbn [rbind].
        * apply pmem_in in Ep. apply IH; auto. intros x Hx Hrx. rewrite Hinv by (auto; right; exact Hx).
          split; [intros; right; assumption|]. intros [E|E]; [|exact E]. exfalso. subst q.
          rewrite swap_swap in Ep. apply (Hd x); [right|]; assumption.
        * destruct (IH N2 Hi' (q :: pre) (strs ++ [(fst q ++ " <=> " ++ snd q)%string])) as (out & E & L); auto.
          -- intros x Hx Hrx. rewrite in_app_iff. rewrite (Hinv x) by (auto; right; exact Hx).
             split; [intros [E|[E|[]]]|intros [E|E]].
             ++ right. exact E.
             ++ left. assert (In x ps) as Hxp by auto. destruct (pairs_arrow _ _ Hm _ Hxp) as [X1 X2].
                unfold line2 in E. apply two_way_inj in E as [E1 E2]; auto. destruct q, x. simpl in *. subst. reflexivity.
             ++ right. left. subst q. unfold line2. reflexivity.
             ++ left. exact E.
          -- exists out. split; [exact E|]. rewrite L, app_length. simpl. lia.
      + cbn [rbind]. destruct (IH N2 Hi' (q :: pre) (strs ++ [k])) as (out & E & L); auto.
        * intros x Hx Hrx. rewrite in_app_iff. rewrite (Hinv x) by (auto; right; exact Hx).
          split; [intros [E|[E|[]]]|intros [E|E]].
          -- right. exact E.
          -- exfalso. rewrite Hk in E. assert (In x ps) as Hxp by auto. destruct (pairs_arrow _ _ Hm _ Hxp) as [X1 X2].
             unfold line2 in E. revert E. apply one_two_way; assumption.
          -- exfalso. subst q. unfold revin in Er. rewrite swap_swap in Er.
             assert (pmem x ps = true) by (apply pmem_in; auto). congruence.
          -- left. exact E.
        * exists out. split; [exact E|]. rewrite L, app_length. simpl. lia.
  Qed.

  Lemma bidir_len_pretty m ps : NoDup (map fst m) -> Forall entry_ok m -> Forall2 sides_of m ps ->
    (forall p, In p ps -> fst p <> snd p) ->
    exists n out, bidir_len name m = Val n /\ pretty_print name m = Val out /\ length out = n /\
      classes_modulo (fun p q => q = (snd p, fst p)) ps n.
  Proof.
    intros Hn Hok Hs Hne.
    assert (Forall2 text_entry m ps) as Hm.
    { clear Hn Hne. induction Hs as [|e p m ps H _ IH]; constructor; inversion Hok; subst; auto using entry_text. }
    assert (NoDup ps) as Hnp by eauto using pairs_nodup.
    assert (forall x, In x ps -> swap x <> x) as Hsw.
    { intros x Hx E. apply (Hne x Hx). destruct x. unfold swap in E. simpl in *. congruence. }
    destruct (pp_loop_spec m ps Hm m ps Hm Hnp (incl_refl ps) [] []) as (out & E & L).
    - intros q _ [].
    - intros q _ _. reflexivity.
    - eexists _, out. split; [apply bidir_len_spec; exact Hm|]. split; [exact E|].
      rewrite <- (keep_length ps Hnp Hsw). split; [rewrite L; reflexivity|]. apply keep_classes; assumption.
  Qed.
End Count.

(* ---- histories ---- *)
Section History.
  Context {O : Type}.
  Definition do_op (m : ruleset O) (o : rs_op O) : ruleset O :=
    match o with
    | OpAdd r => rs_add m r
    | OpExtend other => extend m other
    | OpRemove other => remove_all m other
    end.
  Definition op_ok_map (o : rs_op O) : Prop :=
    match o with OpAdd _ => True | OpExtend m | OpRemove m => NoDup (map fst m) end.

  Lemma remove_all_spec other : forall m : ruleset O, NoDup (map fst m) ->
    NoDup (map fst (remove_all m other)) /\
    forall k, lookup (remove_all m other) k = match lookup other k with Some _ => None | None => lookup m k end.
  Proof.
    unfold remove_all. induction other as [|[a b] other IH]; intros m H; cbn [fold_left fst].
    - split; [exact H|reflexivity].
    - destruct (swap_remove_spec m a H) as [S1 S2]. destruct (IH _ S1) as [I1 I2]. split; [exact I1|].
      intros k. rewrite I2, S2. cbn [lookup]. destruct (String.eqb k a); [destruct (lookup other k); reflexivity|reflexivity].
  Qed.

  Lemma do_op_spec m o : NoDup (map fst m) -> op_ok_map o ->
    NoDup (map fst (do_op m o)) /\ forall k, lookup (do_op m o) k = spec_op (lookup m) o k.
  Proof.
    intros H Ho. destruct o as [r|other|other]; cbn [do_op spec_op op_ok_map] in *.
    - split; [now apply insert_nodup|]. intros k. apply insert_lookup.
    - destruct (extend_spec other m H) as [E1 E2]. split; [exact E1|]. intros k. rewrite E2, lookup_rev by exact Ho. reflexivity.
    - now apply remove_all_spec.
  Qed.

  Lemma spec_op_ext (f g : string -> option (rule O)) o : (forall k, f k = g k) -> forall k, spec_op f o k = spec_op g o k.
  Proof. intros H k. destruct o; simpl; rewrite H; reflexivity. Qed.
  Lemma history_spec ops : forall m f, NoDup (map fst m) -> (forall k, lookup m k = f k) -> Forall op_ok_map ops ->
    NoDup (map fst (fold_left do_op ops m)) /\
    forall k, lookup (fold_left do_op ops m) k = fold_left spec_op ops f k.
  Proof.
    induction ops as [|o ops IH]; intros m f H Hf Ho; cbn [fold_left]; [auto|].
    inversion Ho as [|? ? O1 O2]; subst. destruct (do_op_spec m o H O1) as [D1 D2].
    apply IH; auto. intros k. rewrite D2. now apply spec_op_ext.
  Qed.

  Lemma rs_eqb_spec (a b : ruleset O) : rs_eqb a b = true <-> map fst a = map fst b.
  Proof.
    unfold rs_eqb. rewrite andb_true_iff, Nat.eqb_eq. split.
    - intros [L H]. revert b L H. induction a as [|[k r] a IH]; intros [|[k' r'] b] L H; try discriminate L; [reflexivity|].
      cbn [combine forallb fst snd] in H. apply andb_prop in H as [E H]. apply String.eqb_eq in E. subst.
      cbn [map fst]. f_equal. apply IH; [simpl in L; lia|exact H].
    - intros E. split; [apply (f_equal (@length string)) in E; now rewrite !map_length in E|].
      revert b E. induction a as [|[k r] a IH]; intros [|[k' r'] b] E; try discriminate E; [reflexivity|].
      cbn [map fst] in E. inversion E; subst. cbn [combine forallb fst snd]. rewrite String.eqb_refl. now apply IH.
  Qed.
End History.
