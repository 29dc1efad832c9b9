From Verif Require Import Base BaseProofs Sexp EnumSpec SexpProofs.
From Coq Require Import Permutation.

Lemma mem_str_in x l : mem_str x l = true <-> In x l.
Proof.
  unfold mem_str. rewrite existsb_exists. split.
  - intros [y [H E]]. apply String.eqb_eq in E; now subst.
  - intros H. exists x. split; [assumption|apply String.eqb_refl].
Qed.

Lemma mem_str_nin x l : mem_str x l = false <-> ~ In x l.
Proof. rewrite <- mem_str_in. destruct (mem_str x l); intuition congruence. Qed.

(* mk_canon processes the leaves from left to right *)
Fixpoint mk_leaves (syms : list string) (l : list string) (acc : renaming * nat) :=
  match l with
  | [] => Val acc
  | x :: r => let* acc' := mk_canon syms (Atom x) acc in mk_leaves syms r acc'
  end.

Lemma mk_leaves_app syms l1 l2 acc :
  mk_leaves syms (l1 ++ l2) acc = let* acc' := mk_leaves syms l1 acc in mk_leaves syms l2 acc'.
Proof.
  revert acc; induction l1 as [|x l1 IH]; intros acc; [reflexivity|].
  cbn [mk_leaves app]. destruct (mk_canon syms (Atom x) acc); cbn [rbind]; auto.
Qed.

Lemma mk_canon_leaves syms t acc : mk_canon syms t acc = mk_leaves syms (leaves t) acc.
Proof.
  revert acc; induction t as [s|l IH] using sexp_ind'; intros acc.
  - cbn [mk_leaves leaves]. destruct (mk_canon syms (Atom s) acc); reflexivity.
  - cbn [leaves]. induction IH as [|x l Hx Hl IHl] in acc |- *; [reflexivity|].
    cbn [flat_map]. rewrite mk_leaves_app, <- Hx.
    cbn [mk_canon]. destruct (mk_canon syms x acc); cbn [rbind]; [|reflexivity].
    apply IHl.
Qed.

Definition mk_sub (syms ks : list string) : renaming := rev (combine ks syms).

Lemma combine_snoc {A B} (ks : list A) (syms : list B) x v :
  nth_error syms (length ks) = Some v ->
  combine (ks ++ [x]) syms = combine ks syms ++ [(x, v)].
Proof.
  revert syms; induction ks as [|k ks IH]; intros [|s syms]; simpl; intros H; try discriminate.
  - inversion H; reflexivity.
  - f_equal. now apply IH.
Qed.

Lemma mk_sub_snoc syms ks x v :
  nth_error syms (length ks) = Some v -> mk_sub syms (ks ++ [x]) = (x, v) :: mk_sub syms ks.
Proof. intros H. unfold mk_sub. rewrite (combine_snoc _ _ _ v) by assumption. now rewrite rev_app_distr. Qed.

Lemma mk_sub_keys syms ks : length ks <= length syms -> map fst (mk_sub syms ks) = rev ks.
Proof.
  intros H. unfold mk_sub. rewrite map_rev. f_equal.
  revert syms H; induction ks as [|k ks IH]; intros [|s syms]; simpl; intros H; try reflexivity; try lia.
  f_equal. apply IH. lia.
Qed.

Lemma mk_sub_lookup_none syms ks x :
  length ks <= length syms -> (lookup (mk_sub syms ks) x = None <-> ~ In x ks).
Proof. intros H. rewrite lookup_none, mk_sub_keys by assumption. now rewrite <- in_rev. Qed.

Lemma mk_sub_lookup_nth syms ks i x :
  NoDup ks -> length ks <= length syms -> nth_error ks i = Some x ->
  lookup (mk_sub syms ks) x = nth_error syms i.
Proof.
  intros Hnd Hlen Hi.
  destruct (nth_error syms i) as [v|] eqn:Ev.
  - apply lookup_in_nodup.
    + rewrite mk_sub_keys by assumption. now apply NoDup_rev.
    + unfold mk_sub. rewrite <- in_rev. clear Hnd Hlen.
      revert ks syms Hi Ev; induction i as [|i IH]; intros [|k ks] [|s syms]; simpl; intros; try discriminate.
      * left; congruence.
      * right; auto.
  - apply nth_error_None in Ev. assert (i < length ks) by (apply nth_error_Some; congruence). lia.
Qed.

Lemma firsts_from_ext syms s1 s2 l :
  (forall x, In x s1 <-> In x s2) -> firsts_from syms s1 l = firsts_from syms s2 l.
Proof.
  revert s1 s2; induction l as [|x l IH]; intros s1 s2 H; [reflexivity|]. simpl.
  replace (mem_str x s2) with (mem_str x s1).
  - destruct (mem_str x syms && negb (mem_str x s1)).
    + f_equal. apply IH. intros y; simpl; rewrite H; tauto.
    + now apply IH.
  - destruct (mem_str x s1) eqn:E1; symmetry.
    + apply mem_str_in. apply H. now apply mem_str_in.
    + apply mem_str_nin. rewrite <- H. now apply mem_str_nin.
Qed.

Lemma firsts_from_in syms seen l x :
  In x (firsts_from syms seen l) <-> In x syms /\ In x l /\ ~ In x seen.
Proof.
  revert seen; induction l as [|y l IH]; intros seen; [simpl; tauto|]. simpl.
  destruct (mem_str y syms && negb (mem_str y seen)) eqn:E.
  - apply andb_prop in E as [E1 E2]. apply mem_str_in in E1. apply negb_true_iff, mem_str_nin in E2.
    simpl. rewrite IH. simpl. destruct (string_dec y x) as [->|Hne]; tauto.
  - rewrite IH. apply andb_false_iff in E as [E|E].
    + apply mem_str_nin in E. destruct (string_dec y x) as [->|Hne]; tauto.
    + apply negb_false_iff, mem_str_in in E. destruct (string_dec y x) as [->|Hne]; tauto.
Qed.

Lemma firsts_from_nodup syms seen l : NoDup (firsts_from syms seen l).
Proof.
  revert seen; induction l as [|y l IH]; intros seen; [constructor|]. simpl.
  destruct (mem_str y syms && negb (mem_str y seen)); [|apply IH].
  constructor; [|apply IH]. rewrite firsts_from_in. simpl. tauto.
Qed.

Lemma firsts_in syms t x : In x (firsts syms t) <-> In x syms /\ occurs x t.
Proof. unfold firsts, occurs. rewrite firsts_from_in. simpl. tauto. Qed.

Lemma firsts_nodup syms t : NoDup (firsts syms t).
Proof. apply firsts_from_nodup. Qed.

Lemma firsts_length syms t : length (firsts syms t) <= length syms.
Proof.
  apply NoDup_incl_length; [apply firsts_nodup|]. intros x Hx. now apply firsts_in in Hx.
Qed.

Lemma mk_leaves_spec syms l ks :
  NoDup ks -> incl ks syms ->
  mk_leaves syms l (mk_sub syms ks, length ks) =
  let ks' := ks ++ firsts_from syms ks l in Val (mk_sub syms ks', length ks').
Proof.
  revert ks; induction l as [|x l IH]; intros ks Hnd Hincl.
  - simpl. now rewrite app_nil_r.
  - assert (Hlen : length ks <= length syms) by (apply NoDup_incl_length; assumption).
    cbn [mk_leaves mk_canon firsts_from].
    destruct (mem_str x syms) eqn:Ex; cbn [andb rbind].
    + apply mem_str_in in Ex.
      destruct (mem_str x ks) eqn:Ek; cbn [negb].
      * assert (Hl : lookup (mk_sub syms ks) x <> None).
        { rewrite mk_sub_lookup_none by assumption. apply mem_str_in in Ek. tauto. }
        destruct (lookup (mk_sub syms ks) x); [|congruence]. cbn [rbind]. now apply IH.
      * apply mem_str_nin in Ek.
        assert (Hl : lookup (mk_sub syms ks) x = None) by (apply mk_sub_lookup_none; assumption).
        rewrite Hl.
        assert (Hnd' : NoDup (x :: ks)) by (constructor; assumption).
        assert (Hincl' : incl (x :: ks) syms) by (intros y [<-|Hy]; auto).
        pose proof (NoDup_incl_length Hnd' Hincl') as Hlt. simpl in Hlt.
        destruct (nth_error syms (length ks)) as [v|] eqn:Ev; [|apply nth_error_None in Ev; lia].
        cbn [rbind]. rewrite <- (mk_sub_snoc _ _ _ _ Ev).
        replace (length ks + 1) with (length (ks ++ [x])) by (rewrite app_length; reflexivity).
        rewrite IH.
        -- rewrite <- app_assoc. simpl.
           rewrite (firsts_from_ext syms (ks ++ [x]) (x :: ks)); [reflexivity|].
           intros y. rewrite in_app_iff. simpl. tauto.
        -- apply (Permutation_NoDup (l := x :: ks)); [|assumption].
           apply Permutation_cons_append.
        -- intros y Hy. apply in_app_iff in Hy as [Hy|[<-|[]]]; auto.
    + now apply IH.
Qed.

(* the renaming used for a term with first occurrences ks *)
Definition rho_of (syms ks : list string) (x : string) : string :=
  match lookup (mk_sub syms ks) x with Some v => v | None => x end.

Lemma apply_subst_rename syms ks t :
  length ks <= length syms -> incl ks syms ->
  apply_subst (mk_sub syms ks) t = rename syms (rho_of syms ks) t.
Proof.
  intros Hlen Hincl. induction t as [s|l IH] using sexp_ind'; simpl.
  - unfold rho_of. destruct (mem_str s syms) eqn:E; [now destruct (lookup _ s)|].
    assert (lookup (mk_sub syms ks) s = None) as ->; [|reflexivity].
    apply mk_sub_lookup_none; [assumption|]. apply mem_str_nin in E. auto.
  - f_equal. apply map_ext_in. now apply Forall_forall.
Qed.

Lemma canon_val syms t :
  canon syms t = Val (rename syms (rho_of syms (firsts syms t)) t).
Proof.
  unfold canon. rewrite mk_canon_leaves.
  assert (H : mk_leaves syms (leaves t) ([], 0) =
              Val (mk_sub syms (firsts syms t), length (firsts syms t))).
  { apply (mk_leaves_spec syms (leaves t) []); [constructor|intros x []]. }
  rewrite H. cbn [rbind]. f_equal.
  apply apply_subst_rename; [apply firsts_length|]. intros x Hx. now apply firsts_in in Hx.
Qed.

Lemma rename_ext syms r1 r2 t :
  (forall x, In x syms -> occurs x t -> r1 x = r2 x) -> rename syms r1 t = rename syms r2 t.
Proof.
  induction t as [s|l IH] using sexp_ind'; simpl; intros H.
  - destruct (mem_str s syms) eqn:E; [|reflexivity]. apply mem_str_in in E.
    rewrite H; [reflexivity|assumption|now left].
  - f_equal. apply map_ext_in. intros t Ht. rewrite Forall_forall in IH. apply IH; [assumption|].
    intros x Hx Ho. apply H; [assumption|]. unfold occurs; simpl. apply in_flat_map; eauto.
Qed.

Lemma rename_comp syms r1 r2 t :
  (forall x, In x syms -> occurs x t -> In (r1 x) syms) ->
  rename syms r2 (rename syms r1 t) = rename syms (fun x => r2 (r1 x)) t.
Proof.
  induction t as [s|l IH] using sexp_ind'; simpl; intros H.
  - destruct (mem_str s syms) eqn:E; [|now rewrite E]. apply mem_str_in in E.
    assert (mem_str (r1 s) syms = true) as -> by (apply mem_str_in, H; [assumption|now left]).
    reflexivity.
  - f_equal. rewrite map_map. apply map_ext_in. intros t Ht. rewrite Forall_forall in IH.
    apply IH; [assumption|]. intros x Hx Ho. apply H; [assumption|]. unfold occurs; simpl.
    apply in_flat_map; eauto.
Qed.

Lemma rename_id syms t : rename syms (fun x => x) t = t.
Proof.
  induction t as [s|l IH] using sexp_ind'; simpl.
  - now destruct (mem_str s syms).
  - f_equal. rewrite <- (map_id l) at 2. apply map_ext_in. now apply Forall_forall.
Qed.

Lemma leaves_rename syms r t :
  leaves (rename syms r t) = map (fun x => if mem_str x syms then r x else x) (leaves t).
Proof.
  induction t as [s|l IH] using sexp_ind'; [reflexivity|]. cbn [rename leaves].
  induction IH as [|x l Hx Hl IHl]; [reflexivity|]. simpl. now rewrite Hx, IHl, map_app.
Qed.

Lemma firsts_from_rename syms r seen l :
  incl seen syms ->
  (forall x, In x syms -> In x seen \/ In x l -> In (r x) syms) ->
  (forall x y, In x syms -> In y syms -> In x seen \/ In x l -> In y seen \/ In y l -> r x = r y -> x = y) ->
  firsts_from syms (map r seen) (map (fun x => if mem_str x syms then r x else x) l) =
  map r (firsts_from syms seen l).
Proof.
  revert seen; induction l as [|x l IH]; intros seen Hincl Hin Hinj; [reflexivity|].
  simpl. destruct (mem_str x syms) eqn:E; cbn [andb].
  - pose proof E as E'. apply mem_str_in in E'.
    assert (mem_str (r x) syms = true) as -> by (apply mem_str_in, Hin; simpl; auto). cbn [andb].
    replace (mem_str (r x) (map r seen)) with (mem_str x seen).
    + destruct (mem_str x seen) eqn:Es; cbn [negb].
      * apply IH; [assumption| |].
        -- intros y Hy [H|H]; apply Hin; simpl; auto.
        -- intros y z Hy Hz [H1|H1] [H2|H2]; apply Hinj; simpl; auto.
      * cbn [map]. f_equal. change (r x :: map r seen) with (map r (x :: seen)). apply IH.
        -- intros y [<-|Hy]; auto.
        -- intros y Hy [[H|H]|H]; apply Hin; simpl; auto.
        -- intros y z Hy Hz [[H1|H1]|H1] [[H2|H2]|H2]; apply Hinj; simpl; auto.
    + destruct (mem_str x seen) eqn:Es; symmetry.
      * apply mem_str_in, in_map. now apply mem_str_in.
      * apply mem_str_nin. intros H. apply in_map_iff in H as [y [Ey Hy]].
        apply mem_str_nin in Es. apply Es.
        assert (x = y) as ->; [|assumption]. apply Hinj; simpl; auto.
  - rewrite E. cbn [andb]. apply IH; [assumption| |].
    + intros y Hy [H|H]; apply Hin; simpl; auto.
    + intros y z Hy Hz [H1|H1] [H2|H2]; apply Hinj; simpl; auto.
Qed.

Lemma firsts_rename syms r t :
  (forall x, In x syms -> occurs x t -> In (r x) syms) ->
  (forall x y, In x syms -> In y syms -> occurs x t -> occurs y t -> r x = r y -> x = y) ->
  firsts syms (rename syms r t) = map r (firsts syms t).
Proof.
  intros H1 H2. unfold firsts. rewrite leaves_rename.
  pose proof (firsts_from_rename syms r [] (leaves t)) as H. simpl in H. apply H.
  - intros x [].
  - intros x Hx [[]|Hl]. now apply H1.
  - intros x y Hx Hy [[]|Hl] [[]|Hl']. now apply H2.
Qed.

Lemma rho_of_nth syms ks i x v :
  NoDup ks -> length ks <= length syms -> nth_error ks i = Some x -> nth_error syms i = Some v ->
  rho_of syms ks x = v.
Proof. intros. unfold rho_of. now rewrite (mk_sub_lookup_nth syms ks i x), H2. Qed.

Lemma rho_of_spec syms ks x :
  NoDup ks -> length ks <= length syms -> In x ks ->
  exists i, nth_error ks i = Some x /\ nth_error syms i = Some (rho_of syms ks x).
Proof.
  intros Hnd Hlen Hx. apply In_nth_error in Hx as [i Hi]. exists i; split; [assumption|].
  destruct (nth_error syms i) as [v|] eqn:E.
  - f_equal. symmetry. eapply rho_of_nth; eauto.
  - apply nth_error_None in E. assert (i < length ks) by (apply nth_error_Some; congruence). lia.
Qed.

Lemma rho_of_in syms ks x :
  NoDup ks -> length ks <= length syms -> In x ks -> In (rho_of syms ks x) syms.
Proof. intros H1 H2 H3. destruct (rho_of_spec syms ks x H1 H2 H3) as [i [_ H]]. eapply nth_error_In; eauto. Qed.

Lemma rho_of_inj syms ks x y :
  NoDup syms -> NoDup ks -> length ks <= length syms -> In x ks -> In y ks ->
  rho_of syms ks x = rho_of syms ks y -> x = y.
Proof.
  intros Hs Hnd Hlen Hx Hy E.
  destruct (rho_of_spec syms ks x Hnd Hlen Hx) as [i [Hi Hi']].
  destruct (rho_of_spec syms ks y Hnd Hlen Hy) as [j [Hj Hj']].
  rewrite E in Hi'. rewrite NoDup_nth_error in Hs.
  assert (i = j).
  { apply Hs; [|congruence]. apply nth_error_Some; congruence. }
  subst. congruence.
Qed.

Lemma map_rho_firstn syms ks :
  NoDup ks -> length ks <= length syms -> map (rho_of syms ks) ks = firstn (length ks) syms.
Proof.
  intros Hnd Hlen.
  assert (H : forall i, i < length ks -> nth_error (map (rho_of syms ks) ks) i = nth_error syms i).
  { intros i Hi. rewrite nth_error_map. destruct (nth_error ks i) as [x|] eqn:Ex; [|apply nth_error_None in Ex; lia].
    simpl. destruct (nth_error syms i) as [v|] eqn:Ev; [|apply nth_error_None in Ev; lia].
    f_equal. eapply rho_of_nth; eauto. }
  remember (map (rho_of syms ks) ks) as ms eqn:Em.
  assert (Hl : length ms = length ks) by (subst; apply map_length).
  clear Em Hnd. rewrite <- Hl in *. clear Hl ks.
  revert ms Hlen H; induction syms as [|s syms IH]; intros [|m ms] Hlen H; simpl in *; try lia; try reflexivity.
  f_equal.
  - specialize (H 0). simpl in H. assert (Some m = Some s) by (apply H; lia). congruence.
  - apply IH; [lia|]. intros i Hi. apply (H (S i)). lia.
Qed.

Section CanonFacts.
  Variable syms : list string.
  Hypothesis Hsyms : NoDup syms.

  Let R (t : sexp) := rho_of syms (firsts syms t).

  Lemma R_in t x : In x syms -> occurs x t -> In (R t x) syms.
  Proof.
    intros Hx Ho. apply rho_of_in; [apply firsts_nodup|apply firsts_length|]. now apply firsts_in.
  Qed.

  Lemma R_inj t x y :
    In x syms -> In y syms -> occurs x t -> occurs y t -> R t x = R t y -> x = y.
  Proof.
    intros Hx Hy Ho Ho' E. apply (rho_of_inj syms (firsts syms t)); auto.
    - apply firsts_nodup.
    - apply firsts_length.
    - now apply firsts_in.
    - now apply firsts_in.
  Qed.

  Lemma canon_alpha_self t c : canon syms t = Val c -> alpha syms t c.
  Proof.
    rewrite canon_val. intros H; inversion H; subst. exists (R t).
    split; [intros; now apply R_in|]. split; [apply R_inj|reflexivity].
  Qed.

  Lemma canon_firsts t c :
    canon syms t = Val c -> firsts syms c = firstn (length (firsts syms t)) syms.
  Proof.
    rewrite canon_val. intros H; inversion H; subst.
    rewrite firsts_rename.
    - apply map_rho_firstn; [apply firsts_nodup|apply firsts_length].
    - intros. now apply R_in.
    - apply R_inj.
  Qed.

  Lemma canon_canonical t c : canon syms t = Val c -> canonical syms c.
  Proof.
    intros H. apply canon_firsts in H. exists (skipn (length (firsts syms t)) syms).
    rewrite H. symmetry. apply firstn_skipn.
  Qed.

  Lemma canonical_fixed t : canonical syms t -> canon syms t = Val t.
  Proof.
    intros [rest E]. rewrite canon_val. f_equal.
    rewrite <- (rename_id syms t) at 3. apply rename_ext. intros x Hx Ho.
    assert (Hin : In x (firsts syms t)) by (apply firsts_in; auto).
    destruct (rho_of_spec syms _ x (firsts_nodup syms t) (firsts_length syms t) Hin) as [i [Hi Hi']].
    assert (nth_error syms i = Some x).
    { rewrite E. rewrite nth_error_app1; [assumption|]. apply nth_error_Some; congruence. }
    congruence.
  Qed.

  Lemma canon_fixed_iff t : canon syms t = Val t <-> canonical syms t.
  Proof. split; [apply canon_canonical|apply canonical_fixed]. Qed.

  Lemma canon_idem t c : canon syms t = Val c -> canon syms c = Val c.
  Proof. intros H. apply canonical_fixed. eapply canon_canonical; eauto. Qed.

  Lemma alpha_canon_eq t t' : alpha syms t t' -> canon syms t = canon syms t'.
  Proof.
    intros [r [Hin [Hinj ->]]]. rewrite !canon_val. f_equal.
    rewrite rename_comp by assumption. apply rename_ext. intros x Hx Ho.
    rewrite firsts_rename by assumption.
    assert (Hk : In x (firsts syms t)) by (apply firsts_in; auto).
    destruct (rho_of_spec syms _ x (firsts_nodup syms t) (firsts_length syms t) Hk) as [i [Hi Hi']].
    symmetry. eapply (rho_of_nth syms _ i).
    - rewrite <- firsts_rename by assumption. apply firsts_nodup.
    - rewrite map_length. apply firsts_length.
    - rewrite nth_error_map, Hi. reflexivity.
    - assumption.
  Qed.
End CanonFacts.

Lemma alpha_refl syms t : alpha syms t t.
Proof.
  exists (fun x => x). repeat split; auto. symmetry. apply rename_id.
Qed.

Lemma occurs_rename syms r t y :
  occurs y (rename syms r t) <->
  exists x, occurs x t /\ y = if mem_str x syms then r x else x.
Proof.
  unfold occurs. rewrite leaves_rename, in_map_iff. split; intros [x H]; exists x; intuition congruence.
Qed.

Lemma alpha_trans syms a b c : alpha syms a b -> alpha syms b c -> alpha syms a c.
Proof.
  intros [r [H1 [H2 ->]]] [s [H3 [H4 ->]]]. exists (fun x => s (r x)).
  assert (Ho : forall x, In x syms -> occurs x a -> occurs (r x) (rename syms r a)).
  { intros x Hx Hox. apply occurs_rename. exists x; split; [assumption|].
    apply mem_str_in in Hx. now rewrite Hx. }
  repeat split.
  - intros x Hx Hox. apply H3; auto.
  - intros x y Hx Hy Hox Hoy E. apply H2; auto.
  - now rewrite rename_comp.
Qed.

Lemma alpha_sym syms a b : alpha syms a b -> alpha syms b a.
Proof.
  intros [r [H1 [H2 ->]]].
  set (inv := fun y => match find (fun x => String.eqb (r x) y) (firsts syms a) with
                       | Some x => x | None => y end).
  assert (Hinv : forall x, In x syms -> occurs x a -> inv (r x) = x).
  { intros x Hx Ho. unfold inv. destruct (find _ _) as [x'|] eqn:E.
    - apply find_some in E as [E1 E2]. apply firsts_in in E1 as [E1 E1'].
      apply String.eqb_eq in E2. now apply H2.
    - exfalso. eapply find_none in E; [|apply firsts_in; split; eassumption].
      now rewrite String.eqb_refl in E. }
  assert (Hpre : forall y, In y syms -> occurs y (rename syms r a) ->
                 exists x, In x syms /\ occurs x a /\ y = r x).
  { intros y Hy Ho. apply occurs_rename in Ho as [x [Ho E]].
    destruct (mem_str x syms) eqn:Ex.
    - apply mem_str_in in Ex. eauto.
    - apply mem_str_nin in Ex. subst; contradiction. }
  exists inv. repeat split.
  - intros y Hy Ho. destruct (Hpre y Hy Ho) as [x [Hx [Hox ->]]]. now rewrite Hinv.
  - intros y z Hy Hz Hoy Hoz E.
    destruct (Hpre y Hy Hoy) as [x [Hx [Hox ->]]], (Hpre z Hz Hoz) as [x' [Hx' [Hox' ->]]].
    rewrite !Hinv in E by assumption. congruence.
  - rewrite rename_comp by assumption. rewrite <- (rename_id syms a) at 1.
    apply rename_ext. intros x Hx Ho. symmetry. now apply Hinv.
Qed.

Lemma canon_eq_iff_alpha syms a b :
  NoDup syms -> (canon syms a = canon syms b <-> alpha syms a b).
Proof.
  intros Hs. split.
  - intros E. destruct (canon syms a) as [c|] eqn:Ea; [|rewrite canon_val in Ea; discriminate].
    apply (alpha_trans _ _ c); [now apply canon_alpha_self|].
    apply alpha_sym. now apply canon_alpha_self.
  - now apply alpha_canon_eq.
Qed.

Lemma canonical_unique syms a b :
  NoDup syms -> canonical syms a -> canonical syms b -> alpha syms a b -> a = b.
Proof.
  intros Hs Ha Hb Hab. apply canonical_fixed in Ha, Hb; try assumption.
  apply alpha_canon_eq in Hab; try assumption. congruence.
Qed.
