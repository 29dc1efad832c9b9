(* Names of rules: printing, splitting at the arrow, reading back. *)
From Verif Require Import Base BaseProofs Lines Sexp Reader EnumSpec SexpProofs ReaderProofs.
From Verif Require Import Lang LangProofs Syntax Rule Ruleset RuleSpec SyntaxProofs.
Open Scope string_scope.
Open Scope list_scope.

(* ---- the arrow ---- *)
Lemma split_arrow_eq c r :
  split_arrow (String c r) =
  if Ascii.eqb c "=" then
    match r with
    | String d r' => if Ascii.eqb d ">" then Some ("", r')
                     else option_map (fun t => (String c (fst t), snd t)) (split_arrow r)
    | "" => option_map (fun t => (String c (fst t), snd t)) (split_arrow r)
    end
  else option_map (fun t => (String c (fst t), snd t)) (split_arrow r).
Proof.
  assert (forall x : option (string * string), match x with Some (a, b) => Some (String c a, b) | None => None end
    = option_map (fun t => (String c (fst t), snd t)) x) as H by (intros [[a b]|]; reflexivity).
  destruct (Ascii.eqb_spec c "=").
  - subst. destruct r as [|d r']; [reflexivity|]. destruct (Ascii.eqb_spec d ">"); [subst; reflexivity|].
    rewrite <- H. destruct d as [[] [] [] [] [] [] [] []]; try reflexivity. congruence.
  - rewrite <- H. destruct c as [[] [] [] [] [] [] [] []]; try reflexivity. congruence.
Qed.

Definition not_gt (s : string) : Prop := match s with String ">" _ => False | _ => True end.

Lemma split_arrow_app a b : split_arrow a = None -> not_gt b ->
  split_arrow (a ++ b)%string = option_map (fun t => ((a ++ fst t)%string, snd t)) (split_arrow b).
Proof.
  intros Ha Hb. induction a as [|c a IH].
  - simpl. destruct (split_arrow b) as [[x y]|]; reflexivity.
  - rewrite split_arrow_eq in Ha. cbn [append]. rewrite split_arrow_eq.
    assert (forall x, option_map (fun t : string * string => (String c (fst t), snd t))
      (option_map (fun t : string * string => ((a ++ fst t)%string, snd t)) x)
      = option_map (fun t => (String c (a ++ fst t)%string, snd t)) x) as Hc by (intros [[]|]; reflexivity).
    cbn [append]. rewrite <- Hc.
    destruct (Ascii.eqb c "=").
    + destruct a as [|d a'].
      * cbn [append] in *. destruct b as [|d b']; [reflexivity|].
        destruct (Ascii.eqb_spec d ">"); [subst; destruct Hb|].
        destruct (split_arrow (String d b')) as [[]|]; reflexivity.
      * cbn [append] in *. destruct (Ascii.eqb d ">"); [discriminate|].
        rewrite IH; [reflexivity|]. destruct (split_arrow (String d a')); [discriminate|reflexivity].
    + rewrite IH; [reflexivity|]. destruct (split_arrow a); [discriminate|reflexivity].
Qed.

Lemma split_arrow_char c b : c <> "="%char ->
  split_arrow (String c b) = option_map (fun t => (String c (fst t), snd t)) (split_arrow b).
Proof. intros H. rewrite split_arrow_eq. apply Ascii.eqb_neq in H. rewrite H. reflexivity. Qed.

Lemma split_arrow_some s a b : split_arrow s = Some (a, b) -> s = (a ++ "=>" ++ b)%string.
Proof.
  revert a b. induction s as [|c s IH]; intros a b H; [discriminate|]. rewrite split_arrow_eq in H.
  assert (option_map (fun t : string * string => (String c (fst t), snd t)) (split_arrow s) = Some (a, b) ->
    String c s = (a ++ "=>" ++ b)%string) as G.
  { intros E. destruct (split_arrow s) as [[x y]|] eqn:Es; [|discriminate]. inversion E; subst.
    cbn [append]. f_equal. rewrite (IH x b) by reflexivity. reflexivity. }
  destruct (Ascii.eqb_spec c "="); [|auto]. destruct s as [|d s']; [auto|].
  destruct (Ascii.eqb_spec d ">"); [|auto]. inversion H; subst. reflexivity.
Qed.
Lemma no_arrow_split s : no_arrow s -> split_arrow s = None.
Proof.
  intros H. destruct (split_arrow s) as [[a b]|] eqn:E; [|reflexivity].
  apply split_arrow_some in E. destruct (H a b E).
Qed.

Lemma has_biarrow_split s : has_biarrow s = true -> split_arrow s <> None.
Proof.
  induction s as [|c s IH]; [discriminate|]. intros H. rewrite split_arrow_eq.
  assert (has_biarrow s = true -> option_map (fun t : string * string => (String c (fst t), snd t)) (split_arrow s) <> None) as G.
  { intros E. apply IH in E. destruct (split_arrow s); [discriminate|congruence]. }
  destruct (Ascii.eqb_spec c "=").
  - subst. destruct s as [|d s']; [discriminate|]. destruct (Ascii.eqb d ">"); [discriminate|]. apply G. exact H.
  - destruct (Ascii.eqb_spec c "<").
    + subst. destruct s as [|d s']; [discriminate|].
      destruct (Ascii.eqb_spec d "=") as [->|Hd].
      * destruct s' as [|e s'']; [apply G; exact H|]. destruct (Ascii.eqb_spec e ">") as [->|He].
        -- cbn. destruct (split_arrow s''); discriminate.
        -- apply G. destruct e as [[] [] [] [] [] [] [] []]; try exact H. congruence.
      * apply G. destruct d as [[] [] [] [] [] [] [] []]; try exact H. congruence.
    + apply G. destruct c as [[] [] [] [] [] [] [] []]; try exact H. congruence.
Qed.

Lemma has_biarrow_eq c r :
  has_biarrow (String c r) =
  (Ascii.eqb c "<" && match r with String d (String e _) => Ascii.eqb d "=" && Ascii.eqb e ">" | _ => false end)
  || has_biarrow r.
Proof.
  destruct (Ascii.eqb_spec c "<") as [->|Hc].
  - destruct r as [|d r]; [reflexivity|]. destruct (Ascii.eqb_spec d "=") as [->|Hd].
    + destruct r as [|e r]; [reflexivity|]. destruct (Ascii.eqb_spec e ">") as [->|He]; [reflexivity|].
      destruct e as [[] [] [] [] [] [] [] []]; try reflexivity. congruence.
    + assert (match r with String e _ => Ascii.eqb d "=" && Ascii.eqb e ">" | _ => false end = false) as E.
      { apply Ascii.eqb_neq in Hd. rewrite Hd. destruct r; reflexivity. }
      destruct d as [[] [] [] [] [] [] [] []]; try (destruct r; reflexivity). congruence.
  - destruct c as [[] [] [] [] [] [] [] []]; try reflexivity. congruence.
Qed.

(* the arrow of a one-way rule does not look like the arrow of a two-way rule *)
Lemma biarrow_arrow a b : split_arrow a = None -> split_arrow b = None ->
  has_biarrow (a ++ " ==> " ++ b)%string = false.
Proof.
  intros Ha Hb.
  assert (has_biarrow b = false) as Hbb.
  { destruct (has_biarrow b) eqn:E; [|reflexivity]. apply has_biarrow_split in E. congruence. }
  induction a as [|c a IH]; [exact Hbb|].
  rewrite split_arrow_eq in Ha.
  change ((String c a ++ " ==> " ++ b)%string) with (String c (a ++ " ==> " ++ b)%string). rewrite has_biarrow_eq.
  assert (split_arrow a = None) as Ha'.
  { destruct (split_arrow a) eqn:E; [exfalso|reflexivity].
    destruct (Ascii.eqb c "="); [destruct a as [|d a']; [discriminate|destruct (Ascii.eqb d ">"); [discriminate|]]|];
      discriminate. }
  rewrite IH by assumption. rewrite orb_false_r.
  destruct (Ascii.eqb c "<"); [cbn [andb]|reflexivity].
  destruct a as [|d a]; [reflexivity|]. destruct a as [|e a]; cbn [append].
  - simpl. destruct (Ascii.eqb d "="); reflexivity.
  - destruct (Ascii.eqb_spec d "=") as [->|]; [|reflexivity].
    destruct (Ascii.eqb_spec e ">") as [->|]; [|reflexivity]. discriminate Ha'.
Qed.

(* ---- printed terms contain no arrow ---- *)
Lemma word_not_gt_after (s : string) : not_gt (String " " s) /\ not_gt (String ")" s).
Proof. split; exact I. Qed.

Lemma show_no_arrow {O} (name : O -> string) t :
  tall (fun o => split_arrow (name o) = None) t -> split_arrow (show_term name t) = None.
Proof.
  induction t as [o ts IH] using term_ind'. intros Ht. inversion Ht as [? ? Ho Hts]; subst.
  destruct ts as [|t0 ts0]; [exact Ho|]. remember (t0 :: ts0) as ts eqn:Ets.
  assert (show_term name (T o ts) = String "(" (name o ++ fold_right (fun t acc => " " ++ show_term name t ++ acc)%string ")" ts)%string) as ->
    by (subst; reflexivity).
  clear Ets. rewrite split_arrow_char by discriminate.
  assert (not_gt (fold_right (fun t acc => " " ++ show_term name t ++ acc)%string ")" ts) /\
    split_arrow (fold_right (fun t acc => " " ++ show_term name t ++ acc)%string ")" ts) = None) as [G1 G2].
  { clear Ht. induction ts as [|t ts IHts]; [split; [exact I|reflexivity]|].
    inversion IH as [|? ? IHt IHr]; inversion Hts as [|? ? Ht1 Ht2]; subst.
    destruct (IHts IHr Ht2) as [I1 I2]. split; [exact I|].
    change (split_arrow (String " " (show_term name t ++ fold_right (fun t acc => " " ++ show_term name t ++ acc)%string ")" ts)) = None).
    rewrite split_arrow_char by discriminate. rewrite split_arrow_app; auto. rewrite I2. reflexivity. }
  rewrite split_arrow_app by assumption. rewrite G2. reflexivity.
Qed.

(* ---- rule names ---- *)
Lemma split_one_way a b : split_arrow a = None ->
  split_arrow (a ++ " ==> " ++ b)%string = Some ((a ++ " =")%string, (" " ++ b)%string).
Proof. intros H. rewrite split_arrow_app; [reflexivity|assumption|exact I]. Qed.
Lemma split_two_way a b : split_arrow a = None ->
  split_arrow (a ++ " <=> " ++ b)%string = Some ((a ++ " <")%string, (" " ++ b)%string).
Proof. intros H. rewrite split_arrow_app; [reflexivity|assumption|exact I]. Qed.

Lemma sapp_inj_r a b s : (a ++ s)%string = (b ++ s)%string -> a = b.
Proof.
  intros H. apply (f_equal list_ascii_of_string) in H.
  assert (forall x y, list_ascii_of_string (x ++ y)%string = list_ascii_of_string x ++ list_ascii_of_string y) as E.
  { induction x; simpl; congruence. }
  rewrite !E in H. apply app_inv_tail in H. apply (f_equal string_of_list_ascii) in H.
  now rewrite !string_of_list_ascii_of_string in H.
Qed.

Lemma one_way_inj a b c d : split_arrow a = None -> split_arrow c = None ->
  (a ++ " ==> " ++ b)%string = (c ++ " ==> " ++ d)%string -> a = c /\ b = d.
Proof.
  intros Ha Hc E. apply (f_equal split_arrow) in E. rewrite !split_one_way in E by assumption.
  inversion E as [[E1 E2]]. apply sapp_inj_r in E1. auto.
Qed.
Lemma two_way_inj a b c d : split_arrow a = None -> split_arrow c = None ->
  (a ++ " <=> " ++ b)%string = (c ++ " <=> " ++ d)%string -> a = c /\ b = d.
Proof.
  intros Ha Hc E. apply (f_equal split_arrow) in E. rewrite !split_two_way in E by assumption.
  inversion E as [[E1 E2]]. apply sapp_inj_r in E1. auto.
Qed.
Lemma one_two_way a b c d : split_arrow a = None -> split_arrow c = None ->
  (a ++ " ==> " ++ b)%string <> (c ++ " <=> " ++ d)%string.
Proof.
  intros Ha Hc E. apply (f_equal split_arrow) in E. rewrite split_one_way, split_two_way in E by assumption.
  inversion E as [[E1 E2]]. apply (f_equal list_ascii_of_string) in E1.
  assert (forall x y, list_ascii_of_string (x ++ y)%string = list_ascii_of_string x ++ list_ascii_of_string y) as Ea.
  { induction x; simpl; congruence. }
  rewrite !Ea in E1. apply (f_equal (@rev ascii)) in E1. rewrite !rev_app_distr in E1. discriminate E1.
Qed.

(* ---- variables ---- *)
Lemma mem_in x l : mem x l = true <-> In x l.
Proof.
  unfold mem. rewrite existsb_exists. split.
  - intros (y & Hy & E). apply String.eqb_eq in E. now subst.
  - intros H. exists x. split; [exact H|apply String.eqb_refl].
Qed.

Lemma pvars_from_in {O} (p : pat O) v : forall seen,
  In v (pvars_from seen p) <-> ~ In v seen /\ exists n, In n p /\ nop n = PV v.
Proof.
  induction p as [|n p IH]; intros seen; cbn [pvars_from].
  - split; [intros []|]. intros (_ & n & [] & _).
  - destruct (nop n) as [o|x] eqn:E.
    + rewrite IH. split; intros (H1 & m & H2 & H3); (split; [exact H1|]).
      * exists m. split; [right|]; assumption.
      * destruct H2 as [->|H2]; [congruence|eauto].
    + destruct (mem x seen) eqn:Em.
      * apply mem_in in Em. rewrite IH. split; intros (H1 & m & H2 & H3); (split; [exact H1|]).
        -- exists m. split; [right|]; assumption.
        -- destruct H2 as [->|H2]; [|eauto]. rewrite E in H3. inversion H3; subst. contradiction.
      * assert (~ In x seen) as Hx by (rewrite <- mem_in; congruence). simpl. rewrite IH. split.
        -- intros [->|(H1 & m & H2 & H3)].
           ++ split; [exact Hx|]. exists n. auto.
           ++ split; [intros H; apply H1; right; exact H|]. exists m. auto.
        -- intros (H1 & m & [->|H2] & H3); [left; congruence|].
           destruct (string_dec x v); [left; assumption|right]. split; [intros [H|H]; contradiction|eauto].
Qed.
Lemma pvars_in {O} (p : pat O) v : In v (pvars p) <-> exists n, In n p /\ nop n = PV v.
Proof. unfold pvars. rewrite pvars_from_in. simpl. tauto. Qed.

Lemma rewrite_ok_iff {O} (l r : pat O) : rewrite_ok l r = true <->
  forall v, (exists n, In n r /\ nop n = PV v) -> exists n, In n l /\ nop n = PV v.
Proof.
  unfold rewrite_ok. rewrite forallb_forall. split; intros H v Hv.
  - apply pvars_in. apply mem_in. apply H. now apply pvars_in.
  - apply mem_in. apply pvars_in. apply H. now apply pvars_in.
Qed.

(* nodes of the tree are nodes of the array *)
Lemma tree_vars_in {O} (p : pat O) t v : tree p = Val t -> In v (ptvars t) -> exists n, In n p /\ nop n = PV v.
Proof.
  intros Ht. apply (tree_tall (fun o => forall v, o = PV v -> exists n, In n p /\ nop n = PV v)) in Ht.
  - clear - Ht. unfold ptvars. induction t as [o ts IH] using term_ind'. inversion Ht as [? ? Ho Hts]; subst.
    cbn [tvars]. rewrite in_app_iff. intros [H|H].
    + destruct o as [o|x]; [destruct H|]. destruct H as [->|[]]. apply Ho. reflexivity.
    + apply in_flat_map in H as (t & H1 & H2). rewrite Forall_forall in IH, Hts. eapply IH; eauto.
  - intros n Hn w E. exists n. auto.
Qed.

Section Ok.
  Context {O : Type}.
  Variable from_op : string -> nat -> option O.
  Variable name : O -> string.
  Variable ar : O -> nat.
  Notation pat_ok := (pat_ok from_op name ar).
  Notation eov_ok := (eov_ok from_op name ar).
  Notation par := (par ar).

  Lemma eov_ok_op o : eov_ok o -> op_ok (pat_from_op from_op) (pat_name name) par o.
  Proof.
    intros H. destruct o as [o|v]; cbn [RuleSpec.eov_ok] in H.
    - destruct H as (H1 & H2 & H3 & H4). split; [exact H1|]. cbn [pat_name RuleSpec.par].
      unfold pat_from_op. destruct (name o) as [|c [|d s]] eqn:E; try (rewrite H3; reflexivity).
      destruct (Ascii.eqb_spec c "?") as [->|]; [destruct (H4 d s eq_refl)|]. rewrite H3. reflexivity.
    - destruct H as [[H1 H2] H3]. split.
      + split; [discriminate|]. cbn [pat_name append all_chars]. rewrite H2. reflexivity.
      + cbn. destruct v; [congruence|reflexivity].
  Qed.
  Lemma eov_ok_arrow o : eov_ok o -> split_arrow (pat_name name o) = None.
  Proof.
    destruct o as [o|v]; cbn [RuleSpec.eov_ok pat_name].
    - intros (_ & H & _). now apply no_arrow_split.
    - intros [_ H]. cbn [append]. rewrite split_arrow_char by discriminate.
      rewrite no_arrow_split by assumption. reflexivity.
  Qed.

  Lemma pat_ok_rewrite l tl r tr : pat_ok l tl -> pat_ok r tr ->
    (rewrite_ok l r = true <-> incl (ptvars tr) (ptvars tl)).
  Proof.
    intros (L1 & _ & _ & L4) (R1 & _ & _ & R4). rewrite rewrite_ok_iff. split.
    - intros H v Hv. destruct (H v (tree_vars_in r tr v R1 Hv)) as (n & Hn & E). eauto.
    - intros H v (n & Hn & E). apply (tree_vars_in l tl v L1). apply H. eauto.
  Qed.

  Lemma pat_ok_show p t : pat_ok p t -> show_pat name p = Val (show_term (pat_name name) t).
  Proof.
    intros (H & _). unfold show_pat, show_rec. destruct p as [|n p]; [discriminate|]. rewrite H. reflexivity.
  Qed.
  Lemma pat_ok_no_arrow p t : pat_ok p t -> split_arrow (show_term (pat_name name) t) = None.
  Proof. intros (_ & _ & H & _). apply show_no_arrow. eapply tall_mono; [|exact H]. apply eov_ok_arrow. Qed.

  Lemma to_rec_nodes (t : term (eov O)) (P : eov O -> Prop) : tall P t -> forall n, In n (to_rec t) -> P (nop n).
  Proof.
    intros Ht. unfold to_rec.
    assert (forall t, tall P t -> forall r, (forall n, In n r -> P (nop n)) -> forall n, In n (fst (add_term t r)) -> P (nop n)) as G.
    { clear. induction t as [o ts IH] using term_ind'. intros Ht r Hr n Hn. inversion Ht as [? ? Ho Hts]; subst.
      rewrite add_term_eq in Hn.
      assert (forall ts, Forall (fun t => tall P t -> forall r, (forall n, In n r -> P (nop n)) -> forall n, In n (fst (add_term t r)) -> P (nop n)) ts ->
        Forall (tall P) ts -> forall r ids, (forall n, In n r -> P (nop n)) -> forall n, In n (fst (add_terms ts r ids)) -> P (nop n)) as G.
      { clear. induction ts as [|t ts IHts]; intros H1 H2 r ids Hr n Hn; [apply Hr; exact Hn|].
        inversion H1; inversion H2; subst. cbn [add_terms] in Hn. destruct (add_term t r) as [r' i] eqn:E.
        eapply IHts with (r := r'); eauto. intros m Hm. eapply H3; eauto. rewrite E. exact Hm. }
      destruct (add_terms ts r []) as [r' ids] eqn:E. cbn [fst] in Hn. apply in_app_or in Hn as [Hn|[<-|[]]].
      - eapply (G ts IH Hts r []); eauto. rewrite E. exact Hn.
      - exact Ho. }
    intros n Hn. eapply G; [exact Ht| |exact Hn]. intros m [].
  Qed.
  Lemma tall_vars (t : term (eov O)) : tall (fun o => forall v, o = PV v -> In v (ptvars t)) t.
  Proof.
    assert (forall (t : term (eov O)) vs, incl (ptvars t) vs -> tall (fun o => forall v, o = PV v -> In v vs) t) as G.
    { clear. intros t vs. induction t as [o ts IH] using term_ind'. intros Hi. constructor.
      - intros v ->. apply Hi. left. reflexivity.
      - rewrite Forall_forall in *. intros t Ht. apply IH; [exact Ht|]. intros v Hv. apply Hi.
        unfold ptvars. cbn [tvars]. apply in_app_iff. right. apply in_flat_map. eauto. }
    apply G. apply incl_refl.
  Qed.
  (* a pattern read from text *)
  Lemma to_rec_ok t : wf_term par t -> tall eov_ok t -> pat_ok (to_rec t) t.
  Proof.
    intros H1 H2. split; [apply tree_to_rec|]. split; [exact H1|]. split; [exact H2|].
    intros n v Hn E. exact (to_rec_nodes t _ (tall_vars t) n Hn v E).
  Qed.

  Lemma parse_pat_show p t rest : pat_ok p t -> cut rest ->
    parse_pat from_op (show_term (pat_name name) t ++ rest)%string = Some (to_rec t).
  Proof.
    intros (_ & H2 & H3 & _) Hc. apply (parse_rec_show _ _ par); auto.
    eapply tall_mono; [|exact H3]. apply eov_ok_op.
  Qed.
  Lemma parse_pat_space s : parse_pat from_op (String " " s) = parse_pat from_op s.
  Proof. reflexivity. Qed.
  Lemma pat_show_inj p t q u : pat_ok p t -> pat_ok q u ->
    show_term (pat_name name) t = show_term (pat_name name) u -> t = u.
  Proof.
    intros (_ & P2 & P3 & _) (_ & Q2 & Q3 & _).
    apply (show_inj (pat_from_op from_op) _ par); auto; (eapply tall_mono; [apply eov_ok_op|assumption]).
  Qed.

  Lemma rule_name_show l tl r tr : pat_ok l tl -> pat_ok r tr ->
    rule_name name l r = Val (show_term (pat_name name) tl ++ " ==> " ++ show_term (pat_name name) tr)%string.
  Proof.
    intros Hl Hr. unfold rule_name. rewrite (pat_ok_show _ _ Hl), (pat_ok_show _ _ Hr). reflexivity.
  Qed.

  Lemma rule_name_inj l tl r tr l' tl' r' tr' : pat_ok l tl -> pat_ok r tr -> pat_ok l' tl' -> pat_ok r' tr' ->
    (rule_name name l r = rule_name name l' r' <-> tl = tl' /\ tr = tr').
  Proof.
    intros H1 H2 H3 H4. rewrite (rule_name_show _ _ _ _ H1 H2), (rule_name_show _ _ _ _ H3 H4). split.
    - intros E. inversion E as [E']. apply one_way_inj in E' as [E1 E2]; eauto using pat_ok_no_arrow.
      split; eauto using pat_show_inj.
    - intros [-> ->]. reflexivity.
  Qed.

  Lemma rule_new_ok l tl r tr : pat_ok l tl -> pat_ok r tr -> incl (ptvars tr) (ptvars tl) ->
    exists n, rule_name name l r = Val n /\ rule_new name l r = Val (Some (Rule n l r KRhs)).
  Proof.
    intros Hl Hr Hi. unfold rule_new. rewrite (rule_name_show _ _ _ _ Hl Hr). eexists. split; [reflexivity|].
    cbn [rbind]. rewrite (proj2 (pat_ok_rewrite _ _ _ _ Hl Hr)) by assumption. reflexivity.
  Qed.

  (* reading a printed rule *)
  Lemma from_string_name l tl r tr n : pat_ok l tl -> pat_ok r tr -> incl (ptvars tr) (ptvars tl) ->
    rule_name name l r = Val n ->
    rule_from_string from_op name n = Val (Some (Rule n (to_rec tl) (to_rec tr) KRhs, None)).
  Proof.
    intros Hl Hr Hi Hn. pose proof (rule_name_show _ _ _ _ Hl Hr) as E. rewrite Hn in E.
    assert (n = (show_term (pat_name name) tl ++ " ==> " ++ show_term (pat_name name) tr)%string) as -> by congruence.
    unfold rule_from_string.
    rewrite split_one_way by eauto using pat_ok_no_arrow.
    rewrite (parse_pat_show l tl) by (auto; reflexivity). cbn [unwrap rbind].
    assert (parse_pat from_op (" " ++ show_term (pat_name name) tr)%string = Some (to_rec tr)) as ->.
    { change (parse_pat from_op (show_term (pat_name name) tr) = Some (to_rec tr)).
      rewrite <- (sapp_nil (show_term (pat_name name) tr)). apply (parse_pat_show r tr); [auto|exact I]. }
    cbn [unwrap rbind].
    assert (pat_ok (to_rec tl) tl) as Hl' by (destruct Hl as (_ & ? & ? & _); now apply to_rec_ok).
    assert (pat_ok (to_rec tr) tr) as Hr' by (destruct Hr as (_ & ? & ? & _); now apply to_rec_ok).
    destruct (rule_new_ok _ _ _ _ Hl' Hr' Hi) as (n' & N1 & N2). unfold rule_unwrap. rewrite N2. cbn [rbind unwrap].
    rewrite (rule_name_show _ _ _ _ Hl' Hr') in N1. 
    assert (n' = (show_term (pat_name name) tl ++ " ==> " ++ show_term (pat_name name) tr)%string) as -> by congruence.
    rewrite biarrow_arrow by eauto using pat_ok_no_arrow. reflexivity.
  Qed.
End Ok.

Lemma split_arrow_none s : split_arrow s = None -> no_arrow s.
Proof.
  intros H a b E. subst s. revert H. induction a as [|c a IH]; [discriminate|].
  cbn [append]. change (a ++ String "=" (String ">" b))%string with (a ++ "=>" ++ b)%string.
  rewrite split_arrow_eq. intros H. apply IH.
  destruct (split_arrow (a ++ "=>" ++ b)%string) eqn:E; [exfalso|reflexivity].
  destruct (Ascii.eqb c "="); [|discriminate].
  destruct (a ++ "=>" ++ b)%string as [|d s]; [discriminate|].
  destruct (Ascii.eqb d ">"); discriminate.
Qed.

Lemma biarrow_two a b : has_biarrow (a ++ " <=> " ++ b)%string = true.
Proof.
  induction a as [|c a IH]; [reflexivity|].
  change ((String c a ++ " <=> " ++ b)%string) with (String c (a ++ " <=> " ++ b)%string).
  rewrite has_biarrow_eq, IH. apply orb_true_r.
Qed.

Section TwoWay.
  Context {O : Type}.
  Variable from_op : string -> nat -> option O.
  Variable name : O -> string.
  Variable ar : O -> nat.
  Notation pat_ok := (pat_ok from_op name ar).
  Notation show := (show_term (pat_name name)).

  (* reading a two-way rule *)
  Lemma from_string_two_way l tl r tr : pat_ok l tl -> pat_ok r tr ->
    incl (ptvars tr) (ptvars tl) -> incl (ptvars tl) (ptvars tr) ->
    rule_from_string from_op name (show tl ++ " <=> " ++ show tr)%string =
    Val (Some (Rule (show tl ++ " ==> " ++ show tr) (to_rec tl) (to_rec tr) KRhs,
               Some (Rule (show tr ++ " ==> " ++ show tl) (to_rec tr) (to_rec tl) KRhs)))%string.
  Proof.
    intros Hl Hr Hi Hj. unfold rule_from_string.
    rewrite split_two_way by eauto using pat_ok_no_arrow.
    rewrite (parse_pat_show from_op name ar l tl) by (auto; reflexivity). cbn [unwrap rbind].
    assert (parse_pat from_op (" " ++ show tr)%string = Some (to_rec tr)) as ->.
    { change (parse_pat from_op (show tr) = Some (to_rec tr)).
      rewrite <- (sapp_nil (show tr)). apply (parse_pat_show from_op name ar r tr); [auto|exact I]. }
    cbn [unwrap rbind].
    assert (pat_ok (to_rec tl) tl) as Hl' by (destruct Hl as (_ & ? & ? & _); now apply to_rec_ok).
    assert (pat_ok (to_rec tr) tr) as Hr' by (destruct Hr as (_ & ? & ? & _); now apply to_rec_ok).
    destruct (rule_new_ok from_op name ar _ _ _ _ Hl' Hr' Hi) as (n1 & N1 & N2).
    destruct (rule_new_ok from_op name ar _ _ _ _ Hr' Hl' Hj) as (n2 & M1 & M2).
    rewrite (rule_name_show from_op name ar _ _ _ _ Hl' Hr') in N1.
    rewrite (rule_name_show from_op name ar _ _ _ _ Hr' Hl') in M1.
    unfold rule_unwrap. rewrite N2, M2. cbn [rbind unwrap]. rewrite biarrow_two. congruence.
  Qed.
End TwoWay.
