From Coq Require Import Permutation.
From Verif Require Import Base BaseProofs Lines Sexp Reader Pattern Filter Workload Recipe EnumSpec
  SexpProofs CanonProofs PatternProofs FilterProofs WorkloadProofs ReaderProofs.

(* ---- substitute ---- *)

Lemma substitute_fold w atom ts subs acc zs :
  force w = Val ts -> Forall (fun t => proper t = true) ts ->
  force acc = Val zs -> acc = WSet [] \/ not_append acc = false ->
  exists w', fold_left (fun acc s =>
               let* pegs := acc in
               let* p := wplug w atom (WSet [s]) in
               Val (wappend pegs p)) subs (Val acc) = Val w' /\
             force w' = Val (zs ++ flat_map (fun s => map (subst_atom atom s) ts) subs).
Proof.
  intros Hw Hp. revert acc zs; induction subs as [|s subs IH]; intros acc zs Ha Hacc.
  - exists acc. split; [reflexivity|]. simpl. now rewrite app_nil_r.
  - cbn [fold_left rbind wplug].
    assert (Hs : force (WPlug w atom (WSet [s])) = Val (map (subst_atom atom s) ts)).
    { rewrite (force_WPlug w atom (WSet [s]) ts [s]) by (assumption || reflexivity). f_equal.
      clear -Hp. induction Hp as [|t ts Ht Hts IHts]; [reflexivity|].
      cbn [flat_map map]. now rewrite plug_single, IHts. }
    destruct (force_wappend acc (WPlug w atom (WSet [s])) _ _ Ha Hs) as [us [Hu [_ Ho]]].
    rewrite Ho in Hu by (right; reflexivity). clear us Ho.
    destruct (IH (wappend acc (WPlug w atom (WSet [s]))) _ Hu) as [w' [E1 E2]].
    + right. destruct Hacc as [->|Hacc]; [reflexivity|]. destruct acc; try discriminate. reflexivity.
    + exists w'. split; [exact E1|]. rewrite E2. cbn [flat_map]. now rewrite app_assoc.
Qed.

Lemma substitute_exact w sub atom ts subs :
  force w = Val ts -> Forall (fun t => proper t = true) ts -> force sub = Val subs ->
  exists w', substitute w sub atom = Val w' /\
             force w' = Val (flat_map (fun s => map (subst_atom atom s) ts) subs).
Proof.
  intros Hw Hp Hs. unfold substitute. rewrite Hs. cbn [rbind].
  apply (substitute_fold w atom ts subs (WSet []) []); auto.
Qed.

(* ---- iter_metric ---- *)

Lemma gen_at_no_hole G a k t : gen_at G a k t -> ~ occurs a t.
Proof.
  revert t; induction k as [|k IH]; intros t H; [destruct H|].
  destruct H as [p [Hp Hf]]. intros Ho.
  destruct (fill_leaves_occurs _ _ _ _ _ Hf Ho) as [[Hn _]|[q [Hq [Hoq _]]]]; [congruence|].
  now apply (IH q).
Qed.

Lemma gen_at_proper G a k t :
  Forall (fun t => proper t = true) G -> gen_at G a k t -> proper t = true.
Proof.
  intros HG; revert t; induction k as [|k IH]; intros t H; [destruct H|].
  destruct H as [p [Hp Hf]]. rewrite Forall_forall in HG.
  apply (fill_proper (gen_at G a k) a p t); auto.
Qed.

Lemma gen_at_mono G a k j t : k <= j -> gen_at G a k t -> gen_at G a j t.
Proof.
  revert j t; induction k as [|k IH]; intros j t Hle H; [destruct H|].
  destruct j as [|j]; [lia|]. destruct H as [p [Hp Hf]]. exists p; split; [assumption|].
  eapply fill_impl; [|eassumption]. intros x Hx. apply (IH j x); [lia|assumption].
Qed.

(* finitely many fillers have a common derivation bound *)
Lemma fill_gen_bound G a p t : fill (gen G a) a p t -> exists k, fill (gen_at G a k) a p t.
Proof.
  revert t; induction p as [s|l IH] using sexp_ind'; intros t H; inversion H as [? Hh|? Hn|? l' H1]; subst.
  - destruct Hh as [k Hk]. exists k. now constructor.
  - exists 0. now constructor.
  - assert (exists k, Forall2 (fill (gen_at G a k) a) l l') as [k Hk].
    { clear H. revert l' H1. induction IH as [|x l Hx Hl IHl]; intros l' H1; inversion H1 as [|? ? ? ? Hxy Hll]; subst.
      - exists 0; constructor.
      - destruct (Hx _ Hxy) as [k1 Hk1]. destruct (IHl _ Hll) as [k2 Hk2].
        exists (Nat.max k1 k2). constructor.
        + eapply fill_impl; [|eassumption]. intros u. apply gen_at_mono. lia.
        + eapply Forall2_impl_in; [eassumption|]. intros u v _ _ Huv.
          eapply fill_impl; [|eassumption]. intros z. apply gen_at_mono. lia. }
    exists k. now constructor.
Qed.

Lemma gen_fill G a p t : In p G -> fill (gen G a) a p t -> gen G a t.
Proof.
  intros Hp Hf. apply fill_gen_bound in Hf as [k Hk]. exists (S k), p. auto.
Qed.

Lemma gen_inv G a t : gen G a t -> exists p, In p G /\ fill (gen G a) a p t.
Proof.
  intros [[|k] H]; [destruct H|]. destruct H as [p [Hp Hf]]. exists p; split; [assumption|].
  eapply fill_impl; [|eassumption]. intros x Hx. now exists k.
Qed.

(* size of the fillers *)
Lemma fill_leaves_le (P : sexp -> Prop) a p t :
  (forall q, P q -> 1 <= length (leaves q)) -> fill P a p t -> length (leaves p) <= length (leaves t).
Proof.
  intros HP; revert t; induction p as [s|l IH] using sexp_ind'; intros t H; inversion H as [? Hh|? Hn|? l' H1]; subst; simpl; auto.
  clear H. revert l' H1. induction IH as [|x l Hx Hl IHl]; intros l' H1; inversion H1 as [|? ? ? ? Hxy Hll]; subst; simpl; [lia|].
  rewrite !app_length. specialize (Hx _ Hxy). specialize (IHl _ Hll). lia.
Qed.

Lemma fill_atoms_bound (P : sexp -> Prop) a p t :
  (forall q, P q -> 1 <= length (leaves q)) -> fill P a p t ->
  fill (fun q => P q /\ length (leaves q) + length (leaves p) <= length (leaves t) + 1) a p t.
Proof.
  intros HP; revert t; induction p as [s|l IH] using sexp_ind'; intros t H; inversion H as [? Hh|? Hn|? l' H1]; subst.
  - constructor. split; [assumption|]. simpl; lia.
  - now constructor.
  - constructor. clear H.
    assert (Hs : Forall2 (fun x y => length (leaves x) <= length (leaves y)) l l').
    { eapply Forall2_impl_in; [eassumption|]. intros x y _ _ Hf. eapply fill_leaves_le; eauto. }
    assert (Hsum : forall x y, In (x, y) (combine l l') ->
              length (leaves y) - length (leaves x) + length (flat_map leaves l) <= length (flat_map leaves l')).
    { clear -Hs. induction Hs as [|x y l l' Hxy Hl IHl]; simpl; [tauto|].
      rewrite !app_length. intros u v [E|Hin].
      - inversion E; subst. assert (length (flat_map leaves l) <= length (flat_map leaves l')); [|lia].
        clear -Hl. induction Hl; simpl; [lia|]. rewrite !app_length. lia.
      - specialize (IHl u v Hin). lia. }
    simpl. rewrite Forall_forall in IH.
    assert (Hc : Forall2 (fun x y => fill P a x y /\ In (x, y) (combine l l')) l l').
    { clear -H1. induction H1 as [|x y l l' Hxy Hl IHl]; constructor; [simpl; auto|].
      eapply Forall2_impl_in; [eassumption|]. simpl. intros u v _ _ [? ?]; auto. }
    eapply Forall2_impl_in; [exact Hc|]. intros x y Hx _ [Hf Hin].
    specialize (Hsum x y Hin). pose proof (fill_leaves_le P a x y HP Hf).
    eapply fill_impl; [|apply (IH x Hx y Hf)]. cbv beta. intros q [Hq Hle]. split; [assumption|]. lia.
Qed.

(* fillers of a productive production are strictly smaller than the result *)
Lemma fill_smaller (P : sexp -> Prop) m a p t :
  (forall q, P q -> proper q = true) -> productive m a p -> fill P a p t ->
  fill (fun q => P q /\ size m q < size m t) a p t.
Proof.
  intros HP Hprod Hf.
  destruct (in_dec string_dec a (leaves p)) as [Ho|Ho].
  2: { pose proof (fill_no_hole _ _ _ _ Ho Hf); subst. now apply fill_id. }
  destruct (Hprod Ho) as [Hne Hm]. destruct m.
  - eapply fill_impl; [|apply fill_atoms_bound; [|exact Hf]].
    + cbv beta. intros q [Hq Hle]. split; [assumption|]. simpl. lia.
    + intros q Hq. exact (proper_size_pos Atoms q (HP q Hq)).
  - destruct p as [s|l]; [destruct Ho as [->|[]]; congruence|].
    inversion Hf as [| |? l' Hl]; subst. constructor.
    eapply Forall2_impl_in; [exact Hl|]. intros x y Hx Hy Hxy. apply fill_refine in Hxy.
    eapply fill_impl; [|exact Hxy]. cbv beta. intros q [Hq Hs]. split; [assumption|].
    apply (proper_subterm_lt Lists q y l' Hy Hs). discriminate.
  - destruct p as [s|l]; [destruct Ho as [->|[]]; congruence|].
    inversion Hf as [| |? l' Hl]; subst. constructor.
    eapply Forall2_impl_in; [exact Hl|]. intros x y Hx Hy Hxy. apply fill_refine in Hxy.
    eapply fill_impl; [|exact Hxy]. cbv beta. intros q [Hq Hs]. split; [assumption|].
    apply (proper_subterm_lt Depth q y l' Hy Hs). discriminate.
Qed.

(* the list computed at step i *)
Fixpoint stage (G : list sexp) (a : string) (m : metric) (i : nat) : list sexp :=
  match i with
  | 0 => G
  | S j => List.filter (fun t => Nat.ltb (size m t) (S i)) (flat_map (plug a (stage G a m j)) G)
  end.

Lemma stage_proper G a m i :
  Forall (fun t => proper t = true) G -> Forall (fun t => proper t = true) (stage G a m i).
Proof.
  intros HG; induction i as [|i IH]; [assumption|]. cbn [stage]. apply Forall_forall. intros t Ht.
  apply filter_In in Ht as [Ht _]. apply in_flat_map in Ht as [p [Hp Ht]].
  eapply in_plug_proper; eauto. rewrite Forall_forall in HG; auto.
Qed.

Lemma lists0_atom q : size Lists q = 0 -> exists s, q = Atom s.
Proof. destruct q; simpl; [eauto|discriminate]. Qed.

Lemma stage_spec G a m i t :
  Forall (fun t => proper t = true) G -> Forall (productive m a) G ->
  (In t (stage G a m (S i)) <-> gen G a t /\ size m t <= S i).
Proof.
  intros HG Hprod. rewrite Forall_forall in HG, Hprod.
  revert t; induction i as [|i IH]; intros t.
  - cbn [stage]. rewrite filter_In, in_flat_map, Nat.ltb_lt. split.
    + intros [[p [Hp Ht]] Hsz]. split; [|lia].
      apply plug_sound in Ht. apply (gen_fill G a p t Hp).
      apply (fill_smaller _ m) in Ht; auto.
      eapply fill_impl; [|exact Ht]. cbv beta. intros q [Hq Hlt].
      assert (size m q = 0) by lia.
      pose proof (proper_size_pos m q (HG q Hq)) as Hpos. destruct m; try lia.
      apply lists0_atom in H as [s ->].
      apply (gen_fill G a (Atom s) (Atom s) Hq). constructor. intros ->.
      destruct (Hprod _ Hq) as [E _]; [now left|congruence].
    + intros [Hg Hsz]. split; [|lia]. apply gen_inv in Hg as [p [Hp Hf]]. exists p; split; [assumption|].
      apply plug_complete; [auto|].
      apply (fill_smaller _ m) in Hf; auto.
      * eapply fill_impl; [|exact Hf]. cbv beta. intros q [[k Hq] Hlt].
        assert (size m q = 0) by lia.
        assert (Hqp : proper q = true) by (eapply gen_at_proper; [|eassumption]; apply Forall_forall; auto).
        pose proof (proper_size_pos m q Hqp) as Hpos. destruct m; try lia.
        apply lists0_atom in H as [s ->].
        destruct k as [|k]; [destruct Hq|]. destruct Hq as [p' [Hp' Hf']].
        inversion Hf'; subst.
        -- destruct (Hprod _ Hp') as [E _]; [now left|congruence].
        -- assumption.
      * intros q [k Hq]. eapply gen_at_proper; [|eassumption]. apply Forall_forall; auto.
  - change (stage G a m (S (S i))) with
      (List.filter (fun t => Nat.ltb (size m t) (S (S (S i)))) (flat_map (plug a (stage G a m (S i))) G)).
    rewrite filter_In, in_flat_map, Nat.ltb_lt. split.
    + intros [[p [Hp Ht]] Hsz]. split; [|lia]. apply plug_sound in Ht.
      apply (gen_fill G a p t Hp). eapply fill_impl; [|exact Ht]. cbv beta. intros q Hq.
      apply IH in Hq. tauto.
    + intros [Hg Hsz]. split; [|lia]. apply gen_inv in Hg as [p [Hp Hf]]. exists p; split; [assumption|].
      apply plug_complete; [auto|].
      apply (fill_smaller _ m) in Hf; auto.
      * eapply fill_impl; [|exact Hf]. cbv beta. intros q [Hq Hlt]. apply IH. split; [assumption|lia].
      * intros q [k Hq]. eapply gen_at_proper; [|eassumption]. apply Forall_forall; auto.
Qed.

(* ---- connection with iter_metric ---- *)

Lemma wfilter_not_set w f l : wfilter w f <> WSet l.
Proof.
  revert f; induction w as [l0|w a p IHw IHp|g w IH|ws IH] using workload_ind'; intros f; cbn [wfilter].
  - congruence.
  - destruct (is_monotonic f); congruence.
  - apply IH.
  - congruence.
Qed.

Lemma iter_loop_stage wkld a m G :
  wproper wkld -> pforce wkld = G ->
  forall steps i pegs,
  wproper pegs -> pforce pegs = stage G a m i -> (forall l, pegs <> WSet l) ->
  exists w, iter_loop wkld a m (i + 1) steps pegs = Val w /\ wproper w /\
            pforce w = stage G a m (i + steps).
Proof.
  intros Hw HG. induction steps as [|k IH]; intros i pegs Hp Hpf Hns.
  - exists pegs. rewrite Nat.add_0_r. auto.
  - cbn [iter_loop].
    assert (wplug wkld a pegs = Val (WPlug wkld a pegs)) as ->.
    { destruct pegs as [[|x l]| | |]; try reflexivity. destruct (Hns [] eq_refl). }
    cbn [rbind].
    replace (i + 1) with (S i) by lia.
    replace (i + S k) with (S i + k) by lia. apply IH.
    + apply wproper_wfilter. split; assumption.
    + rewrite pforce_wfilter. cbn [pforce]. rewrite Hpf, HG.
      replace (S i + 1) with (S (S i)) by lia. reflexivity.
    + intros l. apply wfilter_not_set.
Qed.

Lemma stage_nil a m i : stage [] a m i = [].
Proof. destruct i; reflexivity. Qed.

(* all that is needed about the placeholder: it reads as one pattern *)
Lemma iter_metric_stage wkld a m n :
  wproper wkld -> (wkld = WSet [] -> exists p, pattern_from_str a = Val p) ->
  exists w, iter_metric wkld a m n = Val w /\ wproper w /\ pforce w = stage (pforce wkld) a m n.
Proof.
  intros Hw Ha. unfold iter_metric. destruct n as [|n].
  - exists wkld; auto.
  - cbn [iter_loop].
    assert (exists p, wplug wkld a wkld = Val p /\ wproper p /\
              (forall f, pforce (wfilter p f) = List.filter (ptest f) (flat_map (plug a (pforce wkld)) (pforce wkld))))
      as [p [-> [Hp Hf]]].
    { destruct wkld as [[|x l]| | |].
      - destruct (Ha eq_refl) as [p E]. unfold wplug. rewrite E. cbn [rbind]. eexists. split; [reflexivity|].
        split; [constructor|]. intros f. rewrite pforce_wfilter. reflexivity.
      - eexists. split; [reflexivity|]. split; [split; exact Hw|]. intros f. now rewrite pforce_wfilter.
      - eexists. split; [reflexivity|]. split; [split; exact Hw|]. intros f0. now rewrite pforce_wfilter.
      - eexists. split; [reflexivity|]. split; [split; exact Hw|]. intros f0. now rewrite pforce_wfilter.
      - eexists. split; [reflexivity|]. split; [split; exact Hw|]. intros f0. now rewrite pforce_wfilter. }
    cbn [rbind].
    destruct (iter_loop_stage wkld a m (pforce wkld) Hw eq_refl n 1 (wfilter p (MetricLt m 2))) as [w [E [H1 H2]]].
    + now apply wproper_wfilter.
    + rewrite Hf. reflexivity.
    + intros l. apply wfilter_not_set.
    + exists w. split; [exact E|]. split; [assumption|]. exact H2.
Qed.

Lemma iter_metric_exact wkld a m n :
  wproper wkld -> (wkld = WSet [] -> exists p, pattern_from_str a = Val p) ->
  Forall (productive m a) (pforce wkld) ->
  exists w ts, iter_metric wkld a m (S n) = Val w /\ force w = Val ts /\
    (forall t, In t ts <-> gen (pforce wkld) a t /\ size m t <= S n).
Proof.
  intros Hw Ha Hprod. destruct (iter_metric_stage wkld a m (S n) Hw Ha) as [w [E [Hp Hf]]].
  exists w, (pforce w). split; [assumption|]. destruct (force_proper _ Hp) as [Hv _]. split; [assumption|].
  intros t. rewrite Hf. apply stage_spec; [|assumption]. now apply force_proper.
Qed.

(* ---- no duplicates ---- *)

(* a term determines the production at its root *)
Definition unambiguous (a : string) (G : list sexp) : Prop :=
  NoDup G /\
  forall p p' t, In p G -> In p' G ->
    fill (fun _ => True) a p t -> fill (fun _ => True) a p' t -> p = p'.

Lemma stage_NoDup G a m i : unambiguous a G -> NoDup (stage G a m i).
Proof.
  intros [Hnd Hu]. induction i as [|i IH]; [assumption|]. cbn [stage]. apply NoDup_filter.
  apply NoDup_flat_map; [assumption| |].
  - intros p _. now apply plug_NoDup.
  - intros p p' t Hp Hp' Ht Ht'. apply plug_sound in Ht, Ht'.
    apply (Hu p p' t Hp Hp'); (eapply fill_impl; [|eassumption]); auto.
Qed.

(* ---- base_lang ---- *)

Open Scope string_scope.
Open Scope list_scope.

Definition base_prod (i : nat) : sexp := Lst (Atom ("OP" ++ show_nat i) :: repeat (Atom "EXPR") i).
Definition base_grammar (n : nat) : list sexp :=
  [Atom "VAR"; Atom "VAL"] ++ map base_prod (seq 1 n).

Lemma digit_word n : n < 10 -> all_chars word_char (digit n) = true.
Proof. intros H. do 10 (destruct n as [|n]; [reflexivity|]). lia. Qed.

Lemma show_aux_word fuel n acc :
  all_chars word_char acc = true -> all_chars word_char (show_aux fuel n acc) = true.
Proof.
  revert n acc; induction fuel as [|fuel IH]; intros n acc H; [assumption|]. cbn [show_aux].
  assert (H' : all_chars word_char (digit (n mod 10) ++ acc)%string = true).
  { rewrite all_chars_app, H, andb_true_r. apply digit_word. apply Nat.mod_upper_bound. discriminate. }
  destruct (Nat.eqb (n / 10) 0); auto.
Qed.

Lemma lex_exprs i s :
  cut s -> lex (repeat_str " EXPR" i ++ s)%string "" = repeat (TWord "EXPR") i ++ lex s "".
Proof.
  intros Hs. induction i as [|i IH]; [reflexivity|].
  cbn [repeat_str repeat]. rewrite sapp_assoc.
  transitivity (lex ("EXPR" ++ (repeat_str " EXPR" i ++ s))%string ""); [reflexivity|].
  rewrite lex_word_cut.
  - cbn [app]. now rewrite IH.
  - split; [discriminate|reflexivity].
  - destruct i; [exact Hs|reflexivity].
Qed.

Lemma read_exprs i r cur st :
  read_tokens (repeat (TWord "EXPR") i ++ r) (cur :: st) =
  read_tokens r ((rev (repeat (Atom "EXPR") i) ++ cur) :: st).
Proof.
  revert cur; induction i as [|i IH]; intros cur; [reflexivity|].
  cbn [repeat app read_tokens]. rewrite IH. f_equal. f_equal. cbn [rev]. now rewrite <- app_assoc.
Qed.

Lemma base_prod_reads i :
  1 <= i -> sexp_from_str ("(OP" ++ show_nat i ++ repeat_str " EXPR" i ++ ")")%string = Val (base_prod i).
Proof.
  intros Hi. unfold sexp_from_str, parse_str, tokens.
  assert (Hw : word ("OP" ++ show_nat i)%string).
  { split; [discriminate|]. rewrite all_chars_app. cbn [andb]. 
    change (all_chars word_char "OP") with true. cbn [andb]. now apply show_aux_word. }
  assert (E : lex ("(OP" ++ show_nat i ++ repeat_str " EXPR" i ++ ")")%string "" =
              TOpen :: TWord ("OP" ++ show_nat i) :: repeat (TWord "EXPR") i ++ [TClose]).
  { transitivity (TOpen :: lex (("OP" ++ show_nat i) ++ (repeat_str " EXPR" i ++ ")"))%string "").
    - rewrite sapp_assoc. reflexivity.
    - f_equal. rewrite lex_word_cut; [|assumption|destruct i; [lia|reflexivity]].
      f_equal. apply (lex_exprs i ")"). reflexivity. }
  rewrite E. cbn [read_tokens]. rewrite read_exprs. cbn [read_tokens].
  rewrite rev_app_distr, rev_involutive. reflexivity.
Qed.

Lemma base_lang_val n : base_lang n = Val (WSet (base_grammar n)).
Proof.
  unfold base_lang, wnew, base_grammar.
  assert (H : rmapM sexp_from_str
     (map (fun i => ("(OP" ++ show_nat i ++ repeat_str " EXPR" i ++ ")")%string) (seq 1 n))
     = Val (map base_prod (seq 1 n))).
  { assert (Hs : forall i, In i (seq 1 n) -> 1 <= i) by (intros i Hi; apply in_seq in Hi; lia).
    revert Hs. induction (seq 1 n) as [|i l IH]; intros Hs; [reflexivity|].
    cbn [map rmapM]. rewrite base_prod_reads by (apply Hs; now left). cbn [rbind].
    rewrite IH by (intros; apply Hs; now right). reflexivity. }
  cbn [app rmapM]. rewrite H. reflexivity.
Qed.

Lemma base_grammar_proper n : Forall (fun t => proper t = true) (base_grammar n).
Proof.
  unfold base_grammar. repeat constructor. apply Forall_map, Forall_forall. intros i Hi.
  cbn [base_prod proper]. cbn [negb andb forallb proper]. induction i; [reflexivity|].
  assert (H : forall k, forallb proper (repeat (Atom "EXPR") k) = true) by (induction k; auto). apply H.
Qed.

Lemma base_prod_leaves i : length (leaves (base_prod i)) = S i.
Proof.
  cbn [base_prod leaves flat_map app length]. f_equal. induction i; [reflexivity|]. cbn [repeat flat_map leaves app length]. now f_equal.
Qed.

Lemma base_grammar_productive m n : Forall (productive m "EXPR") (base_grammar n).
Proof.
  unfold base_grammar. constructor; [intros [H|[]]; discriminate|].
  constructor; [intros [H|[]]; discriminate|].
  apply Forall_map, Forall_forall. intros i Hi _. apply in_seq in Hi. split; [discriminate|].
  destruct m; auto. rewrite base_prod_leaves. lia.
Qed.

Lemma fill_base_length (P : sexp -> Prop) a i t : fill P a (base_prod i) t -> exists l, t = Lst l /\ length l = S i.
Proof.
  intros H. inversion H as [| |? l' Hl]; subst. exists l'; split; [reflexivity|].
  apply Forall2_length in Hl. rewrite <- Hl. cbn [length]. now rewrite repeat_length.
Qed.

Lemma base_grammar_unambiguous n : unambiguous "EXPR" (base_grammar n).
Proof.
  assert (Hat : forall s t, s <> "EXPR" -> fill (fun _ => True) "EXPR" (Atom s) t -> t = Atom s).
  { intros s t Hs H. inversion H; subst; congruence. }
  split.
  - unfold base_grammar. cbn [app]. constructor; [|constructor].
    + intros [H|H]; [discriminate|]. apply in_map_iff in H as [i [H _]]; discriminate.
    + intros H. apply in_map_iff in H as [i [H _]]; discriminate.
    + apply NoDup_map_inj; [|apply seq_NoDup]. intros i j _ _ E.
      apply (f_equal (fun t => length (leaves t))) in E. rewrite !base_prod_leaves in E. congruence.
  - intros p p' t Hp Hp' Hf Hf'. unfold base_grammar in *. cbn [app] in *.
    destruct Hp as [<-|[<-|Hp]]; [apply Hat in Hf; [subst|discriminate]|apply Hat in Hf; [subst|discriminate]|].
    + destruct Hp' as [<-|[<-|Hp']]; [reflexivity|apply Hat in Hf'; discriminate|].
      apply in_map_iff in Hp' as [i [<- _]]. apply fill_base_length in Hf' as [l [E _]]. discriminate.
    + destruct Hp' as [<-|[<-|Hp']]; [apply Hat in Hf'; discriminate|reflexivity|].
      apply in_map_iff in Hp' as [i [<- _]]. apply fill_base_length in Hf' as [l [E _]]. discriminate.
    + apply in_map_iff in Hp as [i [<- _]]. apply fill_base_length in Hf as [l [-> Hl]].
      destruct Hp' as [<-|[<-|Hp']]; [apply Hat in Hf'; discriminate|apply Hat in Hf'; discriminate|].
      apply in_map_iff in Hp' as [j [<- _]]. apply fill_base_length in Hf' as [l' [E Hl']].
      inversion E; subst. rewrite Hl in Hl'. congruence.
Qed.

Lemma base_lang_exactly_once k m n :
  exists w w' ts, base_lang k = Val w /\ iter_metric w "EXPR" m (S n) = Val w' /\
    force w' = Val ts /\ NoDup ts /\
    (forall t, In t ts <-> gen (base_grammar k) "EXPR" t /\ size m t <= S n).
Proof.
  exists (WSet (base_grammar k)). 
  destruct (iter_metric_stage (WSet (base_grammar k)) "EXPR" m (S n)) as [w [E [Hp Hf]]].
  - apply base_grammar_proper.
  - discriminate.
  - exists w, (pforce w). split; [apply base_lang_val|]. split; [exact E|].
    split; [now apply force_proper|]. rewrite Hf. cbn [pforce]. split.
    + apply stage_NoDup, base_grammar_unambiguous.
    + intros t. apply stage_spec; [apply base_grammar_proper|apply base_grammar_productive].
Qed.
