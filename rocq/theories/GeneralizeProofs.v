(* generalize is a consistent, injective renaming of variables. *)
From Coq Require Import Permutation.
From Verif Require Import Base BaseProofs Lang LangProofs Util UtilProofs Analysis Syntax Rule Ruleset RuleSpec Generalize RuleTextProofs EnumSpec RulesetProofs.
Open Scope string_scope.
Open Scope list_scope.

Notation mkT := (fun o l => Val (T o l)).

(* the trees of the entries of an array *)
Lemma run_buf_nodes {O} (r : recexpr O) : forall buf out,
  run_buf mkT r buf = Val out ->
  (exists x, out = buf ++ x /\ length x = length r) /\
  forall i n, nth_error r i = Some n -> exists us,
    Forall2 (fun c u => c < length buf + i /\ nth_error out c = Some u) (nch n) us /\
    nth_error out (length buf + i) = Some (T (nop n) us).
Proof.
  induction r as [|n r IH]; intros buf out H; cbn [run_buf] in H.
  - inversion H; subst. split; [exists []; rewrite app_nil_r; auto|]. intros [|i] n E; discriminate.
  - apply rbind_val in H as (args & H1 & H2). cbn [rbind] in H2.
    destruct (IH _ _ H2) as [(x & E & L) G]. split.
    + exists (T (nop n) args :: x). rewrite E, <- app_assoc. simpl. auto.
    + intros [|i] m Em; cbn [nth_error] in Em.
      * inversion Em; subst m. exists args. split.
        -- apply rmapM_val in H1. clear - H1 E.
           assert (forall l us, Forall2 (fun c u => index buf c = Val u) l us ->
             Forall2 (fun c u => c < length buf + 0 /\ nth_error out c = Some u) l us) as G; [|apply G; exact H1].
           clear H1. intros l us H1. induction H1 as [|c u cs us Hc _ IH]; constructor; auto.
           apply index_val in Hc. assert (c < length buf) by (apply nth_error_Some; congruence).
           split; [lia|]. rewrite E, <- app_assoc. rewrite nth_error_app1 by assumption. exact Hc.
        -- rewrite E, <- app_assoc, Nat.add_0_r. rewrite nth_error_app2 by lia. rewrite Nat.sub_diag. reflexivity.
      * destruct (G i m Em) as (us & G1 & G2). rewrite app_length in G1, G2. cbn [length] in G1, G2.
        exists us. replace (length buf + S i) with (length buf + 1 + i) by lia. auto.
Qed.

Lemma run_buf_snoc {O A} (f : O -> list A -> res A) r n : forall buf,
  run_buf f (r ++ [n]) buf =
  let* b := run_buf f r buf in
  let* args := rmapM (index b) (nch n) in
  let* v := f (nop n) args in Val (b ++ [v]).
Proof.
  induction r as [|m r IH]; intros buf; cbn [app run_buf]; [reflexivity|].
  destruct (rmapM (index buf) (nch m)); [|reflexivity]. cbn [rbind].
  destruct (f (nop m) a); [|reflexivity]. apply IH.
Qed.

Lemma filter_length_le' {A} (f : A -> bool) l : length (List.filter f l) <= length l.
Proof. induction l as [|x l IH]; cbn [List.filter length]; [lia|]. destruct (f x); cbn [length]; lia. Qed.

Section Gen.
  Context {O : Type}.
  Variable op_eqb : O -> O -> bool.
  Variable to_var : O -> option string.
  Variable mk_var : string -> O.
  Hypothesis Heqb : forall a b, op_eqb a b = true -> a = b.
  Hypothesis Hvar : forall s, to_var (mk_var s) = Some s.

  Definition look (m : vmap) (s : string) : string := match lookup m s with Some v => v | None => s end.
  Fixpoint ren (m : vmap) (t : term O) : term O :=
    match t with
    | T o ts => match to_var o with
                | Some s => T (mk_var (look m s)) []
                | None => T o (map (ren m) ts)
                end
    end.

  (* the map holds distinct symbols with the first letters *)
  Definition good (m : vmap) : Prop :=
    NoDup (map fst m) /\ rmapM letter (seq 0 (length m)) = Val (map snd m).

  Lemma good_letters m : good m -> length m <= 26.
  Proof.
    intros [_ H]. destruct (Nat.le_gt_cases (length m) 26); [assumption|exfalso].
    apply rmapM_val in H.
    assert (exists s, letter 26 = Val s) as Hs.
    { assert (In 26 (seq 0 (length m))) as Hi by (apply in_seq; lia). clear - H Hi.
      induction H as [|x y l l' E _ IH]; [destruct Hi|]. destruct Hi as [->|Hi]; eauto. }
    apply letter_26 in Hs. lia.
  Qed.
  Lemma good_nil : good [].
  Proof. split; [constructor|reflexivity]. Qed.
  Lemma rmapM_app {A B} (f : A -> res B) l l' : rmapM f (l ++ l') = let* a := rmapM f l in let* b := rmapM f l' in Val (a ++ b).
  Proof.
    induction l as [|x l IH]; cbn [app rmapM rbind].
    - destruct (rmapM f l'); reflexivity.
    - destruct (f x); [|reflexivity]. cbn [rbind]. rewrite IH. destruct (rmapM f l); [|reflexivity]. cbn [rbind].
      destruct (rmapM f l'); reflexivity.
  Qed.
  Lemma good_snoc m s v : good m -> lookup m s = None -> letter (length m) = Val v -> good (m ++ [(s, v)]).
  Proof.
    intros [G1 G2] Hs Hv. split.
    - rewrite map_app. cbn [map fst]. apply lookup_none in Hs.
      assert (forall (l : list string) x, NoDup l -> ~ In x l -> NoDup (l ++ [x])) as N.
      { clear. induction l as [|y l IH]; intros x Hn Hx; simpl; [repeat constructor; auto|].
        inversion Hn; subst. constructor; [|apply IH; auto; simpl in Hx; tauto].
        rewrite in_app_iff. simpl in *. intros [?|[?|[]]]; [contradiction|subst; tauto]. }
      apply N; assumption.
    - rewrite app_length, Nat.add_comm. cbn [length Nat.add]. rewrite seq_S, rmapM_app, G2. cbn [rbind Nat.add rmapM].
      rewrite Hv. cbn [rbind]. rewrite map_app. reflexivity.
  Qed.
  Lemma good_inj m s s' v : good m -> lookup m s = Some v -> lookup m s' = Some v -> s = s'.
  Proof.
    intros [G1 G2] H1 H2. apply lookup_some_in in H1, H2.
    assert (NoDup (map snd m)) as Hn.
    { assert (forall l vs, NoDup l -> Forall2 (fun i v => letter i = Val v) l vs -> NoDup vs) as N.
      { clear. intros l vs Hn H. induction H as [|i v l vs E H IH]; [constructor|]. inversion Hn as [|? ? N1 N2]; subst.
        constructor; auto. intros Hi. apply N1. clear - E H Hi.
        induction H as [|j w l vs E' _ IH]; [destruct Hi|]. destruct Hi as [->|Hi]; [left|right; auto].
        eapply letter_inj; eauto. }
      apply rmapM_val in G2. eapply N; [apply seq_NoDup|exact G2]. }
    clear - Hn H1 H2. induction m as [|[a b] m IH]; [destruct H1|]. cbn [map snd] in Hn. inversion Hn as [|? ? N1 N2]; subst.
    destruct H1 as [H1|H1], H2 as [H2|H2].
    - congruence.
    - inversion H1; subst. destruct N1. change v with (snd (s', v)). now apply in_map.
    - inversion H2; subst. destruct N1. change v with (snd (s, v)). now apply in_map.
    - auto.
  Qed.

  Lemma good_letter m s v : good m -> lookup m s = Some v -> exists i, letter i = Val v.
  Proof.
    intros [_ G2] H. apply lookup_some_in in H. apply (in_map snd) in H. cbn [snd] in H. apply rmapM_val in G2.
    clear - G2 H. induction G2 as [|i w l vs E _ IH]; [destruct H|]. destruct H as [->|H]; eauto.
  Qed.

  Definition extends (m m' : vmap) : Prop := exists x, m' = m ++ x.
  Lemma extends_refl m : extends m m.
  Proof. exists []. now rewrite app_nil_r. Qed.
  Lemma extends_trans a b c : extends a b -> extends b c -> extends a c.
  Proof. intros [x ->] [y ->]. exists (x ++ y). now rewrite app_assoc. Qed.
  Lemma extends_lookup m m' s v : extends m m' -> lookup m s = Some v -> lookup m' s = Some v.
  Proof. intros [x ->] H. rewrite lookup_app, H. reflexivity. Qed.
  Lemma extends_dom m m' : extends m m' -> incl (map fst m) (map fst m').
  Proof. intros [x ->] y Hy. rewrite map_app. apply in_app_iff. auto. Qed.
  Lemma in_dom (m : vmap) s : In s (map fst m) -> exists v, lookup m s = Some v.
  Proof.
    intros H. destruct (lookup m s) as [v|] eqn:E; [eauto|]. apply lookup_none in E. contradiction.
  Qed.
  Lemma ren_ext m m' t : extends m m' -> incl (tvars to_var t) (map fst m) -> ren m' t = ren m t.
  Proof.
    intros He. induction t as [o ts IH] using term_ind'. intros Hi. cbn [ren tvars] in *.
    destruct (to_var o) as [s|].
    - assert (In s (map fst m)) as Hs by (apply Hi; left; reflexivity). apply in_dom in Hs as (v & Hv).
      unfold look. rewrite Hv, (extends_lookup _ _ _ _ He Hv). reflexivity.
    - f_equal. simpl in Hi. rewrite Forall_forall in IH. apply map_ext_in. intros t Ht. apply IH; [exact Ht|].
      intros s Hs. apply Hi. apply in_flat_map. eauto.
  Qed.

  Variable expr : recexpr O.
  Variable ts : list (term O).
  Hypothesis Hts : run_buf mkT expr [] = Val ts.
  Hypothesis Hleaf : forall n, In n expr -> to_var (nop n) <> None -> nch n = [].

  Lemma nodes_tree i n : nth_error expr i = Some n -> exists us,
    Forall2 (fun c u => c < i /\ nth_error ts c = Some u) (nch n) us /\ nth_error ts i = Some (T (nop n) us).
  Proof. destruct (run_buf_nodes expr [] ts Hts) as [_ G]. apply G. Qed.
  Lemma ts_length : length ts = length expr.
  Proof. destruct (run_buf_nodes expr [] ts Hts) as [(x & -> & L) _]. exact L. Qed.
  Lemma tree_node i t : nth_error ts i = Some t -> exists n, nth_error expr i = Some n.
  Proof.
    intros H. assert (i < length ts) by (apply nth_error_Some; congruence). rewrite ts_length in *.
    destruct (nth_error expr i) eqn:E; [eauto|]. apply nth_error_None in E. lia.
  Qed.

  (* variables that may occur *)
  Variable V : list string.

  Record inv (st : bstate) : Prop := {
    inv_good : good (bs_map st);
    inv_trees : exists B, run_buf mkT (bs_set st) [] = Val B /\
      forall i j, nlookup (bs_ids st) i = Some j -> exists t,
        nth_error ts i = Some t /\ incl (tvars to_var t) (map fst (bs_map st)) /\
        nth_error B j = Some (ren (bs_map st) t);
    inv_vars : forall n v, In n (bs_set st) -> to_var (nop n) = Some v ->
      exists s, In s V /\ lookup (bs_map st) s = Some v }.

  Definition weight (i : nat) : nat := match nth_error expr i with Some n => 2 + length (nch n) | None => 0 end.
  Definition phi (ids : list (nat * nat)) : nat :=
    sum (map (fun i => match nlookup ids i with Some _ => 0 | None => weight i end) (seq 0 (length expr))).

  Lemma phi_cons id j ids : id < length expr -> nlookup ids id = None -> phi ((id, j) :: ids) + weight id = phi ids.
  Proof.
    intros Hid Hn. unfold phi.
    assert (forall l, NoDup l -> In id l ->
      sum (map (fun i => match nlookup ((id, j) :: ids) i with Some _ => 0 | None => weight i end) l) + weight id =
      sum (map (fun i => match nlookup ids i with Some _ => 0 | None => weight i end) l)) as G.
    { induction l as [|x l IH]; intros Hl Hi; [destruct Hi|]. inversion Hl as [|? ? L1 L2]; subst.
      change (sum (?a :: ?b)) with (a + sum b). cbn [map]. change (sum (?a :: ?b)) with (a + sum b).
      destruct (Nat.eq_dec x id) as [->|Hne].
      - cbn [nlookup]. rewrite Nat.eqb_refl, Hn.
        assert (map (fun i => match (if Nat.eqb i id then Some j else nlookup ids i) with Some _ => 0 | None => weight i end) l =
          map (fun i => match nlookup ids i with Some _ => 0 | None => weight i end) l) as ->; [|simpl; lia].
        apply map_ext_in. intros i Hil. destruct (Nat.eqb_spec i id); [subst; contradiction|reflexivity].
      - destruct Hi as [Hi|Hi]; [congruence|]. specialize (IH L2 Hi).
        cbn [nlookup] in *. destruct (Nat.eqb_spec x id); [congruence|]. simpl in *. lia. }
    apply G; [apply seq_NoDup|]. apply in_seq. lia.
  Qed.

  (* what running the work list from [l] does: either it finishes, or there are
     too many variables *)
  Definition runs (l : list nat) (vs : list string) (bound : nat) (st : bstate) : Prop :=
    (exists k st',
      (forall fuel rest, build_loop op_eqb to_var mk_var (k + fuel) expr (l ++ rest) st =
                         build_loop op_eqb to_var mk_var fuel expr rest st') /\
      inv st' /\ Forall (fun i => nlookup (bs_ids st') i <> None) l /\
      (forall i, nlookup (bs_ids st) i <> None -> nlookup (bs_ids st') i <> None) /\
      (forall i, nlookup (bs_ids st') i <> None -> nlookup (bs_ids st) i <> None \/ i < bound) /\
      extends (bs_map st) (bs_map st') /\
      incl (map fst (bs_map st')) (map fst (bs_map st) ++ vs) /\
      k + phi (bs_ids st') <= length l + phi (bs_ids st)) \/
    (exists k, (forall fuel rest, build_loop op_eqb to_var mk_var (k + fuel) expr (l ++ rest) st = Panic) /\
      exists ws, NoDup ws /\ 26 < length ws /\ incl ws (map fst (bs_map st) ++ vs)).

  Definition visit_ok (id : nat) : Prop := forall t st, nth_error ts id = Some t -> inv st ->
    incl (tvars to_var t) V -> runs [id] (tvars to_var t) (S id) st.

  Lemma runs_list bound l : (forall i, In i l -> visit_ok i /\ i < bound) -> forall us st,
    Forall2 (fun i u => nth_error ts i = Some u) l us -> inv st ->
    (forall u, In u us -> incl (tvars to_var u) V) ->
    runs l (flat_map (tvars to_var) us) bound st.
  Proof.
    induction l as [|i l IH]; intros Hl us st Hu Hinv HV.
    - left. exists 0, st. split; [reflexivity|]. split; [exact Hinv|]. split; [constructor|].
      split; [auto|]. split; [auto|]. split; [apply extends_refl|]. split; [|lia].
      inversion Hu; subst. simpl. rewrite app_nil_r. apply incl_refl.
    - inversion Hu as [|? u ? us' Hiu Hus]; subst. cbn [flat_map].
      destruct (Hl i (or_introl eq_refl)) as [Hv Hib].
      destruct (Hv u st Hiu Hinv (HV u (or_introl eq_refl))) as
        [(k1 & st1 & E1 & I1 & D1 & M1 & B1 & X1 & K1 & C1)|(k1 & E1 & ws & W1 & W2 & W3)].
      + destruct (IH (fun j Hj => Hl j (or_intror Hj)) us' st1 Hus I1 (fun w Hw => HV w (or_intror Hw))) as
          [(k2 & st2 & E2 & I2 & D2 & M2 & B2 & X2 & K2 & C2)|(k2 & E2 & ws & W1 & W2 & W3)].
        * left. exists (k1 + k2), st2. split.
          { intros fuel rest. replace (k1 + k2 + fuel) with (k1 + (k2 + fuel)) by lia. cbn [app] in *. rewrite E1. apply E2. }
          split; [exact I2|]. split; [constructor; [apply M2; inversion D1; assumption|exact D2]|].
          split; [auto|]. split.
          { intros j Hj. destruct (B2 j Hj) as [Hj'|]; [|auto]. destruct (B1 j Hj'); [auto|right; lia]. }
          split; [eauto using extends_trans|]. split.
          { intros s Hs. apply K2 in Hs. rewrite !in_app_iff in *. destruct Hs as [Hs|Hs]; [|auto].
            apply K1 in Hs. rewrite in_app_iff in Hs. tauto. }
          cbn [length] in *. lia.
        * right. exists (k1 + k2). split.
          { intros fuel rest. replace (k1 + k2 + fuel) with (k1 + (k2 + fuel)) by lia. cbn [app] in *. rewrite E1. apply E2. }
          exists ws. split; [exact W1|]. split; [exact W2|].
          intros s Hs. apply W3 in Hs. rewrite !in_app_iff in *. destruct Hs as [Hs|Hs]; [|auto].
          apply K1 in Hs. rewrite in_app_iff in Hs. tauto.
      + right. exists k1. split; [intros fuel rest; cbn [app] in *; apply E1|].
        exists ws. split; [exact W1|]. split; [exact W2|]. intros s Hs. apply W3 in Hs. rewrite !in_app_iff in *. tauto.
  Qed.

  Lemma node_eqb_true a b : node_eqb op_eqb a b = true -> a = b.
  Proof.
    unfold node_eqb. destruct a as [oa ca], b as [ob cb]. cbn [nop nch]. intros H.
    apply andb_prop in H as [H H3]. apply andb_prop in H as [H1 H2]. apply Heqb in H1. apply Nat.eqb_eq in H2. subst.
    f_equal. revert cb H2 H3. induction ca as [|x ca IH]; intros [|y cb] H2 H3; try discriminate; [reflexivity|].
    cbn [combine forallb fst snd] in H3. apply andb_prop in H3 as [E H3]. apply Nat.eqb_eq in E. subst. f_equal. apply IH; auto.
  Qed.
  Lemma find_node_some set n : forall i j, find_node op_eqb set n i = Some j -> i <= j /\ nth_error set (j - i) = Some n.
  Proof.
    induction set as [|a set IH]; intros i j H; cbn [find_node] in H; [discriminate|].
    destruct (node_eqb op_eqb a n) eqn:E.
    - inversion H; subst. rewrite Nat.sub_diag. apply node_eqb_true in E. subst. auto.
    - apply IH in H as [H1 H2]. split; [lia|]. replace (j - i) with (S (j - S i)) by lia. exact H2.
  Qed.

  (* inserting a node whose children are done *)
  Lemma insert_inv st id n t us ch m' o' : inv st -> nth_error expr id = Some n -> nth_error ts id = Some t ->
    t = T (nop n) us -> nlookup (bs_ids st) id = None -> extends (bs_map st) m' -> good m' ->
    incl (tvars to_var t) (map fst m') ->
    (match to_var (nop n) with Some s => o' = mk_var (look m' s) /\ ch = [] /\ (exists v, lookup m' s = Some v) /\ In s V
     | None => o' = nop n /\ Forall2 (fun c u => nth_error ts c = Some u) (nch n) us /\
               rmapM (fun c => unwrap (nlookup (bs_ids st) c)) (nch n) = Val ch end) ->
    let '(set', i) := insert_full op_eqb (bs_set st) (Node o' ch) in
    inv (BS ((id, i) :: bs_ids st) set' m').
  Proof.
    intros [Ig (B & IB & Iids) Iv] Hn Ht Et Hid Hext Hg Hvs Hop.
    (* the trees already built do not change *)
    assert (forall i j, nlookup (bs_ids st) i = Some j -> exists t, nth_error ts i = Some t /\
      incl (tvars to_var t) (map fst m') /\ nth_error B j = Some (ren m' t)) as Iids'.
    { intros i j Hj. destruct (Iids i j Hj) as (u & U1 & U2 & U3). exists u. split; [exact U1|]. split.
      - intros s Hs. apply (extends_dom _ _ Hext). auto.
      - rewrite (ren_ext _ _ _ Hext U2). exact U3. }
    (* the tree of the new node *)
    assert (exists args, rmapM (index B) ch = Val args /\ T o' args = ren m' t) as (args & Ha & Et').
    { subst t. cbn [ren]. destruct (to_var (nop n)) as [s|].
      - destruct Hop as (-> & -> & _). exists []. auto.
      - destruct Hop as (-> & Hc & Hch). exists (map (ren m') us). split; [|reflexivity].
        apply rmapM_val. apply rmapM_val in Hch. clear - Hc Hch Iids'. revert us Hc.
        induction Hch as [|c j cs js Hj _ IH]; intros us Hc; inversion Hc as [|? u ? us' Hu Hus]; subst; constructor; auto.
        unfold unwrap in Hj. destruct (nlookup (bs_ids st) c) as [j'|] eqn:E; [|discriminate]. inversion Hj; subst j'.
        destruct (Iids' c j E) as (u' & U1 & _ & U3). apply index_val. congruence. }
    assert (forall n0 v, In n0 (bs_set st ++ [Node o' ch]) -> to_var (nop n0) = Some v ->
      exists s, In s V /\ lookup m' s = Some v) as Iv'.
    { intros n0 v Hi Hv. apply in_app_iff in Hi as [Hi|[<-|[]]].
      - destruct (Iv n0 v Hi Hv) as (s & S1 & S2). exists s. eauto using extends_lookup.
      - cbn [nop] in Hv. destruct (to_var (nop n)) as [s|] eqn:Es.
        + destruct Hop as (-> & _ & (w & Hw) & HsV). rewrite Hvar in Hv. inversion Hv; subst v.
          exists s. split; [exact HsV|]. unfold look. rewrite Hw. reflexivity.
        + destruct Hop as (-> & _). congruence. }
    unfold insert_full. destruct (find_node op_eqb (bs_set st) (Node o' ch) 0) as [i|] eqn:Ef.
    - apply find_node_some in Ef as [_ Ef]. rewrite Nat.sub_0_r in Ef. constructor; cbn [bs_map bs_set bs_ids]; [exact Hg| |].
      + exists B. split; [exact IB|]. intros x y. cbn [nlookup]. destruct (Nat.eqb_spec x id); [|apply Iids'].
        subst x. intros Ey. inversion Ey; subst y. exists t. split; [exact Ht|]. split; [exact Hvs|].
        destruct (run_buf_nodes _ _ _ IB) as [_ G]. destruct (G i _ Ef) as (us' & G1 & G2). cbn [nop nch length Nat.add] in *.
        rewrite G2. f_equal. rewrite <- Et'. f_equal. apply rmapM_val in Ha. clear - G1 Ha.
        revert us' G1. induction Ha as [|c a cs as' E _ IH]; intros us' G1; inversion G1 as [|? u ? us'' [_ U] G1']; subst; [reflexivity|].
        apply index_val in E. f_equal; [congruence|auto].
      + intros n0 v Hi. apply Iv'. apply in_app_iff. auto.
    - constructor; cbn [bs_map bs_set bs_ids]; [exact Hg| |exact Iv'].
      exists (B ++ [T o' args]). split.
      + rewrite run_buf_snoc, IB. cbn [rbind nch nop]. rewrite Ha. reflexivity.
      + assert (length B = length (bs_set st)) as LB.
        { destruct (run_buf_nodes _ _ _ IB) as [(x & -> & L) _]. exact L. }
        intros x y. cbn [nlookup]. destruct (Nat.eqb_spec x id).
        * subst x. intros Ey. inversion Ey; subst y. exists t. split; [exact Ht|]. split; [exact Hvs|].
          rewrite nth_error_app2 by lia. rewrite LB, Nat.sub_diag. cbn [nth_error]. congruence.
        * intros Ey. destruct (Iids' x y Ey) as (u & U1 & U2 & U3). exists u. split; [exact U1|]. split; [exact U2|].
          rewrite nth_error_app1; [exact U3|]. apply nth_error_Some. congruence.
  Qed.

  Lemma rename_cases m n : good m ->
    match to_var (nop n) with
    | None => rename_node to_var mk_var m n = Val (n, m)
    | Some s =>
        (exists m', rename_node to_var mk_var m n = Val (Node (mk_var (look m' s)) [], m') /\
           good m' /\ extends m m' /\ (exists v, lookup m' s = Some v) /\ incl (map fst m') (map fst m ++ [s])) \/
        (rename_node to_var mk_var m n = Panic /\ NoDup (map fst m ++ [s]) /\ length m = 26)
    end.
  Proof.
    intros Hg. unfold rename_node. destruct (to_var (nop n)) as [s|]; [|reflexivity].
    destruct (lookup m s) as [v|] eqn:E.
    - left. exists m. unfold look. rewrite E. split; [reflexivity|]. split; [exact Hg|]. split; [apply extends_refl|].
      split; [eauto|]. intros x Hx. apply in_app_iff; auto.
    - destruct (letter (length m)) as [v|] eqn:El.
      + left. cbn [rbind]. exists (m ++ [(s, v)]). 
        assert (lookup (m ++ [(s, v)]) s = Some v) as L.
        { rewrite lookup_app, E. cbn [lookup]. now rewrite String.eqb_refl. }
        unfold look. rewrite L. split; [reflexivity|]. split; [apply good_snoc; assumption|].
        split; [eexists; reflexivity|]. split; [eauto|]. rewrite map_app. apply incl_refl.
      + right. cbn [rbind]. split; [reflexivity|]. pose proof (good_letters _ Hg) as L.
        assert (~ length m < 26) as L'. { intros H. apply letter_26 in H as (x & H). congruence. }
        split; [|lia]. apply lookup_none in E. destruct Hg as [Hn _].
        eapply Permutation_NoDup; [apply Permutation_cons_append|]. constructor; assumption.
  Qed.

  Lemma filter_nil {A} (f : A -> bool) l : List.filter f l = [] -> Forall (fun x => f x = false) l.
  Proof. induction l as [|x l IH]; intros H; constructor; cbn [List.filter] in H; destruct (f x); auto; discriminate. Qed.

  (* the second visit: all children done *)
  Lemma visit_done id n t st : nth_error expr id = Some n -> nth_error ts id = Some t -> inv st ->
    nlookup (bs_ids st) id = None -> to_var (nop n) = None ->
    Forall (fun i => nlookup (bs_ids st) i <> None) (nch n) ->
    exists j set', (forall fuel rest, build_loop op_eqb to_var mk_var (S fuel) expr (id :: rest) st =
      build_loop op_eqb to_var mk_var fuel expr rest (BS ((id, j) :: bs_ids st) set' (bs_map st))) /\
      inv (BS ((id, j) :: bs_ids st) set' (bs_map st)).
  Proof.
    intros Hn Ht Hi Hid Hop Hd.
    assert (exists ch, rmapM (fun c => unwrap (nlookup (bs_ids st) c)) (nch n) = Val ch) as (ch & Hch).
    { clear - Hd. induction Hd as [|c l Hc _ (ch & IH)]; [exists []; reflexivity|]. cbn [rmapM].
      destruct (nlookup (bs_ids st) c) as [j|]; [|congruence]. cbn [unwrap rbind]. rewrite IH. cbn [rbind]. eauto. }
    destruct (nodes_tree _ _ Hn) as (us & Hus & Ht'). assert (t = T (nop n) us) as Et by congruence.
    assert (incl (tvars to_var t) (map fst (bs_map st))) as Hvs.
    { subst t. cbn [tvars]. rewrite Hop. cbn [app]. intros s Hs. apply in_flat_map in Hs as (u & Hu & Hs).
      destruct Hi as [_ (B & _ & Iids) _].
      assert (exists c, In c (nch n) /\ nth_error ts c = Some u) as (c & Hc & Ec).
      { clear - Hus Hu. induction Hus as [|c u' cs us [_ H] _ IH]; [destruct Hu|]. destruct Hu as [->|Hu].
        - exists c. simpl. auto.
        - destruct (IH Hu) as (c' & H1 & H2). exists c'. simpl. auto. }
      rewrite Forall_forall in Hd. specialize (Hd c Hc). destruct (nlookup (bs_ids st) c) as [j|] eqn:Ej; [|congruence].
      destruct (Iids c j Ej) as (u' & U1 & U2 & _). assert (u' = u) by congruence. subst. auto. }
    pose proof (insert_inv st id n t us ch (bs_map st) (nop n) Hi Hn Ht Et Hid (extends_refl _) (inv_good _ Hi) Hvs) as G.
    rewrite Hop in G.
    destruct (insert_full op_eqb (bs_set st) (Node (nop n) ch)) as [set' j] eqn:Es. exists j, set'. split.
    - intros fuel rest. cbn [build_loop]. rewrite Hid. unfold index. rewrite Hn. cbn [rbind].
      unfold rename_node. rewrite Hop. cbn [rbind].
      assert (List.filter (fun c => match nlookup (bs_ids st) c with Some _ => false | None => true end) (nch n) = []) as ->.
      { clear - Hd. induction Hd as [|c l Hc _ IH]; [reflexivity|]. cbn [List.filter].
        destruct (nlookup (bs_ids st) c); [exact IH|congruence]. }
      rewrite Hch. cbn [rbind nop]. rewrite Es. reflexivity.
    - apply G. split; [reflexivity|]. split; [|exact Hch].
      clear - Hus. induction Hus as [|? ? ? ? [_ H] _ IH]; constructor; auto.
  Qed.

  Lemma visit id : visit_ok id.
  Proof.
    induction id as [id IH] using (well_founded_induction lt_wf). intros t st Ht Hi HV.
    destruct (nlookup (bs_ids st) id) as [j0|] eqn:Hid.
    { left. exists 1, st. split; [intros; cbn [Nat.add app build_loop]; rewrite Hid; reflexivity|].
      split; [exact Hi|]. split; [constructor; [congruence|constructor]|]. split; [auto|]. split; [auto|].
      split; [apply extends_refl|]. split; [intros x Hx; apply in_app_iff; auto|]. cbn [length]. lia. }
    destruct (tree_node _ _ Ht) as (n & Hn). destruct (nodes_tree _ _ Hn) as (us & Hus & Ht').
    assert (t = T (nop n) us) as Et by congruence.
    assert (id < length expr) as Hlt by (apply nth_error_Some; congruence).
    assert (weight id = 2 + length (nch n)) as Hw by (unfold weight; rewrite Hn; reflexivity).
    pose proof (rename_cases (bs_map st) n (inv_good _ Hi)) as R.
    destruct (to_var (nop n)) as [s|] eqn:Hop.
    - assert (nch n = []) as Hnil. { apply Hleaf; [eapply nth_error_In; exact Hn|congruence]. }
      rewrite Hnil in Hus. inversion Hus; subst us.
      assert (tvars to_var t = [s]) as Etv by (subst t; cbn [tvars flat_map]; rewrite Hop; reflexivity). rewrite Etv in *.
      destruct R as [(m' & R1 & R2 & R3 & R4 & R5)|(R1 & R2 & R3)].
      + left. 
        assert (incl (tvars to_var t) (map fst m')) as Hvs.
        { rewrite Etv. intros x [<-|[]]. destruct R4 as (v & R4). apply lookup_some_in in R4. apply (in_map fst) in R4. exact R4. }
        pose proof (insert_inv st id n t [] [] m' (mk_var (look m' s)) Hi Hn Ht Et Hid R3 R2 Hvs) as G. rewrite Hop in G.
        destruct (insert_full op_eqb (bs_set st) (Node (mk_var (look m' s)) [])) as [set' j] eqn:Es.
        exists 1, (BS ((id, j) :: bs_ids st) set' m'). cbn [bs_ids bs_map]. split.
        { intros fuel rest. cbn [Nat.add app build_loop]. rewrite Hid. unfold index. rewrite Hn. cbn [rbind].
          rewrite R1. cbn [rbind nch List.filter rmapM nop]. rewrite Es. reflexivity. }
        split; [apply G; repeat split; auto; apply HV; left; reflexivity|]. cbn [nlookup].
        split; [constructor; [rewrite Nat.eqb_refl; discriminate|constructor]|].
        split; [intros i Hd; destruct (Nat.eqb i id); [discriminate|exact Hd]|].
        split; [intros i Hd; destruct (Nat.eqb_spec i id); [right; lia|left; exact Hd]|].
        split; [exact R3|]. split; [exact R5|].
        pose proof (phi_cons id j (bs_ids st) Hlt Hid). cbn [length]. lia.
      + right. exists 1. split.
        { intros fuel rest. cbn [Nat.add app build_loop]. rewrite Hid. unfold index. rewrite Hn. cbn [rbind]. rewrite R1. reflexivity. }
        exists (map fst (bs_map st) ++ [s]). split; [exact R2|]. split; [rewrite app_length, map_length; cbn [length]; lia|apply incl_refl].
    - assert (tvars to_var t = flat_map (tvars to_var) us) as Etv by (subst t; cbn [tvars]; rewrite Hop; reflexivity).
      set (miss := List.filter (fun c => match nlookup (bs_ids st) c with Some _ => false | None => true end) (nch n)).
      destruct miss as [|c0 miss'] eqn:Em.
      + (* nothing missing *)
        assert (Forall (fun i => nlookup (bs_ids st) i <> None) (nch n)) as Hd.
        { apply filter_nil in Em. eapply Forall_impl; [|exact Em]. intros a. cbn. destruct (nlookup (bs_ids st) a); congruence. }
        destruct (visit_done id n t st Hn Ht Hi Hid Hop Hd) as (j & set' & G1 & G2).
        left. exists 1, (BS ((id, j) :: bs_ids st) set' (bs_map st)). cbn [bs_ids bs_map]. split; [intros; apply G1|].
        split; [exact G2|]. cbn [nlookup].
        split; [constructor; [rewrite Nat.eqb_refl; discriminate|constructor]|].
        split; [intros i Hd'; destruct (Nat.eqb i id); [discriminate|exact Hd']|].
        split; [intros i Hd'; destruct (Nat.eqb_spec i id); [right; lia|left; exact Hd']|].
        split; [apply extends_refl|]. split; [intros x Hx; apply in_app_iff; auto|].
        pose proof (phi_cons id j (bs_ids st) Hlt Hid). cbn [length]. lia.
      + assert (forall c, In c (nch n) -> c < id /\ exists u, In u us /\ nth_error ts c = Some u) as Hch.
        { clear - Hus. intros c Hc. induction Hus as [|c' u cs us [H1 H2] _ IH]; [destruct Hc|]. destruct Hc as [->|Hc].
          - split; [exact H1|]. exists u. simpl. auto.
          - destruct (IH Hc) as (H3 & u' & H4 & H5). split; [exact H3|]. exists u'. simpl. auto. }
        assert (forall c, In c (rev miss) -> In c (nch n)) as Hmiss.
        { intros c Hc. apply in_rev in Hc. unfold miss in Hc. apply filter_In in Hc. tauto. }
        assert (exists ms, Forall2 (fun i u => nth_error ts i = Some u) (rev miss) ms /\ incl ms us) as (ms & Hms & Hin).
        { clear - Hch Hmiss. induction (rev miss) as [|c l IHl]; [exists []; split; [constructor|intros x []]|].
          destruct IHl as (ms & H1 & H2); [intros; apply Hmiss; right; assumption|].
          destruct (Hch c (Hmiss c (or_introl eq_refl))) as (_ & u & Hu & E). exists (u :: ms). split; [constructor; auto|].
          intros x [<-|Hx]; auto. }
        assert (incl (flat_map (tvars to_var) ms) (tvars to_var t)) as Hsub.
        { rewrite Etv. intros x Hx. apply in_flat_map in Hx as (u & Hu & Hx). apply in_flat_map. eauto. }
        assert (forall fuel rest, build_loop op_eqb to_var mk_var (S fuel) expr (id :: rest) st =
          build_loop op_eqb to_var mk_var fuel expr (rev miss ++ id :: rest) st) as Step.
        { intros fuel rest. cbn [build_loop]. rewrite Hid. unfold index. rewrite Hn. cbn [rbind]. rewrite R. cbn [rbind].
          fold miss. rewrite Em. destruct st; reflexivity. }
        assert (length (rev miss) <= length (nch n)) as Hlen by (rewrite rev_length; unfold miss; apply filter_length_le').
        destruct (runs_list id (rev miss)) with (us := ms) (st := st) as
          [(k & st1 & E1 & I1 & D1 & M1 & B1 & X1 & K1 & C1)|(k & E1 & ws & W1 & W2 & W3)]; auto.
        { intros i Hi'. apply Hmiss in Hi'. apply Hch in Hi' as [Hi' _]. split; [apply IH; exact Hi'|exact Hi']. }
        { intros u Hu x Hx. apply HV. apply Hsub. apply in_flat_map. eauto. }
        * assert (nlookup (bs_ids st1) id = None) as Hid1.
          { destruct (nlookup (bs_ids st1) id) eqn:E; [|reflexivity]. destruct (B1 id) as [H|H]; [congruence|congruence|lia]. }
          assert (Forall (fun i => nlookup (bs_ids st1) i <> None) (nch n)) as Hd.
          { rewrite Forall_forall in *. intros c Hc. destruct (nlookup (bs_ids st) c) as [j|] eqn:Ej; [apply M1; congruence|].
            apply D1. apply in_rev. rewrite rev_involutive. unfold miss. apply filter_In. rewrite Ej. auto. }
          destruct (visit_done id n t st1 Hn Ht I1 Hid1 Hop Hd) as (j & set' & G1 & G2).
          left. exists (S k + 1), (BS ((id, j) :: bs_ids st1) set' (bs_map st1)). cbn [bs_ids bs_map]. split.
          { intros fuel rest. replace (S k + 1 + fuel) with (S (k + S fuel)) by lia. cbn [app]. rewrite Step, E1. apply G1. }
          split; [exact G2|]. cbn [nlookup].
          split; [constructor; [rewrite Nat.eqb_refl; discriminate|constructor]|].
          split; [intros i Hd'; destruct (Nat.eqb i id); [discriminate|apply M1; exact Hd']|].
          split; [intros i Hd'; destruct (Nat.eqb_spec i id); [right; lia|]; destruct (B1 i Hd'); [left; assumption|right; lia]|].
          split; [exact X1|]. split.
          { intros x Hx. apply K1 in Hx. rewrite in_app_iff in *. destruct Hx as [Hx|Hx]; [auto|right; apply Hsub; exact Hx]. }
          pose proof (phi_cons id j (bs_ids st1) Hlt Hid1). cbn [length]. lia.
        * right. exists (S k). split; [intros fuel rest; cbn [app Nat.add]; rewrite Step; apply E1|].
          exists ws. split; [exact W1|]. split; [exact W2|].
          intros x Hx. apply W3 in Hx. rewrite in_app_iff in *. destruct Hx as [Hx|Hx]; [auto|right; apply Hsub; exact Hx].
  Qed.

  Lemma build_mono fuel : forall todo st st' d, build_loop op_eqb to_var mk_var fuel expr todo st = Val st' ->
    build_loop op_eqb to_var mk_var (fuel + d) expr todo st = Val st'.
  Proof.
    induction fuel as [|k IH]; intros [|id rest] st st' d H.
    - destruct d; exact H.
    - discriminate.
    - exact H.
    - cbn [Nat.add build_loop] in *. destruct (nlookup (bs_ids st) id); [apply IH; exact H|].
      destruct (index expr id) as [n|]; [|discriminate]. cbn [rbind] in *.
      destruct (rename_node to_var mk_var (bs_map st) n) as [[n' m']|]; [|discriminate]. cbn [rbind] in *.
      destruct (List.filter _ (nch n')) as [|a l] eqn:E.
      + destruct (rmapM _ (nch n')) as [ch|]; [|discriminate]. cbn [rbind] in *.
        destruct (insert_full op_eqb (bs_set st) (Node (nop n') ch)) as [set' i]. apply IH; exact H.
      + apply IH; exact H.
  Qed.

  Lemma phi_nil : phi [] = sum (map (fun n => 2 + length (nch n)) expr).
  Proof.
    unfold phi. f_equal. cbn [nlookup]. unfold weight. clear. 
    assert (forall k (l : recexpr O), map (fun i => match nth_error l (i - k) with Some n => 2 + length (nch n) | None => 0 end) (seq k (length l))
      = map (fun n => 2 + length (nch n)) l) as G.
    { intros k l. revert k. induction l as [|n l IH]; intros k; [reflexivity|]. cbn [length seq map]. rewrite Nat.sub_diag. cbn [nth_error].
      f_equal. rewrite <- (IH (S k)). apply map_ext_in. intros i Hi. apply in_seq in Hi.
      replace (i - k) with (S (i - S k)) by lia. reflexivity. }
    rewrite <- (G 0 expr). apply map_ext. intros i. rewrite Nat.sub_0_r. reflexivity.
  Qed.
  Lemma phi_ge ids i : i < length expr -> nlookup ids i = None -> weight i <= phi ids.
  Proof. intros H1 H2. pose proof (phi_cons i 0 ids H1 H2). lia. Qed.
End Gen.

Lemma last_nth {A} (l r : list A) x : rev l = x :: r -> l = rev r ++ [x].
Proof. intros H. rewrite <- (rev_involutive l), H. reflexivity. Qed.

(* relabelling an array relabels its tree *)
Fixpoint tmap {O P} (f : O -> P) (t : term O) : term P := match t with T o ts => T (f o) (map (tmap f) ts) end.
Lemma run_buf_tmap {O P} (f : O -> P) (r : recexpr O) : forall buf out,
  run_buf mkT r buf = Val out ->
  run_buf mkT (map (fun n => Node (f (nop n)) (nch n)) r) (map (tmap f) buf) = Val (map (tmap f) out).
Proof.
  induction r as [|n r IH]; intros buf out H; cbn [run_buf map] in *.
  - inversion H; subst. reflexivity.
  - apply rbind_val in H as (args & H1 & H2). cbn [rbind nch nop] in *.
    assert (rmapM (index (map (tmap f) buf)) (nch n) = Val (map (tmap f) args)) as ->.
    { apply rmapM_val. apply rmapM_val in H1. clear - H1. induction H1 as [|c a l l' E _ IH]; constructor; auto.
      apply index_val. apply index_val in E. apply map_nth_error. exact E. }
    cbn [rbind]. specialize (IH _ _ H2). rewrite map_app in IH. exact IH.
Qed.

Section Main.
  Context {O : Type}.
  Variable op_eqb : O -> O -> bool.
  Variable to_var : O -> option string.
  Variable mk_var : string -> O.
  Hypothesis Heqb : forall a b, op_eqb a b = true -> a = b.
  Hypothesis Hvar : forall s, to_var (mk_var s) = Some s.

  Lemma conv_ren m t : tmap (to_enode_or_var to_var) (ren to_var mk_var m t) = gen_term to_var (look m) t.
  Proof.
    induction t as [o ts IH] using term_ind'. cbn [ren gen_term]. destruct (to_var o) as [s|] eqn:E; cbn [tmap map].
    - unfold to_enode_or_var. rewrite Hvar. reflexivity.
    - unfold to_enode_or_var at 1. rewrite E. f_equal. rewrite map_map. apply map_ext_in. intros t Ht.
      rewrite Forall_forall in IH. auto.
  Qed.
  Lemma gen_term_vars ar rho t : (forall o, to_var o <> None -> ar o = 0) -> wf_term ar t ->
    ptvars (gen_term to_var rho t) = map rho (tvars to_var t).
  Proof.
    unfold ptvars. intros Har. induction t as [o ts IH] using term_ind'. intros Hw. inversion Hw as [? ? Hl Hts]; subst.
    cbn [gen_term tvars]. destruct (to_var o) as [s|] eqn:E.
    - rewrite Har in Hl by congruence. destruct ts; [|discriminate]. reflexivity.
    - cbn [tvars pvar app]. rewrite flat_map_concat_map, map_map, flat_map_concat_map, concat_map, map_map. f_equal.
      apply map_ext_in. intros t Ht. rewrite Forall_forall in *. auto.
  Qed.
  Lemma gen_term_wf ar rho t : (forall o, to_var o <> None -> ar o = 0) -> wf_term ar t ->
    wf_term (par ar) (gen_term to_var rho t).
  Proof.
    intros Har. induction t as [o ts IH] using term_ind'. intros Hw. inversion Hw as [? ? Hl Hts]; subst.
    cbn [gen_term]. destruct (to_var o) as [s|] eqn:E; [constructor; [reflexivity|constructor]|].
    constructor; [rewrite map_length; exact Hl|]. rewrite Forall_forall in *. intros u Hu.
    apply in_map_iff in Hu as (t & <- & Ht). auto.
  Qed.

  (* generalizing an expression whose tree is [t] *)
  Theorem generalize_spec m expr t : good m -> tree expr = Val t ->
    (forall n, In n expr -> to_var (nop n) <> None -> nch n = []) ->
    (exists p m', generalize op_eqb to_var mk_var m expr = Val (p, m') /\ good m' /\ extends m m' /\
       (forall s, In s (map fst m') <-> In s (map fst m) \/ In s (tvars to_var t)) /\
       tree p = Val (gen_term to_var (look m') t) /\
       (forall n v, In n p -> nop n = PV v -> exists s, In s (tvars to_var t) /\ v = look m' s)) \/
    (generalize op_eqb to_var mk_var m expr = Panic /\
       exists ws, NoDup ws /\ 26 < length ws /\ incl ws (map fst m ++ tvars to_var t)).
  Proof.
    intros Hg Ht Hleaf. unfold tree, fold_rec in Ht. apply rbind_val in Ht as (ts & Hts & Hp).
    unfold pop_unwrap in Hp. destruct (rev ts) as [|t0 rts] eqn:Er; [discriminate|]. inversion Hp; subst t0. clear Hp.
    apply last_nth in Er.
    pose proof (ts_length expr ts Hts) as Hlen.
    destruct (rev expr) as [|root re] eqn:Ee.
    { apply (f_equal (@rev _)) in Ee. rewrite rev_involutive in Ee. subst expr. rewrite Er, app_length in Hlen. simpl in Hlen. lia. }
    assert (Ee' := last_nth _ _ _ Ee).
    assert (length re = length rts) as Hlr.
    { rewrite Er, Ee', !app_length, !rev_length in Hlen. simpl in Hlen. lia. }
    set (id := length re).
    assert (nth_error expr id = Some root) as Hroot.
    { rewrite Ee', nth_error_app2 by (rewrite rev_length; unfold id; lia). rewrite rev_length. unfold id. rewrite Nat.sub_diag. reflexivity. }
    assert (nth_error ts id = Some t) as Htid.
    { rewrite Er, nth_error_app2 by (rewrite rev_length; unfold id; lia). rewrite rev_length. unfold id. rewrite Hlr, Nat.sub_diag. reflexivity. }
    destruct (nodes_tree expr ts Hts id root Hroot) as (us & Hus & Ht'). assert (t = T (nop root) us) as Et by congruence.
    unfold generalize. rewrite Ee. cbn [rbind].
    pose proof (rename_cases to_var mk_var m root Hg) as R.
    destruct (to_var (nop root)) as [s|] eqn:Hop.
    - assert (nch root = []) as Hnil by (apply Hleaf; [eapply nth_error_In; exact Hroot|congruence]).
      rewrite Hnil in Hus. inversion Hus; subst us.
      assert (tvars to_var t = [s]) as Etv by (subst t; cbn [tvars flat_map]; rewrite Hop; reflexivity). rewrite Etv in *.
      destruct R as [(m' & R1 & R2 & R3 & (v & R4) & R5)|(R1 & R2 & R3)].
      + left. rewrite R1. cbn [rbind nch nop rev build_loop rmapM bs_ids bs_set bs_map app].
        unfold build_fuel. cbn [build_loop rbind bs_set bs_map app map nop nch].
        exists [Node (to_enode_or_var to_var (mk_var (look m' s))) []], m'.
        split; [reflexivity|]. split; [exact R2|]. split; [exact R3|]. split.
        { intros x. split; intros Hx; [apply R5 in Hx; rewrite in_app_iff in Hx; exact Hx|].
          destruct Hx as [Hx|[<-|[]]]; [apply (extends_dom _ _ R3); exact Hx|].
          apply lookup_some_in in R4. apply (in_map fst) in R4. exact R4. }
        unfold to_enode_or_var. rewrite Hvar. split.
        { subst t. cbn [gen_term]. rewrite Hop. reflexivity. }
        intros n w [<-|[]]. cbn [nop]. intros Ew. inversion Ew; subst w. exists s. simpl; auto.
      + right. rewrite R1. split; [reflexivity|]. exists (map fst m ++ [s]). split; [exact R2|].
        split; [rewrite app_length, map_length; cbn [length]; lia|apply incl_refl].
    - rewrite R. cbn [rbind].
      assert (tvars to_var t = flat_map (tvars to_var) us) as Etv by (subst t; cbn [tvars]; rewrite Hop; reflexivity).
      assert (inv to_var mk_var ts (tvars to_var t) (BS [] [] m)) as I0.
      { constructor; cbn [bs_map bs_set bs_ids]; [exact Hg| |intros n v []].
        exists []. split; [reflexivity|]. intros i j H. discriminate. }
      assert (id < length expr) as Hlt by (apply nth_error_Some; congruence).
      assert (length (rev (nch root)) = length (nch root)) as Lr by apply rev_length.
      destruct (runs_list op_eqb to_var mk_var expr ts (tvars to_var t) id (rev (nch root))) with (us := rev us) (st := @BS O [] [] m) as
        [(k & st1 & E1 & I1 & D1 & M1 & B1 & X1 & K1 & C1)|(k & E1 & ws & W1 & W2 & W3)]; auto.
      { intros i Hi. split; [apply visit; auto|]. apply in_rev in Hi. clear - Hus Hi.
        induction Hus as [|c u cs us [H _] _ IH]; [destruct Hi|]. destruct Hi as [->|Hi]; auto. }
      { clear - Hus. induction Hus as [|c u cs us [_ H] _ IH]; [constructor|]. cbn [rev]. apply Forall2_app; [exact IH|]. constructor; auto. }
      { intros u Hu x Hx. rewrite Etv. apply in_rev in Hu. apply in_flat_map. eauto. }
      + assert (nlookup (bs_ids st1) id = None) as Hid1.
        { destruct (nlookup (bs_ids st1) id) eqn:E; [|reflexivity]. destruct (B1 id) as [H|H]; [congruence| |lia]. cbn in H. congruence. }
        assert (k <= build_fuel expr) as Hk.
        { unfold build_fuel. rewrite <- (phi_nil expr). pose proof (phi_ge expr _ _ Hlt Hid1) as P.
          unfold weight in P. rewrite Hroot in P. cbn [bs_ids] in C1. lia. }
        assert (build_loop op_eqb to_var mk_var (build_fuel expr) expr (rev (nch root)) (@BS O [] [] m) = Val st1) as ->.
        { specialize (E1 (build_fuel expr - k) []). rewrite app_nil_r in E1.
          replace (k + (build_fuel expr - k)) with (build_fuel expr) in E1 by lia. rewrite E1. destruct (build_fuel expr - k); reflexivity. }
        cbn [rbind].
        assert (Forall (fun i => nlookup (bs_ids st1) i <> None) (nch root)) as Hd.
        { rewrite Forall_forall in *. intros c Hc. apply D1. apply in_rev. rewrite rev_involutive. exact Hc. }
        destruct (visit_done op_eqb to_var mk_var Heqb Hvar expr ts Hts (tvars to_var t) id root t st1 Hroot Htid I1 Hid1 Hop Hd)
          as (j0 & set0 & _ & I2).
        destruct I1 as [Ig (B & IB & Iids) Iv].
        assert (exists ch, rmapM (fun c => unwrap (nlookup (bs_ids st1) c)) (nch root) = Val ch /\
          rmapM (index B) ch = Val (map (ren to_var mk_var (bs_map st1)) us)) as (ch & Hch & Hargs).
        { assert (Forall2 (fun c u => nth_error ts c = Some u) (nch root) us) as Hus'.
          { clear - Hus. induction Hus as [|? ? ? ? [_ H] _ IH]; constructor; auto. }
          clear - Hd Hus' Iids. revert Hd. induction Hus' as [|c u cs us E _ IH]; intros Hd; [exists []; auto|].
          inversion Hd as [|? ? D1 D2]; subst. destruct (IH D2) as (ch & I1 & I2). cbn [rmapM map].
          destruct (nlookup (bs_ids st1) c) as [j|] eqn:Ej; [|congruence]. cbn [unwrap rbind]. rewrite I1. cbn [rbind].
          exists (j :: ch). split; [reflexivity|]. cbn [rmapM]. destruct (Iids c j Ej) as (u' & U1 & _ & U3).
          assert (u' = u) by congruence. subst u'. unfold index at 1. rewrite U3. cbn [rbind]. rewrite I2. reflexivity. }
        left. rewrite Hch. cbn [rbind].
        exists (map (fun n => Node (to_enode_or_var to_var (nop n)) (nch n)) (bs_set st1 ++ [Node (nop root) ch])), (bs_map st1).
        split; [reflexivity|]. split; [exact Ig|]. split; [exact X1|]. split.
        { intros x. split; intros Hx.
          - apply K1 in Hx. cbn [bs_map] in Hx. rewrite in_app_iff in Hx. destruct Hx as [Hx|Hx]; [auto|]. right. rewrite Etv.
            apply in_flat_map in Hx as (u & Hu & Hx). apply in_rev in Hu. apply in_flat_map. eauto.
          - destruct Hx as [Hx|Hx]; [apply (extends_dom _ _ X1); exact Hx|].
            destruct I2 as [_ (B2 & _ & Iids2) _]. cbn [bs_ids bs_map] in Iids2. specialize (Iids2 id j0). cbn [nlookup] in Iids2.
            rewrite Nat.eqb_refl in Iids2. destruct (Iids2 eq_refl) as (t' & T1 & T2 & _).
            assert (t' = t) by congruence. subst t'. auto. }
        split.
        { unfold tree, fold_rec.
          assert (run_buf mkT (bs_set st1 ++ [Node (nop root) ch]) [] = Val (B ++ [T (nop root) (map (ren to_var mk_var (bs_map st1)) us)])) as Hr.
          { rewrite run_buf_snoc, IB. cbn [rbind nch nop]. rewrite Hargs. reflexivity. }
          apply (run_buf_tmap (to_enode_or_var to_var)) in Hr. cbn [map] in Hr. rewrite Hr. cbn [rbind].
          unfold pop_unwrap. rewrite map_app, rev_app_distr. cbn [map rev app]. f_equal. rewrite <- conv_ren.
          subst t. cbn [ren]. rewrite Hop. reflexivity. }
        { intros n v Hn Hv. apply in_map_iff in Hn as (n0 & <- & Hn0). cbn [nop] in Hv.
          unfold to_enode_or_var in Hv. destruct (to_var (nop n0)) as [w|] eqn:Ew; [|discriminate]. inversion Hv; subst w.
          apply in_app_iff in Hn0 as [Hn0|[<-|[]]].
          - destruct (Iv n0 v Hn0 Ew) as (s & S1 & S2). exists s. split; [exact S1|]. unfold look. rewrite S2. reflexivity.
          - cbn [nop] in Ew. congruence. }
      + right. split.
        * destruct (build_loop op_eqb to_var mk_var (build_fuel expr) expr (rev (nch root)) (@BS O [] [] m)) as [st'|] eqn:E; [|reflexivity].
          apply build_mono with (d := k) in E. specialize (E1 (build_fuel expr) []). rewrite app_nil_r, Nat.add_comm in E1. congruence.
        * exists ws. split; [exact W1|]. split; [exact W2|].
          intros x Hx. apply W3 in Hx. cbn [bs_map] in Hx. rewrite in_app_iff in *. destruct Hx as [Hx|Hx]; [auto|].
          right. rewrite Etv. apply in_flat_map in Hx as (u & Hu & Hx). apply in_rev in Hu. apply in_flat_map. eauto.
  Qed.

  Lemma wf_rec_tree ar (r : recexpr O) t : wf_rec ar r -> tree r = Val t -> wf_term ar t.
  Proof.
    intros Hw Ht. unfold tree, fold_rec in Ht. apply rbind_val in Ht as (b & H1 & H2).
    assert (forall r buf b, wf_rec ar r -> Forall (wf_term ar) buf -> run_buf mkT r buf = Val b -> Forall (wf_term ar) b) as G.
    { clear. induction r as [|n r IH]; intros buf b Hw Hb H; cbn [run_buf] in H; [inversion H; subst; assumption|].
      inversion Hw as [|? ? W1 W2]; subst. apply rbind_val in H as (args & H1 & H2). cbn [rbind] in H2.
      apply IH in H2; [exact H2|exact W2|]. apply Forall_app. split; [exact Hb|]. constructor; [|constructor].
      apply rmapM_val in H1. constructor; [rewrite <- W1; symmetry; eapply Forall2_length; exact H1|].
      clear - H1 Hb. induction H1 as [|c a l l' E _ IH]; constructor; auto. apply index_val in E. apply nth_error_In in E.
      rewrite Forall_forall in Hb. auto. }
    specialize (G _ _ _ Hw (Forall_nil _) H1). unfold pop_unwrap in H2. destruct (rev b) as [|x l] eqn:E; [discriminate|].
    inversion H2; subst. apply last_nth in E. rewrite E in G. apply Forall_app in G as [_ G]. inversion G; assumption.
  Qed.

  Lemma at_most_app_le {A} n (l l' : list A) : incl l' l -> at_most n l -> at_most n l'.
  Proof. intros Hi H vs V1 V2. apply H; [exact V1|]. intros x Hx. auto. Qed.

  Variable ar : O -> nat.
  Hypothesis Har : forall o, to_var o <> None -> ar o = 0.

  Lemma wf_leaf r n : wf_rec ar r -> In n r -> to_var (nop n) <> None -> nch n = [].
  Proof.
    intros Hw Hi Hv. unfold wf_rec in Hw. rewrite Forall_forall in Hw. specialize (Hw n Hi). rewrite Har in Hw by exact Hv.
    destruct (nch n); [reflexivity|discriminate].
  Qed.

  (* both sides of a candidate: one renaming, injective on the variables of the
     two terms; no result exactly when there are more variables than letters *)
  Theorem generalize_pair e1 t1 e2 t2 : wf_rec ar e1 -> wf_rec ar e2 -> tree e1 = Val t1 -> tree e2 = Val t2 ->
    at_most 26 (tvars to_var t1 ++ tvars to_var t2) ->
    exists l m1 r m2 rho,
      generalize op_eqb to_var mk_var [] e1 = Val (l, m1) /\
      generalize op_eqb to_var mk_var m1 e2 = Val (r, m2) /\
      (forall s s', In s (tvars to_var t1 ++ tvars to_var t2) -> In s' (tvars to_var t1 ++ tvars to_var t2) ->
         rho s = rho s' -> s = s') /\
      (forall s, In s (tvars to_var t1 ++ tvars to_var t2) -> exists i, letter i = Val (rho s)) /\
      tree l = Val (gen_term to_var rho t1) /\ tree r = Val (gen_term to_var rho t2) /\
      (forall n v, In n l -> nop n = PV v -> In v (ptvars (gen_term to_var rho t1))) /\
      (forall n v, In n r -> nop n = PV v -> In v (ptvars (gen_term to_var rho t2))).
  Proof.
    intros W1 W2 H1 H2 Hm.
    destruct (generalize_spec [] e1 t1 good_nil H1 (fun n => wf_leaf e1 n W1)) as
      [(l & m1 & L1 & L2 & L3 & L4 & L5 & L6)|(_ & ws & A1 & A2 & A3)].
    2:{ specialize (Hm ws A1). cbn [map app] in A3. assert (length ws <= 26); [|lia]. apply Hm. intros x Hx. apply in_app_iff; auto. }
    destruct (generalize_spec m1 e2 t2 L2 H2 (fun n => wf_leaf e2 n W2)) as
      [(r & m2 & R1 & R2 & R3 & R4 & R5 & R6)|(_ & ws & A1 & A2 & A3)].
    2:{ specialize (Hm ws A1). assert (length ws <= 26); [|lia]. apply Hm. intros x Hx. apply A3 in Hx.
        rewrite in_app_iff in *. destruct Hx as [Hx|Hx]; [|auto]. apply L4 in Hx. destruct Hx as [[]|Hx]; auto. }
    exists l, m1, r, m2, (look m2). split; [exact L1|]. split; [exact R1|].
    assert (forall s, In s (tvars to_var t1 ++ tvars to_var t2) -> exists v, lookup m2 s = Some v) as Hd.
    { intros s Hs. apply in_dom. apply R4. rewrite in_app_iff in Hs. destruct Hs as [Hs|Hs]; [left; apply L4; auto|auto]. }
    split.
    { intros s s' Hs Hs' E. destruct (Hd s Hs) as (v & Ev). destruct (Hd s' Hs') as (v' & Ev'). unfold look in E.
      rewrite Ev, Ev' in E. subst v'. eapply good_inj; eauto. }
    split.
    { intros s Hs. destruct (Hd s Hs) as (v & Ev). unfold look. rewrite Ev. eapply good_letter; eauto. }
    assert (forall s, In s (tvars to_var t1) -> look m1 s = look m2 s) as Hl.
    { intros s Hs. assert (In s (map fst m1)) as Hi by (apply L4; auto). apply in_dom in Hi as (v & Hv).
      unfold look. rewrite Hv, (extends_lookup _ _ _ _ R3 Hv). reflexivity. }
    assert (gen_term to_var (look m1) t1 = gen_term to_var (look m2) t1) as Eg.
    { clear - Hl. induction t1 as [o ts IH] using term_ind'. cbn [gen_term tvars] in *. destruct (to_var o) as [s|].
      - rewrite Hl; [reflexivity|left; reflexivity].
      - f_equal. apply map_ext_in. intros t Ht. rewrite Forall_forall in IH. apply IH; [exact Ht|].
        intros s Hs. apply Hl. apply in_app_iff. right. apply in_flat_map. eauto. }
    split; [rewrite L5, Eg; reflexivity|]. split; [exact R5|].
    pose proof (wf_rec_tree ar e1 t1 W1 H1) as T1. pose proof (wf_rec_tree ar e2 t2 W2 H2) as T2. split.
    - intros n v Hn Hv. destruct (L6 n v Hn Hv) as (s & S1 & ->). rewrite (gen_term_vars ar) by auto. rewrite (Hl s S1). now apply in_map.
    - intros n v Hn Hv. destruct (R6 n v Hn Hv) as (s & S1 & ->). rewrite (gen_term_vars ar) by auto. now apply in_map.
  Qed.

  Lemma nodup_le26 (m : @vmap) : good m -> forall ws, NoDup ws -> incl ws (map fst m) -> length ws <= 26.
  Proof.
    intros Hg ws Hn Hi. apply good_letters in Hg. rewrite <- (map_length fst m) in Hg.
    pose proof (NoDup_incl_length Hn Hi). lia.
  Qed.
  (* ... and with more variables it panics *)
  Theorem generalize_pair_panics e1 t1 e2 t2 : wf_rec ar e1 -> wf_rec ar e2 -> tree e1 = Val t1 -> tree e2 = Val t2 ->
    ~ at_most 26 (tvars to_var t1 ++ tvars to_var t2) ->
    (let* (l, m1) := generalize op_eqb to_var mk_var [] e1 in generalize op_eqb to_var mk_var m1 e2) = Panic.
  Proof.
    intros W1 W2 H1 H2 Hm.
    destruct (generalize_spec [] e1 t1 good_nil H1 (fun n => wf_leaf e1 n W1)) as
      [(l & m1 & L1 & L2 & L3 & L4 & L5 & L6)|(-> & _)]; [|reflexivity]. rewrite L1. cbn [rbind].
    destruct (generalize_spec m1 e2 t2 L2 H2 (fun n => wf_leaf e2 n W2)) as
      [(r & m2 & R1 & R2 & R3 & R4 & R5 & R6)|(-> & _)]; [|reflexivity].
    exfalso. apply Hm. intros ws N I. apply (nodup_le26 m2 R2 ws N). intros x Hx. apply I in Hx. apply R4.
    rewrite in_app_iff in Hx. destruct Hx; [left; apply L4; auto|auto].
  Qed.

  (* the two terms are instances of the two patterns, by one substitution *)
  Lemma gen_psubst rho t vs : (forall o s, to_var o = Some s -> o = mk_var s) -> wf_term ar t ->
    incl (tvars to_var t) vs ->
    (forall s s', In s vs -> In s' vs -> rho s = rho s' -> s = s') ->
    psubst (fun v => match find (fun s => String.eqb (rho s) v) vs with Some s => T (mk_var s) [] | None => T (mk_var v) [] end)
      (gen_term to_var rho t) = t.
  Proof.
    intros Hmk Hw Hi Hinj. induction t as [o ts IH] using term_ind'. inversion Hw as [? ? Hl Hts]; subst.
    cbn [gen_term tvars] in *. destruct (to_var o) as [s|] eqn:E.
    - cbn [psubst]. assert (In s vs) as Hs by (apply Hi; left; reflexivity).
      assert (find (fun s0 => String.eqb (rho s0) (rho s)) vs = Some s) as ->.
      { destruct (find (fun s0 => String.eqb (rho s0) (rho s)) vs) as [s1|] eqn:F.
        - apply find_some in F as [F1 F2]. apply String.eqb_eq in F2. f_equal. apply Hinj; auto.
        - exfalso. eapply find_none in F; [|exact Hs]. rewrite String.eqb_refl in F. discriminate. }
      rewrite Har in Hl by congruence. destruct ts; [|discriminate]. apply Hmk in E. congruence.
    - cbn [psubst]. f_equal. rewrite map_map. rewrite <- (map_id ts) at 2. apply map_ext_in. intros t Ht.
      rewrite Forall_forall in *. apply IH; auto. intros x Hx. apply Hi. apply in_app_iff. right. apply in_flat_map. eauto.
  Qed.

  Variable name : O -> string.

  (* which of the two directions are kept *)
  Theorem candidate_pair_spec e1 t1 e2 t2 : wf_rec ar e1 -> wf_rec ar e2 -> tree e1 = Val t1 -> tree e2 = Val t2 ->
    at_most 26 (tvars to_var t1 ++ tvars to_var t2) ->
    exists l r rho nf nb,
      (forall s s', In s (tvars to_var t1 ++ tvars to_var t2) -> In s' (tvars to_var t1 ++ tvars to_var t2) ->
         rho s = rho s' -> s = s') /\
      (forall s, In s (tvars to_var t1 ++ tvars to_var t2) -> exists i, letter i = Val (rho s)) /\
      tree l = Val (gen_term to_var rho t1) /\ tree r = Val (gen_term to_var rho t2) /\
      (forall n v, In n l -> nop n = PV v -> In v (ptvars (gen_term to_var rho t1))) /\
      (forall n v, In n r -> nop n = PV v -> In v (ptvars (gen_term to_var rho t2))) /\
      exists fw bw, candidate_pair op_eqb to_var mk_var name e1 e2 = Val (fw, bw) /\
      (incl (tvars to_var t2) (tvars to_var t1) -> fw = Some (Rule nf l r KRhs)) /\
      (~ incl (tvars to_var t2) (tvars to_var t1) -> fw = None) /\
      (incl (tvars to_var t1) (tvars to_var t2) -> bw = Some (Rule nb r l KRhs)) /\
      (~ incl (tvars to_var t1) (tvars to_var t2) -> bw = None).
  Proof.
    intros W1 W2 H1 H2 Hm.
    destruct (generalize_pair e1 t1 e2 t2 W1 W2 H1 H2 Hm) as (l & m1 & r & m2 & rho & G1 & G2 & Hinj & Hlet & L & R & JL & JR).
    pose proof (wf_rec_tree ar e1 t1 W1 H1) as T1. pose proof (wf_rec_tree ar e2 t2 W2 H2) as T2.
    assert (forall p t, tree p = Val t -> exists s, show_pat name p = Val s) as Hs.
    { intros p t Hp. unfold show_pat, Syntax.show_rec. destruct p; [discriminate|]. rewrite Hp. cbn [rbind]. eauto. }
    destruct (Hs _ _ L) as (sl & Sl). destruct (Hs _ _ R) as (sr & Sr).
    exists l, r, rho, (sl ++ " ==> " ++ sr)%string, (sr ++ " ==> " ++ sl)%string.
    split; [exact Hinj|]. split; [exact Hlet|]. split; [exact L|]. split; [exact R|]. split; [exact JL|]. split; [exact JR|].
    unfold candidate_pair. rewrite G1. cbn [rbind]. rewrite G2. cbn [rbind]. unfold rule_new, rule_name.
    rewrite Sl, Sr. cbn [rbind].
    assert (forall a ta b tb, tree a = Val (gen_term to_var rho ta) -> tree b = Val (gen_term to_var rho tb) ->
      wf_term ar ta -> wf_term ar tb ->
      incl (tvars to_var ta) (tvars to_var t1 ++ tvars to_var t2) -> incl (tvars to_var tb) (tvars to_var t1 ++ tvars to_var t2) ->
      (forall n v, In n a -> nop n = PV v -> In v (ptvars (gen_term to_var rho ta))) ->
      (forall n v, In n b -> nop n = PV v -> In v (ptvars (gen_term to_var rho tb))) ->
      (rewrite_ok a b = true <-> incl (tvars to_var tb) (tvars to_var ta))) as Key.
    { clear - Har Hinj. intros a ta b tb A B Wa Wb Ia Ib Ja Jb. rewrite rewrite_ok_iff. split.
      - intros H s Hs. destruct (H (rho s)) as (n & Hn & E).
        { apply (tree_vars_in b _ _ B). change (In (rho s) (ptvars (gen_term to_var rho tb))).
          rewrite (gen_term_vars ar) by auto. now apply in_map. }
        apply (Ja n) in E; [|exact Hn]. rewrite (gen_term_vars ar) in E by auto. apply in_map_iff in E as (s' & E1 & E2).
        assert (s' = s) as <- by (apply Hinj; auto). exact E2.
      - intros H v (n & Hn & E). apply (Jb n) in E; [|exact Hn]. rewrite (gen_term_vars ar) in E by auto.
        apply in_map_iff in E as (s & <- & Hs). apply (tree_vars_in a _ _ A).
        change (In (rho s) (ptvars (gen_term to_var rho ta))).
        rewrite (gen_term_vars ar) by auto. apply in_map. auto. }
    assert (incl (tvars to_var t1) (tvars to_var t1 ++ tvars to_var t2)) as I1 by (intros x Hx; apply in_app_iff; auto).
    assert (incl (tvars to_var t2) (tvars to_var t1 ++ tvars to_var t2)) as I2 by (intros x Hx; apply in_app_iff; auto).
    pose proof (Key l t1 r t2 L R T1 T2 I1 I2 JL JR) as K1. pose proof (Key r t2 l t1 R L T2 T1 I2 I1 JR JL) as K2.
    eexists; eexists. split; [reflexivity|].
    split; [intros H; apply K1 in H; rewrite H; reflexivity|].
    split; [intros H; destruct (rewrite_ok l r); [destruct H; apply K1; reflexivity|reflexivity]|].
    split; [intros H; apply K2 in H; rewrite H; reflexivity|].
    intros H; destruct (rewrite_ok r l); [destruct H; apply K2; reflexivity|reflexivity].
  Qed.
End Main.

Lemma letter_word i v : letter i = Val v -> word v /\ no_arrow v.
Proof.
  intros H. assert (i < 26) as Hi by (apply letter_26; eauto).
  assert (exists c, v = String c "" /\ word_char c = true /\ Ascii.eqb c "=" = false) as (c & -> & Hc & He).
  { do 26 (destruct i as [|i]; [cbv in H; inversion H; subst; eexists; repeat split|]). lia. }
  split; [split; [discriminate|cbn [all_chars]; rewrite Hc; reflexivity]|].
  intros a b E. destruct a as [|d [|d' a]]; try discriminate.
Qed.

Lemma incl_dec' (a b : list string) : {incl a b} + {~ incl a b}.
Proof.
  induction a as [|x a [IH|IH]]; [left; intros y []| |right; intros H; apply IH; intros y Hy; apply H; right; exact Hy].
  destruct (in_dec string_dec x b) as [H|H]; [left; intros y [<-|Hy]; auto|right; intros G; apply H, G; left; reflexivity].
Qed.

Section Added.
  Context {O : Type}.
  Variable op_eqb : O -> O -> bool.
  Variable to_var : O -> option string.
  Variable mk_var : string -> O.
  Variable from_op : string -> nat -> option O.
  Variable name : O -> string.
  Variable ar : O -> nat.
  Hypothesis Heqb : forall a b, op_eqb a b = true -> a = b.
  Hypothesis Hvar : forall s, to_var (mk_var s) = Some s.
  Hypothesis Har : forall o, to_var o <> None -> ar o = 0.

  Lemma gen_tall rho t : (forall s, In s (tvars to_var t) -> exists i, letter i = Val (rho s)) ->
    tall (fun o => to_var o = None -> eov_ok from_op name ar (EN o)) t ->
    tall (eov_ok from_op name ar) (gen_term to_var rho t).
  Proof.
    induction t as [o ts IH] using term_ind'. intros Hl Ht. inversion Ht as [? ? H1 H2]; subst. cbn [gen_term tvars] in *.
    destruct (to_var o) as [s|].
    - constructor; [|constructor]. destruct (Hl s (or_introl eq_refl)) as (i & Hi). apply letter_word in Hi. exact Hi.
    - constructor; [apply H1; reflexivity|]. rewrite Forall_forall in *. intros u Hu.
      apply in_map_iff in Hu as (t & <- & Hin). apply IH; [exact Hin| |apply H2; exact Hin].
      intros s Hs. apply Hl. apply in_app_iff. right. apply in_flat_map. eauto.
  Qed.

  Lemma rs_add_ok m r : ruleset_ok from_op name ar m -> entry_ok from_op name ar (rname r, r) ->
    ruleset_ok from_op name ar (rs_add m r).
  Proof.
    intros [N F] H. split; [apply insert_nodup; exact N|]. unfold rs_add. clear N. induction F as [|[k r'] m E F IH]; cbn [insert].
    - constructor; [exact H|constructor].
    - destruct (String.eqb_spec (rname r) k); constructor; auto. subst; exact H.
  Qed.

  (* every candidate added is a well-formed rule *)
  Theorem add_from_recexprs_ok m e1 t1 e2 t2 : ruleset_ok from_op name ar m ->
    wf_rec ar e1 -> wf_rec ar e2 -> tree e1 = Val t1 -> tree e2 = Val t2 ->
    tall (fun o => to_var o = None -> eov_ok from_op name ar (EN o)) t1 ->
    tall (fun o => to_var o = None -> eov_ok from_op name ar (EN o)) t2 ->
    at_most 26 (tvars to_var t1 ++ tvars to_var t2) ->
    exists m', add_from_recexprs op_eqb to_var mk_var name m e1 e2 = Val m' /\ ruleset_ok from_op name ar m'.
  Proof.
    intros Hm W1 W2 H1 H2 A1 A2 Hv.
    destruct (candidate_pair_spec op_eqb to_var mk_var Heqb Hvar ar Har name e1 t1 e2 t2 W1 W2 H1 H2 Hv)
      as (l & r & rho & nf & nb & Hinj & Hlet & L & R & JL & JR & fw & bw & C & F1 & F2 & B1 & B2).
    pose proof (wf_rec_tree ar e1 t1 W1 H1) as T1. pose proof (wf_rec_tree ar e2 t2 W2 H2) as T2.
    assert (pat_ok from_op name ar l (gen_term to_var rho t1)) as Pl.
    { split; [exact L|]. split; [apply gen_term_wf; assumption|]. split; [|exact JL]. apply gen_tall; [|exact A1].
      intros s Hs. apply Hlet. apply in_app_iff; auto. }
    assert (pat_ok from_op name ar r (gen_term to_var rho t2)) as Pr.
    { split; [exact R|]. split; [apply gen_term_wf; assumption|]. split; [|exact JR]. apply gen_tall; [|exact A2].
      intros s Hs. apply Hlet. apply in_app_iff; auto. }
    unfold candidate_pair in C. apply rbind_val in C as ([l' m1] & G1 & C). apply rbind_val in C as ([r' m2] & G2 & C).
    apply rbind_val in C as (fw' & N1 & C). apply rbind_val in C as (bw' & N2 & C). inversion C; subst fw' bw'. clear C.
    unfold add_from_recexprs, candidate_pair. rewrite G1. cbn [rbind]. rewrite G2. cbn [rbind]. rewrite N1. cbn [rbind]. rewrite N2. cbn [rbind].
    eexists. split; [reflexivity|].
    assert (forall p tp q tq n x, pat_ok from_op name ar p (gen_term to_var rho tp) -> pat_ok from_op name ar q (gen_term to_var rho tq) ->
      wf_term ar tp -> wf_term ar tq -> incl (tvars to_var tq) (tvars to_var tp) ->
      x = Rule n p q KRhs -> (exists n', rule_name name p q = Val n' /\ n' = n) -> entry_ok from_op name ar (rname x, x)) as E.
    { intros p tp q tq n x Pp Pq Wp Wq Hi -> (n' & Hn & ->). cbn [entry_ok rname rlhs rrhs]. split; [reflexivity|]. split; [exact Hn|].
      exists (gen_term to_var rho tp), (gen_term to_var rho tq). split; [exact Pp|]. split; [exact Pq|].
      rewrite !(gen_term_vars to_var ar) by assumption. intros v Hi'. apply in_map_iff in Hi' as (s & <- & Hs). apply in_map. auto. }
    assert (forall a b x, rule_new name a b = Val (Some x) -> exists n, rule_name name a b = Val n /\ x = Rule n a b KRhs) as RN.
    { intros a b x Hx. unfold rule_new in Hx. apply rbind_val in Hx as (n & Hn & Hx). exists n. split; [exact Hn|].
      destruct (rewrite_ok a b); inversion Hx; reflexivity. }
    assert (forall fw0, fw = Some fw0 -> entry_ok from_op name ar (rname fw0, fw0)) as Ef.
    { intros f0 E0. destruct (incl_dec' (tvars to_var t2) (tvars to_var t1)) as [Hi|Hi].
      - rewrite (F1 Hi) in E0. inversion E0; subst f0. rewrite (F1 Hi) in N1. apply RN in N1 as (n & Nn & E1).
        inversion E1 as [[X1 X2 X3]]. rewrite <- X2, <- X3 in Nn. rewrite <- X1 in Nn. eapply (E l t1 r t2); eauto; reflexivity.
      - rewrite (F2 Hi) in E0. discriminate. }
    assert (forall bw0, bw = Some bw0 -> entry_ok from_op name ar (rname bw0, bw0)) as Eb.
    { intros f0 E0. destruct (incl_dec' (tvars to_var t1) (tvars to_var t2)) as [Hi|Hi].
      - rewrite (B1 Hi) in E0. inversion E0; subst f0. rewrite (B1 Hi) in N2. apply RN in N2 as (n & Nn & E1).
        inversion E1 as [[X1 X2 X3]]. rewrite <- X2, <- X3 in Nn. rewrite <- X1 in Nn. eapply (E r t2 l t1); eauto; reflexivity.
      - rewrite (B2 Hi) in E0. discriminate. }
    destruct fw as [f|], bw as [b|]; auto using rs_add_ok.
  Qed.
End Added.

(* ---- reading lines of rules ---- *)
Lemma rs_add_keys {O} (m : ruleset O) x k : In k (map fst (rs_add m x)) <-> In k (map fst m) \/ k = rname x.
  Proof.
    unfold rs_add. rewrite insert_keys. destruct (has m (rname x)) eqn:E.
    - split; [auto|]. intros [H| ->]; [exact H|]. apply has_in. exact E.
    - rewrite in_app_iff. cbn. intuition.
  Qed.
Section ReadLines.
  Context {O : Type}.
  Variable from_op : string -> nat -> option O.
  Variable name : O -> string.
  Variable ar : O -> nat.

  Lemma rule_entry_ok l tl r tr n : pat_ok from_op name ar l tl -> pat_ok from_op name ar r tr -> incl (ptvars tr) (ptvars tl) ->
    rule_name name l r = Val n -> entry_ok from_op name ar (n, Rule n l r KRhs).
  Proof. intros Hl Hr Hi Hn. split; [reflexivity|]. split; [exact Hn|]. exists tl, tr. auto. Qed.

  Lemma add_line_spec m s ns : ruleset_ok from_op name ar m -> rule_line from_op name ar s ns ->
    exists m', add_line from_op name m s = Val m' /\ ruleset_ok from_op name ar m' /\
      (forall k, In k (map fst m') <-> In k (map fst m) \/ In k ns).
  Proof.
    intros Hm Hs. destruct Hs as [l tl r tr sl sr Hl Hr Hi El Er|l tl r tr sl sr Hl Hr Hi Hj El Er].
    - assert (rule_name name l r = Val (sl ++ " ==> " ++ sr)%string) as Hn by (unfold rule_name; rewrite El, Er; reflexivity).
      unfold add_line. rewrite (from_string_name from_op name ar l tl r tr _ Hl Hr Hi Hn). cbn [rbind].
      eexists. split; [reflexivity|].
      assert (pat_ok from_op name ar (to_rec tl) tl) as Pl by (destruct Hl as (_ & ? & ? & _); now apply to_rec_ok).
      assert (pat_ok from_op name ar (to_rec tr) tr) as Pr by (destruct Hr as (_ & ? & ? & _); now apply to_rec_ok).
      split.
      + apply rs_add_ok; [exact Hm|]. apply (rule_entry_ok _ tl _ tr); auto.
        rewrite <- Hn. apply (rule_name_inj from_op name ar _ tl _ tr _ tl _ tr); auto.
      + intros k. rewrite rs_add_keys. cbn. intuition.
    - rewrite (pat_ok_show from_op name ar _ _ Hl) in El. rewrite (pat_ok_show from_op name ar _ _ Hr) in Er.
      inversion El; inversion Er; subst sl sr.
      unfold add_line. rewrite (from_string_two_way from_op name ar l tl r tr Hl Hr Hi Hj). cbn [rbind].
      eexists. split; [reflexivity|].
      assert (pat_ok from_op name ar (to_rec tl) tl) as Pl by (destruct Hl as (_ & ? & ? & _); now apply to_rec_ok).
      assert (pat_ok from_op name ar (to_rec tr) tr) as Pr by (destruct Hr as (_ & ? & ? & _); now apply to_rec_ok).
      split.
      + apply rs_add_ok; [apply rs_add_ok; [exact Hm|]|]; cbn [rname];
          [apply (rule_entry_ok _ tl _ tr)|apply (rule_entry_ok _ tr _ tl)]; auto; eapply rule_name_show; eauto.
      + intros k. rewrite !rs_add_keys. cbn. intuition.
  Qed.
  Lemma add_lines_spec ls nss : Forall2 (rule_line from_op name ar) ls nss -> forall m, ruleset_ok from_op name ar m ->
    exists m', add_lines from_op name m ls = Val m' /\ ruleset_ok from_op name ar m' /\
      (forall k, In k (map fst m') <-> In k (map fst m) \/ exists ns, In ns nss /\ In k ns).
  Proof.
    induction 1 as [|s ns ls nss Hs _ IH]; intros m Hm.
    - exists m. split; [reflexivity|]. split; [exact Hm|]. intros k. split; [auto|]. intros [H|(ns & [] & _)]. exact H.
    - destruct (add_line_spec m s ns Hm Hs) as (m1 & E1 & H1 & K1). destruct (IH m1 H1) as (m2 & E2 & H2 & K2).
      exists m2. split; [cbn; rewrite E1; exact E2|]. split; [exact H2|]. intros k. rewrite K2, K1. split.
      + intros [[H|H]|(ns' & H & H')]; [auto|right; exists ns; cbn; auto|right; exists ns'; cbn; auto].
      + intros [H|(ns' & [<-|H] & H')]; [auto|auto|right; eauto].
  Qed.
End ReadLines.

(* the keys after adding a pair of candidates *)
Lemma add_from_recexprs_keys {O} (op_eqb : O -> O -> bool) to_var mk_var name m e1 e2 m' :
  add_from_recexprs op_eqb to_var mk_var name m e1 e2 = Val m' ->
  exists fw bw, candidate_pair op_eqb to_var mk_var name e1 e2 = Val (fw, bw) /\
    (forall k, In k (map fst m') <-> In k (map fst m) \/ exists x, (fw = Some x \/ bw = Some x) /\ k = rname x).
Proof.
  unfold add_from_recexprs. intros H. apply rbind_val in H as ([fw bw] & C & H). exists fw, bw. split; [exact C|].
  inversion H; subst m'. intros k. destruct fw as [f|], bw as [b|]; rewrite ?rs_add_keys; split.
  - intros [[X|X]|X]; [auto|right; exists f; auto|right; exists b; auto].
  - intros [X|(x & [E|E] & X)]; [auto| |]; inversion E; subst; auto.
  - intros [X|X]; [auto|right; exists f; auto].
  - intros [X|(x & [E|E] & X)]; [auto| |]; inversion E; subst; auto.
  - intros [X|X]; [auto|right; exists b; auto].
  - intros [X|(x & [E|E] & X)]; [auto| |]; inversion E; subst; auto.
  - auto.
  - intros [X|(x & [E|E] & X)]; [auto|discriminate|discriminate].
Qed.
