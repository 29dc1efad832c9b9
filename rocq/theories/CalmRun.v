(* Literal-only languages: rules, schedulers and workloads keep e-graphs calm, and
   adding only appends classes. *)
From Coq Require Import Permutation.
From Verif Require Import Base BaseProofs Sexp Reader Lang LangProofs Syntax SyntaxProofs Rule Ruleset RulesetProofs Analysis Generalize Workload
  Egraph EgraphSpec EgraphProofs EgraphSound Synth Apply Sched SynthSpec SynthProofs DeriveProofs CalmSpec Cover Calm.
Open Scope list_scope.

(* [g'] is [g] with new classes of one node each at the end *)
Definition appends {O D A} (g g' : egraph O D A) : Prop := exists ns ds,
  g_nodes g' = g_nodes g ++ ns /\ g_reps g' = g_reps g ++ map snd ns /\ map snd ns = seq (size g) (length ns) /\
  g_data g' = g_data g ++ ds /\ g_an g' = g_an g.

Section Appends.
  Context {O D A : Type}.
  Local Notation egraph := (egraph O D A).
  Lemma appends_refl : forall g : egraph, appends g g.
  Proof. intros g. exists [], []. cbn. now rewrite !app_nil_r. Qed.
  Lemma appends_size : forall g g' : egraph, appends g g' -> size g <= size g'.
  Proof. intros g g' (ns & ds & N & R & _). unfold size. rewrite R, app_length. lia. Qed.
  Lemma appends_trans : forall g h k : egraph, appends g h -> appends h k -> appends g k.
  Proof.
    intros g h k (ns & ds & N1 & R1 & S1 & D1 & A1) (ms & es & N2 & R2 & S2 & D2 & A2). exists (ns ++ ms), (ds ++ es).
    rewrite N2, N1, R2, R1, D2, D1, <- !app_assoc, map_app. split; [reflexivity|]. split; [reflexivity|]. split; [|split; [reflexivity|congruence]].
    assert (size h = size g + length ns) as Sh. { unfold size. rewrite R1, app_length, map_length. reflexivity. }
    rewrite S1, S2, Sh, app_length, seq_app. reflexivity.
  Qed.
  Lemma appends_find_old : forall (g g' : egraph) i, appends g g' -> i < size g -> find g' i = find g i.
  Proof.
    intros g g' i (ns & ds & _ & R & _) Li. unfold find, index. rewrite R, nth_error_app1; [reflexivity|exact Li].
  Qed.
  Lemma appends_find_new : forall (g g' : egraph) i, appends g g' -> size g <= i -> i < size g' -> find g' i = Val i.
  Proof.
    intros g g' i (ns & ds & _ & R & Sq & _) Li Lt. unfold find, index. unfold size in *. rewrite R in *. rewrite nth_error_app2 by lia. rewrite Sq in *.
    rewrite app_length, seq_length in Lt. rewrite (nth_error_nth' _ 0) by (rewrite seq_length; lia). rewrite seq_nth by lia. f_equal. lia.
  Qed.
  Lemma appends_eqv_old : forall (g g' : egraph) i j, @wf O D A g -> appends g g' -> i < size g -> (eqv g' i j <-> eqv g i j).
  Proof.
    intros g g' i j W Ap Li. split.
    - intros (r & H1 & H2). rewrite (appends_find_old g g' i Ap Li) in H1.
      destruct (Nat.lt_ge_cases j (size g)) as [Lj|Gj].
      + rewrite (appends_find_old g g' j Ap Lj) in H2. exists r. auto.
      + rewrite (appends_find_new g g' j Ap Gj (find_some _ _ _ H2)) in H2. inversion H2; subst r.
        pose proof (find_some _ _ _ (wf_rep g W _ _ H1)). lia.
    - intros (r & H1 & H2). exists r. pose proof (find_some _ _ _ H2). rewrite !(appends_find_old g g') by assumption. auto.
  Qed.
  Lemma appends_eqv_new : forall (g g' : egraph) i j, @wf O D A g -> appends g g' -> size g <= i -> eqv g' i j -> j = i.
  Proof.
    intros g g' i j W Ap Gi Q. destruct (eqv_lt _ _ _ Q) as [Li Lj].
    destruct (Nat.lt_ge_cases j (size g)) as [Lj'|Gj].
    - apply eqv_sym in Q. apply (appends_eqv_old g g' j i W Ap Lj') in Q. apply eqv_lt in Q. lia.
    - destruct Q as (r & H1 & H2). rewrite (appends_find_new g g' i Ap) in H1 by lia. rewrite (appends_find_new g g' j Ap) in H2 by lia. congruence.
  Qed.
  (* old classes get no new nodes *)
  Lemma appends_has_old : forall (g g' : egraph) o ch c, @wf O D A g -> @wf O D A g' -> appends g g' -> c < size g -> (has g' o ch c <-> has g o ch c).
  Proof.
    intros g g' o ch c W W' Ap Lc. pose proof Ap as (ns & ds & Nd & R & Sq & _). split.
    - intros (n & i & I & E & F & Q). apply eqv_sym in Q. apply (appends_eqv_old g g' c i W Ap Lc) in Q. destruct (eqv_lt _ _ _ Q) as [_ Li].
      rewrite Nd in I. apply in_app_or in I as [I|I].
      + destruct (wf_nodes g W n i I) as [_ Fc]. exists n, i. split; [exact I|]. split; [exact E|]. split; [|now apply eqv_sym].
        clear - F Fc W Ap. induction F as [|a b l l' Q F IH]; constructor; inversion Fc; subst; auto. now apply (appends_eqv_old g g' a b).
      + apply (in_map snd) in I. rewrite Sq in I. apply in_seq in I. cbn in I. lia.
    - intros (n & i & I & E & F & Q). exists n, i. rewrite Nd. split; [apply in_or_app; now left|]. split; [exact E|]. destruct (eqv_lt _ _ _ Q) as [Li _].
      split; [|now apply (appends_eqv_old g g' i c)]. clear - F W Ap. induction F as [|a b l l' Q F IH]; constructor; auto.
      destruct (eqv_lt _ _ _ Q) as [La _]. now apply (appends_eqv_old g g' a b).
  Qed.
End Appends.

Section Run.
  Context {O C : Type}.
  Variable L : lang O C.
  Variable ar : O -> nat.
  Hypothesis Lo : literal_only L ar.
  Variable keep : eg O C -> nat -> nat -> bool.
  Variable fuel : nat.
  Local Notation wf := (@wf O (sig O C) nat).
  Local Notation eqb_eq := (lo_eqb L ar Lo).
  Local Notation calm := (calm L ar).

  Lemma new_class_appends : forall (g : eg O C) n g' i, new_class (s_make L) g n = Val (g', i) -> appends g g'.
  Proof.
    intros g n g' i H. unfold new_class in H. destruct (rmapM (class_data g) (nch n)) as [ds|]; [|discriminate H]. cbn in H.
    destruct (s_make L (g_an g) n ds) as [d|]; [|discriminate H]. cbn in H. inversion H; subst. exists [(n, size g)], [d]. cbn. auto.
  Qed.
  (* adding a node: nothing, or one new class *)
  Lemma add_appends : forall (g : eg O C) n g' i, calm g -> typed_node ar n -> s_add L keep fuel g n = Val (g', i) ->
    calm g' /\ appends g g' /\ has g' (nop n) (nch n) i /\ forall x, x < size g' -> x < size g \/ x = i.
  Proof.
    intros g n g' i Cm Ty H. destruct (add_ok _ eqb_eq _ _ (s_md_ok L eqb_eq keep fuel) _ _ _ _ (cm_wf _ _ g Cm) H) as (W1 & E1 & Hh).
    destruct (add_calm L ar Lo keep fuel g n g' i Cm Ty H) as [C1 D1]. split; [exact C1|].
    destruct D1 as [(-> & _)|(n' & Cc & No & Nc)].
    - split; [apply appends_refl|]. split; [exact Hh|]. auto.
    - pose proof (new_class_ok _ g n' g' i (cm_wf _ _ g Cm) (canon_lt g n n' (cm_wf _ _ g Cm) Cc) Nc) as (_ & _ & Sz & -> & _).
      split; [exact (new_class_appends _ _ _ _ Nc)|]. split; [exact Hh|]. intros x Lx. lia.
  Qed.
  (* in a rebuilt e-graph a node that is there is found *)
  Lemma add_found : forall (g : eg O C) o ch c g' i, calm g -> congruent g -> canonical g -> length ch = ar o -> has g o ch c ->
    s_add L keep fuel g (Node o ch) = Val (g', i) -> g' = g /\ eqv g i c.
  Proof.
    intros g o ch c g' i Cm Cg Cn Ty Hh H. pose proof (cm_wf _ _ g Cm) as W.
    destruct (add_calm L ar Lo keep fuel g (Node o ch) g' i Cm Ty H) as [C1 D1]. cbn in D1.
    destruct D1 as [(-> & Hi)|(n' & Cc & No & Nc)]; [split; [reflexivity|exact (Cg o ch i c Hi Hh)]|]. exfalso.
    destruct Hh as (m & j & I & <- & F & Q). apply (No j). replace n' with m; [exact I|].
    apply canon_spec in Cc as [E1 F1]. cbn in *. destruct m as [o1 c1], n' as [o2 c2]. cbn in *. subst o2. f_equal.
    pose proof (Cn _ _ I) as Fc. cbn in Fc. clear - F F1 Fc. revert c2 F1. induction F as [|a b l l' (r & R1 & R2) F IH]; intros c2 F1; inversion F1; subst; [reflexivity|].
    inversion Fc; subst. f_equal; [congruence|auto].
  Qed.

  Lemma add_nodes_appends : forall r (g : eg O C) ids g' ids', calm g -> Forall (typed_node ar) r ->
    add_nodes (l_eqb L) (s_make L) (s_modify L keep fuel) g ids r = Val (g', ids') ->
    calm g' /\ appends g g' /\ exists is, ids' = ids ++ is /\ forall x, x < size g' -> x < size g \/ In x is.
  Proof.
    induction r as [|n r IH]; intros g ids g' ids' Cm Ty H; cbn in H.
    - inversion H; subst. split; [exact Cm|]. split; [apply appends_refl|]. exists []. rewrite app_nil_r. auto.
    - inversion Ty as [|? ? T1 T2]; subst. destruct (rmapM (index ids) (nch n)) as [ch|] eqn:Ec; [|discriminate H]. cbn [rbind] in H.
      destruct (add (l_eqb L) (s_make L) (s_modify L keep fuel) g (Node (nop n) ch)) as [[g1 i]|] eqn:Ad; [|discriminate H]. cbn [rbind] in H.
      assert (Tn : typed_node ar (Node (nop n) ch)). { unfold typed_node in *. cbn. rewrite <- T1. apply rmapM_F2 in Ec. symmetry. exact (Forall2_length _ _ _ Ec). }
      destruct (add_appends g _ g1 i Cm Tn Ad) as (C1 & A1 & _ & X1).
      destruct (IH g1 (ids ++ [i]) g' ids' C1 T2 H) as (C2 & A2 & is & -> & X2). split; [exact C2|]. split; [exact (appends_trans _ _ _ A1 A2)|].
      exists (i :: is). rewrite <- app_assoc. split; [reflexivity|]. intros x Lx. destruct (X2 x Lx) as [Y|Y]; [|right; now right].
      destruct (X1 x Y) as [Z| ->]; [now left|right; now left].
  Qed.
  Lemma add_expr_appends : forall r (g : eg O C) g' i, calm g -> Forall (typed_node ar) r -> s_add_expr L keep fuel g r = Val (g', i) ->
    calm g' /\ appends g g'.
  Proof.
    intros r g g' i Cm Ty H. unfold s_add_expr, add_expr in H.
    destruct (add_nodes _ _ _ g [] r) as [[g1 ids]|] eqn:E; [|discriminate H]. cbn in H. destruct (pop_unwrap ids); [|discriminate H]. cbn in H. inversion H; subst.
    destruct (add_nodes_appends r g [] g' ids Cm Ty E) as (C1 & A1 & _). auto.
  Qed.

  (* ---- applying rules ---- *)
  Lemma apply_nodes_appends : forall p (g : eg O C) s ids g' ids', calm g -> Forall (typed_pnode ar) p ->
    apply_nodes L keep fuel g s ids p = Val (g', ids') ->
    calm g' /\ appends g g' /\ exists is, ids' = ids ++ is /\ forall x, x < size g' -> x < size g \/ In x is.
  Proof.
    induction p as [|n p IH]; intros g s ids g' ids' Cm Ty H; cbn in H.
    - inversion H; subst. split; [exact Cm|]. split; [apply appends_refl|]. exists []. rewrite app_nil_r. auto.
    - inversion Ty as [|? ? T1 T2]; subst. destruct n as [[o|v] nc]; cbn [nop nch] in *.
      + destruct (rmapM (index ids) nc) as [ch|] eqn:Ec; [|discriminate H]. cbn [rbind] in H.
        destruct (s_add L keep fuel g (Node o ch)) as [[g1 i]|] eqn:Ad; [|discriminate H]. cbn [rbind] in H.
        assert (Tn : typed_node ar (Node o ch)). { unfold typed_node, typed_pnode in *. cbn in *. rewrite <- T1. apply rmapM_F2 in Ec. symmetry. exact (Forall2_length _ _ _ Ec). }
        destruct (add_appends g _ g1 i Cm Tn Ad) as (C1 & A1 & _ & X1).
        destruct (IH g1 s (ids ++ [i]) g' ids' C1 T2 H) as (C2 & A2 & is & -> & X2). split; [exact C2|]. split; [exact (appends_trans _ _ _ A1 A2)|].
        exists (i :: is). rewrite <- app_assoc. split; [reflexivity|]. intros x Lx. destruct (X2 x Lx) as [Y|Y]; [|right; now right].
        destruct (X1 x Y) as [Z| ->]; [now left|right; now left].
      + destruct (lookup s v) as [i|]; [|discriminate H]. cbn [unwrap rbind] in H.
        destruct (IH g s (ids ++ [i]) g' ids' Cm T2 H) as (C2 & A2 & is & -> & X2). split; [exact C2|]. split; [exact A2|].
        exists (i :: is). rewrite <- app_assoc. split; [reflexivity|]. intros x Lx. destruct (X2 x Lx); [auto|right; now right].
  Qed.
  Lemma apply_pat_appends : forall p (g : eg O C) s g' i, calm g -> Forall (typed_pnode ar) p -> apply_pat L keep fuel g s p = Val (g', i) ->
    calm g' /\ appends g g'.
  Proof.
    intros p g s g' i Cm Ty H. unfold apply_pat in H.
    destruct (apply_nodes L keep fuel g s [] p) as [[g1 ids]|] eqn:E; [|discriminate H]. cbn in H. destruct (pop_unwrap ids); [|discriminate H]. cbn in H. inversion H; subst.
    destruct (apply_nodes_appends p g s [] g' ids Cm Ty E) as (C1 & A1 & _). auto.
  Qed.
  Lemma apply_plain_calm : forall p (g : eg O C) c s g' ids, calm g -> Forall (typed_pnode ar) p ->
    apply_plain L keep fuel p g c s = Val (g', ids) -> calm g'.
  Proof.
    intros p g c s g' ids Cm Ty H. unfold apply_plain in H.
    destruct (apply_pat L keep fuel g s p) as [[g1 i]|] eqn:E; [|discriminate H]. cbn in H.
    destruct (s_union L keep fuel g1 i c) as [[g2 b]|] eqn:U; [|discriminate H]. cbn in H. inversion H; subst g2.
    destruct (apply_pat_appends p g s g1 i Cm Ty E) as [C1 _]. exact (proj1 (union_calm L ar Lo keep fuel g1 i c g' b C1 U)).
  Qed.
  Lemma apply_one_calm : forall r (g : eg O C) c s g' ids, calm g -> typed_rule ar r -> apply_one L keep fuel r g c s = Val (g', ids) -> calm g'.
  Proof.
    intros r g c s g' ids Cm [_ Ty] H. unfold apply_one in H. destruct (rkind r) as [| |v].
    - unfold apply_rhs in H. destruct (class_data g c) as [d|]; [|discriminate H]. cbn in H.
      destruct (negb (is_defined d)). { now inversion H; subst. }
      destruct (apply_pat L keep fuel g s (rrhs r)) as [[g1 i]|] eqn:E; [|discriminate H]. cbn in H.
      destruct (apply_pat_appends _ g s g1 i Cm Ty E) as [C1 _].
      destruct (Nat.eqb i c). { now inversion H; subst. }
      destruct (class_data g1 i) as [d1|]; [|discriminate H]. cbn in H. destruct (negb (is_defined d1)). { now inversion H; subst. }
      destruct (s_union L keep fuel g1 i c) as [[g2 b]|] eqn:U; [|discriminate H]. cbn in H. inversion H; subst g2.
      exact (proj1 (union_calm L ar Lo keep fuel g1 i c g' b C1 U)).
    - exact (apply_plain_calm _ _ _ _ _ _ Cm Ty H).
    - destruct (guard L v g s) as [b|]; [|discriminate H]. cbn in H. destruct b; [exact (apply_plain_calm _ _ _ _ _ _ Cm Ty H)|]. now inversion H; subst.
  Qed.

  (* ---- schedulers ---- *)
  Definition typed_ms (ms : list (rule O * nat * subst)) : Prop := Forall (fun m => typed_rule ar (fst (fst m))) ms.
  Lemma rsteps_calm : forall rules, Forall (typed_rule ar) rules -> forall x y, rsteps L keep fuel rules x y ->
    calm (fst x) -> typed_ms (snd x) -> calm (fst y).
  Proof.
    intros rules Hr x y St. induction St as [x|x y z S1 S2 IH]; intros Cm Tm; [exact Cm|].
    destruct S1 as [g ms r c s Ir M|g ms r c s g' ids Im Ap|g ms g' Rb]; cbn [fst snd] in *.
    - apply IH; [exact Cm|]. constructor; [|exact Tm]. rewrite Forall_forall in Hr. cbn. auto.
    - apply IH; [|exact Tm]. unfold typed_ms in Tm. rewrite Forall_forall in Tm. exact (apply_one_calm r g c s g' ids Cm (Tm _ Im) Ap).
    - apply IH; [|exact Tm]. exact (proj1 (rebuild_calm L ar Lo keep fuel g g' Cm Rb)).
  Qed.
  Lemma runs_calm : forall rules g g', Forall (typed_rule ar) rules -> calm g -> runs L keep fuel rules g g' -> calm g'.
  Proof. intros rules g g' Hr Cm (ms & St). exact (rsteps_calm rules Hr _ _ St Cm (Forall_nil _)). Qed.
  Definition typed_rules (rs : ruleset O) : Prop := Forall (fun e => typed_rule ar (snd e)) rs.
  Lemma typed_map : forall rs, typed_rules rs <-> Forall (typed_rule ar) (map snd rs).
  Proof. intros rs. unfold typed_rules. now rewrite Forall_map. Qed.
  Lemma simple_calm : forall rs g g', typed_rules rs -> calm g -> simple L keep fuel rs g g' -> calm g'.
  Proof.
    intros rs g g' Hr Cm (g1 & R & Rb). apply typed_map in Hr. pose proof (runs_calm _ _ _ Hr Cm R) as C1. exact (proj1 (rebuild_calm L ar Lo keep fuel g1 g' C1 Rb)).
  Qed.
  Lemma saturating_calm : forall n rs g g', typed_rules rs -> calm g -> saturating L keep fuel n rs g g' -> calm g'.
  Proof.
    intros n rs g g' Hr Cm (a & b & g1 & g2 & P & R & R2 & Rb). destruct (partition_sub _ rs a b P) as [Sa Sb].
    assert (Ha : Forall (typed_rule ar) (map snd a)) by (apply typed_map in Hr; rewrite Forall_forall in *; intros r I; apply in_map_iff in I as (e & <- & I); apply Hr; auto).
    assert (Hb : Forall (typed_rule ar) (map snd b)) by (apply typed_map in Hr; rewrite Forall_forall in *; intros r I; apply in_map_iff in I as (e & <- & I); apply Hr; auto).
    assert (C1 : calm g1).
    { clear R2 Rb P. induction R as [g|n g g3 g4 g5 R1 R3 R IH]; [exact Cm|]. apply IH. exact (runs_calm _ _ _ Hb (runs_calm _ _ _ Ha Cm R1) R3). }
    exact (proj1 (rebuild_calm L ar Lo keep fuel g2 g' (runs_calm _ _ _ Ha C1 R2) Rb)).
  Qed.
  Lemma union_first_calm : forall ids (g : eg O C) f g', calm g -> union_first L keep fuel g f ids = Val g' -> calm g'.
  Proof.
    induction ids as [|i ids IH]; intros g f g' Cm H; cbn in H; [now inversion H; subst|].
    destruct (s_union L keep fuel g f i) as [[g1 b]|] eqn:U; [|discriminate H]. cbn in H.
    exact (IH g1 f g' (proj1 (union_calm L ar Lo keep fuel g f i g1 b Cm U)) H).
  Qed.
  Lemma union_groups_calm : forall gs (g : eg O C) g', calm g -> union_groups L keep fuel g gs = Val g' -> calm g'.
  Proof.
    induction gs as [|[|f ids] gs IH]; intros g g' Cm H; cbn in H; [now inversion H; subst|now apply IH with g|].
    destruct (union_first L keep fuel g f ids) as [g1|] eqn:U; [|discriminate H]. cbn in H. exact (IH g1 g' (union_first_calm _ _ _ _ Cm U) H).
  Qed.
  Lemma scheduled_calm : forall st rs g g', typed_rules rs -> calm g -> scheduled L keep fuel st rs g g' -> calm g'.
  Proof.
    intros [|n|order] rs g g' Hr Cm H.
    - exact (simple_calm rs g g' Hr Cm H).
    - exact (saturating_calm n rs g g' Hr Cm H).
    - destruct H as (out & _ & H). unfold compress_with in H. destruct (group_by out (class_ids g) []) as [m|]; [|discriminate H]. cbn in H.
      destruct (union_groups L keep fuel g (order (map snd m))) as [g1|] eqn:U; [|discriminate H]. cbn in H.
      exact (proj1 (rebuild_calm L ar Lo keep fuel g1 g' (union_groups_calm _ _ _ Cm U) H)).
  Qed.

  (* ---- workloads ---- *)
  Lemma add_term_typed : forall t, wf_term ar t -> forall r, Forall (typed_node ar) r -> Forall (typed_node ar) (fst (add_term t r)).
  Proof.
    intros t. induction t as [o ts IH] using term_ind'. intros W r Hr. rewrite add_term_eq.
    inversion W as [o' ts' Len W']; subst. clear W. rename W' into W.
    assert (forall l r ids, Forall (fun t => wf_term ar t -> forall r, Forall (typed_node ar) r -> Forall (typed_node ar) (fst (add_term t r))) l ->
      Forall (wf_term ar) l -> Forall (typed_node ar) r -> 
      Forall (typed_node ar) (fst (add_terms l r ids)) /\ length (snd (add_terms l r ids)) = length ids + length l) as G.
    { clear. induction l as [|t l IHl]; intros r ids Hl Wl Hr; cbn; [split; [exact Hr|lia]|].
      inversion Hl; inversion Wl; subst. destruct (add_term t r) as [r1 i] eqn:E. 
      destruct (IHl r1 (ids ++ [i])) as [G1 G2]; auto.
      - match goal with X : wf_term ar t -> _ |- _ => specialize (X ltac:(assumption) r Hr) end. now rewrite E in *.
      - split; [exact G1|]. rewrite G2, app_length. cbn. lia. }
    destruct (G ts r [] IH W Hr) as [G1 G2]. destruct (add_terms ts r []) as [r1 ids]. cbn in *. apply Forall_app. split; [exact G1|].
    constructor; [|constructor]. unfold typed_node. cbn. congruence.
  Qed.
  Lemma to_rec_typed : forall t, wf_term ar t -> Forall (typed_node ar) (to_rec t).
  Proof. intros t W. unfold to_rec. now apply add_term_typed. Qed.
  Lemma term_of_sexp_wf : forall x t, term_of_sexp (l_from_op L) x = Some t -> wf_term ar t.
  Proof.
    fix IH 1. intros [w|l] t H.
    - cbn in H. destruct (l_from_op L w 0) as [o|] eqn:E; [|discriminate H]. cbn in H. inversion H; subst. constructor; [|constructor].
      cbn. symmetry. exact (lo_from_op L ar Lo _ _ _ E).
    - destruct l as [|[w|l'] l]; cbn in H; try discriminate H.
      match type of H with match ?f l with _ => _ end = _ => assert (forall ts, f l = Some ts -> Forall (wf_term ar) ts) as G end.
      { clear H. induction l as [|x l IHl]; intros ts H; [inversion H; constructor|].
        destruct (term_of_sexp (l_from_op L) x) as [t'|] eqn:E; [|discriminate H].
        match type of H with match ?g with _ => _ end = _ => destruct g as [us|] eqn:E2; [|discriminate H] end. inversion H; subst.
        constructor; [exact (IH x t' E)|exact (IHl us eq_refl)]. }
      match type of H with match ?f with _ => _ end = _ => destruct f as [ts|]; [|discriminate H] end.
      destruct (l_from_op L w (length ts)) as [o|] eqn:E; [|discriminate H]. cbn in H. inversion H; subst.
      constructor; [symmetry; exact (lo_from_op L ar Lo _ _ _ E)|now apply G].
  Qed.
  Lemma parse_rec_wf : forall s r, parse_rec (l_from_op L) s = Some r -> exists t, r = to_rec t /\ wf_term ar t.
  Proof.
    intros s r H. unfold parse_rec in H. destruct (parse_str s) as [x|]; [|discriminate H].
    destruct (term_of_sexp (l_from_op L) x) as [t|] eqn:E; [|discriminate H]. cbn in H. inversion H. exists t. split; [reflexivity|]. exact (term_of_sexp_wf x t E).
  Qed.
  Lemma init_vars_calm : forall vs (g : eg O C) g', calm g -> (forall v c ts, In (v, c, ts) vs -> ts = []) ->
    init_vars L keep fuel g vs = Val g' -> calm g'.
  Proof.
    induction vs as [|[[v c] ts] vs IH]; intros g g' Cm Hv H; cbn in H; [now inversion H; subst|].
    destruct (s_add L keep fuel g _) as [[g1 i]|] eqn:Ad; [|discriminate H]. cbn in H.
    destruct (set_cvec g1 i c) as [g2|] eqn:S; [|discriminate H]. cbn in H.
    rewrite (Hv v c ts (or_introl eq_refl)) in H. cbn in H.
    destruct (add_appends g (Node (l_mk_var L v) []) g1 i Cm ltac:(unfold typed_node; cbn; now rewrite (lo_vars L ar Lo)) Ad) as (C1 & _).
    apply (IH g2 g'); [exact (set_cvec_calm L ar g1 i c g2 C1 S)| |exact H]. intros v' c' ts' I. apply (Hv v' c' ts'). now right.
  Qed.
  Lemma initialize_vars_calm : forall vars (g : eg O C) g', calm g -> initialize_vars L keep fuel g vars = Val g' -> calm g'.
  Proof.
    intros vars g g' Cm H. unfold initialize_vars in H. destruct (l_init L vars) as [[n vs]|] eqn:E; [|discriminate H]. cbn in H.
    refine (init_vars_calm vs _ g' (set_an_calm L ar g n Cm) _ H). intros v c ts I. exact (lo_links L ar Lo _ _ _ _ _ _ E I).
  Qed.
  Lemma add_all_exprs_calm : forall rs (g : eg O C) g', calm g -> Forall (Forall (typed_node ar)) rs -> add_all_exprs L keep fuel g rs = Val g' ->
    calm g' /\ appends g g'.
  Proof.
    induction rs as [|r rs IH]; intros g g' Cm Ty H; cbn in H; [inversion H; subst; split; [exact Cm|apply appends_refl]|].
    destruct (s_add_expr L keep fuel g r) as [[g1 i]|] eqn:E; [|discriminate H]. cbn in H. inversion Ty as [|? ? T1 T2]; subst.
    destruct (add_expr_appends r g g1 i Cm T1 E) as [C1 A1]. destruct (IH g1 g' C1 T2 H) as [C2 A2]. split; [exact C2|exact (appends_trans _ _ _ A1 A2)].
  Qed.
  Lemma to_egraph_calm : forall w g, to_egraph L keep fuel w = Val g -> calm g.
  Proof.
    intros w g H. unfold to_egraph in H. destruct (force w) as [ss|]; [|discriminate H]. cbn [rbind] in H.
    destruct (rmapM _ ss) as [rs|] eqn:E; [|discriminate H]. cbn [rbind] in H.
    destruct (initialize_vars L keep fuel eg_default (all_vars L rs)) as [g1|] eqn:I; [|discriminate H]. cbn [rbind] in H.
    refine (proj1 (add_all_exprs_calm rs g1 g (initialize_vars_calm _ _ _ (calm_default L ar) I) _ H)).
    apply rmapM_F2 in E. clear - E Lo. induction E as [|s r ss rs H E IH]; constructor; auto.
    destruct (parse_rec (l_from_op L) (display s)) as [r'|] eqn:P; [|discriminate H]. cbn in H. inversion H; subst.
    destruct (parse_rec_wf _ _ P) as (t & -> & W). now apply to_rec_typed.
  Qed.
End Run.

Section Built.
  Context {O C : Type}.
  Variable L : lang O C.
  Variable ar : O -> nat.
  Hypothesis Lo : literal_only L ar.
  Variable keep : eg O C -> nat -> nat -> bool.

  Lemma built_calm : forall rs g, typed_rules ar rs -> built L ar keep rs g -> calm L ar g.
  Proof.
    intros rs g Hr B. induction B as [|fuel w g H|fuel g r g' i B IH Ty H|fuel st g g' B IH Fr H].
    - apply calm_default.
    - exact (to_egraph_calm L ar Lo keep fuel w g H).
    - exact (proj1 (add_expr_appends L ar Lo keep fuel r g g' i IH Ty H)).
    - exact (scheduled_calm L ar Lo keep fuel st rs g g' Hr IH H).
  Qed.
  Lemma built_made : forall rs g, built L ar keep rs g -> made L keep rs g.
  Proof. intros rs g B. induction B; [constructor|econstructor; eauto|eapply M_add; eauto|eapply M_run; eauto]. Qed.
End Built.
