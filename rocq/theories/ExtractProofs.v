(* The extractor finds a cheapest term of every class. *)
From Coq Require Import NArith Permutation.
From Verif Require Import Base BaseProofs Lang LangProofs Analysis AnalysisSpec AnalysisProofs Generalize GeneralizeProofs Egraph EgraphSpec EgraphProofs Extract MatchSpec.
Open Scope list_scope.

Section Extract.
  Context {O D A : Type}.
  Variable op_eqb : O -> O -> bool.
  Hypothesis op_eqb_eq : forall a b, op_eqb a b = true <-> a = b.
  Variable allowed : O -> bool.
  Variable arrange : list (node O) -> list (node O).
  Hypothesis arrange_ok : forall l, Permutation l (arrange l).
  Variable g : egraph O D A.
  Hypothesis W : wf g.
  Local Notation cost_of := (cost_of allowed).
  Local Notation node_cost := (node_cost allowed g).
  Local Notation make_pass := (make_pass allowed arrange g).
  Local Notation one_pass := (one_pass allowed arrange g).
  Local Notation find_costs := (find_costs allowed arrange g).
  Local Notation best_node := (best_node g).
  Local Notation build := (build op_eqb g).
  Local Notation find_best := (find_best op_eqb g).

  (* ---- costs ---- *)
  Lemma cost_of_max o l : (cost_of o l <= usize_max)%N.
  Proof.
    unfold Extract.cost_of. destruct (allowed o); [|lia]. pose proof (fold_sat l 1) as F. pose proof usize_pos.
    replace (N.min usize_max 1) with 1%N in F by (unfold usize_max; lia). rewrite F. lia.
  Qed.
  Lemma cost_of_sum o l : allowed o = true -> cost_of o l = N.min usize_max (1 + fold_right N.add 0 l)%N.
  Proof.
    intros E. unfold Extract.cost_of. rewrite E. pose proof (fold_sat l 1) as F.
    replace (N.min usize_max 1) with 1%N in F by (unfold usize_max; lia). exact F.
  Qed.
  Lemma sum_mono l l' : Forall2 N.le l l' -> (fold_right N.add 0 l <= fold_right N.add 0 l')%N.
  Proof. induction 1; cbn [fold_right]; lia. Qed.
  Lemma cost_of_mono o l l' : Forall2 N.le l l' -> (cost_of o l <= cost_of o l')%N.
  Proof.
    intros H. destruct (allowed o) eqn:E.
    - rewrite !cost_of_sum by exact E. pose proof (sum_mono _ _ H). lia.
    - unfold Extract.cost_of. rewrite E. lia.
  Qed.
  Lemma sum_in l x : In x l -> (x <= fold_right N.add 0 l)%N.
  Proof. induction l; cbn [In fold_right]; [tauto|]. intros [->|H]; [lia|]. apply IHl in H. lia. Qed.
  Lemma cost_of_child o l x : In x l -> (x < cost_of o l)%N \/ cost_of o l = usize_max.
  Proof.
    intros H. destruct (allowed o) eqn:E.
    - rewrite cost_of_sum by exact E. apply sum_in in H. lia.
    - right. unfold Extract.cost_of. now rewrite E.
  Qed.
  Lemma tcost_term o ts : tcost allowed (T o ts) = cost_of o (map (tcost allowed) ts).
  Proof.
    pose proof (cost_term allowed (T o ts)) as H. cbn [fold_term] in H.
    rewrite (rmapM_pure _ (tcost allowed)) in H by (intros t _; apply cost_term). cbn [rbind] in H.
    unfold tcost at 1. unfold ext_cost in H. injection H as H. exact (eq_sym H).
  Qed.

  (* ---- the table ---- *)
  Definition pos (t : table (O:=O)) (p c : nat) (k : N) (n : node O) : Prop := nth_error t p = Some (c, (k, n)).
  Lemma tlookup_pos (t : table (O:=O)) c : NoDup (map fst t) -> forall k n, tlookup t c = Some (k, n) <-> exists p, pos t p c k n.
  Proof.
    intros N k n. unfold pos. split.
    - intros H. clear N. induction t as [|[c' v] t IH]; cbn in H; [discriminate|]. destruct (Nat.eqb_spec c c') as [->|Ne].
      + injection H as ->. exists 0. reflexivity.
      + destruct (IH H) as [p Hp]. exists (S p). exact Hp.
    - intros [p H]. revert p H. induction t as [|[c' v] t IH]; intros [|p] H; cbn in H; try discriminate.
      + injection H as -> ->. cbn. now rewrite Nat.eqb_refl.
      + cbn. inversion N as [|? ? Nin N']; subst. destruct (Nat.eqb_spec c c') as [->|Ne]; [|eauto].
        destruct Nin. apply nth_error_In in H. apply (in_map fst) in H. exact H.
  Qed.
  Lemma tlookup_key (t : table (O:=O)) c : tlookup t c <> None <-> In c (map fst t).
  Proof.
    induction t as [|[c' v] t IH]; cbn; [tauto|]. destruct (Nat.eqb_spec c c') as [->|Ne].
    - split; [auto|discriminate].
    - rewrite IH. split; [auto|]. intros [->|H]; [congruence|exact H].
  Qed.
  Lemma tinsert_lookup (t : table (O:=O)) c v c' : tlookup (tinsert t c v) c' = if Nat.eqb c' c then Some v else tlookup t c'.
  Proof.
    induction t as [|[k w] t IH]; cbn [tinsert tlookup]; [destruct (Nat.eqb_spec c' c); reflexivity|].
    destruct (Nat.eqb_spec c k) as [->|Ne]; cbn [tlookup].
    - destruct (Nat.eqb_spec c' k); reflexivity.
    - rewrite IH. destruct (Nat.eqb_spec c' k) as [->|]; [|reflexivity]. destruct (Nat.eqb_spec k c); [congruence|reflexivity].
  Qed.
  Lemma tinsert_old (t : table (O:=O)) c v v0 : tlookup t c = Some v0 -> exists p, nth_error t p = Some (c, v0) /\
    nth_error (tinsert t c v) p = Some (c, v) /\ (forall q, q <> p -> nth_error (tinsert t c v) q = nth_error t q) /\ map fst (tinsert t c v) = map fst t.
  Proof.
    induction t as [|[k w] t IH]; cbn [tinsert tlookup]; [discriminate|]. destruct (Nat.eqb_spec c k) as [->|Ne]; intros H.
    - injection H as ->. exists 0. split; [reflexivity|]. split; [reflexivity|]. split; [|reflexivity]. intros [|q] Hq; [congruence|reflexivity].
    - destruct (IH H) as (p & H1 & H2 & H3 & H4). exists (S p). split; [exact H1|]. split; [exact H2|]. split; [|cbn; now rewrite H4].
      intros [|q] Hq; [reflexivity|]. cbn. apply H3. congruence.
  Qed.
  Lemma tinsert_new (t : table (O:=O)) c v : tlookup t c = None -> tinsert t c v = t ++ [(c, v)].
  Proof.
    induction t as [|[k w] t IH]; cbn [tinsert tlookup]; [reflexivity|]. destruct (Nat.eqb_spec c k); [discriminate|]. intros H. cbn. now rewrite IH.
  Qed.

  Lemma all_some_spec {X} (l : list (option X)) r : all_some l = Some r <-> Forall2 (fun a b => a = Some b) l r.
  Proof.
    revert r. induction l as [|[x|] l IH]; intros r; cbn.
    - split; [intros H; injection H as <-; constructor|]. intros H; inversion H; reflexivity.
    - destruct (all_some l) as [r'|].
      + split.
        * intros H. injection H as <-. constructor; [reflexivity|]. now apply IH.
        * intros H. inversion H as [|? y ? r0 E F]; subst. injection E as ->. apply IH in F. congruence.
      + split; [discriminate|]. intros H. inversion H as [|? y ? r0 E F]; subst. apply IH in F. discriminate.
    - split; [discriminate|]. intros H. inversion H as [|? y ? r0 E F]; subst. discriminate.
  Qed.
  Lemma node_cost_some t n k : node_cost t n = Val (Some k) <->
    exists ids costs, Forall2 (fun c i => find g c = Val i) (nch n) ids /\
      Forall2 (fun i k => exists m, tlookup t i = Some (k, m)) ids costs /\ k = cost_of (nop n) costs.
  Proof.
    unfold Extract.node_cost. split.
    - intros H. apply rbind_val in H as (ids & H1 & H2). apply rmapM_F2 in H1.
      destruct (all_some _) as [costs|] eqn:E; [|discriminate]. apply all_some_spec in E. exists ids, costs. split; [exact H1|]. split; [|congruence].
      clear - E. remember (map (fun i => option_map fst (tlookup t i)) ids) as l. revert ids Heql.
      induction E as [|o k l r H E IH]; intros [|i ids] Hl; try discriminate; constructor.
      + cbn in Hl. injection Hl as Hi _. rewrite H in Hi. destruct (tlookup t i) as [[k' m]|]; [|discriminate]. cbn in Hi. exists m. congruence.
      + cbn in Hl. injection Hl as _ Hl. auto.
    - intros (ids & costs & H1 & H2 & ->). apply rmapM_F2 in H1. rewrite H1. cbn [rbind].
      assert (all_some (map (fun i => option_map fst (tlookup t i)) ids) = Some costs) as ->; [|reflexivity].
      apply all_some_spec. clear - H2. induction H2 as [|i k ids costs (m & H) _ IH]; cbn; constructor; auto. now rewrite H.
  Qed.
  Lemma node_cost_total t n : Forall (fun c => c < size g) (nch n) -> exists o, node_cost t n = Val o.
  Proof.
    intros F. unfold Extract.node_cost. destruct (rmapM (find g) (nch n)) as [ids|] eqn:E; [cbn; eauto|]. exfalso.
    revert E. induction F as [|c l H F IH]; cbn; [discriminate|]. destruct (find_val g c H) as [r ->]. cbn. destruct (rmapM (find g) l); [discriminate|]. auto.
  Qed.

  Lemma min_by_spec (l : list (option N * node O)) : forall b r, min_by b l = r ->
    (r = b \/ In r l) /\ (forall k, fst r = Some k -> forall x k', x = b \/ In x l -> fst x = Some k' -> (k <= k')%N) /\
    (fst r = None -> forall x, x = b \/ In x l -> fst x = None).
  Proof.
    induction l as [|x l IH]; intros b r H; cbn [min_by] in H.
    - subst r. split; [auto|]. split.
      + intros k E y k' [->|[]] E'. assert (k = k') by congruence. lia.
      + intros E y [->|[]]. exact E.
    - apply IH in H as (H1 & H2 & H3). clear IH.
      assert (C : (match fst b, fst x with None, Some _ => x | Some a, Some b0 => if (b0 <? a)%N then x else b | _, None => b end) = b \/
                  (match fst b, fst x with None, Some _ => x | Some a, Some b0 => if (b0 <? a)%N then x else b | _, None => b end) = x).
      { destruct (fst b), (fst x); auto. destruct (_ <? _)%N; auto. }
      set (b' := match fst b, fst x with None, Some _ => x | Some a, Some b0 => if (b0 <? a)%N then x else b | _, None => b end) in *.
      split; [|split].
      + destruct H1 as [->|H1]; [|cbn; auto]. destruct C as [->| ->]; cbn; auto.
      + intros k E y k' Hy E'. destruct Hy as [->|[<-|Hy]]; [| |apply (H2 k E y k'); auto].
        * subst b'. destruct (fst b) as [a|] eqn:Eb; [|congruence]. injection E' as ->.
          destruct (fst x) as [c|] eqn:Ex.
          -- destruct (N.ltb_spec c k'); [specialize (H2 k E x c (or_introl eq_refl) Ex); lia|exact (H2 k E b k' (or_introl eq_refl) Eb)].
          -- exact (H2 k E b k' (or_introl eq_refl) Eb).
        * subst b'. rewrite E' in *. destruct (fst b) as [a|] eqn:Eb.
          -- destruct (N.ltb_spec k' a); [exact (H2 k E x k' (or_introl eq_refl) E')|specialize (H2 k E b a (or_introl eq_refl) Eb); lia].
          -- exact (H2 k E x k' (or_introl eq_refl) E').
      + intros E. specialize (H3 E). intros y [->|[<-|Hy]]; [| |apply H3; auto].
        * subst b'. destruct (fst b) as [a|] eqn:Eb; [|reflexivity]. exfalso. destruct (fst x) as [c|] eqn:Ex.
          -- destruct (N.ltb c a); [specialize (H3 x (or_introl eq_refl))|specialize (H3 b (or_introl eq_refl))]; congruence.
          -- specialize (H3 b (or_introl eq_refl)). congruence.
        * subst b'. destruct (fst x) as [c|] eqn:Ex; [|reflexivity]. exfalso. destruct (fst b) as [a|] eqn:Eb.
          -- destruct (N.ltb c a); [specialize (H3 x (or_introl eq_refl))|specialize (H3 b (or_introl eq_refl))]; congruence.
          -- specialize (H3 x (or_introl eq_refl)). congruence.
  Qed.

  (* ---- the nodes of a class ---- *)
  Lemma class_nodes_spec i : i < size g -> exists ns, class_nodes g i = Val ns /\
    (forall n, In n ns -> has g (nop n) (nch n) i /\ Forall (fun c => c < size g) (nch n)) /\
    (forall o ch, has g o ch i -> exists n, In n ns /\ nop n = o /\ Forall2 (fun a b => find g a = Val b) ch (nch n)).
  Proof.
    intros Hi. destruct (find_val g i Hi) as [r Er].
    assert (exists ids, rmapM (fun e => find g (snd e)) (g_nodes g) = Val ids) as (ids & Eids).
    { assert (forall l, incl l (g_nodes g) -> exists ids, rmapM (fun e => find g (snd e)) l = Val ids) as G; [|apply G, incl_refl].
      induction l as [|[n j] l IH]; intros Hl; [exists []; reflexivity|]. cbn. destruct (wf_nodes g W n j) as [Lj _]; [apply Hl; now left|].
      destruct (find_val g j Lj) as [q ->]. cbn. destruct IH as [ids ->]; [intros x Hx; apply Hl; now right|]. cbn. eauto. }
    set (sel := map (fun t => fst (snd t)) (List.filter (fun t => Nat.eqb (fst t) r) (combine ids (g_nodes g)))).
    assert (Sel : forall n, In n sel <-> exists j, In (n, j) (g_nodes g) /\ find g j = Val r).
    { intros n. unfold sel. rewrite in_map_iff. pose proof Eids as F. apply rmapM_F2 in F. split.
      - intros ([q [n' j]] & <- & Hx). apply filter_In in Hx as [Hx Eq]. cbn in Eq. apply Nat.eqb_eq in Eq. subst q. cbn. exists j.
        clear - F Hx. revert ids F Hx. induction (g_nodes g) as [|e l IH]; intros ids F Hx; inversion F as [|? y ? ids' E F']; subst; [destruct Hx|].
        destruct Hx as [Hx|Hx]; [injection Hx as -> ->; cbn in E; cbn; auto|]. destruct (IH _ F' Hx). cbn. auto.
      - intros (j & Hj & Ej). exists (r, (n, j)). split; [reflexivity|]. apply filter_In. split; [|apply Nat.eqb_refl].
        clear - F Hj Ej. revert ids F. induction (g_nodes g) as [|e l IH]; intros ids F; [destruct Hj|]. inversion F as [|? y ? ids' E F']; subst.
        destruct Hj as [->|Hj]; [|right; auto]. left. cbn in E. congruence. }
    assert (exists ns, rmapM (canon g) sel = Val ns) as (ns & Ens).
    { assert (forall l, incl l sel -> exists ns, rmapM (canon g) l = Val ns) as G; [|apply G, incl_refl].
      induction l as [|n l IH]; intros Hl; [exists []; reflexivity|]. cbn.
      assert (exists n', canon g n = Val n') as (n' & ->).
      { destruct (proj1 (Sel n)) as (j & Hj & _); [apply Hl; now left|]. destruct (wf_nodes g W n j Hj) as [_ F].
        unfold canon. clear - F. induction F as [|c l H F (n' & IH)]; [cbn; eauto|]. cbn. destruct (find_val g c H) as [q ->]. cbn.
        destruct (rmapM (find g) l); [cbn; eauto|discriminate]. }
      cbn. destruct IH as [ns ->]; [intros x Hx; apply Hl; now right|]. cbn. eauto. }
    assert (Ecl : class_nodes g i = Val ns).
    { unfold class_nodes. rewrite Er. cbn. rewrite Eids. cbn. exact Ens. }
    apply rmapM_F2 in Ens. exists ns. split; [exact Ecl|]. split.
    - intros n Hn. split; [exact (class_nodes_has g i ns W Ecl n Hn)|].
      assert (exists m, In m sel /\ canon g m = Val n) as (m & Hm & Cm).
      { clear - Ens Hn. induction Ens; [destruct Hn|]. destruct Hn as [->|Hn]; [exists x; cbn; auto|]. destruct (IHEns Hn) as (m & ? & ?). exists m. cbn. auto. }
      apply Sel in Hm as (j & Hj & _). exact (canon_lt g m n W Cm).
    - intros o ch (m & j & Hm & Eo & Fc & Ej).
      assert (Hs : In m sel). { apply Sel. exists j. split; [exact Hm|]. destruct Ej as (q & E1 & E2). congruence. }
      assert (exists n, In n ns /\ canon g m = Val n) as (n & Hn & Cn).
      { clear - Ens Hs. induction Ens; [destruct Hs|]. destruct Hs as [->|Hs]; [exists y; cbn; auto|]. destruct (IHEns Hs) as (n & ? & ?). exists n. cbn. auto. }
      exists n. split; [exact Hn|]. apply canon_spec in Cn as [Co Cf]. split; [congruence|].
      clear - Fc Cf. revert ch Fc. induction Cf as [|a b l l' H Cf IH]; intros ch Fc; inversion Fc as [|? c ? ch' E F]; subst; constructor; auto.
      destruct E as (q & E1 & E2). congruence.
  Qed.
  Lemma class_nodes_some i ns : i < size g -> class_nodes g i = Val ns -> ns <> [].
  Proof.
    intros Hi E. destruct (class_nodes_spec i Hi) as (ns' & E' & _ & H). assert (ns' = ns) by congruence. subst ns'.
    destruct (wf_founded g W i Hi) as (o & ch & Hh & _). destruct (H o ch Hh) as (n & Hn & _). intros ->. destruct Hn.
  Qed.

  (* what one pass over a class finds *)
  Lemma make_pass_spec t c : c < size g -> exists p, make_pass t c = Val p /\ exists ns, class_nodes g c = Val ns /\
    match p with
    | Some (k, n) => In n ns /\ node_cost t n = Val (Some k) /\ forall m k', In m ns -> node_cost t m = Val (Some k') -> (k <= k')%N
    | None => forall m k', In m ns -> node_cost t m <> Val (Some k')
    end.
  Proof.
    intros Hc. destruct (class_nodes_spec c Hc) as (ns & Ens & Hns & _). pose proof (class_nodes_some c ns Hc Ens) as Nn.
    unfold Extract.make_pass. rewrite Ens. cbn [rbind].
    assert (exists costs, rmapM (node_cost t) (arrange ns) = Val costs) as (costs & Ec).
    { assert (forall l, incl l ns -> exists cs, rmapM (node_cost t) l = Val cs) as G.
      { induction l as [|n l IH]; intros Hl; [exists []; reflexivity|]. cbn. destruct (node_cost_total t n) as [o ->].
        - apply Hns. apply Hl. now left.
        - cbn. destruct IH as [cs ->]; [intros x Hx; apply Hl; now right|]. cbn. eauto. }
      apply G. intros x Hx. exact (Permutation_in x (Permutation_sym (arrange_ok ns)) Hx). }
    rewrite Ec. cbn [rbind]. apply rmapM_F2 in Ec.
    assert (Cb : forall o n, In (o, n) (combine costs (arrange ns)) -> In n ns /\ node_cost t n = Val o).
    { intros o n H. assert (In n (arrange ns) /\ node_cost t n = Val o) as [H1 H2].
      { clear - Ec H. revert H. induction Ec as [|x y l l' E F IH]; cbn; [tauto|]. intros [H|H]; [injection H as -> ->; auto|]. destruct (IH H). auto. }
      split; [exact (Permutation_in n (Permutation_sym (arrange_ok ns)) H1)|exact H2]. }
    assert (Ca : forall n, In n ns -> exists o, In (o, n) (combine costs (arrange ns))).
    { intros n H. apply (Permutation_in n (arrange_ok ns)) in H. clear - Ec H. induction Ec as [|x y l l' E F IH]; [destruct H|].
      destruct H as [->|H]; [exists y; cbn; auto|]. destruct (IH H) as [o Ho]. exists o. cbn. auto. }
    destruct (combine costs (arrange ns)) as [|x r] eqn:Ex.
    { exfalso. destruct ns as [|n ns]; [congruence|]. destruct (Ca n (or_introl eq_refl)) as [o []]. }
    eexists. split; [reflexivity|]. exists ns. split; [reflexivity|].
    destruct (min_by x r) as [o n] eqn:Em. destruct (min_by_spec _ _ _ Em) as (M1 & M2 & M3).
    assert (Hin : In (o, n) (x :: r)) by (destruct M1 as [<-|M1]; [now left|now right]).
    destruct (Cb o n Hin) as [Hn Hcost]. destruct o as [k|].
    - split; [exact Hn|]. split; [exact Hcost|]. intros m k' Hm Hk. destruct (Ca m Hm) as [o Ho]. destruct (Cb o m Ho) as [_ Eo].
      apply (M2 k eq_refl (o, m) k'); [destruct Ho as [<-|Ho]; auto|cbn; congruence].
    - intros m k' Hm Hk. destruct (Ca m Hm) as [o Ho]. destruct (Cb o m Ho) as [_ Eo].
      assert (fst (o, m) = None) as Z by (apply (M3 eq_refl); destruct Ho as [<-|Ho]; auto). cbn in Z. congruence.
  Qed.

  (* ---- the invariant ---- *)
  Record tinv (t : table (O:=O)) : Prop := {
    ti_nd : NoDup (map fst t);
    ti_key : forall c, In c (map fst t) -> find g c = Val c;
    ti_node : forall p c k n, pos t p c k n -> exists ns, class_nodes g c = Val ns /\ In n ns;
    ti_max : forall p c k n, pos t p c k n -> (k <= usize_max)%N;
    ti_cost : forall p c k n, pos t p c k n -> exists k', node_cost t n = Val (Some k') /\ (k' <= k)%N;
    ti_rank : forall p c k n, pos t p c k n -> forall ch i, In ch (nch n) -> find g ch = Val i ->
      exists q kc m, pos t q i kc m /\ ((kc < k)%N \/ (kc = usize_max /\ k = usize_max /\ q < p)) }.

  Lemma tinv_nil : tinv [].
  Proof.
    constructor; cbn; try tauto; try constructor; intros p c k n H; destruct p; discriminate H.
  Qed.

  (* the costs recorded only go down *)
  Definition better (t t' : table (O:=O)) : Prop := forall i k m, tlookup t i = Some (k, m) -> exists k' m', tlookup t' i = Some (k', m') /\ (k' <= k)%N.
  Lemma better_cost t t' n k : better t t' -> node_cost t n = Val (Some k) -> exists k', node_cost t' n = Val (Some k') /\ (k' <= k)%N.
  Proof.
    intros B H. apply node_cost_some in H as (ids & costs & H1 & H2 & ->).
    assert (exists costs', Forall2 (fun i k => exists m, tlookup t' i = Some (k, m)) ids costs' /\ Forall2 N.le costs' costs) as (cs & H3 & H4).
    { clear - B H2. induction H2 as [|i k ids costs (m & H) _ (cs & F1 & F2)]; [exists []; split; constructor|].
      destruct (B i k m H) as (k' & m' & H' & Le). exists (k' :: cs). split; constructor; eauto. }
    exists (cost_of (nop n) cs). split; [|now apply cost_of_mono]. apply node_cost_some. exists ids, cs. auto.
  Qed.
  Lemma insert_better t c k n : tinv t -> (forall k0 n0, tlookup t c = Some (k0, n0) -> (k <= k0)%N) -> better t (tinsert t c (k, n)).
  Proof.
    intros I H i k1 m E. rewrite tinsert_lookup. destruct (Nat.eqb_spec i c) as [->|Ne].
    - exists k, n. split; [reflexivity|]. exact (H k1 m E).
    - exists k1, m. split; [exact E|lia].
  Qed.

  Lemma tinv_insert t c k n ns : tinv t -> find g c = Val c -> class_nodes g c = Val ns -> In n ns -> node_cost t n = Val (Some k) ->
    (forall k0 n0, tlookup t c = Some (k0, n0) -> (k < k0)%N) -> tinv (tinsert t c (k, n)).
  Proof.
    intros I Fc Ens Hn Hk Hlt. pose proof (ti_nd t I) as Nd.
    assert (B : better t (tinsert t c (k, n))). { apply insert_better; [exact I|]. intros k0 n0 E. apply Hlt in E. lia. }
    assert (Kmax : (k <= usize_max)%N).
    { apply node_cost_some in Hk as (ids & costs & _ & _ & ->). apply cost_of_max. }
    (* children of the new node *)
    assert (Ch : forall ch i, In ch (nch n) -> find g ch = Val i -> exists q kc m, pos t q i kc m /\ ((kc < k)%N \/ (k = usize_max /\ (kc <= usize_max)%N))).
    { intros ch i Hch Fi. pose proof Hk as X. apply node_cost_some in X as (ids & costs & H1 & H2 & Ek).
      assert (exists kc m, In kc costs /\ tlookup t i = Some (kc, m)) as (kc & m & H3 & H4).
      { clear - H1 H2 Hch Fi. revert costs H2. induction H1 as [|c0 i0 l l' E F IH]; intros costs H2; [destruct Hch|].
        inversion H2 as [|? kc ? cs (m & Em) F2]; subst. destruct Hch as [->|Hch].
        - exists kc, m. split; [now left|]. congruence.
        - destruct (IH Hch cs F2) as (kc' & m' & ? & ?). exists kc', m'. split; [now right|auto]. }
      apply tlookup_pos in H4 as (q & H4); [|exact Nd]. exists q, kc, m. split; [exact H4|]. destruct (cost_of_child (nop n) costs kc H3) as [X|X].
      - left. congruence.
      - right. split; [congruence|]. exact (ti_max t I _ _ _ _ H4). }
    destruct (tlookup t c) as [[k0 n0]|] eqn:El.
    - (* replaced *)
      specialize (Hlt k0 n0 eq_refl). destruct (tinsert_old t c (k, n) (k0, n0) El) as (p0 & P1 & P2 & P3 & P4).
      assert (P5 : forall q c1 k1 n1, pos (tinsert t c (k, n)) q c1 k1 n1 -> (q = p0 /\ c1 = c /\ k1 = k /\ n1 = n) \/ (q <> p0 /\ pos t q c1 k1 n1)).
      { intros q c1 k1 n1 H. unfold pos in *. destruct (Nat.eq_dec q p0) as [->|Nq].
        - left. assert (X : (c, (k, n)) = (c1, (k1, n1))) by congruence. inversion X. auto.
        - right. split; [exact Nq|]. now rewrite P3 in H. }
      assert (K0 : (k0 <= usize_max)%N) by exact (ti_max t I p0 c k0 n0 P1).
      constructor.
      + now rewrite P4.
      + rewrite P4. exact (ti_key t I).
      + intros q c1 k1 n1 H. destruct (P5 q c1 k1 n1 H) as [(-> & -> & -> & ->)|[_ H']]; [eauto|exact (ti_node t I _ _ _ _ H')].
      + intros q c1 k1 n1 H. destruct (P5 q c1 k1 n1 H) as [(-> & -> & -> & ->)|[_ H']]; [exact Kmax|exact (ti_max t I _ _ _ _ H')].
      + intros q c1 k1 n1 H. destruct (P5 q c1 k1 n1 H) as [(-> & -> & -> & ->)|[_ H']].
        * exact (better_cost _ _ _ _ B Hk).
        * destruct (ti_cost t I _ _ _ _ H') as (k' & X & Le). destruct (better_cost _ _ _ _ B X) as (k'' & Y & Le'). exists k''. split; [exact Y|lia].
      + intros q c1 k1 n1 H ch i Hch Fi.
        assert (Old : forall q' kc m, pos t q' i kc m -> exists kc' m', pos (tinsert t c (k, n)) q' i kc' m' /\ (kc' <= kc)%N /\ (kc' = kc \/ kc' < kc)%N).
        { intros q' kc m Hp. unfold pos in *. destruct (Nat.eq_dec q' p0) as [->|Nq].
          - assert (X : (c, (k0, n0)) = (i, (kc, m))) by congruence. inversion X; subst. exists k, n. split; [exact P2|]. lia.
          - exists kc, m. split; [now rewrite P3|]. lia. }
        destruct (P5 q c1 k1 n1 H) as [(-> & -> & -> & ->)|[_ H']].
        * destruct (Ch ch i Hch Fi) as (q' & kc & m & Hp & X). destruct (Old q' kc m Hp) as (kc' & m' & Hp' & Le & _).
          exists q', kc', m'. split; [exact Hp'|]. left. destruct X as [X|[X _]]; lia.
        * destruct (ti_rank t I _ _ _ _ H' ch i Hch Fi) as (q' & kc & m & Hp & X). destruct (Old q' kc m Hp) as (kc' & m' & Hp' & Le & E).
          exists q', kc', m'. split; [exact Hp'|]. destruct X as [X|(X1 & X2 & X3)]; [left; lia|]. destruct E as [->|E]; [right; auto|left; lia].
    - (* added at the end *)
      assert (El' : tinsert t c (k, n) = t ++ [(c, (k, n))]) by (apply tinsert_new; exact El). rewrite El' in *.
      assert (P5 : forall q c1 k1 n1, pos (t ++ [(c, (k, n))]) q c1 k1 n1 -> (q = length t /\ c1 = c /\ k1 = k /\ n1 = n) \/ pos t q c1 k1 n1).
      { intros q c1 k1 n1 H. unfold pos in *. destruct (Nat.lt_ge_cases q (length t)) as [L|L].
        - right. now rewrite nth_error_app1 in H.
        - left. rewrite nth_error_app2 in H by exact L. destruct (q - length t) as [|d] eqn:Eq; [|destruct d; discriminate H].
          cbn in H. injection H as -> -> ->. split; [lia|auto]. }
      assert (P6 : forall q c1 k1 n1, pos t q c1 k1 n1 -> pos (t ++ [(c, (k, n))]) q c1 k1 n1 /\ q < length t).
      { intros q c1 k1 n1 H. unfold pos in *. assert (L : q < length t) by (apply nth_error_Some; congruence). split; [now rewrite nth_error_app1|exact L]. }
      constructor.
      + rewrite map_app. cbn. apply (Permutation_NoDup (l := c :: map fst t)); [apply Permutation_cons_append|]. constructor; [|exact Nd].
        intros X. apply tlookup_key in X. congruence.
      + rewrite map_app. intros c1 H. apply in_app_iff in H as [H|[<-|[]]]; [exact (ti_key t I c1 H)|exact Fc].
      + intros q c1 k1 n1 H. destruct (P5 q c1 k1 n1 H) as [(-> & -> & -> & ->)|H']; [eauto|exact (ti_node t I _ _ _ _ H')].
      + intros q c1 k1 n1 H. destruct (P5 q c1 k1 n1 H) as [(-> & -> & -> & ->)|H']; [exact Kmax|exact (ti_max t I _ _ _ _ H')].
      + intros q c1 k1 n1 H. destruct (P5 q c1 k1 n1 H) as [(-> & -> & -> & ->)|H'].
        * exact (better_cost _ _ _ _ B Hk).
        * destruct (ti_cost t I _ _ _ _ H') as (k' & X & Le). destruct (better_cost _ _ _ _ B X) as (k'' & Y & Le'). exists k''. split; [exact Y|lia].
      + intros q c1 k1 n1 H ch i Hch Fi. destruct (P5 q c1 k1 n1 H) as [(-> & -> & -> & ->)|H'].
        * destruct (Ch ch i Hch Fi) as (q' & kc & m & Hp & X). destruct (P6 _ _ _ _ Hp) as [Hp' Lt]. exists q', kc, m. split; [exact Hp'|].
          destruct X as [X|[X1 X2]]; [auto|]. destruct (N.eq_dec kc usize_max) as [E|E]; [right; auto|left; lia].
        * destruct (ti_rank t I _ _ _ _ H' ch i Hch Fi) as (q' & kc & m & Hp & X). destruct (P6 _ _ _ _ Hp) as [Hp' Lt]. exists q', kc, m. auto.
  Qed.

  (* ---- find_costs ---- *)
  Definition weight (t : table (O:=O)) (c : nat) : N := match tlookup t c with Some (k, _) => k | None => usize_max + 1 end%N.
  Definition total (t : table (O:=O)) (order : list nat) : N := fold_right N.add 0%N (map (weight t) order).
  Lemma better_weight t t' c : better t t' -> tinv t' -> (weight t' c <= weight t c)%N.
  Proof.
    intros B I. unfold weight. destruct (tlookup t c) as [[k m]|] eqn:E.
    - destruct (B c k m E) as (k' & m' & -> & Le). exact Le.
    - destruct (tlookup t' c) as [[k' m']|] eqn:E'; [|lia]. apply tlookup_pos in E' as (p & E'); [|exact (ti_nd t' I)].
      pose proof (ti_max t' I _ _ _ _ E'). lia.
  Qed.
  Lemma better_total t t' order : better t t' -> tinv t' -> (total t' order <= total t order)%N.
  Proof. intros B I. induction order as [|c r IH]; cbn; [lia|]. fold (total t' r) (total t r). pose proof (better_weight t t' c B I). lia. Qed.
  Lemma better_refl t : better t t.
  Proof. intros i k m E. exists k, m. split; [exact E|lia]. Qed.
  Lemma better_trans a b c : better a b -> better b c -> better a c.
  Proof. intros H1 H2 i k m E. destruct (H1 i k m E) as (k' & m' & E' & L). destruct (H2 i k' m' E') as (k'' & m'' & E'' & L'). exists k'', m''. split; [exact E''|lia]. Qed.

  (* nothing is left to do for the class [c] *)
  Definition settled (t : table (O:=O)) (c : nat) : Prop := forall ns n k, class_nodes g c = Val ns -> In n ns -> node_cost t n = Val (Some k) ->
    exists k0 n0, tlookup t c = Some (k0, n0) /\ (k0 <= k)%N.

  Lemma one_pass_spec cs : forall t did, tinv t -> (forall c, In c cs -> find g c = Val c) ->
    exists t' did', one_pass t cs did = Val (t', did') /\ tinv t' /\ better t t' /\
      (did' = true -> did = true \/ (total t' cs < total t cs)%N) /\
      (did' = false -> did = false /\ t' = t /\ forall c, In c cs -> settled t c).
  Proof.
    induction cs as [|c cs IH]; intros t did I Hc; cbn [Extract.one_pass].
    - exists t, did. split; [reflexivity|]. split; [exact I|]. split; [apply better_refl|]. split; [auto|]. intros ->. split; [reflexivity|]. split; [reflexivity|]. intros c [].
    - pose proof (Hc c (or_introl eq_refl)) as Fc. assert (Hcs : forall c, In c cs -> find g c = Val c) by (intros; apply Hc; now right).
      destruct (make_pass_spec t c (find_some _ _ _ Fc)) as (p & Ep & ns & Ens & Hp). rewrite Ep. cbn [rbind].
      assert (Step : forall k n, p = Some (k, n) -> (forall k0 n0, tlookup t c = Some (k0, n0) -> (k < k0)%N) ->
        exists t' did', one_pass (tinsert t c (k, n)) cs true = Val (t', did') /\ tinv t' /\ better t t' /\
        (did' = true -> did = true \/ (total t' (c :: cs) < total t (c :: cs))%N) /\
        (did' = false -> did = false /\ t' = t /\ forall c0, In c0 (c :: cs) -> settled t c0)).
      { intros k n -> Hlt. destruct Hp as (Hn & Hk & _).
        pose proof (tinv_insert t c k n ns I Fc Ens Hn Hk Hlt) as I'.
        assert (B : better t (tinsert t c (k, n))). { apply insert_better; [exact I|]. intros k0 n0 E. apply Hlt in E. lia. }
        destruct (IH (tinsert t c (k, n)) true I' Hcs) as (t' & did' & E & I'' & B' & D1 & D2). exists t', did'. split; [exact E|]. split; [exact I''|].
        pose proof (better_trans _ _ _ B B') as B2. split; [exact B2|]. split.
        - intros _. right. unfold total. cbn [map fold_right]. fold (total t' cs) (total t cs).
          pose proof (better_total t t' cs B2 I'') as L1. pose proof (better_weight _ _ c B' I'') as L2.
          assert (weight (tinsert t c (k, n)) c < weight t c)%N as L3.
          { unfold weight. rewrite tinsert_lookup, Nat.eqb_refl. destruct (tlookup t c) as [[k0 n0]|] eqn:E0; [exact (Hlt k0 n0 eq_refl)|].
            apply node_cost_some in Hk as (ids & costs & _ & _ & ->). pose proof (cost_of_max (nop n) costs). lia. }
          lia.
        - intros X. destruct (D2 X) as [X1 _]. discriminate X1. }
      assert (Skip : settled t c -> exists t' did', one_pass t cs did = Val (t', did') /\ tinv t' /\ better t t' /\
        (did' = true -> did = true \/ (total t' (c :: cs) < total t (c :: cs))%N) /\
        (did' = false -> did = false /\ t' = t /\ forall c0, In c0 (c :: cs) -> settled t c0)).
      { intros S. destruct (IH t did I Hcs) as (t' & did' & E & I'' & B' & D1 & D2). exists t', did'. split; [exact E|]. split; [exact I''|]. split; [exact B'|]. split.
        - intros X. destruct (D1 X) as [Y|Y]; [auto|right]. unfold total in *. cbn [map fold_right]. pose proof (better_weight _ _ c B' I''). lia.
        - intros X. destruct (D2 X) as (X1 & X2 & X3). split; [exact X1|]. split; [exact X2|]. intros c0 [<-|H0]; auto. }
      destruct (tlookup t c) as [[k0 n0]|] eqn:El; destruct p as [[k n]|].
      + cbn [fst]. destruct (N.ltb_spec k k0) as [L|L].
        * apply Step; [reflexivity|]. intros k1 n1 E. congruence.
        * apply Skip. intros ns' m k' E Hm Hk'. assert (ns' = ns) by congruence. subst. destruct Hp as (_ & _ & Hmin). specialize (Hmin m k' Hm Hk').
          exists k0, n0. split; [exact El|lia].
      + apply Skip. intros ns' m k' E Hm Hk'. assert (ns' = ns) by congruence. subst. destruct (Hp m k' Hm Hk').
      + apply Step; [reflexivity|]. intros k1 n1 E. congruence.
      + apply Skip. intros ns' m k' E Hm Hk'. assert (ns' = ns) by congruence. subst. destruct (Hp m k' Hm Hk').
  Qed.

  Lemma find_costs_spec order : (forall c, In c order -> find g c = Val c) -> forall t, tinv t ->
    exists f0 t', (forall f, f0 <= f -> find_costs f order t = Val t') /\ tinv t' /\ forall c, In c order -> settled t' c.
  Proof.
    intros Ho t. remember (total t order) as w eqn:Ew. revert t Ew. induction w as [w IH] using (well_founded_induction N.lt_wf_0). intros t -> I.
    destruct (one_pass_spec order t false I Ho) as (t1 & did & E & I1 & B & D1 & D2). destruct did.
    - destruct (D1 eq_refl) as [X|L]; [discriminate X|]. destruct (IH _ L t1 eq_refl I1) as (f0 & t' & F & I' & Se). exists (S f0), t'.
      split; [|auto]. intros [|f] Hf; [lia|]. cbn [Extract.find_costs]. rewrite E. cbn [rbind]. apply F. lia.
    - destruct (D2 eq_refl) as (_ & -> & S). exists 1, t. split; [|auto]. intros [|f] Hf; [lia|]. cbn [Extract.find_costs]. rewrite E. reflexivity.
  Qed.

  (* ---- the finished table ---- *)
  Variable order : list nat.
  Hypothesis order_ok : forall c, In c order <-> find g c = Val c.
  Variable t : table (O:=O).
  Hypothesis tI : tinv t.
  Hypothesis tS : forall c, In c order -> settled t c.

  Lemma F2_find_refl ch : Forall (fun c => find g c = Val c) ch -> Forall2 (fun c i => find g c = Val i) ch ch.
  Proof. induction 1; constructor; auto. Qed.

  (* every represented term costs at least what is recorded *)
  Lemma recorded_least u c : repr g u c -> forall r, find g c = Val r -> exists k n, tlookup t r = Some (k, n) /\ (k <= tcost allowed u)%N.
  Proof.
    revert c. induction u as [o ts IH] using term_ind'. intros c R r Fr. inversion R as [? ? ch ? F H]; subst.
    assert (Lr : r < size g) by (apply (find_some g r r); exact (wf_rep g W c r Fr)).
    assert (Hr : has g o ch r).
    { destruct H as (n & i & H1 & H2 & H3 & H4). exists n, i. split; [exact H1|]. split; [exact H2|]. split; [exact H3|].
      destruct H4 as (q & E1 & E2). exists q. split; [exact E1|]. assert (q = r) by congruence. subst q. exact (wf_rep g W c r Fr). }
    destruct (class_nodes_spec r Lr) as (ns & Ens & _ & Hns). destruct (Hns o ch Hr) as (n & Hn & No & Fn).
    assert (exists costs, Forall2 (fun i k => exists m, tlookup t i = Some (k, m)) (nch n) costs /\ Forall2 N.le costs (map (tcost allowed) ts)) as (costs & C1 & C2).
    { clear - IH F Fn. revert ch F Fn. generalize (nch n). intros l ch F. revert l. induction F as [|u c ts ch Hu F IHF]; intros l Fn; inversion Fn as [|? i ? l' Ei F']; subst.
      - exists []. split; constructor.
      - inversion IH as [|? ? Hd Tl]; subst. destruct (Hd c Hu i Ei) as (k & m & E & Le). destruct (IHF Tl l' F') as (costs & C1 & C2).
        exists (k :: costs). split; constructor; eauto. }
    assert (Cn : Forall (fun c => find g c = Val c) (nch n)).
    { clear - Fn W. induction Fn; constructor; auto. exact (wf_rep g W _ _ H). }
    destruct (tS r (proj2 (order_ok r) (wf_rep g W c r Fr)) ns n (cost_of (nop n) costs) Ens Hn) as (k0 & n0 & E0 & Le).
    { apply node_cost_some. exists (nch n), costs. split; [now apply F2_find_refl|]. auto. }
    exists k0, n0. split; [exact E0|]. rewrite tcost_term. subst o. pose proof (cost_of_mono (nop n) _ _ C2). lia.
  Qed.

  Lemma all_inhabited i : i < size g -> exists u, repr g u i.
  Proof.
    induction i as [i IH] using (well_founded_induction lt_wf). intros Hi. destruct (wf_founded g W i Hi) as (o & ch & H & F).
    assert (exists ts, Forall2 (repr g) ts ch) as (ts & Ft).
    { clear H. induction F as [|c ch Hc F (ts & IHF)]; [exists []; constructor|]. destruct (IH c Hc) as [u Hu]; [lia|]. exists (u :: ts). constructor; auto. }
    exists (T o ts). econstructor; eauto.
  Qed.
  Lemma recorded_all r : find g r = Val r -> exists k n, tlookup t r = Some (k, n).
  Proof.
    intros H. destruct (all_inhabited r (find_some _ _ _ H)) as [u Hu]. destruct (recorded_least u r Hu r H) as (k & n & E & _). eauto.
  Qed.

  (* the recorded cost is the current cost of the recorded node *)
  Lemma recorded_cost p c k n : pos t p c k n -> node_cost t n = Val (Some k).
  Proof.
    intros H. destruct (ti_cost t tI _ _ _ _ H) as (k' & E & Le). destruct (ti_node t tI _ _ _ _ H) as (ns & Ens & Hn).
    assert (Fc : find g c = Val c). { apply (ti_key t tI). unfold pos in H. apply nth_error_In in H. apply (in_map fst) in H. exact H. }
    destruct (tS c (proj2 (order_ok c) Fc) ns n k' Ens Hn E) as (k0 & n0 & E0 & Le0).
    assert (tlookup t c = Some (k, n)) as X by (apply tlookup_pos; [exact (ti_nd t tI)|eauto]). assert (k0 = k) by congruence. subst. rewrite E. f_equal. f_equal. lia.
  Qed.

  (* the term the recorded nodes describe *)
  Inductive choice : term O -> nat -> Prop :=
    | Choice c r k n ts : find g c = Val r -> tlookup t r = Some (k, n) -> Forall2 choice ts (nch n) -> choice (T (nop n) ts) c.

  Lemma choice_exists : forall k p c n, pos t p c k n -> exists ts, Forall2 choice ts (nch n).
  Proof.
    intros k. induction k as [k IHk] using (well_founded_induction N.lt_wf_0). intros p. induction p as [p IHp] using (well_founded_induction lt_wf).
    intros c n H. destruct (ti_node t tI _ _ _ _ H) as (ns & Ens & Hn).
    assert (Fc : find g c = Val c). { apply (ti_key t tI). unfold pos in H. apply nth_error_In in H. apply (in_map fst) in H. exact H. }
    destruct (class_nodes_spec c (find_some _ _ _ Fc)) as (ns' & Ens' & Hns & _). assert (ns' = ns) by congruence. subst ns'.
    destruct (Hns n Hn) as [_ Lc].
    assert (forall ch, In ch (nch n) -> exists u, choice u ch) as G.
    { intros ch Hch. rewrite Forall_forall in Lc. destruct (find_val g ch (Lc ch Hch)) as [i Fi].
      destruct (ti_rank t tI _ _ _ _ H ch i Hch Fi) as (q & kc & m & Hp & X).
      assert (exists ts, Forall2 choice ts (nch m)) as (ts & Ft).
      { destruct X as [X|(-> & -> & X)]; [exact (IHk kc X q i m Hp)|exact (IHp q X i m Hp)]. }
      exists (T (nop m) ts). apply (Choice ch i kc m ts Fi); [|exact Ft]. apply tlookup_pos; [exact (ti_nd t tI)|eauto]. }
    clear - G. induction (nch n) as [|ch l IH]; [exists []; constructor|]. destruct (G ch) as [u Hu]; [now left|].
    destruct IH as [ts Ft]; [intros; apply G; now right|]. exists (u :: ts). constructor; auto.
  Qed.
  Lemma choice_total c : c < size g -> exists u, choice u c.
  Proof.
    intros Hc. destruct (find_val g c Hc) as [r Fr]. destruct (recorded_all r (wf_rep g W c r Fr)) as (k & n & E).
    pose proof E as E'. apply tlookup_pos in E' as [p Hp]; [|exact (ti_nd t tI)]. destruct (choice_exists k p r n Hp) as [ts Ft].
    exists (T (nop n) ts). exact (Choice c r k n ts Fr E Ft).
  Qed.
  Lemma choice_fun u : forall c v, choice u c -> choice v c -> u = v.
  Proof.
    induction u as [o ts IH] using term_ind'. intros c v H1 H2. inversion H1 as [? r k n ? F1 E1 G1]; subst. inversion H2 as [? r' k' n' ts' F2 E2 G2]; subst.
    assert (r' = r) by congruence. subst r'. rewrite E1 in E2. injection E2 as <- <-. f_equal.
    clear - IH G1 G2. revert ts' G2. induction G1 as [|u c ts l Hu G1 IHG]; intros ts' G2; inversion G2 as [|v ? ts2 ? Hv G3]; subst; [reflexivity|].
    inversion IH as [|? ? Hd Tl]; subst. f_equal; [exact (Hd c v Hu Hv)|auto].
  Qed.
  Lemma choice_repr u : forall c, choice u c -> repr g u c.
  Proof.
    induction u as [o ts IH] using term_ind'. intros c H. inversion H as [? r k n ? F1 E1 G1]; subst.
    apply tlookup_pos in E1 as [p Hp]; [|exact (ti_nd t tI)]. destruct (ti_node t tI _ _ _ _ Hp) as (ns & Ens & Hn).
    apply Rp with (nch n).
    - clear - IH G1. induction G1; constructor; inversion IH; subst; auto.
    - pose proof (class_nodes_has g r ns W Ens n Hn) as (m & i & H1 & H2 & H3 & H4). exists m, i. split; [exact H1|]. split; [exact H2|]. split; [exact H3|].
      apply eqv_trans with r; [exact H4|]. exists r. split; [exact (wf_rep g W _ _ F1)|exact F1].
  Qed.
  Lemma choice_cost u : forall c, choice u c -> forall r k n, find g c = Val r -> tlookup t r = Some (k, n) -> k = tcost allowed u.
  Proof.
    induction u as [o ts IH] using term_ind'. intros c H r k n Fr Er. inversion H as [? r' k' n' ? F1 E1 G1]; subst.
    assert (r' = r) by congruence. subst r'. rewrite Er in E1. injection E1 as <- <-.
    pose proof Er as Er'. apply tlookup_pos in Er' as [p Hp]; [|exact (ti_nd t tI)].
    pose proof (recorded_cost p r k n Hp) as Hk. apply node_cost_some in Hk as (ids & costs & H1 & H2 & ->). rewrite tcost_term. f_equal.
    clear - IH G1 H1 H2. revert ids costs H1 H2. induction G1 as [|u c ts l Hu G1 IHG]; intros ids costs H1 H2; inversion H1 as [|? i ? ids' Fi H1']; subst;
      inversion H2 as [|? kc ? cs (m & Em) H2']; subst; [reflexivity|]. inversion IH as [|? ? Hd Tl]; subst. cbn [map]. f_equal; [exact (Hd c Hu i kc m Fi Em)|].
    exact (IHG Tl ids' cs H1' H2').
  Qed.

  (* ---- build ---- *)
  Local Notation mkT := (fun (o : O) (l : list (term O)) => Val (T o l)).
  Definition from_g (n : node O) : Prop := exists m i, In (m, i) (g_nodes g) /\ nop n = nop m /\ length (nch n) = length (nch m).
  Record binv (ids : list (nat * nat)) (set : list (node O)) : Prop := {
    bi_buf : exists buf, run_buf mkT set [] = Val buf /\ length buf = length set /\
      forall i j, nlookup ids i = Some j -> exists u, nth_error buf j = Some u /\ choice u i;
    bi_from : Forall from_g set }.
  Definition more (ids ids' : list (nat * nat)) : Prop := forall i j, nlookup ids i = Some j -> nlookup ids' i = Some j.

  Lemma find_best_node c u : choice u c -> exists k n ts, best_node t c = Val (k, n) /\ u = T (nop n) ts /\ Forall2 choice ts (nch n) /\ from_g n.
  Proof.
    intros H. inversion H as [? r k n ts F1 E1 G1]; subst. exists k, n, ts. unfold Extract.best_node. rewrite F1. cbn. rewrite E1. split; [reflexivity|].
    split; [reflexivity|]. split; [exact G1|]. apply tlookup_pos in E1 as [p Hp]; [|exact (ti_nd t tI)]. destruct (ti_node t tI _ _ _ _ Hp) as (ns & Ens & Hn).
    pose proof (class_nodes_has g r ns W Ens n Hn) as (m & i & H1 & H2 & H3 & H4). exists m, i. split; [exact H1|]. split; [congruence|].
    symmetry. exact (Forall2_length _ _ _ H3).
  Qed.

  (* an entry for a node whose children are there *)
  Lemma put_ok ids set i n ts : binv ids set -> choice (T (nop n) ts) i -> Forall2 choice ts (nch n) -> from_g n -> nlookup ids i = None ->
    Forall (fun c => nlookup ids c <> None) (nch n) ->
    exists ch, rmapM (fun c => unwrap (nlookup ids c)) (nch n) = Val ch /\
      forall set' j, insert_full op_eqb set (Node (nop n) ch) = (set', j) -> binv ((i, j) :: ids) set'.
  Proof.
    intros [(buf & Hb & Lb & Hi) Hf] Hc Fc Fg Ni Hch.
    assert (exists ch, Forall2 (fun c j => nlookup ids c = Some j) (nch n) ch) as (ch & Hch').
    { clear - Hch. induction Hch as [|c l H _ (ch & IH)]; [exists []; constructor|]. destruct (nlookup ids c) as [j|] eqn:E; [|congruence]. exists (j :: ch). constructor; auto. }
    exists ch. split.
    { apply rmapM_F2. clear - Hch'. induction Hch' as [|c j l l' E _ IH]; constructor; auto. now rewrite E. }
    intros set' j Es.
    assert (Args : rmapM (index buf) ch = Val ts).
    { apply rmapM_F2. clear - Hch' Fc Hi. revert ts Fc. induction Hch' as [|c j l l' E _ IH]; intros ts Fc; inversion Fc as [|u ? ts' ? Hu F']; subst; constructor; auto.
      destruct (Hi c j E) as (v & Ev & Cv). rewrite (choice_fun u c v Hu Cv). unfold index. now rewrite Ev. }
    assert (G : forall set0 buf0 j0, run_buf mkT set0 [] = Val buf0 -> length buf0 = length set0 -> Forall from_g set0 ->
      (forall x y u, nth_error buf x = Some u -> y = x -> nth_error buf0 y = Some u) -> nth_error buf0 j0 = Some (T (nop n) ts) -> binv ((i, j0) :: ids) set0).
    { intros set0 buf0 j0 B0 L0 F0 Sub Ej. constructor; [|exact F0]. exists buf0. split; [exact B0|]. split; [exact L0|]. intros x y Hx. cbn [nlookup] in Hx.
      destruct (Nat.eqb_spec x i) as [->|Nx].
      - injection Hx as <-. exists (T (nop n) ts). auto.
      - destruct (Hi x y Hx) as (u & Eu & Cu). exists u. split; [exact (Sub y y u Eu eq_refl)|exact Cu]. }
    unfold insert_full in Es. destruct (find_node op_eqb set (Node (nop n) ch) 0) as [j1|] eqn:Ef; injection Es as <- <-.
    - apply (G set buf j1 Hb Lb Hf); [intros x y u E ->; exact E|].
      apply (find_node_some op_eqb (fun a b H => proj1 (op_eqb_eq a b) H)) in Ef as [_ Ef]. rewrite Nat.sub_0_r in Ef.
      destruct (run_buf_nodes set [] buf Hb) as [_ Hnodes]. cbn in Hnodes. destruct (Hnodes j1 (Node (nop n) ch)) as (us & U1 & U2); [exact Ef|].
      cbn [nop nch] in *. rewrite U2. f_equal. f_equal.
      clear - Args U1. apply rmapM_F2 in Args. revert us U1. induction Args as [|c u l ts E F IH]; intros us U1; inversion U1 as [|? v ? us' Ev F']; subst; [reflexivity|].
      f_equal; [|auto]. unfold index in E. destruct Ev as [_ Ev]. rewrite Ev in E. congruence.
    - assert (B1 : run_buf mkT (set ++ [Node (nop n) ch]) [] = Val (buf ++ [T (nop n) ts])).
      { rewrite run_buf_snoc, Hb. cbn [rbind nch nop]. rewrite Args. reflexivity. }
      apply (G _ _ (length set) B1).
      + rewrite !app_length, Lb. reflexivity.
      + apply Forall_app. split; [exact Hf|]. constructor; [|constructor]. destruct Fg as (m & q & H1 & H2 & H3). exists m, q. split; [exact H1|]. split; [exact H2|].
        cbn. rewrite <- (Forall2_length _ _ _ Hch'). exact H3.
      + intros x y u E ->. rewrite nth_error_app1; [exact E|]. apply nth_error_Some. congruence.
      + rewrite <- Lb, nth_error_app2, Nat.sub_diag by lia. reflexivity.
  Qed.

  (* processing one id *)
  Definition does (todo : list nat) ids set ids' set' : Prop :=
    exists k, forall f rest, build (k + f) t (todo ++ rest) ids set = build f t rest ids' set'.
  Lemma build_one u : forall i, choice u i -> forall ids set, binv ids set ->
    exists ids' set', does [i] ids set ids' set' /\ binv ids' set' /\ more ids ids' /\ nlookup ids' i <> None.
  Proof.
    induction u as [o ts IH] using term_ind'. intros i Hc ids set B. destruct (nlookup ids i) as [j|] eqn:Ei.
    { exists ids, set. split; [|split; [exact B|split; [intros x y H; exact H|congruence]]]. exists 1. intros f rest. cbn [Nat.add app Extract.build]. now rewrite Ei. }
    destruct (find_best_node i _ Hc) as (k & n & ts' & Eb & Eu & Fc & Fg). injection Eu as -> <-.
    set (miss := fun ids : list (nat * nat) => List.filter (fun c => match nlookup ids c with Some _ => false | None => true end) (nch n)).
    (* the second visit *)
    assert (Fin : forall ids0 set0, binv ids0 set0 -> nlookup ids0 i = None -> Forall (fun c => nlookup ids0 c <> None) (nch n) ->
      exists ids' set', does [i] ids0 set0 ids' set' /\ binv ids' set' /\ more ids0 ids' /\ nlookup ids' i <> None).
    { intros ids0 set0 B0 N0 H0. destruct (put_ok ids0 set0 i n ts B0 Hc Fc Fg N0 H0) as (ch & Ech & Hput).
      destruct (insert_full op_eqb set0 (Node (nop n) ch)) as [set' j] eqn:Es. exists ((i, j) :: ids0), set'. split; [|split; [exact (Hput _ _ eq_refl)|split]].
      - exists 1. intros f rest. cbn [Nat.add app Extract.build]. rewrite N0, Eb. cbn [rbind].
        assert (List.filter (fun c => match nlookup ids0 c with Some _ => false | None => true end) (nch n) = []) as ->.
        { clear - H0. induction H0 as [|c l H _ IH]; [reflexivity|]. cbn. destruct (nlookup ids0 c); [exact IH|congruence]. }
        rewrite Ech. cbn [rbind]. now rewrite Es.
      - intros x y H. cbn. destruct (Nat.eqb_spec x i) as [->|]; [congruence|exact H].
      - cbn. rewrite Nat.eqb_refl. discriminate. }
    destruct (miss ids) as [|c0 l0] eqn:Em.
    { apply Fin; [exact B|exact Ei|]. apply filter_nil in Em. eapply Forall_impl; [|exact Em]. cbn. intros c Hx. destruct (nlookup ids c); [discriminate|congruence]. }
    assert (Many : forall l, incl l (nch n) -> forall ids0 set0, binv ids0 set0 -> exists ids' set', does l ids0 set0 ids' set' /\ binv ids' set' /\ more ids0 ids' /\ Forall (fun c => nlookup ids' c <> None) l).
    { induction l as [|c l IHl]; intros Hl ids0 set0 B0.
      - exists ids0, set0. split; [exists 0; reflexivity|]. split; [exact B0|]. split; [intros x y H; exact H|constructor].
      - assert (exists u, In u ts /\ choice u c) as (u & Hu & Cu).
        { specialize (Hl c (or_introl eq_refl)). clear - Fc Hl. induction Fc; [destruct Hl|]. destruct Hl as [->|Hl]; [exists x; cbn; auto|]. destruct (IHFc Hl) as (u & ? & ?). exists u. cbn. auto. }
        rewrite Forall_forall in IH. destruct (IH u Hu c Cu ids0 set0 B0) as (ids1 & set1 & (k1 & D1) & B1 & M1 & N1).
        destruct (IHl (fun x Hx => Hl x (or_intror Hx)) ids1 set1 B1) as (ids2 & set2 & (k2 & D2) & B2 & M2 & N2).
        exists ids2, set2. split; [|split; [exact B2|split; [intros x y H; auto|]]].
        + exists (k1 + k2). intros f rest. rewrite <- Nat.add_assoc. cbn [app]. rewrite <- D2. exact (D1 (k2 + f) (l ++ rest)).
        + constructor; [|exact N2]. destruct (nlookup ids1 c) as [j|] eqn:E1; [|congruence]. rewrite (M2 c j E1). discriminate. }
    destruct (Many (rev (miss ids))) with (ids0 := ids) (set0 := set) as (ids1 & set1 & (k1 & D1) & B1 & M1 & N1); [|exact B|].
    { intros x Hx. apply in_rev in Hx. unfold miss in Hx. now apply filter_In in Hx. }
    assert (All : Forall (fun c => nlookup ids1 c <> None) (nch n)).
    { apply Forall_forall. intros c Hin. destruct (nlookup ids c) as [j|] eqn:E; [rewrite (M1 c j E); discriminate|].
      rewrite Forall_forall in N1. apply N1. rewrite <- in_rev. apply filter_In. split; [exact Hin|now rewrite E]. }
    assert (First : forall f rest, build (S f) t (i :: rest) ids set = build f t (rev (miss ids) ++ i :: rest) ids set).
    { intros f rest. cbn [Extract.build]. rewrite Ei, Eb. cbn [rbind]. fold (miss ids). rewrite Em. reflexivity. }
    destruct (nlookup ids1 i) as [j1|] eqn:E1.
    - exists ids1, set1. split; [|split; [exact B1|split; [exact M1|congruence]]].
      exists (S (k1 + 1)). intros f rest. cbn [app]. change (S (k1 + 1) + f) with (S (k1 + 1 + f)). rewrite First, <- Nat.add_assoc, D1. cbn [Nat.add Extract.build]. now rewrite E1.
    - destruct (Fin ids1 set1 B1 E1 All) as (ids2 & set2 & (k2 & D2) & B2 & M2 & N2). exists ids2, set2.
      split; [|split; [exact B2|split; [intros x y H; auto|exact N2]]].
      exists (S (k1 + k2)). intros f rest. cbn [app]. change (S (k1 + k2) + f) with (S (k1 + k2 + f)). rewrite First, <- Nat.add_assoc, D1. exact (D2 f rest).
  Qed.
  Lemma build_many l : Forall (fun c => c < size g) l -> forall ids set, binv ids set ->
    exists ids' set', does l ids set ids' set' /\ binv ids' set' /\ more ids ids' /\ Forall (fun c => nlookup ids' c <> None) l.
  Proof.
    induction 1 as [|c l Hc _ IHl]; intros ids set B.
    - exists ids, set. split; [exists 0; reflexivity|]. split; [exact B|]. split; [intros x y H; exact H|constructor].
    - destruct (choice_total c Hc) as [u Cu]. destruct (build_one u c Cu ids set B) as (ids1 & set1 & (k1 & D1) & B1 & M1 & N1).
      destruct (IHl ids1 set1 B1) as (ids2 & set2 & (k2 & D2) & B2 & M2 & N2).
      exists ids2, set2. split; [|split; [exact B2|split; [intros x y H; auto|]]].
      + exists (k1 + k2). intros f rest. rewrite <- Nat.add_assoc. cbn [app]. rewrite <- D2. exact (D1 (k2 + f) (l ++ rest)).
      + constructor; [|exact N2]. destruct (nlookup ids1 c) as [j|] eqn:E1; [|congruence]. rewrite (M2 c j E1). discriminate.
  Qed.
  Lemma binv_nil : binv [] [].
  Proof. constructor; [|constructor]. exists []. split; [reflexivity|]. split; [reflexivity|]. intros i j H. discriminate H. Qed.

  Lemma find_best_spec i : i < size g -> exists f0 e u, (forall f, f0 <= f -> find_best f t i = Val (tcost allowed u, e)) /\
    tree e = Val u /\ choice u i /\ repr g u i /\ (forall v, repr g v i -> (tcost allowed u <= tcost allowed v)%N) /\ Forall from_g e.
  Proof.
    intros Hi. destruct (choice_total i Hi) as [u Cu]. pose proof (choice_repr u i Cu) as Ru.
    destruct (find_best_node i u Cu) as (k & n & ts & Eb & -> & Fc & Fg).
    assert (Lc : Forall (fun c => c < size g) (nch n)).
    { clear - Fc. induction Fc as [|x c l l' H _ IH]; constructor; auto. inversion H as [? ? ? ? ? F]; subst. exact (find_some _ _ _ F). }
    destruct (build_many (rev (nch n)) (Forall_rev Lc) [] [] binv_nil) as (ids & set & (k0 & D0) & [(buf & Hb & Lb & Hids) Hf] & _ & N0).
    assert (exists ch, Forall2 (fun c j => nlookup ids c = Some j) (nch n) ch) as (ch & Hch).
    { assert (N1 : Forall (fun c => nlookup ids c <> None) (nch n)). { apply Forall_forall. intros c Hc. rewrite Forall_forall in N0. apply N0. now rewrite <- in_rev. }
      clear - N1. induction N1 as [|c l H _ (ch & IH)]; [exists []; constructor|]. destruct (nlookup ids c) as [j|] eqn:E; [|congruence]. exists (j :: ch). constructor; auto. }
    exists k0, (set ++ [Node (nop n) ch]), (T (nop n) ts).
    assert (Kc : k = tcost allowed (T (nop n) ts)).
    { unfold Extract.best_node in Eb. apply rbind_val in Eb as (r & Fr & Er). destruct (tlookup t r) as [[k1 n1]|] eqn:Et; [|discriminate Er].
      cbn in Er. injection Er as -> ->. exact (choice_cost _ i Cu r k n Fr Et). }
    split; [|split; [|split; [exact Cu|split; [exact Ru|split]]]].
    - intros f Hf'. unfold Extract.find_best. rewrite Eb. cbn [rbind]. specialize (D0 (f - k0) []). rewrite app_nil_r in D0.
      replace (k0 + (f - k0)) with f in D0 by lia. rewrite D0. assert (build (f - k0) t [] ids set = Val (ids, set)) as -> by (destruct (f - k0); reflexivity).
      cbn [rbind]. assert (rmapM (fun c => unwrap (nlookup ids c)) (nch n) = Val ch) as ->.
      { apply rmapM_F2. clear - Hch. induction Hch as [|c j l l' E _ IH]; constructor; auto. now rewrite E. }
      cbn [rbind]. now rewrite Kc.
    - unfold tree, fold_rec. rewrite run_buf_snoc, Hb. cbn [rbind nch nop].
      assert (rmapM (index buf) ch = Val ts) as ->.
      { apply rmapM_F2. clear - Hch Fc Hids. revert ts Fc. induction Hch as [|c j l l' E _ IH]; intros ts Fc; inversion Fc as [|x ? ts' ? Hu F']; subst; constructor; auto.
        destruct (Hids c j E) as (v & Ev & Cv). rewrite (choice_fun x c v Hu Cv). unfold index. now rewrite Ev. }
      cbn [rbind]. unfold pop_unwrap. now rewrite rev_app_distr.
    - intros v Rv. destruct (find_val g i Hi) as [r Fr]. destruct (recorded_least v i Rv r Fr) as (k1 & n1 & E1 & Le).
      rewrite (choice_cost _ i Cu r k1 n1 Fr E1) in Le. exact Le.
    - apply Forall_app. split; [exact Hf|]. constructor; [|constructor]. destruct Fg as (m & q & H1 & H2 & H3). exists m, q. split; [exact H1|]. split; [exact H2|].
      cbn. rewrite <- (Forall2_length _ _ _ Hch). exact H3.
  Qed.
End Extract.

(* the whole extractor *)
Lemma extractor_spec {O D A} (op_eqb : O -> O -> bool) (op_eqb_eq : forall a b, op_eqb a b = true <-> a = b) allowed arrange
    (arrange_ok : forall l, Permutation l (arrange l)) (g : egraph O D A) (W : wf g) order
    (order_ok : forall c, In c order <-> find g c = Val c) :
  exists f0 t, (forall f, f0 <= f -> extractor allowed arrange g f order = Val t) /\
    forall i, i < size g -> exists e u, (forall f, f0 <= f -> find_best op_eqb g f t i = Val (tcost allowed u, e)) /\
      tree e = Val u /\ repr g u i /\ (forall v, repr g v i -> (tcost allowed u <= tcost allowed v)%N) /\ Forall (from_g g) e.
Proof.
  destruct (find_costs_spec allowed arrange arrange_ok g W order (fun c => proj1 (order_ok c)) [] (tinv_nil allowed g)) as (f1 & t & F1 & I & S).
  assert (forall n, exists f2, forall i, i < n -> i < size g -> exists e u, (forall f, f2 <= f -> find_best op_eqb g f t i = Val (tcost allowed u, e)) /\
      tree e = Val u /\ repr g u i /\ (forall v, repr g v i -> (tcost allowed u <= tcost allowed v)%N) /\ Forall (from_g g) e) as G.
  { induction n as [|n (f2 & IH)]; [exists 0; intros i Hi; lia|]. destruct (Nat.lt_ge_cases n (size g)) as [L|L].
    - destruct (find_best_spec op_eqb op_eqb_eq allowed g W order order_ok t I S n L) as (f3 & e & u & H1 & H2 & _ & H3 & H4 & H5).
      exists (max f2 f3). intros i Hi Hs. destruct (Nat.eq_dec i n) as [->|Ne].
      + exists e, u. split; [intros f Hf; apply H1; lia|auto].
      + destruct (IH i) as (e' & u' & K1 & K2); [lia|exact Hs|]. exists e', u'. split; [intros f Hf; apply K1; lia|exact K2].
    - exists f2. intros i Hi Hs. apply IH; lia. }
  destruct (G (size g)) as (f2 & H2). exists (max f1 f2), t. split; [intros f Hf; apply F1; lia|].
  intros i Hi. destruct (H2 i Hi Hi) as (e & u & K1 & K2). exists e, u. split; [intros f Hf; apply K1; lia|exact K2].
Qed.
