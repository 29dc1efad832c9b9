(* Building an e-graph from a workload does not panic. *)
From Coq Require Import NArith.
From Verif Require Import Base BaseProofs Sexp Reader Lang LangProofs Util UtilProofs Syntax SyntaxProofs Rule Ruleset Analysis AnalysisSpec AnalysisProofs Generalize Workload MinimizeSpec MatchSpec
  Egraph EgraphSpec EgraphProofs EgraphSound Synth SynthSpec SynthProofs CalmSpec Calm PlainSpec PartsProofs PlainProofs.
Open Scope list_scope.

Lemma merge_cvecs_same : forall C (eqb : C -> C -> bool), (forall a, eqb a a = true) -> forall v, merge_cvecs eqb v v = Val (v, false, false).
Proof.
  intros C eqb H. assert (forall v, merge_cvec eqb v v = Val (v, false, false)) as G.
  { induction v as [|[a|] v IH]; [reflexivity| |]; cbn.
    - rewrite H, IH. reflexivity.
    - rewrite IH. reflexivity. }
  intros [|x v]; [reflexivity|]. exact (G (x :: v)).
Qed.

(* intervals [S0] that agree with the vectors they come with *)
Record agrees {O C} (L : lang O C) (ar : O -> nat) (n : nat) (ivar : interval C) (S0 : interval C -> cvec C -> Prop) : Prop := {
  ag_eqb : forall a b, l_eqb L a b = true <-> a = b;
  ag_ceqb : forall a, l_ceqb L a a = true;
  ag_custom : forall g i, l_custom L g i = Val [];
  ag_leaf : forall o, is_leaf L o = true -> ar o = 0;
  ag_itv : forall o is cs v, l_to_var L o = None -> length cs = ar o -> Forall2 S0 is cs -> l_eval L n o cs = Val v ->
    exists i, l_itv L o is = Val i /\ S0 i v;
  ag_point : forall i v a b, S0 i v -> low i = Some a -> high i = Some b -> l_ceqb L a b = true ->
    v = repeat (Some a) n /\ 0 < n /\
    exists o, l_const L a = [Node o []] /\ l_to_var L o = None /\ ar o = 0 /\ l_eval L n o [] = Val (repeat (Some a) n);
  ag_merge : forall i j v, S0 i v -> S0 j v ->
    exists k, mk_itv (l_cleb L) (omax (l_cleb L) (low i) (low j)) (omin (l_cleb L) (high i) (high j)) = Val k /\ S0 k v;
  ag_var : forall s, l_eval L n (l_mk_var L s) [] = Val [] /\ l_itv L (l_mk_var L s) [] = Val ivar;
  ag_ivar : forall a b, low ivar = Some a -> high ivar = Some b -> l_ceqb L a b = false }.

Section Total.
  Context {O C : Type}.
  Variable L : lang O C.
  Variable ar : O -> nat.
  Variable keep : eg O C -> nat -> nat -> bool.
  Variable n : nat.
  Variable vc : string -> cvec C.
  Variable ivar : interval C.
  Variable S0 : interval C -> cvec C -> Prop.
  Hypothesis Ag : agrees L ar n ivar S0.
  Hypothesis Vr : plain_vars L.
  Local Notation wf := (@wf O (sig O C) nat).
  Local Notation eqb_eq := (ag_eqb L ar n ivar S0 Ag).

  Definition sok (d : sig O C) : Prop := S0 (sg_itv d) (sg_cvec d) /\ exists t, tree (sg_simplest d) = Val t.
  Record exact (g : eg O C) : Prop := {
    xa_wf : wf g;
    xa_an : g_an g = n;
    xa_dat : forall i d, class_data g i = Val d -> sok d;
    xa_given : forall m i, In (m, i) (g_nodes g) -> given L n vc g m i }.
  Definition keeps (g g' : eg O C) : Prop :=
    ext g g' /\ (forall i v, vec g i v -> vec g' i v) /\ incl (g_nodes g) (g_nodes g').
  Lemma keeps_refl : forall g, keeps g g.
  Proof. intros g. split; [apply ext_refl|]. split; [auto|intros x H; exact H]. Qed.
  Lemma keeps_trans : forall g h k, keeps g h -> keeps h k -> keeps g k.
  Proof. intros g h k (E1 & V1 & I1) (E2 & V2 & I2). split; [exact (ext_trans _ _ _ E1 E2)|]. split; [auto|]. intros x H. auto. Qed.
  Lemma vecs_keep : forall g g' l vs, keeps g g' -> Forall2 (vec g) l vs -> Forall2 (vec g') l vs.
  Proof. intros g g' l vs (_ & V & _) F. induction F; constructor; auto. Qed.
  Lemma given_keep : forall g g' m i, keeps g g' -> given L n vc g m i -> given L n vc g' m i.
  Proof. intros g g' m i K (cs & v & F & V & E). exists cs, v. split; [exact (vecs_keep g g' _ _ K F)|]. split; [|exact E]. destruct K as (_ & Kv & _). auto. Qed.
  Lemma vec_eqv : forall (g : eg O C) i j v, eqv g i j -> vec g i v -> vec g j v.
  Proof. intros g i j v (r & H1 & H2) (d & H & E). exists d. split; [|exact E]. unfold class_data in *. rewrite H1 in H. now rewrite H2. Qed.
  Lemma vec_lt : forall (g : eg O C) i v, vec g i v -> i < size g.
  Proof. intros g i v (d & H & _). unfold class_data in H. destruct (find g i) as [r|] eqn:F; [|discriminate H]. exact (find_some _ _ _ F). Qed.
  Lemma vecs_lt : forall (g : eg O C) l vs, Forall2 (vec g) l vs -> Forall (fun c => c < size g) l.
  Proof. intros g l vs F. induction F; constructor; auto. exact (vec_lt _ _ _ H). Qed.
  Lemma vecs_fun : forall (g : eg O C) l vs ws, Forall2 (vec g) l vs -> Forall2 (vec g) l ws -> vs = ws.
  Proof.
    intros g l vs ws F. revert ws. induction F as [|i v l vs V F IH]; intros ws G; inversion G as [|? w ? ws' V' G']; subst; [reflexivity|].
    rewrite (vec_fun g _ _ _ V V'). f_equal. auto.
  Qed.
  Lemma vecs_eqv : forall (g : eg O C) l m vs, Forall2 (eqv g) l m -> Forall2 (vec g) l vs -> Forall2 (vec g) m vs.
  Proof.
    intros g l m vs F. revert vs. induction F as [|i j l m Q F IH]; intros vs G; inversion G as [|? w ? ws' V' G']; subst; constructor; [|auto].
    exact (vec_eqv _ _ _ _ Q V').
  Qed.

  (* a new class *)
  Lemma grow : forall g m d, exact g -> Forall (fun c => c < size g) (nch m) -> sok d ->
    (exists cs, Forall2 (vec g) (nch m) cs /\ match l_to_var L (nop m) with Some s => sg_cvec d = vc s | None => l_eval L n (nop m) cs = Val (sg_cvec d) end) ->
    let g' := EG (g_reps g ++ [size g]) (g_nodes g ++ [(m, size g)]) (g_data g ++ [d]) (g_an g) in
    exact g' /\ keeps g g' /\ class_data g' (size g) = Val d.
  Proof.
    intros g m d X Fm Sd (cs & Fc & Ev) g'. pose proof (xa_wf g X) as W.
    destruct (@new_class_ok O (sig O C) nat (fun _ _ _ => Val d) g m g' (size g) W Fm) as (W' & E' & Sz & _ & _).
    { unfold new_class. destruct (rmapM (class_data g) (nch m)) as [ds|] eqn:Ed; [reflexivity|]. exfalso.
      clear - Fc Ed. induction Fc as [|i v l vs (d & H & _) F IH]; cbn in Ed; [discriminate Ed|]. rewrite H in Ed. cbn in Ed.
      destruct (rmapM (class_data g) l); [discriminate Ed|auto]. }
    assert (Fo : forall i r, find g i = Val r -> find g' i = Val r) by (intros i r; apply (find_app g g'); reflexivity).
    assert (Fn : find g' (size g) = Val (size g)) by (apply (find_new g g'); reflexivity).
    assert (Dn : class_data g' (size g) = Val d).
    { unfold class_data. rewrite Fn. cbn. rewrite <- (wf_data g W). apply index_last. }
    assert (Do : forall i x, class_data g i = Val x -> class_data g' i = Val x).
    { intros i x H. unfold class_data in *. destruct (find g i) as [r|] eqn:F; [|discriminate H]. rewrite (Fo i r F). cbn in *. now apply index_app_l. }
    assert (K : keeps g g').
    { split; [exact E'|]. split; [|intros x I; cbn; apply in_or_app; now left]. intros i v (x & H & E). exists x. auto. }
    split; [|split; [exact K|exact Dn]]. constructor.
    - exact W'.
    - exact (xa_an g X).
    - intros i x H. destruct (Nat.eq_dec i (size g)) as [->|Ne]; [rewrite Dn in H; inversion H; now subst|].
      destruct (Nat.lt_ge_cases i (size g)) as [Li|Li].
      + destruct (class_data_val g i W Li) as (y & Hy). pose proof (Do i y Hy) as H2. rewrite H in H2. inversion H2; subst. exact (xa_dat g X i y Hy).
      + unfold class_data in H. destruct (find g' i) as [r|] eqn:F; [|discriminate H]. apply find_some in F. rewrite Sz in F. lia.
    - intros m' i I. cbn in I. apply in_app_or in I as [I|[I|[]]].
      + exact (given_keep g g' m' i K (xa_given g X m' i I)).
      + inversion I; subst m' i. exists cs, (sg_cvec d). split; [exact (vecs_keep g g' _ _ K Fc)|]. split; [exists d; auto|exact Ev].
  Qed.

  (* make on the data of the children *)
  Lemma slookup_all : forall (f : nat -> option (sig O C)) ch ds, Forall2 (fun i d => f i = Some d) ch ds -> forall i, In i ch -> slookup (combine ch ds) i = f i.
  Proof.
    intros f ch ds F. induction F as [|c d ch ds H F IH]; intros i I; [destruct I|]. cbn. destruct (Nat.eqb_spec i c) as [->|N]; [congruence|].
    destruct I as [->|I]; [congruence|auto].
  Qed.
  Lemma make_exact : forall g m cs v i, exact g -> length (nch m) = ar (nop m) -> Forall2 (vec g) (nch m) cs -> l_eval L n (nop m) cs = Val v ->
    (forall is, Forall2 S0 is cs -> l_itv L (nop m) is = Val (i is)) ->
    exists ds s, rmapM (class_data g) (nch m) = Val ds /\ Forall2 S0 (map sg_itv ds) cs /\
      s_make L (g_an g) m ds = Val (Sig v s (i (map sg_itv ds))) /\ exists t, tree s = Val t.
  Proof.
    intros g m cs v i X Len F Ev Hi.
    assert (exists ds, Forall2 (fun c d => class_data g c = Val d) (nch m) ds /\ map sg_cvec ds = cs) as (ds & Fd & Ec).
    { clear - F. induction F as [|c v l vs (d & H & E) F (ds & IH1 & IH2)]; [exists []; split; [constructor|reflexivity]|].
      exists (d :: ds). split; [constructor; auto|]. cbn. congruence. }
    set (f := fun c => match class_data g c with Val d => Some d | Panic => None end).
    assert (Ff : Forall2 (fun c d => f c = Some d) (nch m) ds). { clear - Fd. induction Fd; constructor; auto. unfold f. now rewrite H. }
    set (look := fun c => match slookup (combine (nch m) ds) c with Some d => d | None => Sig [] [] full end).
    assert (Ml : map look (nch m) = ds).
    { assert (forall l es, incl l (nch m) -> Forall2 (fun c d => f c = Some d) l es -> map look l = es) as G.
      { clear - Ff. intros l es Inc Fe. induction Fe as [|c d l es H Fe IH]; [reflexivity|]. cbn. f_equal.
        - unfold look. rewrite (slookup_all f _ _ Ff) by (apply Inc; now left). now rewrite H.
        - apply IH. intros x Hx. apply Inc. now right. }
      apply G; [intros x Hx; exact Hx|exact Ff]. }
    assert (Si : Forall2 S0 (map sg_itv ds) cs).
    { rewrite <- Ec. clear - Fd X. induction Fd as [|c d l ds H Fd IH]; cbn; constructor; [|exact IH]. exact (proj1 (xa_dat g X c d H)). }
    assert (Tr : forall c, In c (nch m) -> exists t, tree (sg_simplest (look c)) = Val t).
    { intros c I. assert (exists d, class_data g c = Val d /\ look c = d) as (d & H & E).
      { unfold look. rewrite (slookup_all f _ _ Ff c I). unfold f. clear - Fd I. induction Fd as [|c' d l ds H Fd IH]; [destruct I|].
        destruct I as [->|I]; [rewrite H; eauto|auto]. }
      rewrite E. exact (proj2 (xa_dat g X c d H)). }
    destruct (@make_simplest_spec O (is_leaf L) (fun c => sg_simplest (look c))
      (fun c => match tree (sg_simplest (look c)) with Val t => t | Panic => T (nop m) [] end) m) as (s & Hs & Ht).
    - intros H. pose proof (ag_leaf L ar n ivar S0 Ag _ H) as Z. rewrite Z in Len. now destruct (nch m).
    - intros c I. destruct (Tr c I) as (t & ->). reflexivity.
    - exists ds, s. split; [now apply rmapM_F2|]. split; [exact Si|]. split; [|eauto].
      change (make (is_leaf L) (l_eval L) (l_itv L) (g_an g) look m = Val (Sig v s (i (map sg_itv ds)))).
      unfold make. rewrite Hs. cbn [rbind]. rewrite <- (map_map look sg_cvec), Ml, Ec, (xa_an g X), Ev. cbn [rbind].
      rewrite <- (map_map look sg_itv), Ml, (Hi _ Si). reflexivity.
  Qed.

  (* a node that is not there *)
  Lemma new_exact : forall g m cs v, exact g -> l_to_var L (nop m) = None -> length (nch m) = ar (nop m) -> Forall2 (vec g) (nch m) cs -> l_eval L n (nop m) cs = Val v ->
    exists g', new_class (s_make L) g m = Val (g', size g) /\ exact g' /\ keeps g g' /\ vec g' (size g) v /\ g_nodes g' = g_nodes g ++ [(m, size g)].
  Proof.
    intros g m cs v X Nv Len F Ev.
    set (i := fun is => match l_itv L (nop m) is with Val i => i | Panic => full end).
    assert (Lc : length cs = ar (nop m)) by (rewrite <- Len; symmetry; exact (Forall2_length _ _ _ F)).
    destruct (make_exact g m cs v i X Len F Ev) as (ds & s & Hd & Si & Hm & t & Ht).
    { intros is Hs. destruct (ag_itv L ar n ivar S0 Ag (nop m) is cs v Nv Lc Hs Ev) as (j & Hj & _). unfold i. now rewrite Hj. }
    destruct (ag_itv L ar n ivar S0 Ag (nop m) _ cs v Nv Lc Si Ev) as (j & Hj & Sj).
    unfold i in Hm. rewrite Hj in Hm.
    destruct (grow g m (Sig v s j) X (vecs_lt g _ _ F)) as (X' & K & Dn).
    { split; [exact Sj|]. exists t. exact Ht. }
    { exists cs. split; [exact F|]. now rewrite Nv. }
    eexists. split; [unfold new_class; rewrite Hd; cbn [rbind]; rewrite Hm; cbn [rbind]; reflexivity|].
    split; [exact X'|]. split; [exact K|]. split; [exists (Sig v s j); split; [exact Dn|reflexivity]|reflexivity].
  Qed.
  (* a variable that is not there *)
  Lemma var_make : forall g s, exact g -> s_make L (g_an g) (Node (l_mk_var L s) []) [] = Val (Sig [] [Node (l_mk_var L s) []] ivar).
  Proof.
    intros g s X. destruct (ag_var L ar n ivar S0 Ag s) as [E I]. unfold s_make, make, make_simplest, is_leaf. cbn [nop nch map]. rewrite (pv_var L Vr). cbn [rbind].
    rewrite (xa_an g X), E. cbn [rbind]. rewrite I. reflexivity.
  Qed.

  (* what a class is told to be is already there *)
  Definition told (g : eg O C) (i : nat) : Prop := forall d a b o, class_data g i = Val d -> low (sg_itv d) = Some a -> high (sg_itv d) = Some b -> l_ceqb L a b = true ->
    l_const L a = [Node o []] -> exists j, get_node (l_eqb L) (g_nodes g) (Node o []) = Some j /\ eqv g j i.
  Local Notation md k := (s_modify L keep k).
  Lemma add_single : forall k (g : eg O C) o g' r, s_add L keep k g (Node o []) = Val (g', r) -> s_add_expr L keep k g [Node o []] = Val (g', r).
  Proof. intros k g o g' r H. unfold s_add_expr, add_expr, add_nodes. cbn [nch nop rmapM rbind]. unfold s_add in H. rewrite H. reflexivity. Qed.
  Lemma add_found : forall k (g : eg O C) o j r, get_node (l_eqb L) (g_nodes g) (Node o []) = Some j -> find g j = Val r -> s_add L keep k g (Node o []) = Val (g, r).
  Proof. intros k g o j r H F. unfold s_add, add, lookup_node, canon. cbn [nch nop rmapM rbind]. rewrite H, F. reflexivity. Qed.
  Lemma modify_eq : forall k (g : eg O C) i d, class_data g i = Val d -> md (S k) g i =
    join_all (s_add_expr L keep k) (s_union L keep k) g i (match low (sg_itv d), high (sg_itv d) with
         | Some a, Some b => if l_ceqb L a b then [l_const L a] else []
         | _, _ => []
         end).
  Proof.
    intros k g i d Hd. unfold s_modify at 1. cbn [modify stages]. rewrite (ag_custom L ar n ivar S0 Ag). cbn [rbind join_all].
    unfold const_stage at 1. rewrite Hd. cbn [rbind]. unfold s_add_expr, s_union, s_modify.
    match goal with |- (let* x := ?y in Val x) = _ => destruct y; reflexivity end.
  Qed.
  Lemma modify_told : forall k g i, exact g -> i < size g -> told g i -> md (S k) g i = Val g.
  Proof.
    intros k g i X Li T. pose proof (xa_wf g X) as W. destruct (class_data_val g i W Li) as (d & Hd). rewrite (modify_eq k g i d Hd).
    destruct (low (sg_itv d)) as [a|] eqn:El; [|reflexivity]. destruct (high (sg_itv d)) as [b|] eqn:Eh; [|reflexivity].
    destruct (l_ceqb L a b) eqn:Eq; [|reflexivity].
    destruct (ag_point L ar n ivar S0 Ag _ _ a b (proj1 (xa_dat g X i d Hd)) El Eh Eq) as (_ & _ & o & Eo & _).
    destruct (T d a b o Hd El Eh Eq Eo) as (j & Gj & r & Fj & Fi). rewrite Eo. cbn [join_all].
    pose proof (add_single k g o g r (add_found k g o j r Gj Fj)) as As. rewrite As. cbn [rbind].
    unfold s_union, union. rewrite Fi, (wf_rep g W _ _ Fj). cbn [rbind]. now rewrite Nat.eqb_refl.
  Qed.
  Lemma merged_exact : forall g k d v dm, exact g -> find g k = Val k -> find g d = Val d -> k <> d -> vec g k v -> vec g d v -> sok dm -> sg_cvec dm = v ->
    let g' := merged g k d (set_nth (g_data g) k dm) in exact g' /\ keeps g g' /\ class_data g' k = Val dm.
  Proof.
    intros g k d v dm X Fk Fd Ne Vk Vd Sd Ed g'. pose proof (xa_wf g X) as W.
    destruct (merged_ok g k d (set_nth (g_data g) k dm) W Fk Fd Ne) as (W' & E' & _); [rewrite set_nth_length; exact (wf_data g W)|].
    assert (Lk : k < length (g_data g)) by (rewrite (wf_data g W); exact (find_some _ _ _ Fk)).
    assert (Cd : forall i r, find g i = Val r -> class_data g' i = if orb (Nat.eqb r d) (Nat.eqb r k) then Val dm else class_data g i).
    { intros i r F. unfold class_data. unfold g' at 1. rewrite find_merged, F. cbn.
      destruct (Nat.eqb_spec r d) as [->|Nd]; cbn.
      - unfold index. rewrite set_nth_nth by exact Lk. now rewrite Nat.eqb_refl.
      - unfold index. rewrite set_nth_nth by exact Lk. destruct (Nat.eqb r k); reflexivity. }
    assert (K : keeps g g').
    { split; [exact E'|]. split; [|intros x I; exact I]. intros i w Vi. pose proof (vec_lt g i w Vi) as Li. destruct (find_val g i Li) as (r & F).
      assert (Hr : eqv g i r) by (apply eqv_find; auto).
      destruct Vi as (x & Hx & Ex). rewrite <- Ex. unfold vec. rewrite (Cd i r F). destruct (Nat.eqb_spec r d) as [->|Nd]; cbn.
      - exists dm. split; [reflexivity|]. rewrite Ed. apply (vec_fun g d); [exact Vd|]. apply (vec_eqv g i); [exact Hr|]. exists x. auto.
      - destruct (Nat.eqb_spec r k) as [->|Nk]; cbn; [|exists x; auto].
        exists dm. split; [reflexivity|]. rewrite Ed. apply (vec_fun g k); [exact Vk|]. apply (vec_eqv g i); [exact Hr|]. exists x. auto. }
    split; [|split; [exact K|rewrite (Cd k k Fk), Nat.eqb_refl, orb_true_r; reflexivity]]. constructor.
    - exact W'.
    - exact (xa_an g X).
    - intros i x H. assert (Li : i < size g).
      { unfold class_data in H. destruct (find g' i) as [r|] eqn:F; [|discriminate H]. apply find_some in F. unfold g' in F. now rewrite size_merged in F. }
      destruct (find_val g i Li) as (r & F). rewrite (Cd i r F) in H. destruct (orb _ _); [inversion H; now subst|exact (xa_dat g X i x H)].
    - intros m i I. exact (given_keep g g' m i K (xa_given g X m i I)).
  Qed.
  (* making a class equal to a constant it is known to be *)
  Lemma union_point : forall k g i j r a o, exact g -> i < size g -> 0 < n -> vec g i (repeat (Some a) n) ->
    l_const L a = [Node o []] -> get_node (l_eqb L) (g_nodes g) (Node o []) = Some j -> find g j = Val r -> vec g r (repeat (Some a) n) ->
    exists g' b, s_union L keep (S k) g i r = Val (g', b) /\ exact g' /\ keeps g g'.
  Proof.
    intros k g i j r a o X Li Pn Vi Ea Gj Fj Vr'. pose proof (xa_wf g X) as W. destruct (find_val g i Li) as (ri & Fi).
    pose proof (wf_rep g W _ _ Fi) as Fri. pose proof (wf_rep g W _ _ Fj) as Fr.
    assert (Vi' : vec g ri (repeat (Some a) n)) by (apply (vec_eqv g i); [now apply eqv_find|exact Vi]).
    unfold s_union, union. rewrite Fi, Fr. cbn [rbind]. destruct (Nat.eqb_spec ri r) as [->|Ne]; [exists g, false; split; [reflexivity|]; split; [exact X|apply keeps_refl]|].
    set (kd := if keep g ri r then (ri, r) else (r, ri)).
    assert (exists kk dd, kd = (kk, dd) /\ find g kk = Val kk /\ find g dd = Val dd /\ kk <> dd /\ vec g kk (repeat (Some a) n) /\ vec g dd (repeat (Some a) n) /\ (kk = r \/ dd = r)) as (kk & dd & Ek & Fk & Fd & Nk & Vk & Vd & Or).
    { unfold kd. destruct (keep g ri r); eexists; eexists; (split; [reflexivity|]); repeat (split; [assumption || congruence|]); auto. }
    rewrite Ek. destruct Vk as (xk & Hk & Ck). destruct Vd as (xd & Hd & Cd).
    unfold class_data in Hk, Hd. rewrite Fk in Hk. rewrite Fd in Hd. cbn [rbind] in Hk, Hd. rewrite Hk, Hd. cbn [rbind].
    assert (Dk : class_data g kk = Val xk) by (unfold class_data; rewrite Fk; exact Hk).
    assert (Dd : class_data g dd = Val xd) by (unfold class_data; rewrite Fd; exact Hd).
    destruct (xa_dat g X _ _ Dk) as [Sk (tk & Tk)]. destruct (xa_dat g X _ _ Dd) as [Sd (td & Td)]. rewrite Ck in Sk. rewrite Cd in Sd.
    destruct (ag_merge L ar n ivar S0 Ag _ _ _ Sk Sd) as (im & Im & Sm).
    assert (exists dm ch, s_merge L xk xd = Val (dm, ch) /\ sok dm /\ sg_cvec dm = repeat (Some a) n) as (dm & ch & Hm & Sdm & Cdm).
    { unfold s_merge, merge. rewrite Ck, Cd, (merge_cvecs_same _ _ (ag_ceqb L ar n ivar S0 Ag)). cbn [rbind]. rewrite Im. cbn [rbind].
      rewrite (cost_spec (l_allowed L) _ _ Td), (cost_spec (l_allowed L) _ _ Tk). cbn [rbind].
      match goal with |- context [if N.ltb ?x ?y then _ else _] => destruct (N.ltb x y) end; eexists; eexists; (split; [reflexivity|]); (split; [split; [exact Sm|cbn; eauto]|reflexivity]). }
    rewrite Hm. cbn [rbind].
    destruct (merged_exact g kk dd (repeat (Some a) n) dm X Fk Fd Nk) as (X' & K & Dm); [exists xk; auto|exists xd; auto|exact Sdm|exact Cdm|].
    unfold merged in X', K, Dm. set (g' := EG _ _ _ _) in X', K, Dm.
    assert (Lk : kk < size g'). { destruct (vec_lt g' kk (sg_cvec dm)) as [|]; [exists dm; auto|lia|lia]. }
    assert (T : told g' kk).
    { intros d b c o' Hd' El Eh Eq Eo. rewrite Dm in Hd'. inversion Hd'; subst d.
      destruct (ag_point L ar n ivar S0 Ag _ _ b c (proj1 Sdm) El Eh Eq) as (Rp & _). rewrite Cdm in Rp.
      assert (a = b) as <-. { clear - Rp Pn. destruct n; [lia|]. cbn in Rp. congruence. }
      rewrite Ea in Eo. inversion Eo; subst o'. exists j. split; [exact Gj|].
      assert (eqv g' j r) as Q1 by (apply K; now apply eqv_find).
      destruct Or as [->| ->]; [exact Q1|]. apply (eqv_trans g' j r kk Q1).
      destruct (merged_ok g kk r (set_nth (g_data g) kk dm) W Fk Fd Nk) as (_ & _ & Qm); [rewrite set_nth_length; exact (wf_data g W)|].
      apply Qm. right. right. split; apply eqv_refl; eauto using find_some. }
    pose proof (modify_told k g' kk X' Lk T) as Hmd. match goal with |- context [s_modify L keep (S k) ?x kk] => change x with g' end. rewrite Hmd. exists g', true. split; [reflexivity|]. auto.
  Qed.
  Lemma get_node_new : forall (m : list (node O * nat)) x i, get_node (l_eqb L) m x = None -> get_node (l_eqb L) (m ++ [(x, i)]) x = Some i.
  Proof.
    induction m as [|[y j] m IH]; intros x i H; cbn in *.
    - now rewrite (proj2 (node_eqb_eq O (l_eqb L) eqb_eq x x) eq_refl).
    - destruct (node_eqb (l_eqb L) x y); [discriminate H|auto].
  Qed.
  Lemma modify_exact : forall k g i, exact g -> i < size g -> exists g', md (S (S k)) g i = Val g' /\ exact g' /\ keeps g g'.
  Proof.
    intros k g i X Li. pose proof (xa_wf g X) as W. destruct (class_data_val g i W Li) as (d & Hd). rewrite (modify_eq (S k) g i d Hd).
    assert (Done : exists g', Val g = Val g' /\ exact g' /\ keeps g g') by (exists g; split; [reflexivity|]; split; [exact X|apply keeps_refl]).
    destruct (low (sg_itv d)) as [a|] eqn:El; [|exact Done]. destruct (high (sg_itv d)) as [b|] eqn:Eh; [|exact Done].
    destruct (l_ceqb L a b) eqn:Eq; [|exact Done]. clear Done.
    destruct (ag_point L ar n ivar S0 Ag _ _ a b (proj1 (xa_dat g X i d Hd)) El Eh Eq) as (Vd & Pn & o & Eo & No & Ao & Ev). rewrite Eo. cbn [join_all].
    assert (Vi : vec g i (repeat (Some a) n)) by (exists d; auto).
    assert (exists g1 j r, s_add_expr L keep (S k) g [Node o []] = Val (g1, r) /\ exact g1 /\ keeps g g1 /\
      get_node (l_eqb L) (g_nodes g1) (Node o []) = Some j /\ find g1 j = Val r /\ vec g1 r (repeat (Some a) n)) as (g1 & j & r & As & X1 & K1 & Gj & Fj & Vr1).
    { destruct (get_node (l_eqb L) (g_nodes g) (Node o [])) as [j|] eqn:Gj.
      - pose proof (get_node_in _ eqb_eq _ _ _ Gj) as Ij.
        destruct (xa_given g X _ _ Ij) as (cs & v & Fc & Vj & E). cbn [nch nop] in *. inversion Fc; subst. rewrite No, Ev in E. inversion E; subst v.
        destruct (find_val g j (vec_lt g j _ Vj)) as (r & Fj). exists g, j, r.
        split; [exact (add_single _ _ _ _ _ (add_found _ _ _ _ _ Gj Fj))|]. split; [exact X|]. split; [apply keeps_refl|]. split; [exact Gj|]. split; [exact Fj|].
        apply (vec_eqv g j); [now apply eqv_find|exact Vj].
      - destruct (new_exact g (Node o []) [] (repeat (Some a) n) X No (eq_sym Ao) (Forall2_nil _) Ev) as (g1 & Nc & X1 & K1 & V1 & N1).
        exists g1, (size g), (size g).
        assert (Fj : find g1 (size g) = Val (size g)). { apply find_new. now apply new_class_spec in Nc. }
        assert (Gj1 : get_node (l_eqb L) (g_nodes g1) (Node o []) = Some (size g)) by (rewrite N1; now apply get_node_new).
        assert (Ls : size g < size g1) by exact (vec_lt g1 _ _ V1).
        split; [|split; [exact X1|split; [exact K1|split; [exact Gj1|split; [exact Fj|exact V1]]]]].
        apply add_single. unfold s_add, add, lookup_node, canon. cbn [nch nop rmapM rbind]. rewrite Gj. cbn [rbind]. rewrite Nc. cbn [rbind].
        rewrite modify_told; [reflexivity|exact X1|exact Ls|].
        intros d' a' b' o' Hd' El' Eh' Eq' Eo'. destruct V1 as (d1 & H1 & C1). rewrite Hd' in H1. inversion H1; subst d1.
        destruct (ag_point L ar n ivar S0 Ag _ _ a' b' (proj1 (xa_dat g1 X1 _ d' Hd')) El' Eh' Eq') as (Rp & _). rewrite C1 in Rp.
        assert (a = a') as <-. { clear - Rp Pn. destruct n; [lia|]. cbn in Rp. congruence. }
        rewrite Eo in Eo'. inversion Eo'; subst o'. exists (size g). split; [exact Gj1|]. now apply eqv_refl. }
    rewrite As. cbn [rbind].
    assert (Li1 : i < size g1) by (destruct K1 as ((Sz & _) & _); lia).
    destruct (union_point k g1 i j r a o X1 Li1 Pn) as (g2 & bb & Un & X2 & K2); [destruct K1 as (_ & Kv & _); auto|exact Eo|exact Gj|exact Fj|exact Vr1|].
    rewrite Un. cbn [rbind]. exists g2. split; [reflexivity|]. split; [exact X2|exact (keeps_trans _ _ _ K1 K2)].
  Qed.

  (* variables: there already, or made without a vector *)
  Definition var_ok (g : eg O C) (o : O) : Prop := forall s, l_to_var L o = Some s -> (exists i, In (Node o [], i) (g_nodes g)) \/ (vc s = [] /\ S0 ivar []).
  Lemma var_ok_keep : forall g g' o, keeps g g' -> var_ok g o -> var_ok g' o.
  Proof. intros g g' o (_ & _ & I) H s E. destruct (H s E) as [(i & Hi)|Hv]; [left; exists i; now apply I|now right]. Qed.
  Lemma entry_vec : forall g o ch i cs, exact g -> has g o ch i -> Forall2 (vec g) ch cs ->
    exists v, vec g i v /\ match l_to_var L o with Some s => v = vc s | None => l_eval L n o cs = Val v end.
  Proof.
    intros g o ch i cs X (m & j & I & Eo & F & Q) Fc. destruct (xa_given g X m j I) as (cs' & v & Fc' & Vj & E). rewrite Eo in E.
    exists v. split; [exact (vec_eqv g j i v Q Vj)|]. pose proof (vecs_eqv g _ _ _ F Fc') as Fc2. rewrite (vecs_fun g _ _ _ Fc Fc2). exact E.
  Qed.
  Lemma add_exact : forall k g o ch cs v, exact g -> length ch = ar o -> Forall2 (vec g) ch cs ->
    with_vars (l_to_var L) vc (l_eval L n) o cs = Val v -> var_ok g o ->
    exists g' i, s_add L keep (S (S k)) g (Node o ch) = Val (g', i) /\ exact g' /\ keeps g g' /\ vec g' i v.
  Proof.
    intros k g o ch cs v X Len F Ev Vo. pose proof (xa_wf g X) as W. pose proof (vecs_lt g _ _ F) as Lt.
    destruct (lookup_node_val _ eqb_eq g (Node o ch) W Lt) as (lk & Hl).
    unfold s_add, add. rewrite Hl. cbn [rbind]. destruct lk as [i|].
    - exists g, i. split; [reflexivity|]. split; [exact X|]. split; [apply keeps_refl|].
      pose proof (lookup_node_some _ eqb_eq g _ i W Hl) as Hh. cbn [nop nch] in Hh. destruct (entry_vec g o ch i cs X Hh F) as (w & Vw & Ew).
      unfold with_vars in Ev. destruct (l_to_var L o); [inversion Ev; subst v; now rewrite <- Ew|]. rewrite Ev in Ew. inversion Ew; now subst w.
    - destruct (canon_val g (Node o ch) Lt) as (m & Hc). rewrite Hc. cbn [rbind].
      pose proof (proj1 (canon_spec g _ m) Hc) as [Eo Fm]. cbn [nop nch] in Eo, Fm. pose proof (canon_eqv g _ m W Hc) as Qm. cbn [nch] in Qm.
      pose proof (vecs_eqv g _ _ _ Qm F) as F'. assert (Len' : length (nch m) = ar (nop m)) by (rewrite Eo, <- Len; symmetry; exact (Forall2_length _ _ _ Fm)).
      unfold with_vars in Ev. destruct (l_to_var L o) as [s|] eqn:Ev'.
      + destruct (Vo s Ev') as [(i & Ii)|(Vs & Sv)].
        * exfalso. assert (ch = []) as ->. { pose proof (ag_leaf L ar n ivar S0 Ag o) as Z. unfold is_leaf in Z. rewrite Ev' in Z. rewrite (Z eq_refl) in Len. now destruct ch. }
          unfold lookup_node in Hl. rewrite Hc in Hl. cbn [rbind] in Hl. inversion Fm. destruct m as [o' ch']. cbn [nop nch] in *. subst o' ch'.
          destruct (get_node (l_eqb L) (g_nodes g) (Node o [])) as [j|] eqn:Gn; [destruct (find g j); discriminate Hl|]. exact (get_node_none _ eqb_eq _ _ Gn i Ii).
        * pose proof (pv_only L Vr o s Ev') as ->. assert (ch = []) as ->. { pose proof (ag_leaf L ar n ivar S0 Ag (l_mk_var L s)) as Z. unfold is_leaf in Z. rewrite Ev' in Z. rewrite (Z eq_refl) in Len. now destruct ch. }
          inversion Fm. destruct m as [o' ch']. cbn [nop nch] in *. subst o' ch'. unfold new_class. cbn [nch rmapM rbind]. rewrite (var_make g s X). cbn [rbind].
          destruct (grow g (Node (l_mk_var L s) []) (Sig [] [Node (l_mk_var L s) []] ivar) X Lt) as (X1 & K1 & D1).
          { split; [exact Sv|]. exists (T (l_mk_var L s) []). reflexivity. }
          { exists []. split; [constructor|]. cbn [nop]. rewrite Ev'. cbn. congruence. }
          assert (Ls : size g < size (EG (g_reps g ++ [size g]) (g_nodes g ++ [(Node (l_mk_var L s) [], size g)]) (g_data g ++ [Sig [] [Node (l_mk_var L s) []] ivar]) (g_an g))).
          { apply (vec_lt _ _ []). eexists. split; [exact D1|reflexivity]. }
          destruct (modify_exact k _ (size g) X1 Ls) as (g2 & M2 & X2 & K2). rewrite M2. cbn [rbind].
          exists g2, (size g). split; [reflexivity|]. split; [exact X2|]. split; [exact (keeps_trans _ _ _ K1 K2)|]. destruct K2 as (_ & Kv & _). apply Kv.
          exists (Sig [] [Node (l_mk_var L s) []] ivar). split; [exact D1|]. cbn. congruence.
      + rewrite <- Eo in Ev, Ev'. destruct (new_exact g m cs v X Ev' Len' F' Ev) as (g1 & Nc & X1 & K1 & V1 & _). rewrite Nc. cbn [rbind].
        destruct (modify_exact k g1 (size g) X1 (vec_lt g1 _ _ V1)) as (g2 & M2 & X2 & K2). rewrite M2. cbn [rbind].
        exists g2, (size g). split; [reflexivity|]. split; [exact X2|]. split; [exact (keeps_trans _ _ _ K1 K2)|]. destruct K2 as (_ & Kv & _). now apply Kv.
  Qed.

  (* terms *)
  Local Notation cvt := (cvec_term (l_eval L) (l_to_var L) n vc).
  Local Notation build := (fun o ts => Val (T o ts)).
  Definition fine (g : eg O C) (t : term O) : Prop := (exists v, cvt t = Val v) /\ match t with T o ts => length ts = ar o /\ var_ok g o end.
  Lemma fine_keep : forall g g' t, keeps g g' -> fine g t -> fine g' t.
  Proof. intros g g' [o ts] K (Hv & Ln & V). split; [exact Hv|]. split; [exact Ln|exact (var_ok_keep g g' o K V)]. Qed.
  Lemma run_buf_prefix : forall r (ts bx : list (term O)), run_buf build r ts = Val bx -> exists l, bx = ts ++ l.
  Proof.
    induction r as [|m r IH]; intros ts bx H; cbn [run_buf] in H; [inversion H; exists []; now rewrite app_nil_r|].
    destruct (rmapM (index ts) (nch m)) as [us|]; [|discriminate H]. cbn [rbind] in H. destruct (IH _ _ H) as (l & ->). exists (T (nop m) us :: l). now rewrite <- app_assoc.
  Qed.
  Definition valued (g : eg O C) (t : term O) (c : nat) : Prop := exists v, vec g c v /\ cvt t = Val v.
  Lemma add_nodes_exact : forall k r g ids ts bx, exact g -> Forall2 (valued g) ts ids -> run_buf build r ts = Val bx -> Forall (fine g) bx ->
    exists g' ids', add_nodes (l_eqb L) (s_make L) (md (S (S k))) g ids r = Val (g', ids') /\ exact g' /\ keeps g g' /\ Forall2 (valued g') bx ids'.
  Proof.
    intros k. induction r as [|m r IH]; intros g ids ts bx X F H Fb; cbn [run_buf add_nodes] in *.
    - inversion H; subst. exists g, ids. split; [reflexivity|]. split; [exact X|]. split; [apply keeps_refl|exact F].
    - destruct (rmapM (index ts) (nch m)) as [us|] eqn:Eu; [|discriminate H]. cbn [rbind] in H.
      assert (exists ch, rmapM (index ids) (nch m) = Val ch /\ Forall2 (valued g) us ch) as (ch & Ec & Fc).
      { apply rmapM_F2 in Eu. clear - Eu F. induction Eu as [|i u l us Hi Eu (ch & E & G)]; [exists []; split; [reflexivity|constructor]|].
        apply index_some in Hi as [_ Hi]. assert (exists c, nth_error ids i = Some c /\ valued g u c) as (c & Hc & Vc).
        { clear - F Hi. revert i Hi. induction F; intros [|i] Hi; cbn in *; try discriminate Hi; [inversion Hi; subst; eauto|auto]. }
        exists (c :: ch). split; [|constructor; auto]. cbn. unfold index at 1. rewrite Hc. cbn. now rewrite E. }
      destruct (run_buf_prefix _ _ _ H) as (l & El). 
      assert (Fm : fine g (T (nop m) us)). { rewrite Forall_forall in Fb. apply Fb. rewrite El. apply in_or_app. left. apply in_or_app. right. now left. }
      destruct Fm as ((v & Hv) & Ln & Vo).
      assert (exists cs, Forall2 (vec g) ch cs /\ rmapM cvt us = Val cs) as (cs & Gc & Ecs).
      { clear - Fc. induction Fc as [|u c us ch (w & Vw & Ew) Fc (cs & G & E)]; [exists []; split; [constructor|reflexivity]|].
        exists (w :: cs). split; [constructor; auto|]. cbn. rewrite Ew. cbn. now rewrite E. }
      unfold cvec_term in Hv. cbn [fold_term] in Hv. change (rmapM (fold_term (with_vars (l_to_var L) vc (l_eval L n))) us = Val cs) in Ecs. rewrite Ecs in Hv. cbn [rbind] in Hv.
      assert (Lc : length ch = ar (nop m)). { rewrite <- Ln. symmetry. exact (Forall2_length _ _ _ Fc). }
      destruct (add_exact k g (nop m) ch cs v X Lc Gc Hv Vo) as (g1 & i & Ad & X1 & K1 & V1). rewrite Ec. cbn [rbind]. unfold s_add in Ad. rewrite Ad. cbn [rbind].
      destruct (IH g1 (ids ++ [i]) (ts ++ [T (nop m) us]) bx X1) as (g2 & ids2 & A2 & X2 & K2 & F2).
      + apply Forall2_app.
        * destruct K1 as (_ & Kv & _). clear - F Kv. induction F as [|? ? ? ? (w & Vw & Ew)]; constructor; auto. exists w. auto.
        * constructor; [|constructor]. exists v. split; [exact V1|]. unfold cvec_term. cbn [fold_term]. rewrite Ecs. exact Hv.
      + exact H.
      + apply Forall_forall. intros t It. rewrite Forall_forall in Fb. exact (fine_keep g g1 t K1 (Fb t It)).
      + exists g2, ids2. split; [exact A2|]. split; [exact X2|]. split; [exact (keeps_trans _ _ _ K1 K2)|exact F2].
  Qed.
  Lemma add_expr_exact : forall k g t, exact g -> (forall u, In u (subterms t) -> fine g u) ->
    exists g' i, s_add_expr L keep (S (S k)) g (to_rec t) = Val (g', i) /\ exact g' /\ keeps g g' /\ valued g' t i.
  Proof.
    intros k g t X Ft. destruct (to_rec_parts t) as (bx & Rb & Pt).
    destruct (add_nodes_exact k (to_rec t) g [] [] bx X (Forall2_nil _) Rb) as (g' & ids & A & X' & K & F).
    { apply Forall_forall. intros u Iu. rewrite Forall_forall in Pt. auto. }
    unfold s_add_expr, add_expr. rewrite A. cbn [rbind].
    pose proof (tree_to_rec t) as Tr. unfold tree, fold_rec in Tr. rewrite Rb in Tr. cbn [rbind] in Tr.
    assert (exists i, pop_unwrap ids = Val i /\ valued g' t i) as (i & Pi & Vi).
    { unfold pop_unwrap in *. destruct (rev bx) as [|x l] eqn:Er; [discriminate Tr|]. inversion Tr; subst x.
      assert (Forall2 (valued g') (rev bx) (rev ids)) as Fr. { clear - F. induction F; cbn; [constructor|]. apply Forall2_app; [exact IHF|]. constructor; auto. }
      rewrite Er in Fr. inversion Fr as [|? i ? l' V' Fr' E1 E2]; subst. eauto. }
    rewrite Pi. cbn [rbind]. exists g', i. auto.
  Qed.
  Lemma add_all_exact : forall k ts g, exact g -> (forall t u, In t ts -> In u (subterms t) -> fine g u) ->
    exists g', add_all_exprs L keep (S (S k)) g (map to_rec ts) = Val g' /\ exact g' /\ keeps g g'.
  Proof.
    intros k. induction ts as [|t ts IH]; intros g X Ft; cbn [map add_all_exprs].
    - exists g. split; [reflexivity|]. split; [exact X|apply keeps_refl].
    - destruct (add_expr_exact k g t X) as (g1 & i & A & X1 & K1 & _); [intros u Iu; apply (Ft t u); [now left|exact Iu]|]. rewrite A. cbn [rbind].
      destruct (IH g1 X1) as (g2 & A2 & X2 & K2); [intros t' u I1 I2; apply (fine_keep g g1 u K1), (Ft t' u); [now right|exact I2]|].
      exists g2. split; [exact A2|]. split; [exact X2|exact (keeps_trans _ _ _ K1 K2)].
  Qed.

  (* the variables *)
  Lemma init_exact : forall k vs (g : eg O C), exact g ->
    (forall v c ts, In (v, c, ts) vs -> ts = [] /\ S0 ivar c /\ vc v = c) ->
    (forall v c ts i, In (v, c, ts) vs -> ~ In (Node (l_mk_var L v) [], i) (g_nodes g)) -> NoDup (map (@vname O C) vs) ->
    exists g', init_vars L keep (S k) g vs = Val g' /\ exact g' /\ keeps g g' /\ forall v c ts, In (v, c, ts) vs -> exists i, In (Node (l_mk_var L v) [], i) (g_nodes g').
  Proof.
    intros k. induction vs as [|[[v c] ts] vs IH]; intros g X Hv Nv Nd; cbn [init_vars].
    - exists g. split; [reflexivity|]. split; [exact X|]. split; [apply keeps_refl|]. intros ? ? ? [].
    - destruct (Hv v c ts (or_introl eq_refl)) as (-> & Sc & Vv). pose proof (xa_wf g X) as W.
      set (m := Node (l_mk_var L v) []). set (g1 := EG (g_reps g ++ [size g]) (g_nodes g ++ [(m, size g)]) (g_data g ++ [Sig [] [m] ivar]) (g_an g)).
      set (g2 := EG (g_reps g ++ [size g]) (g_nodes g ++ [(m, size g)]) (g_data g ++ [Sig c [m] ivar]) (g_an g)).
      assert (Gn : get_node (l_eqb L) (g_nodes g) m = None).
      { destruct (get_node (l_eqb L) (g_nodes g) m) as [j|] eqn:E; [|reflexivity]. apply (get_node_in _ eqb_eq) in E. exfalso. exact (Nv v c [] j (or_introl eq_refl) E). }
      assert (Fi : find g1 (size g) = Val (size g)) by (apply find_new; reflexivity).
      assert (Di : index (g_data g1) (size g) = Val (Sig [] [m] ivar)) by (cbn; rewrite <- (wf_data g W); apply index_last).
      assert (Ad : s_add L keep (S k) g m = Val (g1, size g)).
      { unfold s_add, add, lookup_node, canon. cbn [m nch nop rmapM rbind]. fold m. rewrite Gn. cbn [rbind]. unfold new_class. cbn [m nch rmapM rbind].
        pose proof (var_make g v X) as Hm. fold m in Hm. rewrite Hm. cbn [rbind].
        match goal with |- context [s_modify L keep (S k) ?x (size g)] => change x with g1 end. rewrite (modify_eq k g1 (size g) (Sig [] [m] ivar)) by (unfold class_data; rewrite Fi; exact Di). cbn [sg_itv].
        destruct (low ivar) as [a|] eqn:El; [|reflexivity]. destruct (high ivar) as [b|] eqn:Eh; [|reflexivity]. now rewrite (ag_ivar L ar n ivar S0 Ag a b El Eh). }
      rewrite Ad. cbn [rbind]. unfold set_cvec. rewrite Fi. cbn [rbind]. rewrite Di. cbn [rbind sg_simplest sg_itv link_all].
      replace (EG (g_reps g1) (g_nodes g1) (set_nth (g_data g1) (size g) (Sig c [m] ivar)) (g_an g1)) with g2 by (unfold g1, g2; cbn; now rewrite <- (wf_data g W), set_nth_end).
      destruct (grow g m (Sig c [m] ivar) X (Forall_nil _)) as (X2 & K2 & D2).
      { split; [exact Sc|]. exists (T (l_mk_var L v) []). reflexivity. }
      { exists []. split; [constructor|]. cbn [m nop]. rewrite (pv_var L Vr). now symmetry. }
      fold g2 in X2, K2, D2. cbn [map] in Nd. inversion Nd as [|? ? N1 N2]; subst.
      destruct (IH g2 X2) as (g3 & I3 & X3 & K3 & P3).
      + intros v' c' ts' I. apply (Hv v' c' ts'). now right.
      + intros v' c' ts' i I J. cbn in J. apply in_app_or in J as [J|[J|[]]]; [exact (Nv v' c' ts' i (or_intror I) J)|]. inversion J as [[E1 E2]].
        apply N1. assert (v' = v) as ->. { pose proof (pv_var L Vr v) as P1. rewrite E1, (pv_var L Vr) in P1. congruence. }
        exact (in_map (@vname O C) _ _ I).
      + exact N2.
      + exists g3. split; [exact I3|]. split; [exact X3|]. split; [exact (keeps_trans _ _ _ K2 K3)|].
        intros v' c' ts' [E|I]; [|exact (P3 v' c' ts' I)]. inversion E; subst. exists (size g). apply K3. cbn. apply in_or_app. right. now left.
  Qed.
End Total.
