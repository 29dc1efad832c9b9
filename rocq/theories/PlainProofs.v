(* Literal-only languages: the e-graph made from a workload has one class per term
   and one term per class. *)
From Verif Require Import Base BaseProofs Sexp Reader Lang LangProofs Util Syntax SyntaxProofs Rule Ruleset Analysis Generalize Workload MinimizeSpec MatchSpec
  Egraph EgraphSpec EgraphProofs EgraphSound Synth Apply Sched SynthSpec SynthProofs CalmSpec Calm CalmRun PlainSpec PartsProofs DeriveProofs.
Open Scope list_scope.

Lemma NoDup_app_one : forall X (l : list X) x, NoDup l -> ~ In x l -> NoDup (l ++ [x]).
Proof.
  intros X l x N. induction N as [|y l Ny N IH]; intros H; cbn; [constructor; [intros []|constructor]|].
  constructor; [|apply IH; intros I; apply H; now right]. intros I. apply in_app_or in I as [I|[->|[]]]; [auto|]. apply H. now left.
Qed.

Lemma combine_app_eq : forall X Y (l l' : list X) (m m' : list Y), length l = length m -> combine (l ++ l') (m ++ m') = combine l m ++ combine l' m'.
Proof. intros X Y. induction l as [|x l IH]; intros l' [|y m] m' H; cbn in *; try discriminate H; [reflexivity|]. f_equal. apply IH. lia. Qed.

Lemma map_fst_combine : forall X Y (l : list X) (m : list Y), length l = length m -> map fst (combine l m) = l.
Proof. intros X Y. induction l as [|x l IH]; intros [|y m] H; cbn in *; try discriminate H; [reflexivity|]. f_equal. apply IH. lia. Qed.
Lemma map_snd_combine : forall X Y (l : list X) (m : list Y), length l = length m -> map snd (combine l m) = m.
Proof. intros X Y. induction l as [|x l IH]; intros [|y m] H; cbn in *; try discriminate H; [reflexivity|]. f_equal. apply IH. lia. Qed.

Lemma filter_true : forall X (f : X -> bool) l, (forall x, In x l -> f x = true) -> List.filter f l = l.
Proof. intros X f l H. induction l as [|x l IH]; [reflexivity|]. cbn. rewrite (H x) by now left. f_equal. apply IH. intros y I. apply H. now right. Qed.

Section Plain.
  Context {O C : Type}.
  Variable L : lang O C.
  Variable ar : O -> nat.
  Hypothesis Lo : literal_only L ar.
  Hypothesis Vr : plain_vars L.
  Variable keep : eg O C -> nat -> nat -> bool.
  Variable fuel : nat.
  Local Notation wf := (@wf O (sig O C) nat).
  Local Notation eqb_eq := (lo_eqb L ar Lo).
  Local Notation calm := (calm L ar).

  Variable an : nat.
  Variable vc : string -> cvec C.

  Definition given (g : eg O C) (m : node O) (i : nat) : Prop := exists cs v, Forall2 (vec g) (nch m) cs /\ vec g i v /\
    match l_to_var L (nop m) with Some s => v = vc s | None => l_eval L an (nop m) cs = Val v end.
  Record tidy (g : eg O C) : Prop := {
    td_calm : calm g;
    td_reps : g_reps g = seq 0 (size g);
    td_ids : map snd (g_nodes g) = seq 0 (size g);
    td_keys : NoDup (map fst (g_nodes g));
    td_an : g_an g = an;
    td_vec : forall m i, In (m, i) (g_nodes g) -> given g m i;
    (* variables with a vector are there *)
    td_vars : forall s, vc s <> [] -> exists i, In (Node (l_mk_var L s) [], i) (g_nodes g) }.

  Lemma tidy_find : forall g i, tidy g -> i < size g -> find g i = Val i.
  Proof.
    intros g i Td Li. unfold find, index. rewrite (td_reps g Td). rewrite (nth_error_nth' _ 0) by (rewrite seq_length; exact Li).
    now rewrite seq_nth by exact Li.
  Qed.
  Lemma tidy_eqv : forall g i j, tidy g -> eqv g i j -> i = j.
  Proof. intros g i j Td Q. destruct (eqv_lt _ _ _ Q) as [Li Lj]. destruct Q as (r & H1 & H2). rewrite (tidy_find g) in H1, H2 by assumption. congruence. Qed.
  Lemma tidy_eqvs : forall g l l', tidy g -> Forall2 (eqv g) l l' -> l = l'.
  Proof. intros g l l' Td F. induction F; [reflexivity|]. f_equal; [now apply (tidy_eqv g)|assumption]. Qed.
  Lemma tidy_has : forall g o ch c, tidy g -> has g o ch c -> In (Node o ch, c) (g_nodes g).
  Proof.
    intros g o ch c Td (n & i & I & E & F & Q). apply (tidy_eqvs g) in F; [|exact Td]. apply (tidy_eqv g) in Q; [|exact Td]. subst. now destruct n.
  Qed.
  (* a node is in one class; a class has one node *)
  Lemma nodup_fst : forall X Y (l : list (X * Y)) a b c, NoDup (map fst l) -> In (a, b) l -> In (a, c) l -> b = c.
  Proof.
    intros X Y l a b c N. induction l as [|[x y] l IH]; intros I J; [destruct I|]. cbn in N. inversion N as [|? ? N1 N2]; subst.
    destruct I as [I|I], J as [J|J].
    - congruence.
    - inversion I; subst. destruct N1. exact (in_map fst _ _ J).
    - inversion J; subst. destruct N1. exact (in_map fst _ _ I).
    - auto.
  Qed.
  Lemma nodup_snd : forall X Y (l : list (X * Y)) a b c, NoDup (map snd l) -> In (a, c) l -> In (b, c) l -> a = b.
  Proof.
    intros X Y l a b c N. induction l as [|[x y] l IH]; intros I J; [destruct I|]. cbn in N. inversion N as [|? ? N1 N2]; subst.
    destruct I as [I|I], J as [J|J].
    - congruence.
    - inversion I; subst. destruct N1. exact (in_map snd _ _ J).
    - inversion J; subst. destruct N1. exact (in_map snd _ _ I).
    - auto.
  Qed.
  Lemma tidy_one_class : forall g, tidy g -> forall t c, repr g t c -> forall d, repr g t d -> c = d.
  Proof.
    intros g Td t. induction t as [o ts IH] using term_ind'. intros c Rc d Rd.
    inversion Rc as [? ? ch ? F1 H1]; subst. inversion Rd as [? ? ch' ? F2 H2]; subst.
    assert (ch = ch') as <-.
    { clear - IH F1 F2. revert ch' F2. induction F1; intros ch' F2; inversion F2; subst; [reflexivity|]. inversion IH; subst. f_equal; auto. }
    apply (tidy_has g) in H1, H2; auto. exact (nodup_fst _ _ _ _ _ _ (td_keys g Td) H1 H2).
  Qed.
  Lemma tidy_one_term : forall g, tidy g -> forall t c, repr g t c -> forall u, repr g u c -> t = u.
  Proof.
    intros g Td t. induction t as [o ts IH] using term_ind'. intros c Rc [o' us] Rd.
    inversion Rc as [? ? ch ? F1 H1]; subst. inversion Rd as [? ? ch' ? F2 H2]; subst.
    apply (tidy_has g) in H1, H2; auto.
    assert (Node o ch = Node o' ch') as E. { apply (nodup_snd _ _ _ _ _ _ ltac:(rewrite (td_ids g Td); apply seq_NoDup) H1 H2). }
    inversion E; subst. f_equal. clear - IH F1 F2. revert us F2. induction F1; intros us F2; inversion F2; subst; [reflexivity|]. inversion IH; subst. f_equal; eauto.
  Qed.

  Lemma vec_fun : forall (g : eg O C) i v w, vec g i v -> vec g i w -> v = w.
  Proof. intros g i v w (d & H1 & E1) (d' & H2 & E2). congruence. Qed.
  Lemma tidy_cvec : forall g, tidy g -> forall t c, repr g t c -> exists v, vec g c v /\ cvec_term (l_eval L) (l_to_var L) an vc t = Val v.
  Proof.
    intros g Td t. induction t as [o ts IH] using term_ind'. intros c Rc. inversion Rc as [? ? ch ? F H]; subst.
    apply (tidy_has g) in H; [|exact Td]. destruct (td_vec g Td _ _ H) as (cs & v & Fc & Hv & E). cbn [nop nch] in *.
    exists v. split; [exact Hv|]. unfold cvec_term. cbn [fold_term].
    assert (rmapM (fold_term (with_vars (l_to_var L) vc (l_eval L an))) ts = Val cs) as ->.
    { clear - IH F Fc. revert cs Fc. induction F as [|t c ts ch H F IHF]; intros cs Fc; inversion Fc as [|? v ? cs' V Fc']; subst; [reflexivity|]. inversion IH as [|? ? I1 I2]; subst.
      cbn. destruct (I1 c H) as (w & Hw & Ew). unfold cvec_term in Ew. rewrite Ew. cbn. rewrite (IHF I2 _ Fc'). cbn. now rewrite (vec_fun _ _ _ _ V Hw). }
    cbn [rbind]. unfold with_vars. destruct (l_to_var L o); [now subst v|exact E].
  Qed.

  (* ---- adding ---- *)
  Lemma vec_appends : forall (g g' : eg O C) i v, wf g -> appends g g' -> vec g i v -> vec g' i v.
  Proof.
    intros g g' i v W Ap (d & H & E). exists d. split; [|exact E]. unfold class_data in *. destruct (find g i) as [r|] eqn:F; [|discriminate H]. cbn in H.
    rewrite (appends_find_old g g' i Ap (find_some _ _ _ F)), F. cbn. destruct Ap as (ns & ds & _ & _ & _ & -> & _).
    apply index_some in H as [Lr H]. unfold index. rewrite nth_error_app1 by exact Lr. now rewrite H.
  Qed.
  Lemma given_appends : forall (g g' : eg O C) m i, wf g -> appends g g' -> given g m i -> given g' m i.
  Proof.
    intros g g' m i W Ap (cs & v & F & V & E). exists cs, v. split; [|split; [exact (vec_appends g g' i v W Ap V)|exact E]].
    clear - F W Ap. induction F; constructor; auto. now apply (vec_appends g g').
  Qed.
  Lemma s_make_cvec : forall a n (ds : list (sig O C)) d, length ds = length (nch n) -> (forall i x y, In (i, x) (combine (nch n) ds) -> In (i, y) (combine (nch n) ds) -> x = y) ->
    s_make L a n ds = Val d -> l_eval L a (nop n) (map sg_cvec ds) = Val (sg_cvec d).
  Proof.
    intros a n ds d Ln Fn H. unfold s_make, make in H. destruct (make_simplest _ _ n) as [s|]; [|discriminate H]. cbn [rbind] in H.
    destruct (l_eval L a (nop n) _) as [cv|] eqn:E; [|discriminate H]. cbn [rbind] in H.
    match type of H with (let* i := ?x in _) = _ => destruct x as [iv|]; [|discriminate H] end. cbn [rbind] in H. inversion H; subst d. cbn.
    rewrite <- E. f_equal. clear - Ln Fn. 
    assert (forall l es, length es = length l -> (forall i x, In (i, x) (combine l es) -> In (i, x) (combine (nch n) ds)) ->
      map sg_cvec es = map (fun i => sg_cvec match slookup (combine (nch n) ds) i with Some d => d | None => Sig [] [] full end) l) as G.
    { induction l as [|i l IH]; intros [|x es] Le Sb; cbn in Le; try discriminate Le; [reflexivity|]. cbn. f_equal.
      - pose proof (Sb i x (or_introl eq_refl)) as I. destruct (slookup (combine (nch n) ds) i) as [y|] eqn:E.
        + f_equal. apply (Fn i x y I). clear - E. revert E. generalize (combine (nch n) ds) as m. induction m as [|[k v] m IH]; cbn; [discriminate|].
          destruct (Nat.eqb_spec i k) as [->|]; intros E; [inversion E; now left|right; auto].
        + exfalso. clear - I E. revert I E. generalize (combine (nch n) ds) as m. induction m as [|[k v] m IH]; cbn; [tauto|].
          intros [I|I] E; [inversion I; subst; rewrite Nat.eqb_refl in E; discriminate E|]. destruct (Nat.eqb i k); [discriminate E|auto].
      - apply IH; [lia|]. intros j y I. apply Sb. now right. }
    apply G; auto.
  Qed.
  Lemma add_tidy : forall g n g' i, tidy g -> typed_node ar n -> s_add L keep fuel g n = Val (g', i) -> tidy g' /\ appends g g'.
  Proof.
    intros g n g' i Td Ty H. pose proof (td_calm g Td) as Cm. pose proof (cm_wf _ _ g Cm) as W.
    destruct (add_appends L ar Lo keep fuel g n g' i Cm Ty H) as (C1 & A1 & _). split; [|exact A1].
    destruct (add_calm L ar Lo keep fuel g n g' i Cm Ty H) as [_ [(-> & _)|(n' & Cc & No & Nc)]]; [exact Td|].
    pose proof (canon_lt g n n' W Cc) as Lt.
    assert (n' = n) as ->.
    { apply canon_spec in Cc as [E F]. destruct n as [o ch], n' as [o' ch']. cbn in *. subst o'. f_equal. clear - F Td. induction F; [reflexivity|]. f_equal; [|assumption].
      pose proof (find_some _ _ _ H) as Lx. rewrite (tidy_find g x Td Lx) in H. now inversion H. }
    unfold new_class in Nc. destruct (rmapM (class_data g) (nch n)) as [ds|] eqn:Ed; [|discriminate Nc]. cbn [rbind] in Nc.
    destruct (s_make L (g_an g) n ds) as [d|] eqn:Em; [|discriminate Nc]. cbn [rbind] in Nc. inversion Nc as [[Eg Ei]]. clear Nc.
    assert (Sz : size g' = S (size g)). { rewrite <- Eg. unfold size. cbn. rewrite app_length. cbn. lia. }
    apply rmapM_F2 in Ed.
    constructor.
    - now rewrite Eg.
    - rewrite Eg, Sz, seq_S. rewrite <- Eg. cbn. now rewrite (td_reps g Td).
    - rewrite Eg, Sz, seq_S. rewrite <- Eg. cbn. rewrite map_app. cbn. now rewrite (td_ids g Td).
    - cbn. rewrite map_app. cbn. apply NoDup_app_one; [exact (td_keys g Td)|]. intros I. apply in_map_iff in I as ([m j] & E & I). cbn in E. subst m. exact (No j I).
    - cbn. exact (td_an g Td).
    - rewrite Eg. intros m j I. rewrite <- Eg in I. cbn in I. apply in_app_or in I as [I|[I|[]]].
      + exact (given_appends g g' m j W A1 (td_vec g Td m j I)).
      + inversion I; subst m j. exists (map sg_cvec ds), (sg_cvec d).
        assert (Vd : Forall2 (vec g') (nch n) (map sg_cvec ds)).
        { clear - Ed W A1. induction Ed; constructor; auto. apply (vec_appends g g'); auto. eexists. eauto. }
        split; [exact Vd|]. split.
        * exists d. split; [|reflexivity]. unfold class_data. rewrite (appends_find_new g g' (size g) A1) by lia. cbn. rewrite <- Eg. cbn.
          unfold index. rewrite nth_error_app2 by (rewrite (wf_data g W); lia). rewrite (wf_data g W), Nat.sub_diag. reflexivity.
        * assert (Ev : l_eval L an (nop n) (map sg_cvec ds) = Val (sg_cvec d)).
          { rewrite <- (td_an g Td). apply (s_make_cvec _ _ _ _) in Em; [exact Em|symmetry; exact (Forall2_length _ _ _ Ed)|].
            clear - Ed. intros i x y I J. assert (forall x, In (i, x) (combine (nch n) ds) -> class_data g i = Val x) as G.
            { clear - Ed. induction Ed; intros z I; [destruct I|]. destruct I as [I|I]; [inversion I; now subst|auto]. }
            pose proof (G x I). pose proof (G y J). congruence. }
          destruct (l_to_var L (nop n)) as [s|] eqn:Ev'; [|exact Ev].
          pose proof (eq_sym (pv_eval L Vr _ _ _ _ _ Ev' Ev)) as Ev2.
          destruct (vc s) as [|x xs] eqn:Vs; [congruence|]. exfalso.
          destruct (td_vars g Td s) as (k & Ik); [congruence|]. apply (No k). rewrite <- (pv_only L Vr _ _ Ev') in Ik.
          replace n with (Node (nop n) []); [exact Ik|]. destruct n as [o ch]. cbn in *. f_equal. unfold typed_node in Ty. cbn in Ty.
          rewrite (pv_only L Vr _ _ Ev'), (lo_vars L ar Lo) in Ty. now destruct ch.
    - rewrite Eg. intros s Hs. destruct (td_vars g Td s Hs) as (k & Ik). exists k. rewrite <- Eg. cbn. apply in_or_app. now left.
  Qed.
End Plain.

Section Whole.
  Context {O C : Type}.
  Variable L : lang O C.
  Variable ar : O -> nat.
  Hypothesis Lo : literal_only L ar.
  Hypothesis Vr : plain_vars L.
  Variable keep : eg O C -> nat -> nat -> bool.
  Variable fuel : nat.
  Local Notation wf := (@wf O (sig O C) nat).
  Local Notation eqb_eq := (lo_eqb L ar Lo).
  Local Notation calm := (calm L ar).

  Lemma add_nodes_tidy : forall an vc r (g : eg O C) ids g' ids', tidy L ar an vc g -> Forall (typed_node ar) r ->
    add_nodes (l_eqb L) (s_make L) (s_modify L keep fuel) g ids r = Val (g', ids') -> tidy L ar an vc g' /\ appends g g'.
  Proof.
    intros an vc. induction r as [|n r IH]; intros g ids g' ids' Td Ty H; cbn in H.
    - inversion H; subst. split; [exact Td|apply appends_refl].
    - inversion Ty as [|? ? T1 T2]; subst. destruct (rmapM (index ids) (nch n)) as [ch|] eqn:Ec; [|discriminate H]. cbn [rbind] in H.
      destruct (add (l_eqb L) (s_make L) (s_modify L keep fuel) g (Node (nop n) ch)) as [[g1 i]|] eqn:Ad; [|discriminate H]. cbn [rbind] in H.
      assert (Tn : typed_node ar (Node (nop n) ch)). { unfold typed_node in *. cbn. rewrite <- T1. apply rmapM_F2 in Ec. symmetry. exact (Forall2_length _ _ _ Ec). }
      destruct (add_tidy L ar Lo Vr keep fuel an vc g _ g1 i Td Tn Ad) as [Td1 A1].
      destruct (IH g1 (ids ++ [i]) g' ids' Td1 T2 H) as [Td2 A2]. split; [exact Td2|exact (appends_trans _ _ _ A1 A2)].
  Qed.
  (* the classes of a written-out term are those of its subterms *)
  Lemma add_expr_tidy : forall an vc t (g : eg O C) g' i, tidy L ar an vc g -> wf_term ar t -> s_add_expr L keep fuel g (to_rec t) = Val (g', i) ->
    tidy L ar an vc g' /\ appends g g' /\ repr g' t i /\ forall x, x < size g' -> x < size g \/ exists u, In u (subterms t) /\ repr g' u x.
  Proof.
    intros an vc t g g' i Td Wt H. pose proof (td_calm _ _ _ _ g Td) as Cm. pose proof (cm_wf _ _ g Cm) as W. pose proof (to_rec_typed ar t Wt) as Ty.
    destruct (add_expr_ok _ eqb_eq _ _ (s_md_ok L eqb_eq keep fuel) _ _ _ _ W H) as (_ & _ & t' & Tr & R). rewrite tree_to_rec in Tr. inversion Tr; subst t'.
    unfold s_add_expr, add_expr in H. destruct (add_nodes _ _ _ g [] (to_rec t)) as [[g1 ids]|] eqn:E; [|discriminate H]. cbn in H.
    destruct (pop_unwrap ids); [|discriminate H]. cbn in H. inversion H; subst.
    destruct (add_nodes_tidy an vc _ _ _ _ _ Td Ty E) as [Td1 A1]. split; [exact Td1|]. split; [exact A1|]. split; [exact R|].
    destruct (add_nodes_appends L ar Lo keep fuel _ _ _ _ _ Cm Ty E) as (_ & _ & is & Ei & X). cbn in Ei. subst is.
    destruct (add_nodes_ok _ eqb_eq _ _ (s_md_ok L eqb_eq keep fuel) _ _ _ _ _ _ W (Forall2_nil _) E) as (_ & _ & ts & Rb & F).
    destruct (to_rec_parts t) as (bx & Rb' & P). rewrite Rb in Rb'. inversion Rb'; subst bx.
    intros x Lx. destruct (X x Lx) as [Y|Y]; [now left|]. right. clear - F P Y. revert P. induction F as [|u c us cs Hu F IH]; intros P; [destruct Y|].
    inversion P; subst. destruct Y as [->|Y]; [eauto|auto].
  Qed.
  Lemma appends_ext : forall g g' : eg O C, wf g -> wf g' -> appends g g' -> ext g g'.
  Proof.
    intros g g' W W' Ap. split; [now apply appends_size|]. split.
    - intros i j Q. destruct (eqv_lt _ _ _ Q). now apply (appends_eqv_old g g').
    - intros o ch c Hh. destruct Hh as (n & i & I & E & F & Q). destruct (eqv_lt _ _ _ Q) as [_ Lc]. apply (appends_has_old g g' o ch c W W' Ap Lc). exists n, i. auto.
  Qed.
  Lemma add_all_tidy : forall an vc ts (g : eg O C) g', tidy L ar an vc g -> Forall (wf_term ar) ts ->
    add_all_exprs L keep fuel g (map to_rec ts) = Val g' ->
    tidy L ar an vc g' /\ ext g g' /\ Forall (fun t => exists i, repr g' t i) ts /\
    forall x, x < size g' -> x < size g \/ exists t u, In t ts /\ In u (subterms t) /\ repr g' u x.
  Proof.
    intros an vc. induction ts as [|t ts IH]; intros g g' Td Wt H; cbn in H.
    - inversion H; subst. split; [exact Td|]. split; [apply ext_refl|]. split; [constructor|auto].
    - inversion Wt as [|? ? W1 W2]; subst. destruct (s_add_expr L keep fuel g (to_rec t)) as [[g1 i]|] eqn:E; [|discriminate H]. cbn in H.
      destruct (add_expr_tidy an vc t g g1 i Td W1 E) as (Td1 & A1 & R1 & X1).
      destruct (IH g1 g' Td1 W2 H) as (Td2 & E2 & R2 & X2).
      pose proof (appends_ext g g1 (cm_wf _ _ g (td_calm _ _ _ _ g Td)) (cm_wf _ _ g1 (td_calm _ _ _ _ g1 Td1)) A1) as E1.
      split; [exact Td2|]. split; [exact (ext_trans _ _ _ E1 E2)|]. split.
      + constructor; [|exact R2]. exists i. exact (repr_ext g1 g' E2 t i R1).
      + intros x Lx. destruct (X2 x Lx) as [Y|(t' & u & I1 & I2 & I3)].
        * destruct (X1 x Y) as [Z|(u & I & Ru)]; [now left|]. right. exists t, u. split; [now left|]. split; [exact I|]. exact (repr_ext g1 g' E2 u x Ru).
        * right. exists t', u. split; [now right|auto].
  Qed.

  (* ---- variables ---- *)
  Definition vname (e : string * cvec C * list (recexpr O)) : string := fst (fst e).
  Definition vnode (e : string * cvec C * list (recexpr O)) : node O := Node (l_mk_var L (vname e)) [].
  Record inited (n : nat) (done : list (string * cvec C * list (recexpr O))) (g : eg O C) : Prop := {
    in_calm : calm g;
    in_reps : g_reps g = seq 0 (length done);
    in_nodes : g_nodes g = combine (map vnode done) (seq 0 (length done));
    in_vecs : map sg_cvec (g_data g) = map (fun e => snd (fst e)) done;
    in_an : g_an g = n }.
  Lemma in_combine_seq : forall X (l : list X) k x i, In (x, i) (combine l (seq k (length l))) <-> k <= i /\ nth_error l (i - k) = Some x.
  Proof.
    intros X. induction l as [|y l IH]; intros k x i; cbn [combine seq length].
    - split; [intros []|]. intros [_ H]. destruct (i - k); discriminate H.
    - split.
      + intros [I|I]; [inversion I; subst; rewrite Nat.sub_diag; auto|]. apply IH in I as [Lk I]. split; [lia|].
        replace (i - k) with (S (i - S k)) by lia. exact I.
      + intros [Lk I]. destruct (Nat.eq_dec i k) as [->|N]; [rewrite Nat.sub_diag in I; inversion I; now left|]. right. apply IH. split; [lia|].
        replace (i - k) with (S (i - S k)) in I by lia. exact I.
  Qed.
  Lemma set_nth_end : forall X (l : list X) x y, set_nth (l ++ [x]) (length l) y = l ++ [y].
  Proof.
    intros X l x y. unfold set_nth. rewrite firstn_app, Nat.sub_diag, firstn_all, skipn_app, Nat.sub_diag, skipn_all. cbn. now rewrite app_nil_r.
  Qed.
  Lemma init_inited : forall n vs done (g : eg O C) g', inited n done g -> NoDup (map vname (done ++ vs)) -> (forall v c ts, In (v, c, ts) vs -> ts = []) ->
    init_vars L keep fuel g vs = Val g' -> inited n (done ++ vs) g'.
  Proof.
    intros n. induction vs as [|[[v c] ts] vs IH]; intros done g g' In' Nd Hv H; cbn in H; [inversion H; subst; now rewrite app_nil_r|].
    destruct (s_add L keep fuel g _) as [[g1 i]|] eqn:Ad; [|discriminate H]. cbn in H.
    destruct (set_cvec g1 i c) as [g2|] eqn:S; [|discriminate H]. cbn in H.
    rewrite (Hv v c ts (or_introl eq_refl)) in H. cbn in H.
    replace (done ++ (v, c, ts) :: vs) with ((done ++ [(v, c, ts)]) ++ vs) in * by (rewrite <- app_assoc; reflexivity).
    apply (IH _ g2 g'); [|exact Nd|intros v' c' ts' I; apply (Hv v' c' ts'); now right|exact H].
    assert (Ty : typed_node ar (Node (l_mk_var L v) [])) by (unfold typed_node; cbn; now rewrite (lo_vars L ar Lo)).
    pose proof (in_calm _ _ _ In') as Cm. pose proof (cm_wf _ _ g Cm) as W.
    destruct (add_calm L ar Lo keep fuel g _ g1 i Cm Ty Ad) as [C1 D1].
    assert (Sg : size g = length done). { unfold size. rewrite (in_reps _ _ _ In'). apply seq_length. }
    destruct D1 as [(-> & Hh)|(n' & Cc & No & Nc)].
    { exfalso. destruct Hh as (m & j & I & E & F & _). cbn in *. rewrite (in_nodes _ _ _ In') in I.
      replace (length done) with (length (map vnode done)) in I by apply map_length.
      apply in_combine_seq in I as [_ I]. rewrite Nat.sub_0_r in I. apply nth_error_In in I. apply in_map_iff in I as (e & <- & Ie). unfold vnode in E. cbn in E.
      assert (vname e = v) as Ev. { pose proof (pv_var L Vr (vname e)) as P1. rewrite E, (pv_var L Vr) in P1. congruence. }
      rewrite !map_app in Nd. apply NoDup_remove_2 with (l := map vname done) (a := v) (l' := map vname vs) ; [|rewrite <- Ev; apply in_or_app; left; now apply in_map].
      cbn in Nd. rewrite <- app_assoc in Nd. exact Nd. }
    cbn in Cc. inversion Cc; subst n'. clear Cc. cbn in Nc. unfold new_class in Nc. cbn [nch rmapM rbind] in Nc.
    destruct (s_make L (g_an g) _ []) as [d|]; [|discriminate Nc]. cbn in Nc. inversion Nc as [[Eg Ei]]. clear Nc.
    pose proof (set_cvec_calm L ar g1 i c g2 C1 S) as C2. unfold set_cvec in S.
    assert (Dl : length (g_data g) = length done) by (rewrite (wf_data g W); exact Sg).
    assert (Fi : find g1 i = Val i). { rewrite <- Eg, <- Ei, Sg. unfold find, index. cbn. rewrite (in_reps _ _ _ In'), nth_error_app2 by (rewrite seq_length; lia). now rewrite seq_length, Nat.sub_diag. }
    rewrite Fi in S. cbn in S. rewrite <- Eg in S. cbn in S.
    assert (Id : index (g_data g ++ [d]) i = Val d). { rewrite <- Ei, Sg, <- Dl. unfold index. rewrite nth_error_app2 by lia. now rewrite Nat.sub_diag. }
    rewrite Id in S. cbn in S. inversion S as [Eg2]. clear S.
    constructor; [now rewrite Eg2| | | |].
    - cbn. rewrite (in_reps _ _ _ In'), Sg, app_length. cbn. rewrite Nat.add_1_r, seq_S. reflexivity.
    - cbn. rewrite (in_nodes _ _ _ In'), Sg, map_app, app_length. cbn. rewrite Nat.add_1_r, seq_S. cbn.
      rewrite combine_app_eq by (rewrite map_length, seq_length; reflexivity). reflexivity.
    - cbn. rewrite <- Ei, Sg, <- Dl, set_nth_end, map_app, map_app. cbn. now rewrite (in_vecs _ _ _ In').
    - cbn. exact (in_an _ _ _ In').
  Qed.
End Whole.

Section Vars.
  Context {O C : Type}.
  Variable L : lang O C.
  Variable ar : O -> nat.
  Hypothesis leaf : forall o s, l_to_var L o = Some s -> ar o = 0.
  Definition nvar (n : node O) : list string := match l_to_var L (nop n) with Some v => [v] | None => [] end.
  Definition addv (vars : list string) (v : string) : list string := if mem v vars then vars else vars ++ [v].
  Lemma rec_vars_fold : forall r vars, rec_vars L vars r = fold_left addv (flat_map nvar r) vars.
  Proof.
    unfold rec_vars. induction r as [|n r IH]; intros vars; cbn; [reflexivity|]. rewrite fold_left_app, IH. f_equal.
    unfold nvar, addv. now destruct (l_to_var L (nop n)).
  Qed.
  Lemma all_vars_fold : forall rs, all_vars L rs = fold_left addv (flat_map (flat_map nvar) rs) [].
  Proof.
    intros rs. unfold all_vars. generalize (@nil string) as acc. induction rs as [|r rs IH]; intros acc; cbn; [reflexivity|].
    now rewrite fold_left_app, IH, rec_vars_fold.
  Qed.
  Lemma filter_filter : forall X (f g : X -> bool) l, List.filter f (List.filter g l) = List.filter (fun x => f x && g x) l.
  Proof. intros X f g. induction l as [|x l IH]; cbn; [reflexivity|]. destruct (g x); cbn; rewrite ?IH; [|now rewrite andb_false_r]. now rewrite andb_true_r. Qed.
  Lemma addv_first : forall l acc, fold_left addv l acc = acc ++ List.filter (fun y => negb (mem y acc)) (first_seen l).
  Proof.
    induction l as [|x l IH]; intros acc; cbn [fold_left first_seen]; [now rewrite app_nil_r|]. rewrite IH. unfold addv. cbn [List.filter].
    destruct (mem x acc) eqn:M; cbn [negb].
    - f_equal. rewrite filter_filter. apply filter_ext. intros y. destruct (String.eqb_spec x y) as [<-|]; [now rewrite M|]. now rewrite andb_true_r.
    - rewrite <- app_assoc. f_equal. cbn [app]. f_equal. rewrite filter_filter. apply filter_ext. intros y.
      assert (mem y (acc ++ [x]) = mem y acc || String.eqb x y) as ->.
      { clear. rewrite String.eqb_sym. induction acc as [|z acc IH]; cbn; [now destruct (String.eqb y x)|]. destruct (String.eqb y z); [reflexivity|exact IH]. }
      now rewrite negb_orb.
  Qed.
  Lemma mem_nil : forall l, List.filter (fun y => negb (mem y [])) l = l.
  Proof. induction l as [|x l IH]; cbn; [reflexivity|]. cbn in IH. now rewrite IH. Qed.
  Lemma add_term_vars : forall t, wf_term ar t -> forall r, flat_map nvar (fst (add_term t r)) = flat_map nvar r ++ tvars (l_to_var L) t.
  Proof.
    intros t. induction t as [o ts IH] using term_ind'. intros W r. rewrite add_term_eq. inversion W as [o' ts' Len W']; subst.
    assert (forall l r ids, Forall (fun t => wf_term ar t -> forall r, flat_map nvar (fst (add_term t r)) = flat_map nvar r ++ tvars (l_to_var L) t) l ->
      Forall (wf_term ar) l -> flat_map nvar (fst (add_terms l r ids)) = flat_map nvar r ++ flat_map (tvars (l_to_var L)) l) as G.
    { clear. induction l as [|t l IHl]; intros r ids Hl Wl; cbn; [now rewrite app_nil_r|].
      inversion Hl as [|? ? H1 H2]; inversion Wl as [|? ? W1 W2]; subst. destruct (add_term t r) as [r1 i] eqn:E.
      rewrite (IHl r1 (ids ++ [i]) H2 W2). specialize (H1 W1 r). rewrite E in H1. cbn in H1. now rewrite H1, app_assoc. }
    specialize (G ts r [] IH W'). destruct (add_terms ts r []) as [r1 ids]. cbn [fst] in *. rewrite flat_map_app, G. cbn. unfold nvar at 2. cbn. rewrite app_nil_r.
    destruct (l_to_var L o) as [s|] eqn:E; [|now rewrite app_nil_r]. pose proof (leaf o s E) as Z. rewrite Z in Len. destruct ts; [|discriminate Len]. cbn. now rewrite app_nil_r.
  Qed.
  Lemma all_vars_spec : forall ts, Forall (wf_term ar) ts -> all_vars L (map to_rec ts) = first_seen (flat_map (tvars (l_to_var L)) ts).
  Proof.
    intros ts W. rewrite all_vars_fold, addv_first. cbn [app]. rewrite mem_nil. f_equal. induction W as [|t ts H W IH]; cbn; [reflexivity|]. rewrite IH. f_equal.
    unfold to_rec. now rewrite add_term_vars.
  Qed.
  Lemma first_seen_nodup : forall l, NoDup (first_seen l).
  Proof.
    induction l as [|x l IH]; cbn; constructor; [|now apply NoDup_filter].
    intros I. apply filter_In in I as [_ I]. now rewrite String.eqb_refl in I.
  Qed.
  Lemma first_seen_in : forall l x, In x (first_seen l) <-> In x l.
  Proof.
    induction l as [|y l IH]; intros x; cbn; [tauto|]. rewrite filter_In, IH. split; [tauto|]. intros [->|I]; [now left|].
    destruct (String.eqb_spec y x) as [->|N]; [now left|]. right. auto.
  Qed.
End Vars.

Section End2.
  Context {O C : Type}.
  Variable L : lang O C.
  Variable ar : O -> nat.
  Hypothesis Lo : literal_only L ar.
  Hypothesis Vr : plain_vars L.
  Variable keep : eg O C -> nat -> nat -> bool.
  Variable fuel : nat.
  Local Notation wf := (@wf O (sig O C) nat).

  Lemma lookup_nodup : forall X (l : list (string * X)) k x, NoDup (map fst l) -> In (k, x) l -> lookup l k = Some x.
  Proof.
    intros X. induction l as [|[k' y] l IH]; intros k x N I; [destruct I|]. cbn in *. inversion N as [|? ? N1 N2]; subst. destruct I as [I|I].
    - inversion I; subst. now rewrite String.eqb_refl.
    - destruct (String.eqb_spec k k') as [->|]; [|auto]. destruct N1. exact (in_map fst _ _ I).
  Qed.
  Lemma lookup_in : forall X (l : list (string * X)) k x, lookup l k = Some x -> In (k, x) l.
  Proof. intros X. induction l as [|[k' y] l IH]; intros k x; cbn; [discriminate|]. destruct (String.eqb_spec k k') as [->|]; [intros E; inversion E; now left|right; auto]. Qed.
  Lemma inited_tidy : forall n vs (g : eg O C), inited L ar n vs g -> NoDup (map vname vs) -> tidy L ar n (var_cvec (map fst vs)) g.
  Proof.
    intros n vs g In' Nd. assert (Sg : size g = length vs). { unfold size. rewrite (in_reps _ _ _ _ _ In'). apply seq_length. }
    assert (Nd' : NoDup (map fst (map fst vs))) by (rewrite map_map; exact Nd).
    assert (Nn : forall m i, In (m, i) (g_nodes g) <-> exists e, nth_error vs i = Some e /\ m = vnode L e).
    { intros m i. rewrite (in_nodes _ _ _ _ _ In'). replace (length vs) with (length (map (vnode L) vs)) by apply map_length. rewrite in_combine_seq, Nat.sub_0_r, nth_error_map. split.
      - intros [_ H]. destruct (nth_error vs i) as [e|]; [|discriminate H]. cbn in H. inversion H. eauto.
      - intros (e & -> & ->). cbn. split; [lia|reflexivity]. }
    constructor.
    - exact (in_calm _ _ _ _ _ In').
    - rewrite Sg. exact (in_reps _ _ _ _ _ In').
    - rewrite Sg, (in_nodes _ _ _ _ _ In'). apply map_snd_combine. now rewrite map_length, seq_length.
    - rewrite (in_nodes _ _ _ _ _ In'), map_fst_combine by (now rewrite map_length, seq_length).
      clear - Nd Vr. induction vs as [|e vs IH]; cbn in *; [constructor|]. inversion Nd as [|? ? N1 N2]; subst. constructor; [|auto].
      intros I. apply in_map_iff in I as (e' & E & I). apply N1. inversion E as [E1]. assert (vname e' = vname e) as <-; [|now apply in_map].
      pose proof (pv_var L Vr (vname e')) as P1. rewrite E1, (pv_var L Vr) in P1. congruence.
    - exact (in_an _ _ _ _ _ In').
    - intros m i I. apply Nn in I as (e & Ie & ->). exists [], (snd (fst e)). cbn. split; [constructor|]. split.
      + pose proof (in_vecs _ _ _ _ _ In') as V. assert (nth_error (map sg_cvec (g_data g)) i = Some (snd (fst e))) as Vi by (rewrite V, nth_error_map, Ie; reflexivity).
        rewrite nth_error_map in Vi. destruct (nth_error (g_data g) i) as [d|] eqn:Ed; [|discriminate Vi]. cbn in Vi. assert (sg_cvec d = snd (fst e)) as Vd by congruence.
        exists d. split; [|exact Vd]. unfold class_data, find, index. rewrite (in_reps _ _ _ _ _ In').
        assert (i < length vs) as Li by (apply nth_error_Some; congruence).
        rewrite (nth_error_nth' _ 0) by (rewrite seq_length; exact Li). rewrite seq_nth by exact Li. cbn. now rewrite Ed.
      + rewrite (pv_var L Vr). unfold var_cvec. assert (In (vname e, snd (fst e)) (map fst vs)) as Iv. { apply nth_error_In in Ie. apply (in_map fst) in Ie. unfold vname. now destruct (fst e). }
        now rewrite (lookup_nodup _ _ _ _ Nd' Iv).
    - intros s Hs. unfold var_cvec in Hs. destruct (lookup (map fst vs) s) as [c|] eqn:E; [|now destruct Hs]. apply lookup_in in E. apply in_map_iff in E as (e & Ee & Ie).
      apply In_nth_error in Ie as (i & Ii). exists i. apply Nn. exists e. split; [exact Ii|]. unfold vnode, vname. now rewrite Ee.
  Qed.

  Lemma wf_represents : forall g : eg O C, wf g -> forall i, i < size g -> exists t, repr g t i.
  Proof.
    intros g W i. induction i as [i IH] using lt_wf_ind. intros Li. destruct (wf_founded g W i Li) as (o & ch & Hh & Lt).
    assert (exists ts, Forall2 (repr g) ts ch) as (ts & F).
    { clear Hh. induction Lt as [|c ch Lc Lt IHl]; [exists []; constructor|]. destruct IHl as (ts & F). destruct (IH c Lc) as (t & R); [lia|]. exists (t :: ts). now constructor. }
    exists (T o ts). now apply Rp with ch.
  Qed.
  Lemma repr_subterms : forall (g : eg O C) t c, repr g t c -> forall u, In u (subterms t) -> exists d, repr g u d.
  Proof.
    intros g t. induction t as [o ts IH] using term_ind'. intros c R u [<-|I]; [eauto|]. inversion R as [? ? ch ? F Hh]; subst. clear R Hh.
    induction F as [|t d ts ch Rt F IHF]; cbn in I; [destruct I|]. inversion IH as [|? ? I1 I2]; subst. apply in_app_or in I as [I|I]; [exact (I1 d Rt u I)|auto].
  Qed.
  Lemma var_subterm : forall t s, wf_term ar t -> In s (tvars (l_to_var L) t) -> In (T (l_mk_var L s) []) (subterms t).
  Proof.
    intros t s. induction t as [o ts IH] using term_ind'. intros W I. inversion W as [o' ts' Len W']; subst. cbn in *. apply in_app_or in I as [I|I].
    - destruct (l_to_var L o) as [s'|] eqn:E; [|destruct I]. destruct I as [->|[]]. left. pose proof (pv_only L Vr o s E) as ->. rewrite (lo_vars L ar Lo) in Len. now destruct ts.
    - right. clear Len W. induction ts as [|t ts IHt]; cbn in *; [destruct I|]. inversion IH; inversion W'; subst. apply in_or_app. apply in_app_or in I as [I|I]; auto.
  Qed.
  Lemma tidy_size : forall an vc (g : eg O C), tidy L ar an vc g -> number_of_classes g = size g.
  Proof.
    intros an vc g Td. unfold number_of_classes, class_ids. rewrite filter_true; [apply seq_length|]. intros i I. apply in_seq in I.
    rewrite (tidy_find L ar an vc g i Td) by lia. apply Nat.eqb_refl.
  Qed.

  Lemma to_egraph_plain : forall w g, to_egraph L keep fuel w = Val g -> exists ss ts n vs,
    force w = Val ss /\ Forall2 (fun s t => parse_rec (l_from_op L) (display s) = Some (to_rec t)) ss ts /\
    l_init L (first_seen (flat_map (tvars (l_to_var L)) ts)) = Val (n, vs) /\
    tidy L ar n (var_cvec (map fst vs)) g /\ Forall (wf_term ar) ts /\
    forall t, (exists c, repr g t c) <-> exists u, In u ts /\ In t (subterms u).
  Proof.
    intros w g H. unfold to_egraph in H. destruct (force w) as [ss|]; [|discriminate H]. cbn [rbind] in H.
    destruct (rmapM _ ss) as [rs|] eqn:E; [|discriminate H]. cbn [rbind] in H.
    destruct (initialize_vars L keep fuel eg_default (all_vars L rs)) as [g1|] eqn:I; [|discriminate H]. cbn [rbind] in H.
    assert (exists ts, rs = map to_rec ts /\ Forall (wf_term ar) ts /\ Forall2 (fun s t => parse_rec (l_from_op L) (display s) = Some (to_rec t)) ss ts) as (ts & -> & Wt & F).
    { apply rmapM_F2 in E. clear - E Lo. induction E as [|s r ss rs H E (ts & -> & W & F)]; [exists []; repeat constructor|].
      destruct (parse_rec (l_from_op L) (display s)) as [r'|] eqn:P; [|discriminate H]. cbn in H. inversion H; subst.
      destruct (parse_rec_wf L ar Lo _ _ P) as (t & -> & Wt). exists (t :: ts). split; [reflexivity|]. split; constructor; auto. }
    rewrite (all_vars_spec L ar) in I; [|intros o s E0; rewrite (pv_only L Vr o s E0); apply (lo_vars L ar Lo)|exact Wt].
    unfold initialize_vars in I. set (vars := first_seen (flat_map (tvars (l_to_var L)) ts)) in *.
    destruct (l_init L vars) as [[n vs]|] eqn:Ei; [|discriminate I]. cbn [rbind] in I.
    exists ss, ts, n, vs. split; [reflexivity|]. split; [exact F|]. split; [exact Ei|].
    assert (Nd : NoDup (map vname vs)). { destruct (pv_init L Vr _ _ _ Ei) as [->|Ev]; [constructor|]. unfold vname. rewrite Ev. apply first_seen_nodup. }
    assert (In1 : inited L ar n vs g1).
    { apply (init_inited L ar Lo Vr keep fuel n vs [] _ g1) in I; [exact I| |exact Nd|].
      - constructor; try reflexivity. apply (set_an_calm L ar eg_default n), calm_default.
      - intros v c us Iv. exact (lo_links L ar Lo _ _ _ _ _ _ Ei Iv). }
    pose proof (inited_tidy n vs g1 In1 Nd) as Td1.
    destruct (add_all_tidy L ar Lo Vr keep fuel _ _ ts g1 g Td1 Wt H) as (Td & X & Rt & Nw).
    split; [exact Td|]. split; [exact Wt|]. intros t. split.
    - intros (c & Rc). pose proof (cm_wf _ _ g (td_calm _ _ _ _ g Td)) as W.
      assert (c < size g) as Lc. { destruct Rc as [o us ch c0 _ (m & j & _ & _ & _ & Q)]. exact (proj2 (eqv_lt _ _ _ Q)). }
      destruct (Nw c Lc) as [L1|(u & t' & I1 & I2 & R)].
      + assert (size g1 = length vs) as Sg. { unfold size. rewrite (in_reps _ _ _ _ _ In1). apply seq_length. }
        destruct (nth_error vs c) as [e|] eqn:Ee; [|apply nth_error_None in Ee; lia].
        assert (repr g1 (T (l_mk_var L (vname e)) []) c) as R1.
        { apply Rp with []; [constructor|]. exists (vnode L e), c. split; [|split; [reflexivity|split; [constructor|now apply eqv_refl]]].
          rewrite (in_nodes _ _ _ _ _ In1). replace (length vs) with (length (map (vnode L) vs)) by apply map_length. apply in_combine_seq. rewrite Nat.sub_0_r, nth_error_map, Ee. split; [lia|reflexivity]. }
        rewrite (tidy_one_term L ar _ _ g Td t c Rc _ (repr_ext g1 g X _ _ R1)).
        apply nth_error_In in Ee. destruct (pv_init L Vr _ _ _ Ei) as [->|Ev]; [destruct Ee|].
        assert (In (vname e) vars) as Iv. { rewrite <- Ev. apply in_map_iff. exists e. auto. }
        unfold vars in Iv. apply (proj1 (first_seen_in _ _)) in Iv. apply in_flat_map in Iv as (u & Iu & Iv). exists u. split; [exact Iu|]. apply var_subterm; [|exact Iv].
        rewrite Forall_forall in Wt. auto.
      + rewrite (tidy_one_term L ar _ _ g Td t c Rc _ R). eauto.
    - intros (u & Iu & It). rewrite Forall_forall in Rt. destruct (Rt u Iu) as (c & Rc). exact (repr_subterms g u c Rc t It).
  Qed.
  Lemma to_egraph_count : forall an vc (g : eg O C) us, tidy L ar an vc g -> NoDup us -> (forall t, In t us <-> exists c, repr g t c) -> number_of_classes g = length us.
  Proof.
    intros an vc g us Td Nd H. rewrite (tidy_size an vc g Td). pose proof (cm_wf _ _ g (td_calm _ _ _ _ g Td)) as W.
    assert (exists cs, Forall2 (repr g) us cs) as (cs & F).
    { assert (Forall (fun t => exists c, repr g t c) us) as Fa by (apply Forall_forall; intros t I; now apply H). clear H. induction Fa as [|t us (c & R) Fa IH]; [exists []; constructor|].
      inversion Nd; subst. destruct IH as (cs & F); [assumption|]. exists (c :: cs). now constructor. }
    rewrite (Forall2_length _ _ _ F). apply Nat.le_antisymm.
    - rewrite <- (seq_length (size g) 0). apply NoDup_incl_length; [apply seq_NoDup|]. intros i I. apply in_seq in I.
      destruct (wf_represents g W i) as (t & R); [lia|]. assert (In t us) as It by (apply H; eauto).
      clear H Nd. induction F as [|u c us cs Ru F IH]; [destruct It|]. destruct It as [->|It]; [left; exact (tidy_one_class L ar _ _ g Td _ _ Ru _ R)|right; auto].
    - rewrite <- (seq_length (size g) 0). apply NoDup_incl_length.
      + clear H. induction F as [|u c us cs Ru F IH]; [constructor|]. inversion Nd as [|? ? N1 N2]; subst. constructor; [|auto].
        intros I. apply N1. clear - F I Ru Td. induction F as [|u' c' us cs Ru' F IH]; [destruct I|]. destruct I as [->|I]; [left; symmetry; exact (tidy_one_term L ar _ _ g Td _ _ Ru _ Ru')|right; auto].
      + intros c I. apply in_seq. split; [lia|]. clear - F I. induction F as [|u' c' us cs Ru' F IH]; [destruct I|]. destruct I as [->|I]; [|auto].
        destruct Ru' as [o ws ch c0 _ (m & j & _ & _ & _ & Q)]. exact (proj2 (eqv_lt _ _ _ Q)).
  Qed.
End End2.

Lemma is_defined_spec : forall O C (d : sig O C), is_defined d = true <-> sg_cvec d = [] \/ somewhere (sg_cvec d).
Proof.
  intros O C d. unfold is_defined. assert (forall l : cvec C, existsb (fun x => match x with Some _ => true | None => false end) l = true <-> somewhere l) as G.
  { intros l. rewrite existsb_exists. split.
    - intros ([a|] & I & E); [|discriminate E]. apply In_nth_error in I as (k & I). now exists k, a.
    - intros (k & a & E). exists (Some a). split; [exact (nth_error_In _ _ E)|reflexivity]. }
  destruct (sg_cvec d) as [|x l]; [split; auto|]. rewrite G. split; [auto|]. intros [E|E]; [discriminate E|exact E].
Qed.

(* every language *)
Section Present.
  Context {O C : Type}.
  Variable L : lang O C.
  Hypothesis eqb_eq : forall a b, l_eqb L a b = true <-> a = b.
  Variable keep : eg O C -> nat -> nat -> bool.
  Variable fuel : nat.
  Lemma add_all_present : forall rs (g g' : eg O C), wf g -> add_all_exprs L keep fuel g rs = Val g' ->
    ext g g' /\ Forall (fun r => exists t c, tree r = Val t /\ repr g' t c) rs.
  Proof.
    induction rs as [|r rs IH]; intros g g' W H; cbn in H; [inversion H; subst; split; [apply ext_refl|constructor]|].
    destruct (s_add_expr L keep fuel g r) as [[g1 i]|] eqn:Ad; [|discriminate H]. cbn in H.
    destruct (add_expr_ok _ eqb_eq _ _ (s_md_ok L eqb_eq keep fuel) _ _ _ _ W Ad) as (W1 & E1 & t & Tr & Ri).
    destruct (IH g1 g' W1 H) as (E2 & F). split; [exact (ext_trans _ _ _ E1 E2)|]. constructor; [|exact F].
    exists t, i. split; [exact Tr|exact (repr_ext g1 g' E2 t i Ri)].
  Qed.
  Lemma to_egraph_present : forall w g, to_egraph L keep fuel w = Val g -> exists ss rs, force w = Val ss /\
    Forall2 (fun s r => parse_rec (l_from_op L) (display s) = Some r) ss rs /\ Forall (fun r => exists t c, tree r = Val t /\ repr g t c) rs.
  Proof.
    intros w g H. unfold to_egraph in H. destruct (force w) as [ss|]; [|discriminate H]. cbn [rbind] in H.
    destruct (rmapM _ ss) as [rs|] eqn:E; [|discriminate H]. cbn [rbind] in H.
    destruct (initialize_vars L keep fuel eg_default (all_vars L rs)) as [g1|] eqn:I; [|discriminate H]. cbn [rbind] in H.
    pose proof (initialize_vars_moves L eqb_eq keep fuel unit_alg (unit_interprets L) _ _ _ wf_default I) as M.
    exists ss, rs. split; [reflexivity|]. split; [|exact (proj2 (add_all_present rs g1 g (proj1 M) H))].
    apply rmapM_F2 in E. clear - E. induction E as [|s r ss rs H E IH]; constructor; [|exact IH]. destruct (parse_rec _ _); inversion H; reflexivity.
  Qed.
End Present.
