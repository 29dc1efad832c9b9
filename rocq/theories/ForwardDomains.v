(* Fast-forwarding in the modelled languages. *)
From Coq Require Import NArith.
From Verif Require Import Base BaseProofs Lang LangProofs Syntax Rule Ruleset RuleSpec DomainSpec PosDom BvBoolDom Analysis Generalize Egraph EgraphSpec Synth SynthSpec SynthProofs DeriveProofs Domains DomainAlg DomainSound
  AnalysisSpec AnalysisProofs EgraphProofs LiftProofs RuleSpec Infer LearnSpec LearnProofs LearnDomains OpsSpec SaveProofs SaveDomains LearntSpec MinimizeProofs ForwardSpec ForwardProofs.
Open Scope list_scope.

Lemma readable_lifts : forall O C (L : lang O C) ar P, (exists K, readable L ar P K) -> lifts L.
Proof.
  intros O C L ar P (K & Rd) keep fuel ex w prior new N Hp He R k r I.
  exact (forwarding_consequences L ar (re_eqb _ _ _ _ Rd) keep (re_var _ _ _ _ Rd) (re_leaf _ _ _ _ Rd) P K Rd fuel ex w prior new N Hp He R k r I).
Qed.
Lemma readable_finds : forall O C (L : lang O C) ar P, (exists K, readable L ar P K) -> finds L.
Proof.
  intros O C L ar P (K & Rd) keep fuel ex w prior new Hp He R.
  exact (forwarding_found L ar (re_eqb _ _ _ _ Rd) keep P K Rd fuel ex w prior new Hp He R).
Qed.

(* ---- binary positives ---- *)
Lemma pos_den_total : forall env t, wf_term pos_arity t -> exists v, pos_den env t = Val v.
Proof.
  intros env t W. destruct (fold_term_total pos_arity (with_vars pos_to_var env pos_sem) (fun _ => True) t) as (v & E & _); [|exact W|exists v; exact E].
  intros o args Hl _. destruct o; cbn in Hl; repeat (destruct args as [|? args]; try discriminate Hl); eexists; (split; [reflexivity|exact I]).
Qed.
Lemma pos_true_holds : forall depth q env, true_rule (pos_lang depth) PVar (fun _ => True) pos_den q -> holds (pos_lang depth) (set_vars (pos_lang depth) pos_alg env) q.
Proof.
  intros depth q env (G1 & G2 & tl & tr & T1 & T2 & D). pose proof (tree_inst (pos_lang depth) (rlhs q)) as I1. pose proof (tree_inst (pos_lang depth) (rrhs q)) as I2.
  cbn [l_mk_var pos_lang] in I1, I2. rewrite T1 in I1. rewrite T2 in I2.
  destruct (tree (rlhs q)) as [ul|] eqn:U1; [|discriminate I1]. destruct (tree (rrhs q)) as [ur|] eqn:U2; [|discriminate I2]. cbn [rmap] in I1, I2. injection I1 as ->. injection I2 as ->.
  exact (den_holds (pos_lang depth) 0%N pos_sem (fun _ => True) only_full (fun v => eq_refl) q ul ur U1 U2 (general_closed _ _ _ G1 U1) (general_closed _ _ _ G2 U2) D env).
Qed.
Theorem pos_lifted : forall depth keep fuel ex w prior new, pos_exploratory = Val ex -> NoDup (map fst prior) -> read_rules (pos_lang depth) prior ->
  (forall k q, In (k, q) prior -> true_rule (pos_lang depth) PVar (fun _ => True) pos_den q) ->
  run_fast_forwarding (pos_lang depth) keep fuel ex w prior new ->
  forall k r, In (k, r) new -> true_rule (pos_lang depth) PVar (fun _ => True) pos_den r.
Proof.
  intros depth keep fuel ex w prior new Ex Nd Hp Ht R k r J0. destruct (pos_readable depth) as (K & Rd).
  pose proof (rules_read _ _ (pos_lang depth) _ _ Ex) as He.
  assert (F : from_terms (pos_lang depth) pos_arity (same (pos_lang depth) pos_arity pos_alg (fun _ => True)) r).
  { refine (forwarding_same (pos_lang depth) pos_arity (re_eqb _ _ _ _ Rd) keep (re_var _ _ _ _ Rd) (re_leaf _ _ _ _ Rd) _ K Rd fuel ex w prior new Nd Hp He R N pos_alg (fun _ => True) _ k r J0).
    intros env _. split; [apply pos_interprets|]. intros q [(n & J)|(n & J)]; [exact (pos_true_holds depth q env (Ht n q J))|].
    destruct (pos_rules_hold depth env) as (m1 & m2 & E1 & _ & H1 & _). rewrite Ex in E1. injection E1 as <-. unfold all_hold in H1. rewrite Forall_forall in H1. exact (H1 _ J). }
  destruct F as (P1 & P2 & _ & t1 & t2 & (W1 & W2 & _ & _ & E) & rho & _ & T1 & T2).
  split; [exact (plain_general _ _ _ _ _ P1)|]. split; [exact (plain_general _ _ _ _ _ P2)|].
  pose proof (tree_inst (pos_lang depth) (rlhs r)) as I1. pose proof (tree_inst (pos_lang depth) (rrhs r)) as I2. rewrite T1 in I1. rewrite T2 in I2. cbn [rmap] in I1, I2.
  eexists. eexists. split; [exact I1|]. split; [exact I2|]. intros env _. destruct (pos_den_total (fun s => env (rho s)) t1 W1) as (v1 & D1). destruct (pos_den_total (fun s => env (rho s)) t2 W2) as (v2 & D2).
  specialize (E (fun s => env (rho s)) I). rewrite (pos_aval depth _ _ _ D1), (pos_aval depth _ _ _ D2) in E. subst v2. exists v1.
  unfold pos_den in *.
  split; [rewrite <- D1|rewrite <- D2];
    [exact (inst_gen_den _ _ _ (pos_lang depth) pos_arity pos_sem rho env t1 (re_var _ _ _ _ Rd) (re_leaf _ _ _ _ Rd) W1)
    |exact (inst_gen_den _ _ _ (pos_lang depth) pos_arity pos_sem rho env t2 (re_var _ _ _ _ Rd) (re_leaf _ _ _ _ Rd) W2)].
Qed.

(* ---- bitvectors and booleans ---- *)
Lemma bb_aval_wf : forall genv t, wf_term bb_arity t -> aval (a_sem (set_vars bb_lang bb_alg (bb_env genv))) t = bb_den genv t.
Proof.
  intros genv t. unfold bb_den. induction t as [o ts IH] using term_ind'. intros W. assert (length ts = bb_arity o /\ Forall (wf_term bb_arity) ts) as [Lt Wt] by (inversion W; auto).
  cbn [aval fold_term].
  assert (Ea : map (aval (a_sem (set_vars bb_lang bb_alg (bb_env genv)))) ts = map (fold_term (with_vars bb_to_var (fun s => BV2 (fst (genv s)) (snd (genv s))) bb_sem)) ts).
  { clear Lt W. induction IH as [|t ts H IH IHl]; [reflexivity|]. inversion Wt; subst. cbn [map]. f_equal; auto. }
  rewrite Ea. cbn [a_sem set_vars l_to_var bb_lang bb_alg].
  assert (Er : forall X Y (f : X -> res Y) l, rmapM id (map f l) = rmapM f l). { intros X Y f l. induction l as [|x l IHl]; [reflexivity|]. cbn. unfold id at 1. now rewrite IHl. }
  destruct (bb_to_var o) as [x|] eqn:Ev.
  - destruct o; try discriminate Ev. destruct ts; [|discriminate Lt]. cbn. unfold with_vars. cbn. unfold bb_env. injection Ev as ->. reflexivity.
  - set (f := fold_term _). assert (Wv : forall args, with_vars bb_to_var (fun s => BV2 (fst (genv s)) (snd (genv s))) bb_sem o args = bb_sem o args) by (intros args; unfold with_vars; now rewrite Ev).
    assert (Eq : rbind (rmapM f ts) (with_vars bb_to_var (fun s => BV2 (fst (genv s)) (snd (genv s))) bb_sem o) = rbind (rmapM f ts) (bb_sem o)) by (destruct (rmapM f ts); [apply Wv|reflexivity]).
    etransitivity; [|symmetry; exact Eq]. destruct o; try discriminate Ev; cbn [bb_tot]; rewrite ?Er; try reflexivity; (destruct ts; [reflexivity|discriminate Lt]).
Qed.
Lemma bb_exploratory_read : forall ex, bb_exploratory = Val ex -> read_rules bb_lang ex.
Proof.
  intros ex Ex. unfold bb_exploratory in Ex. match type of Ex with context [rs_new ?a ?b ?c] => destruct (rs_new a b c) as [m|] eqn:Em; [|discriminate Ex] end.
  apply (rules_read _ _ bb_lang) in Em. cbn [rbind] in Ex. destruct bb_def_rule as [d|] eqn:Ed; [|discriminate Ex]. cbn [rbind] in Ex. injection Ex as <-.
  apply Forall_forall. intros e J. apply rs_add_in in J as [J| ->]; [rewrite Forall_forall in Em; exact (Em e J)|]. cbn [snd]. clear - Ed.
  assert (Ev : bb_def_rule = Val (Rule "def-bv" [Node (PV "a") []] [Node (PV "a") []; Node (EN XFirst) [0]; Node (PV "a") []; Node (EN XSecond) [2]; Node (EN XMake) [1; 3]] (KGuard "a"))) by (vm_compute; reflexivity).
  rewrite Ed in Ev. injection Ev as ->. unfold rhs_uses. cbn [rrhs nop nch].
  repeat constructor; [exists "first"|exists "second"|exists "bv"]; reflexivity.
Qed.
(* terms read as pairs of bits *)
Definition bits_alg : algebra bb_op N (bool * bool) := Alg bits_sem (fun _ => True) only_full.
Lemma bits_interprets env : interprets bb_lang (set_vars bb_lang bits_alg env).
Proof.
  constructor; cbn [l_custom l_init l_itv l_cleb l_ceqb l_const bb_lang a_dom a_says a_sem set_vars bits_alg l_to_var l_mk_var]; unfold only_full.
  - auto.
  - intros o is i vs _ _ H. now inversion H.
  - intros v i j k _ -> -> H. cbn in H. now inversion H.
  - intros a b v t _ H. discriminate H.
  - intros val g i ts W Li _ [Me Mn] H r t I Tr. unfold bb_custom in H.
    destruct (class_nodes g i) as [ns|] eqn:En; [|discriminate H]. cbn [rbind] in H.
    match type of H with context [rmapM ?f ?l] => destruct (rmapM f l) as [tab|] eqn:Et; [|discriminate H] end. cbn [rbind] in H.
    destruct (bb_custom_modify (clookup tab) i) as [c|] eqn:Ec; inversion H; subst ts; [|destruct I].
    destruct I as [<-|[]]. inversion Tr; subst t. cbn [aval map bb_to_var].
    assert (Hc : forall j n, In n (clookup tab j) -> val j =
      match bb_to_var (nop n) with Some x => env x | None => bits_sem (nop n) (map val (nch n)) end).
    { intros j n Hn. apply clookup_in in Hn as (m & Hm & Hn). apply rmapM_val in Et.
      assert (class_nodes g j = Val m) as Ej.
      { clear - Et Hm. induction Et as [|a b l l' E F IH]; [contradiction|]. destruct Hm as [->|Hm]; [|auto].
        apply rbind_val in E as (m' & E1 & E2). inversion E2; subst. exact E1. }
      pose proof (class_nodes_has g j m W Ej n Hn) as Hh. exact (models_has _ (a_sem (set_vars bb_lang bits_alg env)) val g _ _ _ (conj Me Mn) Hh). }
    unfold bb_custom_modify in Ec. destruct (existsb _ _); [discriminate Ec|].
    apply fold_make_in in Ec as (n & a & b & x & y & Hn & On & Ch & Ex & Ey & ->).
    apply bool_const_in in Ex as (nx & Ix & Ox). apply bool_const_in in Ey as (ny & Iy & Oy).
    pose proof (Hc _ _ Hn) as V. rewrite On, Ch in V. pose proof (Hc _ _ Ix) as Vx. pose proof (Hc _ _ Iy) as Vy.
    rewrite Ox in Vx. rewrite Oy in Vy. cbn in V, Vx, Vy. rewrite Vx, Vy in V. cbn in V. rewrite V. now destruct x, y.
  - intros vars n vs v c ts r t H I J Tr. inversion H; subst. apply in_map_iff in I as (v' & E & _). inversion E; subst.
    destruct J as [<-|[]]. inversion Tr; subst t. cbn. now destruct (env v).
Qed.
Lemma bits_exploratory env : exists m, bb_exploratory = Val m /\ all_hold bb_lang (set_vars bb_lang bits_alg env) m.
Proof.
  eexists. split; [vm_compute; reflexivity|].
  unfold all_hold; repeat (apply Forall_cons || apply Forall_nil);
    (eexists; eexists; split; [reflexivity|]; split; [reflexivity|]); intros s _ Hg; cbn; destruct (s "a"), (s "b"); reflexivity.
Qed.
Lemma bits_true_holds : forall q env, bits_true q -> holds bb_lang (set_vars bb_lang bits_alg env) q.
Proof.
  intros q env (tl & tr & T1 & T2 & G1 & G2 & E). exists tl, tr. split; [exact T1|]. split; [exact T2|]. intros s _ _.
  pose proof (general_closed _ _ _ G1 T1) as C1. pose proof (general_closed _ _ _ G2 T2) as C2.
  assert (Cp : forall t, closed bb_lang t -> paval (a_sem (set_vars bb_lang bits_alg env)) s t = paval bits_sem s t).
  { intros t. induction t as [[o|v] ts IH] using term_ind'; intros Cl; cbn [paval]; [|reflexivity].
    destruct Cl as [No Cl]. cbn [a_sem set_vars]. rewrite No. cbn [a_sem bits_alg]. f_equal. revert Cl. induction IH as [|t ts H F IH2]; cbn; intros Cl; [reflexivity|].
    destruct Cl as [X1 X2]. f_equal; auto. }
  rewrite !Cp by assumption. apply E.
Qed.
Lemma boolean_bits : forall genv s t, tall (fun e => match e with EN o => boolean_op o | PV _ => True end) t -> forall b c,
  fold_term (pat_sem bb_to_var bb_sem genv (fun v => BB (fst (s v)))) t = Val (BB b) -> fold_term (pat_sem bb_to_var bb_sem genv (fun v => BB (snd (s v)))) t = Val (BB c) ->
  paval bits_sem s t = (b, c).
Proof.
  intros genv s t. induction t as [o ts IH] using term_ind'. intros A b c E1 E2. assert (Ao : match o with EN o => boolean_op o | PV _ => True end /\ Forall (tall (fun e => match e with EN o => boolean_op o | PV _ => True end)) ts) by (inversion A; auto).
  destruct Ao as [Ao At]. clear A. cbn [fold_term] in E1, E2. apply rbind_val in E1 as (vs & V1 & E1). apply rbind_val in E2 as (ws & V2 & E2).
  destruct o as [o|v]; cbn [pat_sem paval] in *; [|injection E1 as <-; injection E2 as <-; now destruct (s v)].
  assert (Ev : forall args, with_vars bb_to_var genv bb_sem o args = bb_sem o args) by (intros args; unfold with_vars; destruct o; try contradiction; reflexivity).
  rewrite Ev in E1, E2. clear Ev.
  assert (Hp : forall bs cs, vs = map BB bs -> ws = map BB cs -> map (paval bits_sem s) ts = combine bs cs /\ length bs = length cs).
  { clear E1 E2 Ao b c. apply rmapM_val in V1. apply rmapM_val in V2. revert ws V2. induction V1 as [|t v ts vs E1 F1 IHl]; intros ws V2; inversion V2 as [|? w ? ws' E2 F2]; subst; intros bs cs Eb Ec.
    - destruct bs; [|discriminate Eb]. destruct cs; [|discriminate Ec]. auto.
    - destruct bs as [|b bs]; [discriminate Eb|]. destruct cs as [|c cs]; [discriminate Ec|]. injection Eb as -> ->. injection Ec as -> ->.
      inversion IH as [|? ? It Its]; subst. inversion At as [|? ? At1 Ats]; subst. destruct (IHl Its Ats _ F2 bs cs eq_refl eq_refl) as [Em El].
      cbn [map combine length]. rewrite (It At1 _ _ E1 E2), Em. auto. }
  assert (Vb : exists bs, vs = map BB bs /\ exists cs, ws = map BB cs).
  { destruct o; try contradiction; cbn in E1, E2; repeat (destruct vs as [|[] vs]; try discriminate E1); repeat (destruct ws as [|[] ws]; try discriminate E2);
      repeat match goal with |- context [BB ?x :: ?l] => idtac end.
    all: match goal with |- exists bs, ?l = map BB bs /\ _ => exists (map (fun v => match v with BB x => x | _ => true end) l); split; [reflexivity|] end;
      match goal with |- exists cs, ?l = map BB cs => exists (map (fun v => match v with BB x => x | _ => true end) l); reflexivity end. }
  destruct Vb as (bs & -> & cs & ->). destruct (Hp bs cs eq_refl eq_refl) as [-> El].
  destruct o; try contradiction; cbn in E1, E2; repeat (destruct bs as [|? bs]; try discriminate E1); repeat (destruct cs as [|? cs]; try discriminate E2); cbn [map] in E1, E2; cbn in E1, E2 |- *; congruence.
Qed.
Lemma boolean_rule_bits : forall q, boolean_rule q -> bits_true q.
Proof.
  intros q (B1 & B2 & H). destruct (H (fun _ => BB true) (fun _ => true)) as (b0 & D1 & D2). unfold pden in D1, D2.
  destruct (tree_of_fold _ _ _ D1) as (tl & T1). destruct (tree_of_fold _ _ _ D2) as (tr & T2). exists tl, tr. split; [exact T1|]. split; [exact T2|].
  assert (G : forall p, boolean_pat p -> general bb_lang p). { intros p B n o I E. specialize (B n o I E). destruct o; try contradiction; reflexivity. }
  split; [exact (G _ B1)|]. split; [exact (G _ B2)|]. intros s.
  assert (A : forall p t, boolean_pat p -> tree p = Val t -> tall (fun e => match e with EN o => boolean_op o | PV _ => True end) t).
  { intros p t B T0. apply (tree_tall _ p); [|exact T0]. intros n Hn. destruct (nop n) as [o|] eqn:E; [|exact I]. exact (B n o Hn E). }
  destruct (H (fun _ => BB true) (fun v => fst (s v))) as (b & L1 & R1). destruct (H (fun _ => BB true) (fun v => snd (s v))) as (c & L2 & R2). unfold pden in L1, R1, L2, R2.
  pose proof (fold_rec_tree _ _ _ _ T1 L1) as L1'. pose proof (fold_rec_tree _ _ _ _ T1 L2) as L2'. pose proof (fold_rec_tree _ _ _ _ T2 R1) as R1'. pose proof (fold_rec_tree _ _ _ _ T2 R2) as R2'.
  rewrite (boolean_bits _ s tl (A _ _ B1 T1) b c L1' L2'), (boolean_bits _ s tr (A _ _ B2 T2) b c R1' R2'). reflexivity.
Qed.
Lemma bits_den : forall genv t v, bb_den genv t = Val v -> aval (a_sem (set_vars bb_lang bits_alg genv)) t = bits_of v.
Proof.
  intros genv t. unfold bb_den. induction t as [o ts IH] using term_ind'. intros v H. cbn [fold_term] in H. apply rbind_val in H as (vs & H1 & H2). cbn [aval].
  assert (map (aval (a_sem (set_vars bb_lang bits_alg genv))) ts = map bits_of vs) as ->.
  { clear H2. apply rmapM_val in H1. induction H1 as [|t v' ts vs E F IH2]; cbn [map]; [reflexivity|]. inversion IH as [|? ? It Its]; subst. f_equal; auto. }
  cbn [a_sem set_vars l_to_var bb_lang bits_alg]. unfold with_vars in H2. destruct (bb_to_var o) as [x|] eqn:E; [injection H2 as <-; cbn; now destruct (genv x)|].
  destruct o; try discriminate E; cbn in H2; repeat (destruct vs as [|[] vs]; try discriminate H2); try discriminate H2; injection H2 as <-; reflexivity.
Qed.
Lemma allowed_bitvector : forall genv t v, all_allowed bb_allowed t = true -> bb_den genv t = Val v -> exists hi lo, v = BV2 hi lo.
Proof.
  intros genv [o ts] v A E. unfold bb_den in E. cbn [fold_term] in E. apply rbind_val in E as (vs & _ & E). apply (bb_allowed_bv o vs v (fun s => BV2 (fst (genv s)) (snd (genv s)))); [eauto| |exact E].
  cbn in A. now apply andb_true_iff in A.
Qed.
Theorem bb_lifted : forall keep fuel ex w prior new, bb_exploratory = Val ex -> NoDup (map fst prior) -> read_rules bb_lang prior ->
  (forall k q, In (k, q) prior -> boolean_rule q \/ bits_true q) ->
  run_fast_forwarding bb_lang keep fuel ex w prior new -> forall k r, In (k, r) new -> bits_true r /\ bits_agree r.
Proof.
  intros keep fuel ex w prior new Ex Nd Hp Hb R k r J0. destruct bb_readable as (K & Rd). pose proof (bb_exploratory_read ex Ex) as He.
  assert (F : from_terms bb_lang bb_arity (same bb_lang bb_arity bits_alg (fun _ => True)) r).
  { refine (forwarding_same bb_lang bb_arity (re_eqb _ _ _ _ Rd) keep (re_var _ _ _ _ Rd) (re_leaf _ _ _ _ Rd) _ K Rd fuel ex w prior new Nd Hp He R _ bits_alg _ _ k r J0).
    intros env _. split; [apply bits_interprets|]. intros q [(n & J)|(n & J)].
    - apply bits_true_holds. destruct (Hb n q J) as [B|B]; [exact (boolean_rule_bits q B)|exact B].
    - destruct (bits_exploratory env) as (m & E1 & H1). rewrite Ex in E1. injection E1 as <-. unfold all_hold in H1. rewrite Forall_forall in H1. exact (H1 _ J). }
  destruct F as (P1 & P2 & _ & t1 & t2 & (W1 & W2 & A1 & A2 & E) & rho & _ & T1 & T2).
  assert (Gv : forall t, wf_term bb_arity t -> forall s, paval bits_sem s (gen_term bb_to_var rho t) = aval (a_sem (set_vars bb_lang bits_alg (fun x => s (rho x)))) t).
  { intros t. induction t as [o ts IH] using term_ind'. intros W s. assert (length ts = bb_arity o /\ Forall (wf_term bb_arity) ts) as [Lt Wt] by (inversion W; auto).
    cbn [gen_term aval a_sem set_vars l_to_var bb_lang bits_alg]. destruct (bb_to_var o) as [x|]; cbn [paval]; [reflexivity|]. rewrite map_map. apply (f_equal (bits_sem o)).
    clear - IH Wt. induction IH as [|t ts H IH IHl]; [reflexivity|]. inversion Wt as [|? ? Wt1 Wt2]; subst. cbn [map]. rewrite (H Wt1 s). now rewrite (IHl Wt2). }
  split.
  - eexists. eexists. split; [exact T1|]. split; [exact T2|]. split; [exact (plain_general _ _ _ _ _ P1)|]. split; [exact (plain_general _ _ _ _ _ P2)|].
    intros s. etransitivity; [exact (Gv t1 W1 s)|]. etransitivity; [|symmetry; exact (Gv t2 W2 s)]. exact (E _ I).
  - pose proof (tree_inst bb_lang (rlhs r)) as I1. pose proof (tree_inst bb_lang (rrhs r)) as I2. rewrite T1 in I1. rewrite T2 in I2. cbn [rmap] in I1, I2.
    eexists. eexists. split; [exact I1|]. split; [exact I2|]. intros genv v v' Hv Hv'.
    pose proof (inst_gen_den _ _ _ bb_lang bb_arity bb_sem rho (fun s => BV2 (fst (genv s)) (snd (genv s))) t1 (re_var _ _ _ _ Rd) (re_leaf _ _ _ _ Rd) W1) as D1.
    pose proof (inst_gen_den _ _ _ bb_lang bb_arity bb_sem rho (fun s => BV2 (fst (genv s)) (snd (genv s))) t2 (re_var _ _ _ _ Rd) (re_leaf _ _ _ _ Rd) W2) as D2.
    unfold bb_den in Hv, Hv'. cbn [l_to_var bb_lang] in D1, D2. assert (X1 : bb_den (fun s => genv (rho s)) t1 = Val v) by (rewrite <- Hv; symmetry; exact D1).
    assert (X2 : bb_den (fun s => genv (rho s)) t2 = Val v') by (rewrite <- Hv'; symmetry; exact D2).
    specialize (E (fun s => genv (rho s)) I). rewrite (bits_den _ _ _ X1), (bits_den _ _ _ X2) in E.
    destruct (allowed_bitvector _ _ _ A1 X1) as (h1 & l1 & ->). destruct (allowed_bitvector _ _ _ A2 X2) as (h2 & l2 & ->). cbn in E. congruence.
Qed.
