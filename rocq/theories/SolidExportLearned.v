(* The rules that the test about solids learns have letters as variables. *)
From Coq Require Import NArith ZArith.
From Verif Require Import EnumSpec.
From Verif Require Import Base BaseProofs Lang LangProofs Util UtilProofs Number Syntax Rule RuleSpec RuleTextProofs Generalize GeneralizeProofs Ruleset Workload Analysis Egraph EgraphSpec Synth SynthSpec Match Infer InferProofs LearnSpec OpsSpec OpsProofs OpsDomains TextSpec TextProofs SaveProofs SaveDomains LearntSpec LearntProofs RecipesLayers
  Solid SolidProofs SolidTest SolidTestProofs SolidExport SolidExportSpec SolidExportProofs.
Open Scope string_scope.
Open Scope list_scope.
Local Notation tv := (l_to_var cf_lang).
Local Notation Q := (over cf_lang cf_arity cf_plain).

Definition lettered_side (p : pat cf_op) : Prop :=
  exists t, tree p = Val t /\ wf_term (par cf_arity) t /\ tall (fun o => match o with PV v => exists i, letter i = Val v | EN _ => True end) t.
Definition lettered_rule (r : rule cf_op) : Prop := rule_uses cf_lang Q r /\ lettered_side (rlhs r) /\ lettered_side (rrhs r).
Lemma gen_lettered : forall rho t, (forall s, In s (tvars tv t) -> exists i, letter i = Val (rho s)) ->
  tall (fun o => match o with PV v => exists i, letter i = Val v | EN _ => True end) (gen_term tv rho t).
Proof.
  intros rho t. induction t as [o ts IH] using term_ind'. intros Hl. cbn [gen_term tvars] in *. destruct (tv o) as [s|].
  - constructor; [|constructor]. exact (Hl s (or_introl eq_refl)).
  - constructor; [exact Logic.I|]. rewrite Forall_forall in *. intros u Hu. apply in_map_iff in Hu as (t & <- & Hin). apply IH; [exact Hin|].
    intros s Hs. apply Hl. apply in_app_iff. right. apply in_flat_map. eauto.
Qed.
Lemma cf_var_ok : forall s, tv (l_mk_var cf_lang s) = Some s.
Proof. reflexivity. Qed.
Lemma cf_leaf : forall o, tv o <> None -> cf_arity o = 0.
Proof. intros [] H; try reflexivity; now elim H. Qed.
Lemma lettered_pair : forall e1 t1 e2 t2 fw bw, uses Q e1 -> uses Q e2 -> tree e1 = Val t1 -> tree e2 = Val t2 ->
  candidate_pair (l_eqb cf_lang) tv (l_mk_var cf_lang) (l_name cf_lang) e1 e2 = Val (fw, bw) -> forall x, fw = Some x \/ bw = Some x -> lettered_rule x.
Proof.
  intros e1 t1 e2 t2 fw bw U1 U2 T1 T2 H x Hx. split; [exact (pair_uses cf_lang cf_var_ok Q e1 e2 fw bw U1 U2 H x Hx)|].
  assert (W1 : wf_rec cf_arity e1) by (eapply Forall_impl; [|exact U1]; intros n [E _]; exact E). assert (W2 : wf_rec cf_arity e2) by (eapply Forall_impl; [|exact U2]; intros n [E _]; exact E).
  unfold candidate_pair in H.
  destruct (generalize (l_eqb cf_lang) tv (l_mk_var cf_lang) [] e1) as [[l m1]|] eqn:G1; [|discriminate H]. cbn [rbind] in H.
  destruct (generalize (l_eqb cf_lang) tv (l_mk_var cf_lang) m1 e2) as [[r m2]|] eqn:G2; [|discriminate H]. cbn [rbind] in H.
  assert (lettered_side l /\ lettered_side r) as [Sl Sr].
  { pose proof (fun a b => proj1 (cf_eqb_eq a b)) as Eq.
    assert (at_most 26 (tvars tv t1 ++ tvars tv t2)) as Am.
    { destruct (generalize_spec (l_eqb cf_lang) tv (l_mk_var cf_lang) Eq cf_var_ok [] e1 t1 good_nil T1 (fun n => wf_leaf tv cf_arity cf_leaf e1 n W1)) as
        [(l' & m1' & L1 & L2 & L3 & L4 & _)|(X & _)]; [|rewrite X in G1; discriminate G1]. rewrite L1 in G1. injection G1 as -> ->.
      destruct (generalize_spec (l_eqb cf_lang) tv (l_mk_var cf_lang) Eq cf_var_ok m1 e2 t2 L2 T2 (fun n => wf_leaf tv cf_arity cf_leaf e2 n W2)) as
        [(r' & m2' & R1 & R2 & R3 & R4 & _)|(X & _)]; [|rewrite X in G2; discriminate G2].
      intros ws N I. apply (nodup_le26 m2' R2 ws N). intros y Hy. apply I in Hy. apply R4. rewrite in_app_iff in Hy. destruct Hy; [left; apply L4; auto|auto]. }
    destruct (generalize_pair (l_eqb cf_lang) tv (l_mk_var cf_lang) Eq cf_var_ok cf_arity cf_leaf e1 t1 e2 t2 W1 W2 T1 T2 Am) as (l' & m1' & r' & m2' & rho & E1 & E2 & _ & Hlet & Tl & Tr & _).
    rewrite E1 in G1. injection G1 as -> ->. rewrite E2 in G2. injection G2 as -> ->.
    pose proof (wf_rec_tree cf_arity e1 t1 W1 T1) as V1. pose proof (wf_rec_tree cf_arity e2 t2 W2 T2) as V2.
    split; [exists (gen_term tv rho t1)|exists (gen_term tv rho t2)]; (split; [assumption|]; split; [apply gen_term_wf; [exact cf_leaf|assumption]|apply gen_lettered; intros s Hs; apply Hlet; apply in_app_iff; auto]). }
  unfold rule_new in H. destruct (rule_name (l_name cf_lang) l r) as [s1|] eqn:E1; [|discriminate H]. cbn [rbind] in H.
  destruct (rule_name (l_name cf_lang) r l) as [s2|] eqn:E2; [|discriminate H]. cbn [rbind] in H. injection H as <- <-. destruct Hx as [Hx|Hx].
  - destruct (rewrite_ok l r) eqn:Ek; [|discriminate Hx]. injection Hx as <-. auto.
  - destruct (rewrite_ok r l) eqn:Ek; [|discriminate Hx]. injection Hx as <-. auto.
Qed.
Lemma lettered_reverse : forall r r', lettered_rule r -> reverse (l_name cf_lang) r = Val (Some r') -> lettered_rule r'.
Proof.
  intros r r' (U & Sl & Sr) E. split; [exact (rule_uses_reverse cf_lang Q r r' U E)|]. unfold reverse, rule_new in E. destruct (rule_name (l_name cf_lang) (rrhs r) (rlhs r)) as [s|] eqn:En; [|discriminate E]. cbn [rbind] in E.
  destruct (rewrite_ok _ _) eqn:Ek; [|discriminate E]. injection E as <-. auto.
Qed.
Lemma over_read : forall o k, read_op cf_lang o k -> Q o k.
Proof. destruct cf_readable as [K Re]. intros o k (s & E). split; [symmetry; exact (re_arity _ _ _ _ Re s k o E)|exact (re_read _ _ _ _ Re s k o E)]. Qed.
Lemma lettered_forwarding : forall keep fuel ex w prior new, NoDup (map fst prior) -> read_rules cf_lang prior -> read_rules cf_lang ex -> run_fast_forwarding cf_lang keep fuel ex w prior new ->
  Forall (fun e => lettered_rule (snd e)) new.
Proof.
  intros keep fuel ex w prior new N Hp Hx R. destruct cf_readable as [K Re].
  assert (G : forall rs, read_rules cf_lang rs -> Forall (fun e => rhs_uses Q (snd e)) rs) by (intros rs; apply Forall_impl; intros e; apply rhs_uses_mono; exact over_read).
  refine (forwarding_ops cf_lang cf_eqb_eq keep Q K (re_admits _ _ _ _ Re) lettered_rule lettered_pair lettered_reverse fuel ex w prior new N _ (G _ Hp) (G _ Hx) R).
  apply (workload_fits_mono _ _ cf_lang (read_op cf_lang)); [exact over_read|apply workload_read].
Qed.
Lemma fits_i64 : forall z, fits z -> in_i64 z = true.
Proof. intros z [A B]. unfold in_i64, i64_min, i64_max. apply andb_true_intro. split; apply Z.leb_le; lia. Qed.
Lemma side_lettered : forall p, pat_uses cf_lang Q p -> lettered_side p -> exists t, tree p = Val t /\ lettered t.
Proof.
  intros p U (t & T & W & V). exists t. split; [exact T|]. assert (X : tall (fun o => match o with EN o => tv o = None /\ cf_plain o | PV _ => True end) t).
  { apply (tree_tall _ p); [|exact T]. intros n Hn. unfold pat_uses in U. rewrite Forall_forall in U. specialize (U n Hn). destruct (nop n) as [o|]; [|exact Logic.I]. destruct U as (U1 & _ & [U2|U2]); [now elim U2|auto]. }
  clear T U. induction t as [o ts IH] using term_ind'. inversion W as [? ? W1 W2]; inversion V as [? ? V1 V2]; inversion X as [? ? X1 X2]; subst. split.
  - destruct o as [o|v]; [|split; [now destruct ts|exact V1]]. cbn [par] in W1. destruct X1 as [X1 X3]. destruct o; try exact W1; [split; [now destruct ts|now apply fits_i64]|discriminate X1].
  - clear W1 V1 X1 W V X. induction ts as [|t ts IHs]; [exact Logic.I|]. inversion IH; inversion W2; inversion V2; inversion X2; subst. split; [auto|]. now apply IHs.
Qed.
Lemma layers_lettered : forall keep fuel ex ws all learned all' learned', layers keep fuel ex ws all learned all' learned' -> cf_exploratory = Val ex ->
  NoDup (map fst all) -> read_rules cf_lang all -> Forall (fun e => lettered_rule (snd e)) learned -> Forall (fun e => lettered_rule (snd e)) learned'.
Proof.
  intros keep fuel ex ws all learned all' learned' H Ex. pose proof (rules_read _ _ cf_lang _ _ Ex) as Rx. induction H as [all learned|w ws all learned chosen all' learned' R _ IH]; intros N Ra Hl; [exact Hl|].
  assert (Lc : learnt cf_lang (read_rules cf_lang) chosen) by exact (Lt_forwarding _ _ keep fuel ex w all chosen N Ra Rx R).
  destruct (readable_ready _ _ _ _ _ cf_readable chosen Lc) as (_ & Rc & _). apply IH; [now apply extend_nodup'|exact (read_joined _ _ _ _ _ Ra Rc)|].
  pose proof (lettered_forwarding keep fuel ex w all chosen N Ra Rx R) as Fc. rewrite Forall_forall in *. intros e I. apply extend_in' in I as [I|I]; auto.
Qed.
Theorem learned_sides : forall keep fuel ns all learned, solid_test keep fuel ns all learned -> Forall (fun e => exists tl tr, sides (snd e) tl tr) learned.
Proof.
  intros keep fuel ns all learned (prior & ex & ws & Ep & Ex & Ew & H).
  pose proof (layers_lettered keep fuel ex ws prior [] all learned H Ex (proj1 (cf_start_good _ Ep)) (rules_read _ _ cf_lang _ _ Ep) (Forall_nil _)) as F.
  eapply Forall_impl; [|exact F]. intros e ([U1 U2] & S1 & S2). destruct (side_lettered _ U1 S1) as (tl & T1 & L1). destruct (side_lettered _ U2 S2) as (tr & T2 & L2). exists tl, tr. repeat split; assumption.
Qed.
