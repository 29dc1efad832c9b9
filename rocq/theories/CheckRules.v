(* A boolean test that implies ruleset_ok (RuleSpec.v), for the examples. *)
From Verif Require Import Base BaseProofs Sexp EnumSpec Lang LangProofs Syntax DomainSpec Rule Ruleset RuleSpec RuleTextProofs RulesetProofs.
Open Scope string_scope.
Open Scope list_scope.

Section Check.
  Context {O : Type}.
  Variable eqb : O -> O -> bool.
  Hypothesis eqb_eq : forall a b, eqb a b = true <-> a = b.
  Variable from_op : string -> nat -> option O.
  Variable name : O -> string.
  Variable ar : O -> nat.

  Definition word_b (s : string) : bool := negb (String.eqb s "") && all_chars word_char s.
  Definition no_arrow_b (s : string) : bool := match split_arrow s with None => true | Some _ => false end.
  Definition op_b (o : eov O) : bool :=
    match o with
    | PV v => word_b v && no_arrow_b v
    | EN o => word_b (name o) && no_arrow_b (name o) &&
        match from_op (name o) (ar o) with Some o' => eqb o o' | None => false end &&
        match name o with String c (String _ _) => negb (Ascii.eqb c "?") | _ => true end
    end.
  Fixpoint term_b (t : term (eov O)) : bool :=
    match t with T o ts => op_b o && Nat.eqb (length ts) (par ar o) && forallb term_b ts end.
  Definition side_b (p : pat O) : option (term (eov O)) :=
    match tree p with
    | Val t => if term_b t && forallb (fun n => match nop n with PV v => mem v (ptvars t) | EN _ => true end) p then Some t else None
    | Panic => None
    end.
  Definition entry_b (e : string * rule O) : bool :=
    let '(k, r) := e in
    String.eqb (rname r) k &&
    match rule_name name (rlhs r) (rrhs r) with Val n => String.eqb n k | Panic => false end &&
    match side_b (rlhs r), side_b (rrhs r) with
    | Some tl, Some tr => forallb (fun v => mem v (ptvars tl)) (ptvars tr)
    | _, _ => false
    end.
  Fixpoint distinct_b (l : list string) : bool :=
    match l with [] => true | x :: r => negb (mem x r) && distinct_b r end.
  Definition ruleset_b (m : ruleset O) : bool := distinct_b (map fst m) && forallb entry_b m.

  Lemma word_b_ok s : word_b s = true -> word s.
  Proof. unfold word_b. intros H. apply andb_true_iff in H as [H1 H2]. split; [|exact H2]. intros ->. discriminate H1. Qed.
  Lemma no_arrow_b_ok s : no_arrow_b s = true -> no_arrow s.
  Proof. unfold no_arrow_b. intros H. apply split_arrow_none. now destruct (split_arrow s). Qed.
  Lemma op_b_ok o : op_b o = true -> eov_ok from_op name ar o.
  Proof.
    destruct o as [o|v]; cbn [op_b eov_ok]; intros H.
    - apply andb_true_iff in H as [H H4]. apply andb_true_iff in H as [H H3]. apply andb_true_iff in H as [H H2]. split; [now apply word_b_ok|]. split; [now apply no_arrow_b_ok|]. split.
      + destruct (from_op (name o) (ar o)) as [o'|]; [|discriminate]. f_equal. symmetry. now apply eqb_eq.
      + intros c s E. rewrite E in *. discriminate.
    - apply andb_true_iff in H as [H1 H2]. split; [now apply word_b_ok|now apply no_arrow_b_ok].
  Qed.
  Lemma term_b_ok t : term_b t = true -> wf_term (par ar) t /\ tall (eov_ok from_op name ar) t.
  Proof.
    induction t as [o ts IH] using term_ind'. cbn [term_b]. intros H. apply andb_true_iff in H as [H H3]. apply andb_true_iff in H as [H1 H2].
    apply Nat.eqb_eq in H2. rewrite forallb_forall in H3. rewrite Forall_forall in IH.
    split; constructor; auto using op_b_ok; apply Forall_forall; intros t Ht; now apply IH; auto.
  Qed.
  Lemma side_b_ok p t : side_b p = Some t -> pat_ok from_op name ar p t.
  Proof.
    unfold side_b. destruct (tree p) as [u|] eqn:E; [|discriminate]. destruct (term_b u && _) eqn:B; [|discriminate].
    intros H. injection H as <-. apply andb_true_iff in B as [B1 B2]. destruct (term_b_ok u B1) as [W T]. split; [exact E|]. split; [exact W|]. split; [exact T|].
    intros n v Hn Ev. rewrite forallb_forall in B2. specialize (B2 n Hn). rewrite Ev in B2. now apply mem_in.
  Qed.
  Lemma entry_b_ok e : entry_b e = true -> entry_ok from_op name ar e.
  Proof.
    destruct e as [k r]. cbn [entry_b entry_ok]. intros H. apply andb_true_iff in H as [H H3]. apply andb_true_iff in H as [H1 H2].
    apply String.eqb_eq in H1. split; [exact H1|]. split.
    - destruct (rule_name _ _ _); [|discriminate H2]. f_equal. now apply String.eqb_eq.
    - destruct (side_b (rlhs r)) as [tl|] eqn:E1; [|discriminate]. destruct (side_b (rrhs r)) as [tr|] eqn:E2; [|discriminate].
      exists tl, tr. split; [now apply side_b_ok|]. split; [now apply side_b_ok|]. intros v Hv. rewrite forallb_forall in H3. now apply mem_in, H3.
  Qed.
  Lemma ruleset_b_ok m : ruleset_b m = true -> ruleset_ok from_op name ar m.
  Proof.
    unfold ruleset_b. intros H. apply andb_true_iff in H as [H1 H2]. split.
    - revert H1. generalize (map fst m). intros l. induction l as [|x l IH]; intros H; [constructor|]. cbn in H. apply andb_true_iff in H as [H1 H3].
      constructor; [|auto]. intros X. apply mem_in in X. rewrite X in H1. discriminate H1.
    - rewrite forallb_forall in H2. apply Forall_forall. intros e He. now apply entry_b_ok, H2.
  Qed.
End Check.

(* the same for the nodes of an e-graph *)
From Verif Require Import Analysis Egraph Synth MatchSpec.
Section Ready.
  Context {O C : Type}.
  Variable L : lang O C.
  Hypothesis eqb_eq : forall a b, l_eqb L a b = true <-> a = b.
  Variable ar : O -> nat.
  Definition node_vars (g : eg O C) : list string :=
    flat_map (fun e => match l_to_var L (nop (fst e)) with Some x => [x] | None => [] end) (g_nodes g).
  Definition ready_b (g : eg O C) : bool :=
    forallb (fun e => Nat.eqb (length (nch (fst e))) (ar (nop (fst e))) &&
      match l_to_var L (nop (fst e)) with Some _ => true | None => op_b (l_eqb L) (l_from_op L) (l_name L) ar (EN (nop (fst e))) end) (g_nodes g) &&
    Nat.leb (length (nodup string_dec (node_vars g))) 26.
  Lemma ready_b_ok g : ready_b g = true -> ready L ar g.
  Proof.
    unfold ready_b. intros H. apply andb_true_iff in H as [H1 H2]. rewrite forallb_forall in H1. apply Nat.leb_le in H2. constructor.
    - intros n i Hn. apply H1 in Hn. cbn in Hn. apply andb_true_iff in Hn as [Hn _]. now apply Nat.eqb_eq.
    - intros n i Hn Ev. apply H1 in Hn. cbn [fst] in Hn. rewrite Ev in Hn. apply andb_true_iff in Hn as [_ Hn]. exact (op_b_ok (l_eqb L) eqb_eq _ _ _ _ Hn).
    - exists (nodup string_dec (node_vars g)). split; [exact H2|]. intros n i x Hn Ev. apply nodup_In. apply in_flat_map. exists (n, i). split; [exact Hn|]. cbn. rewrite Ev. now left.
  Qed.
End Ready.
