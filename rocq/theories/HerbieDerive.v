(* Rules that are not safe, and reports on them. *)
From Verif Require Import Base Lang LangProofs Rule RuleSpec Ruleset RulesetProofs Analysis Egraph Synth SafeSpec PartialSpec PartialProofs DomainSound Sched Report BaselineSpec BaselineProofs BaselineDerive HerbieSpec.
Open Scope list_scope.

Lemma report_left {O C} (L : lang O C) lo rs against wrong : NoDup (map fst against) -> (forall k r, In (k, r) against -> rname r = k) -> incl wrong (map fst against) ->
  (forall k r, In (k, r) against -> In k wrong -> forall keep fuel iter, ~ can_derive L keep fuel lo iter rs r true) -> left_out L lo wrong rs against.
Proof.
  intros N K Iw H keep fuel cs ns (can & cannot & (answer & Ha & Hp) & E) s Is. injection E as -> ->. unfold to_str_vec.
  assert (keyed against) as Kd by (apply Forall_forall; intros [k r] I; symmetry; exact (K k r I)).
  rewrite (partition_spec (fun r => Val (answer r)) answer against N Kd (fun e _ => eq_refl)) in Hp. injection Hp as <- <-.
  assert (forall e, In e against -> fst e = s -> answer (snd e) = false) as G.
  { intros [k r] I E. cbn in E |- *. subst k. destruct (answer r) eqn:X; [|reflexivity]. elim (H s r I Is keep fuel deriving_iter). rewrite <- X. exact (Ha _ I). }
  split.
  - intros I. apply in_map_iff in I as (e & E & I). apply filter_In in I as [I X]. rewrite (G e I E) in X. discriminate X.
  - specialize (Iw s Is). apply in_map_iff in Iw as (e & E & I). apply in_map_iff. exists e. split; [exact E|]. apply filter_In. split; [exact I|]. now rewrite (G e I E).
Qed.
Lemma listed s l : existsb (String.eqb s) l = true -> In s l.
Proof. rewrite existsb_exists. intros (x & J & E). apply String.eqb_eq in E. now subst x. Qed.
Section Rules.
  Context {O C V : Type}.
  Variable L : lang O C.
  Variable sem : O -> list V -> res V.
  Definition generalb (p : pat O) : bool :=
    forallb (fun n => match nop n with EN o => match l_to_var L o with None => true | Some _ => false end | PV _ => true end) p.
  Lemma generalb_ok p : generalb p = true -> general L p.
  Proof.
    unfold generalb. rewrite forallb_forall. intros H n o J E. specialize (H n J). rewrite E in H. destruct (l_to_var L o); [discriminate H|reflexivity].
  Qed.
  (* a value on the left, none on the right *)
  Definition gap (r : rule O) : Prop := generalb (rlhs r) = true /\ generalb (rrhs r) = true /\
    exists tl tr genv env v, tree (rlhs r) = Val tl /\ tree (rrhs r) = Val tr /\ pden (l_to_var L) sem genv env (rlhs r) = Val v /\ pvalue L sem genv env tr = Panic.
  (* two values *)
  Definition clash (r : rule O) : Prop := generalb (rlhs r) = true /\ generalb (rrhs r) = true /\
    exists tl tr genv env v w, tree (rlhs r) = Val tl /\ tree (rrhs r) = Val tr /\ pden (l_to_var L) sem genv env (rlhs r) = Val v /\ pden (l_to_var L) sem genv env (rrhs r) = Val w /\ v <> w.
  Lemma pden_pvalue genv env p t v : tree p = Val t -> pden (l_to_var L) sem genv env p = Val v -> pvalue L sem genv env t = Val v.
  Proof. intros T D. apply fold_pvalue. exact (fold_rec_tree _ _ _ _ T D). Qed.
  Lemma safe_agrees r : safe_rule L sem r -> agrees L sem r.
  Proof.
    intros (tl & tr & T1 & T2 & H). exists tl, tr. split; [exact T1|]. split; [exact T2|]. intros genv env v w A B.
    pose proof (pden_pvalue _ _ _ _ _ T2 (H _ _ _ A)) as D. congruence.
  Qed.
  Lemma gap_unsafe r : gap r -> ~ safe_rule L sem r.
  Proof.
    intros (_ & _ & tl & tr & genv & env & v & T1 & T2 & D & N) (tl' & tr' & T1' & T2' & H). rewrite T1 in T1'. injection T1' as <-.
    pose proof (pden_pvalue _ _ _ _ _ T2 (H _ _ _ (pden_pvalue _ _ _ _ _ T1 D))) as E. congruence.
  Qed.
  Lemma clash_disagrees r : clash r -> ~ agrees L sem r.
  Proof.
    intros (_ & _ & tl & tr & genv & env & v & w & T1 & T2 & D1 & D2 & N) (tl' & tr' & T1' & T2' & H). rewrite T1 in T1'. injection T1' as <-. rewrite T2 in T2'. injection T2' as <-.
    apply N. exact (H _ _ _ _ (pden_pvalue _ _ _ _ _ T1 D1) (pden_pvalue _ _ _ _ _ T2 D2)).
  Qed.
  Hypothesis derives : derives_safely L sem.
  Lemma gap_not_derived keep fuel iter rs r : Forall (fun e => safe_rule L sem (snd e)) rs -> gap r -> ~ can_derive L keep fuel true iter rs r true.
  Proof.
    intros Hs (G1 & G2 & tl & tr & genv & env & v & T1 & T2 & D & N) Hd. destruct (derives _ _ _ _ _ _ Hs Hd) as (tl' & tr' & T1' & T2' & H).
    rewrite T2 in T2'. injection T2' as <-. rewrite (H (generalb_ok _ G1) (generalb_ok _ G2) genv env v D) in N; [discriminate N|intros E; discriminate E].
  Qed.
  Lemma clash_not_derived keep fuel lo iter rs r : Forall (fun e => safe_rule L sem (snd e)) rs -> clash r -> ~ can_derive L keep fuel lo iter rs r true.
  Proof.
    intros Hs (G1 & G2 & tl & tr & genv & env & v & w & T1 & T2 & D1 & D2 & N) Hd. destruct (derives _ _ _ _ _ _ Hs Hd) as (tl' & tr' & T1' & T2' & H).
    rewrite T2 in T2'. injection T2' as <-. pose proof (H (generalb_ok _ G1) (generalb_ok _ G2) genv env v D1 (fun _ => ex_intro _ w D2)) as E.
    rewrite (pden_pvalue _ _ _ _ _ T2 D2) in E. congruence.
  Qed.
End Rules.
