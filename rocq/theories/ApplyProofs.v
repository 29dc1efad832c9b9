(* Literal-only languages: exactly what applying a rule does. *)
From Verif Require Import Base BaseProofs Lang LangProofs Syntax Rule Ruleset Analysis Generalize
  Egraph EgraphSpec EgraphProofs EgraphSound Synth Apply Sched SynthSpec SynthProofs CalmSpec Calm CalmRun ApplySpec.
Open Scope list_scope.

Section Prefix.
  Context {O A : Type}.
  Variable f : O -> list A -> res A.
  Lemma run_buf_app : forall r1 r2 buf, run_buf f (r1 ++ r2) buf = (let* b := run_buf f r1 buf in run_buf f r2 b).
  Proof.
    induction r1 as [|n r1 IH]; intros r2 buf; cbn; [reflexivity|].
    destruct (rmapM (index buf) (nch n)) as [args|]; cbn; [|reflexivity]. destruct (f (nop n) args); cbn; [|reflexivity]. apply IH.
  Qed.
  Lemma run_buf_entries : forall r buf out, run_buf f r buf = Val out -> exists vs, out = buf ++ vs /\ length vs = length r /\
    forall k v, nth_error vs k = Some v -> run_buf f (firstn (S k) r) buf = Val (buf ++ firstn k vs ++ [v]).
  Proof.
    induction r as [|n r IH]; intros buf out H; cbn in H.
    - inversion H; subst. exists []. rewrite app_nil_r. split; [reflexivity|]. split; [reflexivity|]. intros [|k] v E; discriminate E.
    - destruct (rmapM (index buf) (nch n)) as [args|] eqn:Ea; [|discriminate H]. cbn in H. destruct (f (nop n) args) as [v0|] eqn:Ef; [|discriminate H]. cbn in H.
      destruct (IH _ _ H) as (vs & -> & Ln & P). exists (v0 :: vs). rewrite <- app_assoc. split; [reflexivity|]. split; [cbn; now rewrite Ln|].
      intros [|k] v E; cbn in E.
      + inversion E; subst. cbn. rewrite Ea. cbn. rewrite Ef. reflexivity.
      + cbn [firstn run_buf]. rewrite Ea. cbn [rbind]. rewrite Ef. cbn [rbind]. change (match r with [] => [] | a :: l => a :: firstn k l end) with (firstn (S k) r).
        rewrite (P k v E), <- app_assoc. reflexivity.
  Qed.
End Prefix.
Lemma pop_last : forall A (l : list A) x, pop_unwrap (l ++ [x]) = Val x.
Proof. intros. unfold pop_unwrap. now rewrite rev_app_distr. Qed.

Section Exact.
  Context {O C : Type}.
  Variable L : lang O C.
  Variable ar : O -> nat.
  Hypothesis Lo : literal_only L ar.
  Variable keep : eg O C -> nat -> nat -> bool.
  Variable fuel : nat.
  Local Notation wf := (@wf O (sig O C) nat).
  Local Notation eqb_eq := (lo_eqb L ar Lo).

  Lemma appends_only_adds : forall g g' : eg O C, wf g -> wf g' -> appends g g' -> only_adds g g'.
  Proof.
    intros g g' W W' Ap. constructor.
    - now apply appends_size.
    - intros i j. now apply appends_eqv_old.
    - intros i j. now apply (appends_eqv_new g g').
    - intros o ch c. now apply appends_has_old.
    - intros c Lc. unfold class_data. rewrite (appends_find_old g g' c Ap Lc). destruct (find g c) as [r|] eqn:F; [|reflexivity]. cbn.
      pose proof (find_some _ _ _ (wf_rep g W _ _ F)) as Lr. destruct Ap as (ns & ds & _ & _ & _ & Dt & _).
      unfold index. rewrite Dt, nth_error_app1; [reflexivity|]. rewrite (wf_data g W). exact Lr.
  Qed.
  Lemma merged_only_merges : forall (g : eg O C) k d dm, wf g -> find g k = Val k -> find g d = Val d -> k <> d ->
    only_merges g k d (merged g k d (set_nth (g_data g) k dm)) .
  Proof.
    intros g k d dm W Fk Fd N.
    destruct (merged_ok g k d (set_nth (g_data g) k dm) W Fk Fd N) as (W' & E & Q); [rewrite set_nth_length; apply (wf_data g W)|].
    constructor.
    - apply size_merged.
    - exact Q.
    - intros o cs c. split.
      + intros (n & i & I & Eo & F & Qi). exists (nch n), i. split; [rewrite <- Eo; now apply EgraphProofs.has_in|]. auto.
      + intros (ch' & c' & Hh & F & Qc). apply has_eqv with ch' c'; [now apply E|exact F|exact Qc].
    - intros c Lc N1 N2. unfold class_data. rewrite find_merged. destruct (find g c) as [r|] eqn:F; [|reflexivity]. cbn.
      destruct (Nat.eqb_spec r d) as [->|Nd]. { destruct N2. exists d. auto. }
      unfold index. rewrite set_nth_nth by (rewrite (wf_data g W); now apply find_some in Fk).
      destruct (Nat.eqb_spec r k) as [->|Nk]; [|reflexivity]. destruct N1. exists k. auto.
  Qed.
  Lemma only_merges_sym : forall (g : eg O C) a b g', only_merges g a b g' -> only_merges g b a g'.
  Proof. intros g a b g' [S E N D]. constructor; auto. intros i j. rewrite E. tauto. Qed.
  Lemma only_merges_eqv : forall (g : eg O C) a b a' b' g', eqv g a a' -> eqv g b b' -> only_merges g a b g' -> only_merges g a' b' g'.
  Proof.
    intros g a b a' b' g' Qa Qb [S E N D]. constructor; auto.
    - intros i j. rewrite E. assert (T : forall x y i, eqv g x y -> (eqv g i x <-> eqv g i y)).
      { intros x y k Q. split; intros H; [apply eqv_trans with x|apply eqv_trans with y]; auto. now apply eqv_sym. }
      rewrite (T a a' i Qa), (T b b' j Qb), (T b b' i Qb), (T a a' j Qa). tauto.
    - intros c Lc N1 N2. apply D; auto; intros Q; [apply N1|apply N2]; eauto using eqv_trans.
  Qed.
  Lemma union_exact : forall (g : eg O C) a b g' m, calm L ar g -> s_union L keep fuel g a b = Val (g', m) ->
    (eqv g a b /\ g' = g /\ m = false) \/ (~ eqv g a b /\ m = true /\ only_merges g a b g').
  Proof.
    intros g a b g' m Cm H. pose proof (cm_wf _ _ g Cm) as W. destruct (union_calm L ar Lo keep fuel g a b g' m Cm H) as [C1 D1].
    destruct D1 as [(-> & Q & ->)|(-> & Nq & _)]; [left; auto|]. right. split; [exact Nq|]. split; [reflexivity|].
    unfold s_union, union in H. destruct (find g a) as [ra|] eqn:Ra; [|discriminate H]. cbn in H.
    destruct (find g b) as [rb|] eqn:Rb; [|discriminate H]. cbn in H.
    destruct (Nat.eqb_spec ra rb) as [->|N]. { destruct Nq. exists rb. auto. }
    pose proof (eqv_find g a ra W Ra) as Ea. pose proof (eqv_find g b rb W Rb) as Eb.
    pose proof (wf_rep g W _ _ Ra) as Fa. pose proof (wf_rep g W _ _ Rb) as Fb.
    assert (Gen : forall k d, find g k = Val k -> find g d = Val d -> k <> d ->
      (let* dk := index (g_data g) k in let* dd := index (g_data g) d in let* (dm, _) := s_merge L dk dd in
       let g1 := EG (map (fun r => if Nat.eqb r d then k else r) (g_reps g)) (g_nodes g) (set_nth (g_data g) k dm) (g_an g) in
       let* g2 := s_modify L keep fuel g1 k in Val (g2, true)) = Val (g', true) -> only_merges g k d g').
    { intros k d Fk Fd Nkd X. destruct (index (g_data g) k) as [dk|] eqn:Ik; [|discriminate X]. cbn [rbind] in X.
      destruct (index (g_data g) d) as [dd|] eqn:Id; [|discriminate X]. cbn [rbind] in X.
      destruct (s_merge L dk dd) as [[dm ch]|] eqn:Em; [|discriminate X]. cbn [rbind] in X.
      destruct (s_modify L keep fuel _ k) as [g2|] eqn:Md; [|discriminate X]. cbn [rbind] in X. inversion X; subst g2.
      pose proof (merged_calm L ar Lo g k d dk dd dm ch Cm Fk Fd Nkd Ik Id Em) as Cm2.
      rewrite (calm_modify L ar Lo keep fuel _ k g' Cm2 Md). exact (merged_only_merges g k d dm W Fk Fd Nkd). }
    apply only_merges_eqv with ra rb; [now apply eqv_sym|now apply eqv_sym|].
    destruct (keep g ra rb).
    - exact (Gen ra rb Fa Fb N H).
    - apply only_merges_sym. exact (Gen rb ra Fb Fa ltac:(congruence) H).
  Qed.

  Lemma apply_pat_exact : forall p t (g : eg O C) s g' i, calm L ar g -> Forall (typed_pnode ar) p -> Forall (fun e => snd e < size g) s ->
    tree p = Val t -> apply_pat L keep fuel g s p = Val (g', i) ->
    calm L ar g' /\ only_adds g g' /\ new_are_parts p s g g' /\ pmatch g' s t i.
  Proof.
    intros p t g s g' i Cm Ty Fs Tr H. pose proof (cm_wf _ _ g Cm) as W.
    destruct (apply_pat_ok L eqb_eq keep fuel p t g s g' i W Fs Tr H) as (W1 & E1 & M1).
    unfold apply_pat in H. destruct (apply_nodes L keep fuel g s [] p) as [[g1 ids]|] eqn:E; [|discriminate H]. cbn in H.
    destruct (pop_unwrap ids) as [j|] eqn:P; [|discriminate H]. cbn in H. inversion H; subst g1 j. clear H.
    destruct (apply_nodes_appends L ar Lo keep fuel p g s [] g' ids Cm Ty E) as (C1 & A1 & is & Ei & X). cbn in Ei. subst is.
    split; [exact C1|]. split; [exact (appends_only_adds g g' W W1 A1)|]. split; [|exact M1].
    unfold tree, fold_rec in Tr. destruct (run_buf _ p []) as [ts|] eqn:R; [|discriminate Tr].
    destruct (apply_nodes_ok L eqb_eq keep fuel _ _ _ _ _ _ _ _ W Fs (Forall2_nil _) R E) as (_ & _ & F).
    destruct (run_buf_entries _ _ _ _ R) as (vs & Ev & Ln & Pr). cbn in Ev. subst vs.
    intros x Gx Lx. destruct (X x Lx) as [Y|Y]; [lia|]. apply In_nth_error in Y as (k & Ek).
    assert (exists q, nth_error ts k = Some q /\ pmatch g' s q x) as (q & Eq & Mq).
    { clear - F Ek. revert k Ek. induction F; intros [|k] Ek; cbn in *; try discriminate Ek; [inversion Ek; subst; eauto|eauto]. }
    exists (firstn (S k) p), (skipn (S k) p), q. split; [symmetry; apply firstn_skipn|]. split; [|exact Mq].
    unfold tree, fold_rec. rewrite (Pr k q Eq). cbn [rbind app]. apply pop_last.
  Qed.
End Exact.

Section Rules.
  Context {O C : Type}.
  Variable L : lang O C.
  Variable ar : O -> nat.
  Hypothesis Lo : literal_only L ar.
  Variable keep : eg O C -> nat -> nat -> bool.
  Variable fuel : nat.

  Lemma apply_rhs_exact : forall p t (g : eg O C) c s g' ids d, calm L ar g -> Forall (typed_pnode ar) p -> Forall (fun e => snd e < size g) s ->
    tree p = Val t -> apply_rhs L keep fuel p g c s = Val (g', ids) -> class_data g c = Val d ->
    (is_defined d = false -> g' = g /\ ids = []) /\
    (is_defined d = true -> exists g1 i di, only_adds g g1 /\ new_are_parts p s g g1 /\ pmatch g1 s t i /\ class_data g1 i = Val di /\
       (i = c \/ is_defined di = false -> g' = g1 /\ ids = []) /\
       (i <> c -> is_defined di = true -> ids = [i] /\ (eqv g1 i c /\ g' = g1 \/ ~ eqv g1 i c /\ only_merges g1 i c g'))).
  Proof.
    intros p t g c s g' ids d Cm Ty Fs Tr H Ed. unfold apply_rhs in H. rewrite Ed in H. cbn in H. destruct (is_defined d); cbn in H.
    - split; [discriminate|]. intros _. destruct (apply_pat L keep fuel g s p) as [[g1 i]|] eqn:E; [|discriminate H]. cbn in H.
      destruct (apply_pat_exact L ar Lo keep fuel p t g s g1 i Cm Ty Fs Tr E) as (C1 & A1 & N1 & M1).
      destruct (class_data_val g1 i (cm_wf _ _ g1 C1) (pmatch_lt g1 s t i M1)) as (di & Edi).
      exists g1, i, di. split; [exact A1|]. split; [exact N1|]. split; [exact M1|]. split; [exact Edi|].
      rewrite Edi in H. cbn in H. destruct (Nat.eqb_spec i c) as [->|Nc].
      + inversion H; subst. split; [auto|]. intros X; now destruct X.
      + destruct (is_defined di); cbn in H.
        * split; [intros [X|X]; [now destruct Nc|discriminate X]|]. intros _ _.
          destruct (s_union L keep fuel g1 i c) as [[g2 b]|] eqn:U; [|discriminate H]. cbn in H. inversion H; subst g2. split; [reflexivity|].
          destruct (union_exact L ar Lo keep fuel g1 i c g' b C1 U) as [(Q & -> & _)|(Q & _ & Mg)]; [left|right]; auto.
        * inversion H; subst. split; [auto|]. intros _ X; discriminate X.
    - split; [|discriminate]. intros _. now inversion H.
  Qed.
  Lemma apply_plain_exact : forall p t (g : eg O C) c s g' ids, calm L ar g -> Forall (typed_pnode ar) p -> Forall (fun e => snd e < size g) s ->
    tree p = Val t -> apply_plain L keep fuel p g c s = Val (g', ids) ->
    exists g1 i, only_adds g g1 /\ new_are_parts p s g g1 /\ pmatch g1 s t i /\
      (eqv g1 i c /\ g' = g1 /\ ids = [] \/ ~ eqv g1 i c /\ only_merges g1 i c g' /\ ids = [i]).
  Proof.
    intros p t g c s g' ids Cm Ty Fs Tr H. unfold apply_plain in H.
    destruct (apply_pat L keep fuel g s p) as [[g1 i]|] eqn:E; [|discriminate H]. cbn in H.
    destruct (apply_pat_exact L ar Lo keep fuel p t g s g1 i Cm Ty Fs Tr E) as (C1 & A1 & N1 & M1).
    destruct (s_union L keep fuel g1 i c) as [[g2 b]|] eqn:U; [|discriminate H]. cbn in H. inversion H; subst.
    exists g1, i. split; [exact A1|]. split; [exact N1|]. split; [exact M1|].
    destruct (union_exact L ar Lo keep fuel g1 i c g' b C1 U) as [(Q & -> & ->)|(Q & -> & Mg)]; [left|right]; auto.
  Qed.
End Rules.

Section General.
  Context {O C : Type}.
  Variable L : lang O C.
  Hypothesis eqb_eq : forall a b, l_eqb L a b = true <-> a = b.
  Variable keep : eg O C -> nat -> nat -> bool.
  Variable fuel : nat.
  Lemma apply_rhs_general : forall p t (g : eg O C) c s g' ids, wf g -> Forall (fun e => snd e < size g) s -> tree p = Val t ->
    apply_rhs L keep fuel p g c s = Val (g', ids) ->
    wf g' /\ ext g g' /\
    (forall d, class_data g c = Val d -> is_defined d = false -> g' = g /\ ids = []) /\
    (forall d, class_data g c = Val d -> is_defined d = true -> exists i, pmatch g' s t i /\ (ids = [i] -> eqv g' i c)) /\
    (ids = [] \/ exists i, ids = [i] /\ eqv g' i c /\ pmatch g' s t c).
  Proof.
    intros p t g c s g' ids W Fs Tr H. destruct (apply_rhs_ok L eqb_eq keep fuel p t g c s g' ids W Fs Tr H) as [W' X].
    split; [exact W'|]. split; [exact X|]. unfold apply_rhs in H. destruct (class_data g c) as [d|]; [|discriminate H]. cbn in H.
    destruct (is_defined d) eqn:Df; cbn in H.
    - split. { intros d' E1 E2. inversion E1; subst. congruence. }
      destruct (apply_pat L keep fuel g s p) as [[g1 i]|] eqn:E; [|discriminate H]. cbn in H.
      destruct (apply_pat_ok L eqb_eq keep fuel p t g s g1 i W Fs Tr E) as (W1 & E1 & M1).
      destruct (Nat.eqb_spec i c) as [->|Nc].
      { inversion H; subst. split; [|now left]. intros d' _ _. exists c. split; [exact M1|]. discriminate. }
      destruct (class_data g1 i) as [di|]; [|discriminate H]. cbn in H. destruct (is_defined di); cbn in H.
      + destruct (s_union L keep fuel g1 i c) as [[g2 b]|] eqn:U; [|discriminate H]. cbn in H. inversion H; subst g2.
        destruct (union_ok _ _ _ (s_md_ok L eqb_eq keep fuel) _ _ _ _ _ W1 U) as (W2 & E2 & Q).
        pose proof (pmatch_ext g1 g' s t i E2 M1) as M2. split.
        * intros d' _ _. exists i. auto.
        * right. exists i. split; [reflexivity|]. split; [exact Q|].
          inversion M2 as [v ts j c' Hl He|o ts ch c' F Hh]; subst.
          -- apply PM_var with j; [exact Hl|]. exact (eqv_trans _ _ _ _ He Q).
          -- apply PM_node with ch; [exact F|]. apply has_eqv with ch i; [exact Hh| |exact Q].
             apply eqvs_refl. destruct Hh as (n & k & _ & _ & Fh & _). clear - Fh. induction Fh; constructor; auto. eapply eqv_lt; eauto.
      + inversion H; subst. split; [|now left]. intros d' _ _. exists i. split; [exact M1|discriminate].
    - inversion H; subst. split; [auto|]. split; [|now left]. intros d' E1 E2. inversion E1; subst. congruence.
  Qed.
End General.
