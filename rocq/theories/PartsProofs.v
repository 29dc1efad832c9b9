(* The entries of a written-out term are its subterms. *)
From Verif Require Import Base BaseProofs Lang LangProofs Syntax SyntaxProofs MinimizeSpec.
Open Scope list_scope.

Section Parts.
  Context {O : Type}.
  Local Notation build := (fun o ts => Val (T o ts)).
  Definition parts (t : term O) : Prop := forall r, exists r2,
    fst (add_term t r) = r ++ r2 /\ S (snd (add_term t r)) = length (r ++ r2) /\
    forall buf, length buf = length r -> exists bx, run_buf build r2 buf = Val (buf ++ bx) /\ length bx = length r2 /\
      nth_error (buf ++ bx) (snd (add_term t r)) = Some t /\ Forall (fun x => In x (subterms t)) bx.
  Lemma add_terms_parts : forall ts, Forall parts ts -> forall r ids, exists r2 is,
    add_terms ts r ids = (r ++ r2, ids ++ is) /\ length is = length ts /\
    forall buf, length buf = length r -> exists bx, run_buf build r2 buf = Val (buf ++ bx) /\ length bx = length r2 /\
      Forall2 (fun i v => nth_error (buf ++ bx) i = Some v) is ts /\ Forall (fun x => In x (flat_map subterms ts)) bx.
  Proof.
    induction 1 as [|t ts Ht Hts IH]; intros r ids; cbn [add_terms].
    - exists [], []. rewrite !app_nil_r. repeat split. intros buf Hb. exists []. rewrite app_nil_r. repeat split; constructor.
    - destruct (Ht r) as (r1 & E1 & L1 & F1). destruct (add_term t r) as [r' i]. cbn [fst snd] in *. subst r'.
      destruct (IH (r ++ r1) (ids ++ [i])) as (r2 & is & E2 & L2 & F2).
      exists (r1 ++ r2), (i :: is). rewrite E2, <- !app_assoc. repeat split; [simpl; congruence|].
      intros buf Hb. rewrite run_buf_app. destruct (F1 buf Hb) as (b1 & R1 & LB1 & N1 & P1). rewrite R1. cbn [rbind].
      specialize (F2 (buf ++ b1)). rewrite !app_length in F2. destruct (F2 ltac:(lia)) as (b2 & R2 & LB2 & N2 & P2). exists (b1 ++ b2).
      rewrite R2, !app_assoc, !app_length. repeat split; [lia| |].
      + constructor; [|exact N2]. apply nth_error_grow. exact N1.
      + apply Forall_app. split; (eapply Forall_impl; [|eassumption]); cbn; intros x I; apply in_or_app; auto.
  Qed.
  Lemma add_term_parts : forall t : term O, parts t.
  Proof.
    induction t as [o ts IH] using term_ind'. intros r. rewrite add_term_eq.
    destruct (add_terms_parts ts IH r []) as (r2 & is & E & L & F). rewrite E. cbn [fst snd app].
    exists (r2 ++ [Node o is]). rewrite <- app_assoc. split; [reflexivity|].
    split; [rewrite !app_length; simpl; lia|]. intros buf Hb. rewrite run_buf_app.
    destruct (F buf Hb) as (bx & R & LB & N & P). rewrite R. cbn [rbind run_buf nch nop].
    rewrite (rmapM_index_vals _ _ _ N). cbn [rbind].
    exists (bx ++ [T o ts]). rewrite !app_assoc, app_length. repeat split; [rewrite app_length; simpl; lia| |].
    - rewrite nth_error_app2 by (rewrite !app_length; lia).
      replace (length (r ++ r2) - length (buf ++ bx)) with 0; [reflexivity|]. rewrite !app_length. lia.
    - apply Forall_app. split; [|constructor; [left; reflexivity|constructor]]. eapply Forall_impl; [|exact P]. cbn. auto.
  Qed.
  Lemma to_rec_parts : forall t : term O, exists bx, run_buf build (to_rec t) [] = Val bx /\ Forall (fun x => In x (subterms t)) bx.
  Proof.
    intros t. destruct (add_term_parts t []) as (r2 & E & _ & F). unfold to_rec. rewrite E. destruct (F [] eq_refl) as (bx & R & _ & _ & P). exists bx. auto.
  Qed.
End Parts.
