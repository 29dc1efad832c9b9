(* The variables of bitvectors, Halide and Pos (PlainSpec.v). *)
From Coq Require Import NArith ZArith.
From Verif Require Import Base BaseProofs Lang Util BV PosDom Halide Analysis Egraph EgraphProofs SynthProofs Synth Domains PlainSpec PlainProofs UtilProofs.
Open Scope list_scope.

Lemma product_names : forall O C (consts : list (option C)) vars n vs, @no_links O C (init_product consts vars) = Val (n, vs) ->
  map (fun e => fst (fst e)) vs = vars.
Proof.
  intros O C consts vars n vs H. unfold no_links, init_product in H. destruct (self_product consts (length vars)) as [cv|]; [|discriminate H]. cbn [rbind] in H.
  destruct (index cv 0) as [c0|]; [|discriminate H]. cbn [rbind] in H. destruct (rmapM (index cv) (seq 0 (length vars))) as [cs|] eqn:E; [|discriminate H]. cbn [rbind] in H.
  inversion H; subst. rewrite map_map. cbn. apply rmapM_F2 in E. pose proof (Forall2_length _ _ _ E) as Ln. rewrite seq_length in Ln.
  rewrite (map_ext _ fst) by (intros []; reflexivity). now apply map_fst_combine.
Qed.

Lemma bv_plain_vars : forall w check, plain_vars (bv_lang w check).
Proof.
  intros w check. constructor; cbn.
  - reflexivity.
  - intros o s H. destruct o; inversion H; reflexivity.
  - intros n o s cs v H E. destruct o; try discriminate H. destruct cs; [now inversion E|discriminate E].
  - intros vars n vs H. right. exact (product_names _ _ _ _ _ _ H).
Qed.
Lemma hal_plain_vars : forall check, plain_vars (hal_lang check).
Proof.
  intros check. constructor; cbn.
  - reflexivity.
  - intros o s H. destruct o; inversion H; reflexivity.
  - intros n o s cs v H E. destruct o; try discriminate H. destruct cs; [now inversion E|discriminate E].
  - intros vars n vs H. right. exact (product_names _ _ _ _ _ _ H).
Qed.
Lemma pos_plain_vars : forall depth, plain_vars (pos_lang depth).
Proof.
  intros depth. constructor; cbn.
  - reflexivity.
  - intros o s H. destruct o; inversion H; reflexivity.
  - intros n o s cs v H E. unfold no_cvec in E. now inversion E.
  - intros vars n vs H. inversion H. now left.
Qed.
