(* Inference over exponentials, whose variables are linked with (exp (log v)) and
   (log (exp v)), goes on and can be finished; what is learned from all domains with
   rules only. *)
From Coq Require Import NArith ZArith QArith Qcanon.
From Verif Require Import Base BaseProofs Sexp Lang LangProofs Syntax SyntaxProofs Rule RuleSpec Ruleset Number Rational Workload Analysis Generalize Egraph EgraphSpec Synth Apply Sched SynthSpec Domains DomainAlg
  TotalSpec Minimize Infer InferProofs InferSpec LearnSpec OpsSpec OpsDomains SaveProofs SaveDomains LearntSpec LearntProofs LiveSpec LivePower LiveQuiet LiveLinks LiveDomains FinishSpec FinishProofs FinishRun FinishDomains FinishRecursive Exp ExpProofs.
Open Scope list_scope.
Open Scope nat_scope.

Lemma exp_linked : forall vars, exists vs, l_init exp_lang vars = Val (0, vs) /\ Forall (fun e => snd (fst e) = [] /\ Forall (linkable (aqb exp_arity)) (snd e)) vs.
Proof.
  intros vars. eexists. split; [reflexivity|]. apply Forall_map, Forall_forall. intros v _. split; [reflexivity|].
  repeat constructor; unfold InvProofs.okn; try reflexivity; eexists; reflexivity.
Qed.
Theorem exp_goes : forall keep rs, rewrites exp_lang rs ->
  (forall part g, incl part rs -> reached exp_lang keep rs g -> goes_on exp_lang keep part g) /\ answers exp_lang keep rs /\ LiveSpec.steady exp_lang keep.
Proof.
  intros keep rs F. split; [|split].
  - intros part g Ip H. refine (linked_goes_on exp_lang exp_eqb_eq keep (aqb exp_arity) _ _ _ _ _ _ exp_linked rs F part g Ip H); quiet exp_from_op_arity.
  - exact (exp_live keep rs F).
  - refine (linked_steady exp_lang exp_eqb_eq keep (aqb exp_arity) _ _ _ _ _ _ exp_linked); quiet exp_from_op_arity.
Qed.
Theorem exp_finishes : forall keep w ss ts prior fast, force w = Val ss -> Forall2 (reads exp_lang) ss ts -> length (wvars exp_lang ts) <= 26 ->
  Forall (fun e => open_fit exp_lang (snd e)) prior -> all_finish exp_lang keep (open_fit exp_lang) w prior fast.
Proof.
  intros keep w ss ts prior fast Fo Fr Lt Fp.
  refine (open_finishes exp_lang exp_arity _ _ exp_readable _ exp_reads _ (fun _ _ => eq_refl) _ (fun _ _ => eq_refl) keep (fun rs F => proj1 (exp_goes keep rs F)) w ss ts Fo Fr Lt _ prior Fp fast).
  - constructor; [exact exp_eqb_eq| |reflexivity|intros o H; destruct o; try reflexivity; elim H; reflexivity].
    intros a b. cbn. unfold qeqb. rewrite Qeq_bool_iff. split; [apply Qc_is_canon|intros ->; reflexivity].
  - intros c. repeat constructor.
  - intros vars n vs E v c ls J. cbn in E. injection E as <- <-. apply in_map_iff in J as (x & E & J). injection E as <- <- <-.
    unfold exp_links. repeat constructor; cbn; intros y Ey; congruence.
  - refine (linked_start exp_lang exp_eqb_eq keep (aqb exp_arity) _ _ _ _ _ _ exp_linked w ss ts Fo Fr); quiet exp_from_op_arity.
Qed.
Theorem exp_recursive : forall keep l met prior, plain_names l -> 2 <= length (w_ops l) -> w_vars l <> [] -> length (w_vars l) <= 26 -> names_known exp_lang l ->
  Forall (fun e => open_fit exp_lang (snd e)) prior -> recursion_finishes exp_lang keep met l prior.
Proof. intros keep l met prior P T S Le K. exact (recursive_finishes exp_lang keep l P T S Le K (open_fit exp_lang) (fun w ss ts pr fast Fo Fr _ => exp_finishes keep w ss ts pr fast Fo Fr) met prior). Qed.
