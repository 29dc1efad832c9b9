(* The rules of baseline/herbie-exp.rules for positive numbers. *)
From Coq Require Import Reals QArith Qcanon Qreals Lra Field.
From Verif Require Import Base Lang Rule RuleSpec Ruleset Synth PartialSpec Exp ExpSpec ExpRules Herbie HerbieSpec HerbiePow HerbieExp BaselineSpec BaselineProofs.
Open Scope string_scope.
Open Scope list_scope.
Arguments real_pow : simpl never. Arguments real_cbrt : simpl never.
Opaque real_pow real_cbrt.

Lemma exp_of x : (0 < x)%R -> exists y, x = exp y. Proof. intros P. exists (ln x). symmetry. now apply exp_ln. Qed.
Lemma exp_quot x y : (exp x / exp y)%R = exp (x - y). Proof. unfold Rminus. now rewrite exp_plus, exp_Ropp. Qed.
Lemma exp_recip x : (1 / exp x)%R = exp (- x). Proof. rewrite exp_Ropp. unfold Rdiv. ring. Qed.
Ltac into_exp := repeat rewrite ?cbrt_exp, ?sqrt_exp, ?pow_exp, ?ln_exp, ?exp_quot, ?exp_recip, <- ?exp_plus.
Ltac decided := match goal with
  | |- context [Rlt_dec 0 ?y] => destruct (Rlt_dec 0 y) as [?|X]; [|exfalso; apply X; apply exp_pos]
  | |- context [Rle_dec 0 ?y] => destruct (Rle_dec 0 y) as [?|X]; [|exfalso; apply X; left; apply exp_pos]
  | |- context [Req_EM_T ?y 0] => destruct (Req_EM_T y 0) as [X|?]; [exfalso; revert X; apply Rgt_not_eq; first [apply exp_pos|lra]|] end.
Ltac begin := the_rule; eexists; eexists; (split; [vm_compute; reflexivity|]); (split; [vm_compute; reflexivity|]); intros genv env P; cbn; lits;
  generalize (P "a") (P "b") (P "c"); generalize (env "a") as a, (env "b") as b, (env "c") as c; intros a b c Pa Pb Pc.
Ltac exps := match goal with Pa : (0 < ?a)%R, Pb : (0 < ?b)%R, Pc : (0 < ?c)%R |- _ =>
  destruct (exp_of a Pa) as [x ->]; destruct (exp_of b Pb) as [y ->]; destruct (exp_of c Pc) as [z ->] end.
Ltac simple := begin; exps; repeat first [progress (cbn; lits; into_exp)|decided]; eexists; (split; [reflexivity|]); apply (f_equal Val).
Ltac finish := first [reflexivity|symmetry; apply exp_0|f_equal; rewrite ?exp_plus, ?exp_Ropp; field|rewrite ?exp_plus, ?exp_Ropp; field]; repeat split; try (apply Rgt_not_eq; apply exp_pos).
Lemma exp_positive : Forall (eline (identity_on exp_lang real_sem (fun x => (0 < x)%R))) herbie_exp.
Proof.
  unfold herbie_exp. repeat apply Forall_cons; [..|apply Forall_nil].
  all: try solve [simple; finish]. all: try (simple; []).
  - begin. exists 0%R. split; [|reflexivity]. apply pow_Pow. now constructor.
  - begin. pose proof (Rle_0_sqr (a - b)) as H. unfold Rsqr in H. assert (a * a + (b * b - a * b) > 0)%R as D by nra. apply Rgt_not_eq in D.
    destruct (Req_EM_T (a * a + (b * b - a * b)) 0) as [X|_]; [contradiction|]. cbn. eexists. split; [reflexivity|]. apply (f_equal Val). field. exact D.
  - begin. assert (a * a + (b * b + a * b) > 0)%R as D by nra. apply Rgt_not_eq in D.
    destruct (Req_EM_T (a * a + (b * b + a * b)) 0) as [X|_]; [contradiction|]. cbn. eexists. split; [reflexivity|]. apply (f_equal Val). field. exact D.
Qed.

(* ---- what the language computes ---- *)
From Verif Require Import Analysis Egraph EgraphSpec SynthSpec SafeSpec DomainSound ExpProofs DomainAlg.
Lemma real_steady : forall env, steady exp_lang (at_env exp_lang real_sem exp_says env).
Proof.
  intros env. constructor.
  - intros o is i vs _ _ _ H. cbn in H. injection H as <-. intros x _. reflexivity.
  - intros v i j k [x ->] Hi Hj H. specialize (Hi x eq_refl). specialize (Hj x eq_refl). unfold exp_says, only_full in *. subst i j. cbn in H. injection H as <-. intros y _. reflexivity.
  - intros a b v [x ->] H. specialize (H x eq_refl). discriminate H.
  - intros val g i ts _ _ _ _ H r Hr. cbn in H. injection H as <-. destruct Hr.
Qed.
Lemma real_starts : forall env, positive_vars env -> starts exp_lang (at_env exp_lang real_sem exp_says env).
Proof.
  intros env P vars n vs v c ts H J. cbn in H. injection H as <- <-. apply in_map_iff in J as (x & E & _). injection E as <- <- <-.
  set (A := at_env exp_lang real_sem exp_says env).
  assert (V : a_sem A (EVar x) [] = Val (env x)) by reflexivity.
  assert (X : forall y, a_sem A EExp [Val y] = Val (exp y)) by reflexivity.
  assert (G : forall y, (0 < y)%R -> a_sem A ELog [Val y] = Val (ln y)).
  { intros y Py. unfold A, at_env, set_vars, lifted. cbn [a_sem l_to_var exp_lang exp_to_var rmapM rbind real_sem]. now destruct (Rlt_dec 0 y). }
  specialize (P x). cbn [l_mk_var exp_lang]. rewrite V. split; [eexists; reflexivity|]. intros r [<-|[<-|[]]]; split.
  - intros us U. cbn in U. injection U as <-. repeat apply Forall_cons; [..|apply Forall_nil]; cbn [aval map]; rewrite V, ?G by exact P; rewrite ?X; eexists; reflexivity.
  - intros t Tt. cbn in Tt. injection Tt as <-. cbn [aval map]. rewrite V, G, X, exp_ln by exact P. reflexivity.
  - intros us U. cbn in U. injection U as <-. repeat apply Forall_cons; [..|apply Forall_nil]; cbn [aval map]; rewrite V, ?X; rewrite ?G by apply exp_pos; eexists; reflexivity.
  - intros t Tt. cbn in Tt. injection Tt as <-. cbn [aval map]. rewrite V, X, G by apply exp_pos. now rewrite ln_exp.
Qed.
