(* The exponential domain: text of constants, the operators that can be read, what is
   added for the variables. *)
From Coq Require Import NArith ZArith Reals QArith Qcanon Qreals Lra.
From Verif Require Import Base BaseProofs EnumSpec Lang LangProofs Syntax Rule RuleSpec Ruleset Analysis Egraph EgraphSpec EgraphProofs Synth SynthSpec SafeSpec
  BVText Number Rational RationalProofs TextSpec TextProofs PartialSpec OpsSpec OpsProofs OpsDomains SaveDomains Domains DomainAlg Trig TrigProofs Exp ExpSpec.
Open Scope string_scope.
Open Scope list_scope.

(* ---- text of constants ---- *)
Lemma drop_digits : forall s, all_chars digit_char s = true -> drop_underscores s = s.
Proof.
  induction s as [|c s IH]; [reflexivity|]. cbn [all_chars drop_underscores]. intros H. apply andb_true_iff in H as [H1 H2]. rewrite IH by exact H2.
  apply digit_char_cases in H1. cbn in H1. repeat destruct H1 as [<-|H1]; try destruct H1; reflexivity.
Qed.
Lemma parse_show_biguint : forall n, parse_biguint (show_bigN n) = Some n /\ forall r, parse_biguint (String "-" r) = None.
Proof.
  intros n. split.
  - pose proof (parse_show_bigN n) as P. unfold show_bigN in *. destruct (show_digits_first (N.to_nat (N.size n)) n) as (c & r & E & Hc & _).
    assert (H : all_chars digit_char (String c r) = true) by (rewrite <- E; now apply show_digits_chars). rewrite E in *.
    unfold parse_biguint. apply digit_char_cases in Hc. cbn in Hc. repeat destruct Hc as [<-|Hc]; try destruct Hc; cbn [strip_plus]; rewrite drop_digits by exact H; exact P.
  - reflexivity.
Qed.
Lemma parse_bigint_first : forall c r, digit_char c = true -> parse_bigint (String c r) = option_map Z.of_N (parse_biguint (String c r)).
Proof. intros c r H. apply digit_char_cases in H. cbn in H. repeat destruct H as [<-|H]; try destruct H; reflexivity. Qed.
Lemma parse_show_bigint : forall z, parse_bigint (show_big z) = Some z.
Proof.
  intros z. unfold show_big. destruct (Z.ltb_spec z 0) as [L|L].
  - pose proof (proj1 (parse_show_biguint (Z.to_N (- z)))) as P. unfold show_bigN in *. destruct (show_digits_first (N.to_nat (N.size (Z.to_N (- z)))) (Z.to_N (- z))) as (c & r & E & Hc & _).
    rewrite E in *. assert (parse_bigint (String "-" (String c r)) = option_map (fun n => (- Z.of_N n)%Z) (parse_biguint (String c r))) as ->.
    { apply digit_char_cases in Hc. cbn in Hc. repeat destruct Hc as [<-|Hc]; try destruct Hc; reflexivity. }
    rewrite P. cbn [option_map]. rewrite Z2N.id, Z.opp_involutive by lia. reflexivity.
  - pose proof (proj1 (parse_show_biguint (Z.to_N z))) as P. unfold show_bigN in *. destruct (show_digits_first (N.to_nat (N.size (Z.to_N z))) (Z.to_N z)) as (c & r & E & Hc & _).
    rewrite E in *. rewrite parse_bigint_first by assumption. rewrite P. cbn [option_map]. now rewrite Z2N.id.
Qed.
Theorem parse_show_fraction : forall q, parse_fraction (show_bigratio q) = Some q.
Proof.
  intros q. unfold show_bigratio. assert (Q2Qc (this q) = q) as Eq.
  { apply Qc_is_canon. cbn [this Q2Qc]. apply Qred_correct. }
  destruct (Z.eqb_spec (Zpos (Qden (this q))) 1) as [E|E]; unfold parse_fraction.
  - rewrite split_slash_none by apply show_big_chars. rewrite parse_show_bigint. change (parse_bigint "1") with (Some 1%Z). cbn [mk_ratio]. f_equal. rewrite <- Eq at 2. f_equal.
    destruct (this q) as [a b]. cbn in *. injection E as ->. reflexivity.
  - rewrite split_slash_some by apply show_big_chars. rewrite !parse_show_bigint. cbn [mk_ratio]. f_equal. rewrite <- Eq at 3. f_equal. now destruct (this q).
Qed.

(* ---- operators ---- *)
Lemma exp_eqb_eq : forall a b, exp_eqb a b = true <-> a = b.
Proof.
  intros a b. destruct a, b; cbn; split; intros H; try discriminate H; try reflexivity.
  - unfold qeqb in H. apply Qeq_bool_iff in H. apply (f_equal ENum). now apply Qc_is_canon.
  - injection H as ->. unfold qeqb. apply Qeq_bool_iff. reflexivity.
  - apply String.eqb_eq in H. now subst.
  - injection H as ->. apply String.eqb_refl.
Qed.
Definition exp_plain (o : exp_op) : Prop := exp_to_var o = None.
Lemma exp_from_op_arity : forall s k o, exp_from_op s k = Some o -> exp_arity o = k.
Proof.
  intros s k o E. unfold exp_from_op in E.
  repeat match type of E with
  | (if ?b && Nat.eqb ?k ?n then _ else _) = _ => let X := fresh in destruct (b && Nat.eqb k n) eqn:X; [apply andb_true_iff in X as [_ X]; apply Nat.eqb_eq in X; injection E as <-; rewrite X; reflexivity|]
  end.
  destruct (Nat.eqb k 0) eqn:X; [|discriminate E]. apply Nat.eqb_eq in X as ->. destruct (parse_fraction s); injection E as <-; reflexivity.
Qed.
Lemma exp_reads : forall o, exp_plain o -> RuleSpec.eov_ok exp_from_op exp_name exp_arity (EN o).
Proof.
  intros o H. unfold RuleSpec.eov_ok. destruct o; cbn [exp_name exp_arity]; try op_text; [|discriminate H].
  destruct (real_text _ (show_real q)) as (W & Na & Nq). split; [exact W|]. split; [exact Na|]. split; [|exact Nq].
  unfold exp_from_op. rewrite !andb_false_r. cbn [Nat.eqb]. now rewrite parse_show_fraction.
Qed.
Lemma exp_admits : forall A : exp_op -> Prop, A EExp -> A ELog -> admits exp_lang (over exp_lang exp_arity A) (fun _ => False).
Proof.
  intros A A1 A2. constructor.
  - intros o is i _ _ H. cbn in H. injection H as <-. apply ends_full.
  - intros c [].
  - intros o k s _ _. split; [reflexivity|]. left. discriminate.
  - intros g i ts _ E. cbn in E. injection E as <-. constructor.
  - intros vars n vs _ E v c ts J. cbn in E. injection E as <- <-. apply in_map_iff in J as (x & E & J). injection E as <- <- <-. split; [exact J|].
    apply Forall_forall. intros r [<-|[<-|[]]]; apply Forall_forall; intros n Hn; cbn [In] in Hn; destruct Hn as [<-|[<-|[<-|[]]]]; (split; [reflexivity|]);
      first [left; discriminate|right; assumption].
Qed.
Lemma exp_readable : readable exp_lang exp_arity exp_plain (fun _ => False).
Proof.
  refine (Build_readable _ _ _ _ exp_plain _ _ _ _ (exp_admits exp_plain eq_refl eq_refl) _ _ _).
  - exact exp_eqb_eq.
  - reflexivity.
  - leafs.
  - exact exp_from_op_arity.
  - intros s k o E. destruct (exp_to_var o) as [v|] eqn:X; [left; cbn; rewrite X; discriminate|right; exact X].
  - apply plain_ok. exact exp_reads.
Qed.

(* ---- what the language computes ---- *)
Definition exp_says : interval Qc -> R -> Prop := only_full.
Lemma exp_steady : forall env, steady exp_lang (at_env exp_lang exp_sem exp_says env).
Proof.
  intros env. constructor.
  - intros o is i vs _ _ _ H. cbn in H. injection H as <-. intros x _. reflexivity.
  - intros v i j k [x ->] Hi Hj H. specialize (Hi x eq_refl). specialize (Hj x eq_refl). unfold exp_says, only_full in *. subst i j. cbn in H. injection H as <-. intros y _. reflexivity.
  - intros a b v [x ->] H. specialize (H x eq_refl). discriminate H.
  - intros val g i ts _ _ _ _ H r Hr. cbn in H. injection H as <-. destruct Hr.
Qed.
Lemma exp_starts : forall env, positive_vars env -> starts exp_lang (at_env exp_lang exp_sem exp_says env).
Proof.
  intros env P vars n vs v c ts H J. cbn in H. injection H as <- <-. apply in_map_iff in J as (x & E & _). injection E as <- <- <-.
  set (A := at_env exp_lang exp_sem exp_says env).
  assert (V : a_sem A (EVar x) [] = Val (env x)) by reflexivity.
  assert (X : forall y, a_sem A EExp [Val y] = Val (exp y)) by reflexivity.
  assert (G : forall y, (0 < y)%R -> a_sem A ELog [Val y] = Val (ln y)).
  { intros y Py. unfold A, at_env, set_vars, lifted. cbn [a_sem l_to_var exp_lang exp_to_var rmapM rbind exp_sem]. unfold positive. now destruct (Rlt_dec 0 y). }
  specialize (P x). cbn [l_mk_var exp_lang]. rewrite V. split; [eexists; reflexivity|]. intros r [<-|[<-|[]]]; split.
  - intros us U. cbn in U. injection U as <-. repeat apply Forall_cons; [..|apply Forall_nil]; cbn [aval map]; rewrite V, ?G by exact P; rewrite ?X; eexists; reflexivity.
  - intros t Tt. cbn in Tt. injection Tt as <-. cbn [aval map]. rewrite V, G, X, exp_ln by exact P. reflexivity.
  - intros us U. cbn in U. injection U as <-. repeat apply Forall_cons; [..|apply Forall_nil]; cbn [aval map]; rewrite V, ?X; rewrite ?G by apply exp_pos; eexists; reflexivity.
  - intros t Tt. cbn in Tt. injection Tt as <-. cbn [aval map]. rewrite V, X, G by apply exp_pos. now rewrite ln_exp.
Qed.
