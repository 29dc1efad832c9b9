(* The trigonometric domain: text of constants, constant folding, the operators that
   can be read. *)
From Coq Require Import NArith ZArith Reals QArith Qcanon Qreals Lra.
From Verif Require Import Base BaseProofs EnumSpec Lang LangProofs Syntax Rule RuleSpec Ruleset Analysis Egraph EgraphSpec EgraphProofs Synth SynthSpec SafeSpec
  BVText Number Rational TextSpec TextProofs PartialSpec OpsSpec OpsProofs OpsDomains SaveDomains Domains DomainAlg Trig TrigSpec TrigField.
Open Scope string_scope.
Open Scope list_scope.

(* ---- text of constants ---- *)
Lemma size_bound : forall n, (n < 10 ^ N.of_nat (S (N.to_nat (N.size n))))%N.
Proof.
  intros n. rewrite Nat2N.inj_succ, N2Nat.id. eapply N.lt_le_trans; [apply N.size_gt|].
  transitivity (10 ^ N.size n)%N; [apply N.pow_le_mono_l; lia|apply N.pow_le_mono_r; lia].
Qed.
Lemma parse_show_bigN : forall n, parse_nat (show_bigN n) = Some n.
Proof.
  intros n. unfold parse_nat, show_bigN. destruct (show_digits_first (N.to_nat (N.size n)) n) as (c & r & E & _).
  rewrite E, <- E. rewrite digits_show by apply size_bound. reflexivity.
Qed.
Lemma parse_big_first : forall c r, digit_char c = true -> parse_big (String c r) = option_map Z.of_N (parse_nat (String c r)).
Proof. intros c r H. apply digit_char_cases in H. cbn in H. repeat destruct H as [<-|H]; try destruct H; reflexivity. Qed.
Lemma parse_show_big : forall z, parse_big (show_big z) = Some z.
Proof.
  intros z. unfold show_big. destruct (Z.ltb_spec z 0) as [L|L].
  - cbn [parse_big]. rewrite parse_show_bigN. cbn [option_map]. rewrite Z2N.id, Z.opp_involutive by lia. reflexivity.
  - pose proof (parse_show_bigN (Z.to_N z)) as P. unfold show_bigN in *. destruct (show_digits_first (N.to_nat (N.size (Z.to_N z))) (Z.to_N z)) as (c & r & E & Hc & _).
    rewrite E in *. rewrite parse_big_first by assumption. rewrite P. cbn [option_map]. now rewrite Z2N.id.
Qed.
Lemma show_big_chars : forall z, all_chars num_char (show_big z) = true.
Proof.
  intros z. assert (forall n, all_chars num_char (show_bigN n) = true) as H.
  { intros n. apply (all_chars_mono digit_char); [unfold num_char; intros c ->; reflexivity|]. now apply show_digits_chars. }
  unfold show_big. destruct (Z.ltb z 0); [|apply H]. cbn [all_chars]. rewrite H. reflexivity.
Qed.
Lemma show_big_ne : forall z, show_big z <> "".
Proof.
  intros z. unfold show_big. destruct (Z.ltb z 0); [discriminate|]. unfold show_bigN.
  destruct (show_digits_first (N.to_nat (N.size (Z.to_N z))) (Z.to_N z)) as (c & r & E & _). rewrite E. discriminate.
Qed.
Theorem parse_show_bigratio : forall q, parse_bigratio (show_bigratio q) = Some q.
Proof.
  intros q. unfold show_bigratio. assert (Q2Qc (this q) = q) as Eq.
  { apply Qc_is_canon. cbn [this Q2Qc]. apply Qred_correct. }
  destruct (Z.eqb_spec (Zpos (Qden (this q))) 1) as [E|E]; unfold parse_bigratio.
  - rewrite split_slash_none by apply show_big_chars. rewrite parse_show_big. change (parse_big "1") with (Some 1%Z). cbn [mk_ratio]. f_equal. rewrite <- Eq at 2. f_equal.
    destruct (this q) as [a b]. cbn in *. injection E as ->. reflexivity.
  - rewrite split_slash_some by apply show_big_chars. rewrite !parse_show_big. cbn [mk_ratio]. f_equal. rewrite <- Eq at 3. f_equal. now destruct (this q).
Qed.
Lemma real_num : forall c, num_char c = true -> real_char c = true.
Proof. destruct c as [[] [] [] [] [] [] [] []]; intros H; try discriminate H; reflexivity. Qed.
Lemma real_chars_num : forall s, all_chars num_char s = true -> real_chars s = true.
Proof. induction s as [|c s IH]; [reflexivity|]. cbn. intros H. apply andb_true_iff in H as [H1 H2]. now rewrite (real_num c H1), IH. Qed.
Lemma real_chars_app : forall s t, real_chars s = true -> real_chars t = true -> real_chars (s ++ t)%string = true.
Proof. induction s as [|c s IH]; [auto|]. cbn. intros t H Ht. apply andb_true_iff in H as [-> H2]. now rewrite IH. Qed.
Lemma show_real : forall q, is_real (show_bigratio q) = true.
Proof.
  intros q. assert (real_chars (show_bigratio q) = true /\ show_bigratio q <> "") as [H N].
  { unfold show_bigratio. destruct (Z.eqb _ 1); split.
    - apply real_chars_num, show_big_chars. - apply show_big_ne.
    - apply real_chars_app; [apply real_chars_num, show_big_chars|]. cbn [real_chars]. change (real_char "/") with true. apply real_chars_num, show_big_chars.
    - pose proof (show_big_ne (Qnum (this q))). destruct (show_big (Qnum (this q))); [congruence|discriminate]. }
  unfold is_real. destruct (show_bigratio q); [congruence|exact H].
Qed.

(* ---- operators ---- *)
Lemma trig_eqb_eq : forall a b, trig_eqb a b = true <-> a = b.
Proof. intros a b. destruct a, b; cbn; split; intros H; try discriminate H; try reflexivity; [apply String.eqb_eq in H; now subst|injection H as ->; apply String.eqb_refl..|apply String.eqb_eq in H; now subst|injection H as ->; apply String.eqb_refl]. Qed.
(* proper operators and constants whose text is that of a constant *)
Definition trig_plain (o : trig_op) : Prop := match o with TConst s => is_real s = true | TVar _ => False | _ => True end.
Lemma trig_from_op_arity : forall s k o, trig_from_op s k = Some o -> trig_arity o = k.
Proof.
  intros s k o E. unfold trig_from_op in E.
  repeat match type of E with
  | (if ?b && Nat.eqb ?k ?n then _ else _) = _ => let X := fresh in destruct (b && Nat.eqb k n) eqn:X; [apply andb_true_iff in X as [_ X]; apply Nat.eqb_eq in X; injection E as <-; rewrite X; reflexivity|]
  end.
  destruct (Nat.eqb k 0) eqn:X; [|discriminate E]. apply Nat.eqb_eq in X as ->. destruct (is_real s); [injection E as <-; reflexivity|].
  destruct (parse_variable s); [injection E as <-; reflexivity|discriminate E].
Qed.
Lemma trig_from_op_plain : forall s k o, trig_from_op s k = Some o -> trig_to_var o <> None \/ trig_plain o.
Proof.
  intros s k o E. unfold trig_from_op in E.
  repeat match type of E with (if ?b && ?c then _ else _) = _ => destruct (b && c); [injection E as <-; right; exact I|] end.
  destruct (Nat.eqb k 0); [|discriminate E]. destruct (is_real s) eqn:R; [injection E as <-; right; exact R|].
  destruct (parse_variable s); [injection E as <-; left; discriminate|discriminate E].
Qed.
Lemma real_safe : forall c, real_char c = true -> safe_char c = true /\ c <> "?"%char.
Proof. destruct c as [[] [] [] [] [] [] [] []]; intros H; try discriminate H; (split; [reflexivity|discriminate]). Qed.
Lemma real_text : forall s, is_real s = true -> word s /\ no_arrow s /\ (forall c r, s <> String "?" (String c r)).
Proof.
  intros s H. assert (s <> "" /\ real_chars s = true) as [Hn Hc] by (destruct s; [discriminate H|split; [discriminate|exact H]]).
  assert (all_chars safe_char s = true) as Hs.
  { clear H Hn. induction s as [|c s IH]; [reflexivity|]. cbn [real_chars all_chars] in *. apply andb_true_iff in Hc as [H1 H2].
    rewrite (proj1 (real_safe c H1)). cbn [andb]. exact (IH H2). }
  split; [apply safe_word; assumption|]. split; [now apply safe_no_arrow|].
  intros c r ->. cbn [real_chars] in Hc. apply andb_true_iff in Hc as [H1 _]. exact (proj2 (real_safe _ H1) eq_refl).
Qed.
Lemma trig_reads : forall o, trig_plain o -> RuleSpec.eov_ok trig_from_op trig_name trig_arity (EN o).
Proof.
  intros o H. unfold RuleSpec.eov_ok. destruct o; cbn [trig_name trig_arity]; try op_text; [|destruct H].
  cbn [trig_plain] in H. destruct (real_text s H) as (W & Na & Nq). split; [exact W|]. split; [exact Na|]. split; [|exact Nq].
  unfold trig_from_op. rewrite !andb_false_r. cbn [Nat.eqb andb]. rewrite !andb_true_r, H.
  destruct (String.eqb_spec s "I") as [->|_]; [discriminate H|]. destruct (String.eqb_spec s "PI") as [->|_]; [discriminate H|]. reflexivity.
Qed.
Section Language.
  Variable order : list (node trig_op) -> list (node trig_op).
  Notation L := (trig_lang order).
  Lemma folded_text : forall q r n, In r (folded q) -> In n r -> (exists x, n = Node (TConst (show_bigratio x)) []) \/ n = Node TNeg [0].
  Proof.
    intros q r n Hr Hn. unfold folded in Hr. apply in_app_iff in Hr as [Hr|[<-|[]]]; [|destruct Hn as [<-|[]]; eauto].
    destruct (parse_bigratio _) as [x|]; [|destruct Hr]. destruct (qleb x qzero); [|destruct Hr]. destruct Hr as [<-|[]].
    destruct Hn as [<-|[<-|[]]]; eauto.
  Qed.
  Lemma trig_custom_val : forall g i ts, trig_custom order g i = Val ts -> ts = [] \/
    exists ns tab q, class_nodes g i = Val ns /\ rmapM (fun j => let* m := class_nodes g j in Val (j, order m)) (flat_map (@nch trig_op) ns) = Val tab /\
      fold_nodes (fun j => extract_constant (nodes_of tab j)) (order ns) = Some q /\ ts = folded q.
  Proof.
    intros g i ts H. unfold trig_custom in H. destruct (class_nodes g i) as [ns|]; [|discriminate H]. cbn [rbind] in H.
    destruct (existsb _ ns); [injection H as <-; now left|]. destruct (rmapM _ _) as [tab|] eqn:Et; [|discriminate H]. cbn [rbind] in H.
    destruct (fold_nodes _ _) as [q|] eqn:Eq; injection H as <-; [right; exists ns, tab, q; auto|now left].
  Qed.
  Lemma trig_admits : forall A : trig_op -> Prop, A TNeg -> (forall q, A (TConst (show_bigratio q))) -> admits L (over L trig_arity A) (fun _ => False).
  Proof.
    intros A A1 A2. constructor.
    - intros o is i _ _ H. cbn in H. injection H as <-. apply ends_full.
    - intros c [].
    - intros o k s _ _. split; [reflexivity|]. left. discriminate.
    - intros g i ts _ E. cbn in E. apply trig_custom_val in E as [->|(ns & tab & q & _ & _ & _ & ->)]; [constructor|].
      apply Forall_forall. intros r Hr. apply Forall_forall. intros n Hn.
      destruct (folded_text _ _ _ Hr Hn) as [(x & ->)| ->]; (split; [reflexivity|right]); [exact (A2 x)|exact A1].
    - intros vars n vs _ E v c ts J. cbn in E. injection E as <- <-. destruct J.
  Qed.
  Lemma trig_readable : readable L trig_arity trig_plain (fun _ => False).
  Proof.
    refine (Build_readable _ _ _ _ trig_plain _ _ _ _ (trig_admits trig_plain I show_real) _ _ _).
    - exact trig_eqb_eq.
    - reflexivity.
    - leafs.
    - exact trig_from_op_arity.
    - exact trig_from_op_plain.
    - apply plain_ok. exact trig_reads.
  Qed.

  (* ---- constant folding ---- *)
  Hypothesis order_sub : forall l, incl (order l) l.
  Definition says : interval string -> cx -> Prop := only_full.
  Lemma fold_nodes_in : forall look ns q, fold_nodes look ns = Some q -> exists n, In n ns /\ fold_node look n = Some q.
  Proof.
    intros look ns q. induction ns as [|n ns IH]; cbn; [discriminate|]. destruct (fold_node look n) as [x|] eqn:E.
    - intros [= <-]. exists n. auto.
    - intros H. destruct (IH H) as (m & Hm & Em). exists m. auto.
  Qed.
  Lemma extract_in : forall ns q, extract_constant ns = Some q -> exists n s, In n ns /\ nop n = TConst s /\ parse_bigratio s = Some q.
  Proof.
    induction ns as [|n ns IH]; cbn; [discriminate|]. intros q H.
    destruct (nop n) eqn:En; try (destruct (IH q H) as (m & s' & Hm & X); exists m, s'; auto; fail).
    destruct (parse_bigratio s) as [x|] eqn:Ep; [injection H as <-; exists n, s; auto|]. destruct (IH q H) as (m & s' & Hm & X). exists m, s'. auto.
  Qed.
  Lemma nodes_of_in : forall tab k n, In n (nodes_of tab k) -> exists m, In (k, m) tab /\ In n m.
  Proof.
    induction tab as [|[k' v] tab IH]; cbn; [contradiction|]. intros k n H. destruct (Nat.eqb_spec k k') as [->|_]; [eauto|].
    destruct (IH k n H) as (m & Hm & Hn). eauto.
  Qed.
  Lemma q2r : forall q, Q2R (this (Q2Qc q)) = Q2R q.
  Proof. intros q. apply Qeq_eqR. cbn. apply Qred_correct. Qed.
  Lemma trig_steady : forall env, steady L (at_env L trig_sem says env).
  Proof.
    intros env. constructor.
    - intros o is i vs _ _ _ H. cbn in H. injection H as <-. intros x _. reflexivity.
    - intros v i j k [x ->] Hi Hj H. specialize (Hi x eq_refl). specialize (Hj x eq_refl). unfold says, only_full in *. subst i j. cbn in H. injection H as <-. intros y _. reflexivity.
    - intros a b v [x ->] H. specialize (H x eq_refl). discriminate H.
    - intros val g i ts W Li D M H r Hr. cbn in H. apply trig_custom_val in H as [->|(ns & tab & q & Ens & Et & Ef & ->)]; [destruct Hr|].
      set (A := at_env L trig_sem says env) in *.
      assert (Vn : forall j m n, class_nodes g j = Val m -> In n m -> val j = a_sem A (nop n) (map val (nch n))).
      { intros j m n Ej Hn. exact (models_has _ _ val g _ _ _ M (class_nodes_has g j m W Ej n Hn)). }
      assert (Vc : forall j y x, val j = Val y -> extract_constant (nodes_of tab j) = Some x -> val j = Val (cre (Q2R (this x)))).
      { intros j y x Ey Ex. apply extract_in in Ex as (n & s & Hn & On & Ep). apply nodes_of_in in Hn as (m & Hm & Hn).
        apply rmapM_val in Et. assert (exists m', class_nodes g j = Val m' /\ m = order m') as (m' & Ej & ->).
        { clear - Et Hm. induction Et as [|a b l l' E F IH]; [contradiction|]. destruct Hm as [->|Hm]; [|auto].
          apply rbind_val in E as (m' & E1 & E2). injection E2 as <- <-. eauto. }
        apply order_sub in Hn. pose proof (Vn j m' n Ej Hn) as V. rewrite On in V. rewrite Ey in *.
        unfold A, at_env, set_vars, lifted in V. cbn [a_sem l_to_var trig_lang trig_to_var] in V.
        destruct (rmapM (fun v => v) (map val (nch n))) as [xs|]; [|discriminate V]. cbn [rbind] in V. destruct xs; [|discriminate V]. cbn [trig_sem] in V.
        now rewrite Ep in V. }
      assert (Vi : val i = Val (cre (Q2R (this q)))).
      { apply fold_nodes_in in Ef as (n & Hn & Fn). apply order_sub in Hn. pose proof (Vn i ns n Ens Hn) as V. destruct (D i Li) as [v Ev]. rewrite Ev in V |- *.
        unfold A, at_env, set_vars, lifted in V. cbn [a_sem l_to_var trig_lang] in V. unfold fold_node in Fn.
        destruct n as [o ch]. cbn [nop nch] in *. destruct o; try discriminate Fn; cbn [trig_to_var] in V.
        all: destruct ch as [|j1 ch]; try discriminate Fn; cbn [map rmapM] in V; destruct (val j1) as [y1|] eqn:V1; try discriminate V; cbn [rbind] in V.
        all: destruct ch as [|j2 ch]; try discriminate Fn; cbn [map rmapM] in V.
        { destruct (extract_constant (nodes_of tab j1)) as [x1|] eqn:X1; [|discriminate Fn]. pose proof (Vc j1 y1 x1 V1 X1) as Y1. rewrite V1 in Y1. injection Y1 as ->.
          cbn in Fn, V. injection Fn as <-. rewrite V. apply (f_equal Val). apply cx_eq; cbn [fst snd cadd csub cmul copp cre cdiv cinv]; [|lra]. unfold Qcopp. rewrite q2r, Q2R_opp. lra. }
        all: destruct (val j2) as [y2|] eqn:V2; try discriminate V; cbn [rbind] in V; destruct ch as [|? ?]; try discriminate Fn; cbn [map rmapM rbind] in V.
        all: destruct (extract_constant (nodes_of tab j1)) as [x1|] eqn:X1; [|discriminate Fn]; pose proof (Vc j1 y1 x1 V1 X1) as Y1; rewrite V1 in Y1; injection Y1 as ->.
        all: destruct (extract_constant (nodes_of tab j2)) as [x2|] eqn:X2; [|discriminate Fn]; pose proof (Vc j2 y2 x2 V2 X2) as Y2; rewrite V2 in Y2; injection Y2 as ->.
        4: destruct (qeqb x2 qzero) eqn:Z; [discriminate Fn|].
        all: injection Fn as <-; cbn [trig_sem] in V.
        - rewrite V. apply (f_equal Val). apply cx_eq; cbn [fst snd cadd csub cmul copp cre cdiv cinv]; [|lra]. unfold Qcplus. rewrite q2r, Q2R_plus. lra.
        - rewrite V. apply (f_equal Val). apply cx_eq; cbn [fst snd cadd csub cmul copp cre cdiv cinv]; [|lra]. unfold Qcminus, Qcplus, Qcopp. rewrite q2r, Q2R_plus, q2r, Q2R_opp. lra.
        - rewrite V. apply (f_equal Val). apply cx_eq; cbn [fst snd cadd csub cmul copp cre cdiv cinv]; [|lra]. unfold Qcmult. rewrite q2r, Q2R_mult. lra.
        - assert (Nz : ~ this x2 == 0). { intros E. apply Bool.not_true_iff_false in Z. apply Z. unfold qeqb. apply Qeq_bool_iff. cbn. exact E. }
          assert (Nr : Q2R (this x2) <> 0%R). { intros E. apply Nz. apply eqR_Qeq. rewrite E. unfold Q2R. cbn. lra. }
          destruct (c_dec _); [discriminate V|]. rewrite V. apply (f_equal Val). apply cx_eq; cbn [fst snd cadd csub cmul copp cre cdiv cinv]; [|field; nra]. unfold Qcdiv, Qcmult, Qcinv. rewrite q2r, Q2R_mult, q2r, Q2R_inv by exact Nz. field. nra. }
      assert (Vk : forall x, a_sem A (TConst (show_bigratio x)) [] = Val (cre (Q2R (this x)))).
      { intros x. unfold A, at_env, set_vars, lifted. cbn [a_sem l_to_var trig_lang trig_to_var rmapM rbind trig_sem]. now rewrite parse_show_bigratio. }
      unfold folded in Hr. rewrite parse_show_bigratio in Hr. apply in_app_iff in Hr as [Hr|[<-|[]]].
      + destruct (qleb q qzero); [|destruct Hr]. destruct Hr as [<-|[]].
        assert (Vm : a_sem A TNeg [Val (cre (Q2R (this (- q)%Qc)))] = val i).
        { rewrite Vi. cbn -[Q2R Qcopp cre copp]. apply (f_equal Val). apply cx_eq; cbn [fst snd cadd csub cmul copp cre cdiv cinv]; [|lra]. unfold Qcopp. rewrite q2r, Q2R_opp. lra. }
        split.
        * intros ts Ts. cbn in Ts. injection Ts as <-. constructor; [|constructor; [|constructor]]; cbn [aval map]; rewrite ?Vk, ?Vm; [eexists; reflexivity|]. rewrite Vi. eexists. reflexivity.
        * intros t Tt. cbn in Tt. injection Tt as <-. cbn [aval map]. now rewrite Vk, Vm.
      + split.
        * intros ts Ts. cbn in Ts. injection Ts as <-. constructor; [|constructor]. cbn [aval map]. rewrite Vk. eexists. reflexivity.
        * intros t Tt. cbn in Tt. injection Tt as <-. cbn [aval map]. now rewrite Vk, Vi.
  Qed.
  Lemma trig_starts : forall env, starts L (at_env L trig_sem says env).
  Proof. intros env vars n vs v c ts H J. cbn in H. injection H as <- <-. destruct J. Qed.
End Language.
