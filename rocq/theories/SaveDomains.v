(* Learned rulesets can be saved, and learned rules are true, domain by domain. *)
From Coq Require Import NArith ZArith QArith Qcanon.
From Verif Require Import EnumSpec.
From Verif Require Import Base BaseProofs Lang Util UtilProofs LangProofs BV BVText BVSpec BVProofs BoolDom NatDom NatProofs PosDom BvBoolDom Number Rational RationalSpec RationalValidate Halide HalideSpec HalideProofs DomainSpec
  Syntax Rule RuleSpec Ruleset Workload Analysis Egraph EgraphSpec EgraphProofs Synth SynthSpec Domains DomainAlg DomainSound DeriveProofs
  CalmDomains TotalSpec Match Infer InferProofs LearnSpec SampledDomains OpsSpec OpsProofs OpsDomains TextSpec TextProofs SaveProofs.
From Verif Require RulesetProofs.
Open Scope string_scope.
Open Scope list_scope.

Lemma ok_reloads : forall O C (L : lang O C) ar m, ruleset_ok (l_from_op L) (l_name L) ar m -> reloads L m.
Proof.
  intros O C L ar m [Hn Hok]. destruct (RulesetProofs.file_roundtrip (l_from_op L) (l_name L) ar m Hn Hok) as (m' & E1 & E2 & E3 & _).
  exists m'. split; [exact E1|]. split; [exact E2|].
  clear - E3. induction E3 as [|e e' m m' (A & B & D & E) _ IH]; constructor; auto. split; [auto|]. split; [congruence|auto].
Qed.

(* a language whose operators in [P] print and read back *)
Record readable {O C} (L : lang O C) (ar : O -> nat) (P : O -> Prop) (K : C -> Prop) : Prop := {
  re_eqb : forall a b, l_eqb L a b = true <-> a = b;
  re_var : forall s, l_to_var L (l_mk_var L s) = Some s;
  re_leaf : forall o, l_to_var L o <> None -> ar o = 0;
  re_admits : admits L (over L ar P) K;
  re_arity : forall s k o, l_from_op L s k = Some o -> ar o = k;
  re_read : forall s k o, l_from_op L s k = Some o -> l_to_var L o <> None \/ P o;
  re_ok : forall r, l_validate L (rlhs r) (rrhs r) = Val Valid -> rule_uses L (over L ar P) r ->
    forall n o, In n (rlhs r ++ rrhs r) -> nop n = EN o -> eov_ok (l_from_op L) (l_name L) ar (EN o) }.
(* the operators of both sides *)
Lemma uses_in : forall O C (L : lang O C) Q r n o, rule_uses L Q r -> In n (rlhs r ++ rrhs r) -> nop n = EN o -> l_to_var L o = None /\ Q o (length (nch n)).
Proof.
  intros O C L Q r n o [H1 H2] I E. unfold pat_uses in *. rewrite Forall_forall in *. apply in_app_iff in I as [I|I]; [specialize (H1 n I); now rewrite E in H1|specialize (H2 n I); now rewrite E in H2].
Qed.
Lemma plain_ok : forall O C (L : lang O C) ar (P : O -> Prop), (forall o, P o -> eov_ok (l_from_op L) (l_name L) ar (EN o)) ->
  forall r, l_validate L (rlhs r) (rrhs r) = Val Valid -> rule_uses L (over L ar P) r -> forall n o, In n (rlhs r ++ rrhs r) -> nop n = EN o -> eov_ok (l_from_op L) (l_name L) ar (EN o).
Proof. intros O C L ar P H r _ U n o I E. destruct (uses_in _ _ _ _ _ _ _ U I E) as [Hn [_ [X|X]]]; [contradiction|]. exact (H o X). Qed.

Ltac leafs := intros o H; destruct o; try reflexivity; elim H; reflexivity.
Lemma parse_bv_inr : forall w s c, (w <= 128)%N -> parse_bv w s = Some c -> (c < 2 ^ w)%N.
Proof.
  intros w s c Hw H. unfold parse_bv in H.
  assert (G : forall o, option_map (bv_new w) o = Some c -> (c < 2 ^ w)%N). { intros [n|] E; [|discriminate E]. cbn in E. injection E as <-. exact (new_inr w n Hw). }
  repeat match type of H with context [match ?x with _ => _ end] => destruct x end; exact (G _ H).
Qed.
Lemma bv_readable : forall w check, (w <= 128)%N -> exists K, readable (bv_lang w check) bv_arity (bv_plain w) K.
Proof.
  intros w check Hw. eexists. refine (Build_readable _ _ _ _ (bv_plain w) _ _ _ _ (bv_admits w check _) _ _ _).
  - exact bv_eqb_eq. - reflexivity. - leafs. - exact (bv_from_op_arity w).
  - intros s k o E. cbn in *. unfold bv_from_op in E.
    repeat match type of E with (if ?b then _ else _) = _ => destruct b; [injection E as <-; right; exact I|] end.
    destruct (Nat.eqb k 0); [|discriminate E]. destruct (parse_bv w s) as [c|] eqn:Ep; injection E as <-; [right; exact (parse_bv_inr w s c Hw Ep)|left; discriminate].
  - apply plain_ok. intros o. apply bv_reads. exact Hw.
Qed.
Lemma bool_readable : exists K, readable bool_lang bool_arity (fun o => bool_to_var o = None) K.
Proof.
  eexists. refine (Build_readable _ _ _ _ (fun o => bool_to_var o = None) _ _ _ _ (bool_admits _ _) _ _ _).
  - exact bool_op_eqb_eq. - reflexivity. - leafs. - reflexivity. - exact (sp_from_op _ _ bool_sampled).
  - intros s k o E. cbn. destruct (bool_to_var o) eqn:X; [left; discriminate|now right].
  - apply plain_ok. intros o Ho. apply bool_reads. destruct o; [exact I..|discriminate Ho].
Qed.
Lemma nat_readable : forall depth rng check, exists K, readable (nat_lang depth rng check) nat_arity (fun o => nat_to_var o = None) K.
Proof.
  intros depth rng check. eexists. refine (Build_readable _ _ _ _ (fun o => nat_to_var o = None) _ _ _ _ (nat_admits depth rng check _ _ _) _ _ _).
  - exact nat_op_eqb_eq. - reflexivity. - leafs. - reflexivity. - reflexivity. - exact (sp_from_op _ _ (nat_sampled depth rng check)).
  - intros s k o E. cbn. destruct (nat_to_var o) eqn:X; [left; discriminate|now right].
  - apply plain_ok. intros o Ho. apply nat_reads. destruct o; [exact I..|discriminate Ho].
Qed.
Lemma pos_readable : forall depth, exists K, readable (pos_lang depth) pos_arity (fun o => pos_to_var o = None) K.
Proof.
  intros depth. eexists. refine (Build_readable _ _ _ _ (fun o => pos_to_var o = None) _ _ _ _ (pos_admits depth _) _ _ _).
  - exact pos_op_eqb_eq. - reflexivity. - leafs. - exact pos_from_op_arity.
  - intros s k o E. cbn. destruct (pos_to_var o) eqn:X; [left; discriminate|now right].
  - apply plain_ok. intros o Ho. apply pos_reads. destruct o; [exact I..|discriminate Ho].
Qed.
Lemma parse_i64_fits : forall s z, parse_i64 s = Some z -> TextSpec.fits z.
Proof.
  intros s z H. unfold parse_i64 in H. match type of H with match ?x with _ => _ end = _ => destruct x as [z'|]; [|discriminate H] end.
  destruct (in_i64 z') eqn:E; [|discriminate H]. injection H as <-. unfold in_i64 in E. apply andb_true_iff in E as [E1 E2]. unfold TextSpec.fits, i64_min, i64_max in *.
  apply Z.leb_le in E1. apply Z.leb_le in E2. lia.
Qed.
Lemma hal_readable : forall check, exists K, readable (hal_lang check) hal_arity (fun o => hal_to_var o = None /\ hal_plain o) K.
Proof.
  intros check. eexists. refine (Build_readable _ _ _ _ (fun o => hal_to_var o = None /\ hal_plain o) _ _ _ _ (hal_admits check _) _ _ _).
  - exact hal_eqb_eq. - reflexivity. - leafs. - exact hal_from_op_arity.
  - intros s k o E. cbn in *. unfold hal_from_op in E. destruct (if Nat.eqb k 0 then parse_i64 s else None) as [z|] eqn:Ez.
    + injection E as <-. right. split; [reflexivity|]. destruct (Nat.eqb k 0); [|discriminate Ez]. exact (parse_i64_fits s z Ez).
    + repeat match type of E with (if ?b && ?c then _ else _) = _ => destruct (b && c); [injection E as <-; right; split; [reflexivity|exact I]|] end.
      destruct (Nat.eqb k 0); [|discriminate E]. injection E as <-. left. discriminate.
  - apply plain_ok. intros o [_ Ho]. apply hal_reads. exact Ho.
Qed.
Lemma bb_from_op_arity : forall s k o, bb_from_op s k = Some o -> bb_arity o = k.
Proof.
  intros s k o E. unfold bb_from_op in E.
  repeat match type of E with
  | (if ?b && Nat.eqb ?k ?n then _ else _) = _ => let X := fresh in destruct (b && Nat.eqb k n) eqn:X; [apply andb_true_iff in X as [_ X]; apply Nat.eqb_eq in X; injection E as <-; rewrite X; reflexivity|]
  | (if Nat.eqb ?k 0 then _ else _) = _ => let X := fresh in destruct (Nat.eqb k 0) eqn:X; [apply Nat.eqb_eq in X; injection E as <-; rewrite X; reflexivity|]
  | match ?x with Some _ => _ | None => _ end = _ => destruct x
  | match k with 0 => _ | S _ => _ end = _ => destruct k
  | Some _ = Some _ => injection E as <-; reflexivity
  end; try discriminate E; reflexivity.
Qed.
Lemma bb_readable : exists K, readable bb_lang bb_arity (fun o => bb_to_var o = None /\ bb_plain o) K.
Proof.
  eexists. refine (Build_readable _ _ _ _ (fun o => bb_to_var o = None /\ bb_plain o) _ _ _ _ (bb_admits _ _) _ _ _).
  - exact bb_eqb_eq. - reflexivity. - leafs.
  - intros o Ho. destruct o; cbn in Ho |- *; tauto.
  - exact bb_from_op_arity.
  - intros s k o E. destruct (bb_to_var o) as [v|] eqn:X; [left; cbn; rewrite X; discriminate|right; split; [reflexivity|]]. destruct o; try exact I; [|discriminate X].
    cbn in *. unfold bb_from_op in E.
    repeat match type of E with
    | (if ?b then _ else _) = _ => destruct b; [discriminate E|]
    | match parse_bool s with Some _ => _ | None => _ end = _ => destruct (parse_bool s)
    | match parse_bv 2 s with Some _ => _ | None => _ end = _ => destruct (parse_bv 2 s) as [c|] eqn:Ep
    | match k with 0 => _ | S _ => _ end = _ => destruct k
    | Some (XLit _) = _ => discriminate E
    | Some (XNum _) = Some (XNum _) => injection E as ->; exact (parse_bv_inr 2 s _ ltac:(lia) Ep)
    end; try discriminate E.
  - apply plain_ok. intros o [_ Ho]. apply bb_reads. exact Ho.
Qed.
(* a literal of a rule that was validated fits 32 bits *)
Lemma math_i32 : forall p e, fold_rec math_to_z3 (instantiate MVar p) = Val e -> forall n o, In n p -> nop n = EN o -> math_to_var o = None -> math_plain o.
Proof.
  intros p e H n o Hn Eo Ev. destruct o; try exact I; [|discriminate Ev].
  unfold fold_rec in H. destruct (run_buf math_to_z3 (instantiate MVar p) []) as [buf|] eqn:Rb; [|discriminate H]. clear H.
  assert (G : forall r b b', run_buf math_to_z3 r b = Val b' -> forall m q, In m r -> nop m = MLit q -> in_i32 (Qnum (this q)) && in_i32 (Zpos (Qden (this q))) = true).
  { induction r as [|m0 r IH]; intros b b' H m q' Hm Em; [destruct Hm|]. cbn [run_buf] in H. destruct (rmapM (index b) (nch m0)) as [args|]; [|discriminate H]. cbn [rbind] in H.
    destruct (math_to_z3 (nop m0) args) as [v|] eqn:Ez; [|discriminate H]. cbn [rbind] in H. destruct Hm as [->|Hm]; [|exact (IH _ _ H m q' Hm Em)].
    rewrite Em in Ez. cbn [math_to_z3] in Ez. destruct args; [|discriminate Ez]. destruct (in_i32 _ && in_i32 _); [reflexivity|discriminate Ez]. }
  specialize (G _ _ _ Rb (Node (MLit q) (nch n)) q). apply andb_true_iff in G as [G1 G2]; [| |reflexivity].
  - cbn. unfold in_i32 in G1, G2. apply andb_true_iff in G1 as [A1 A2], G2 as [A3 A4]. apply Z.leb_le in A1, A3. split; unfold TextSpec.fits.
    + apply Z.leb_le in A2 || apply Z.ltb_lt in A2. lia.
    + apply Z.leb_le in A4 || apply Z.ltb_lt in A4. lia.
  - unfold instantiate. apply in_map_iff. exists n. split; [|exact Hn]. destruct n as [x ch]. cbn in *. now rewrite Eo.
Qed.
Lemma math_readable : forall ov check, exists K, readable (math_lang ov check) math_arity (fun _ => True) K.
Proof.
  intros ov check. eexists. refine (Build_readable _ _ _ _ (fun _ => True) _ _ _ _ (math_admits ov check _ _) _ _ _).
  - exact math_eqb_eq. - reflexivity. - leafs. - auto. - exact (sp_from_op _ _ (math_sampled ov check)). - auto.
  - intros r V U n o J E. destruct (uses_in _ _ _ _ _ _ _ U J E) as [Hn _]. apply math_reads. cbn in V, Hn. unfold math_validate in V.
    destruct (fold_rec math_to_z3 (instantiate MVar (rlhs r))) as [le|] eqn:E1; [|discriminate V]. cbn [rbind] in V.
    destruct (fold_rec math_to_z3 (instantiate MVar (rrhs r))) as [re|] eqn:E2; [|discriminate V].
    apply in_app_iff in J as [J|J]; [exact (math_i32 _ _ E1 n o J E Hn)|exact (math_i32 _ _ E2 n o J E Hn)].
Qed.
