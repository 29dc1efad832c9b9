(* Printing and reading of literals and operators of every domain. *)
From Coq Require Import NArith ZArith QArith Qcanon.
From Verif Require Import Base EnumSpec Lang BV BVSpec BVProofs BVText BoolDom NatDom PosDom BvBoolDom Number Rational Halide
  Syntax Rule Ruleset RuleSpec LangProofs SyntaxProofs RuleTextProofs Domains TextSpec.
Open Scope string_scope.
Open Scope list_scope.

(* ---- characters ---- *)
Definition digit_char (c : ascii) : bool := in_range 48 57 c.
Lemma digit_char_cases c : digit_char c = true ->
  In c ["0"; "1"; "2"; "3"; "4"; "5"; "6"; "7"; "8"; "9"]%char.
Proof. destruct c as [[] [] [] [] [] [] [] []]; intros H; try discriminate H; cbn; tauto. Qed.
Lemma digit_char_of n : (n < 10)%N -> digit_char (ascii_of_N (48 + n)) = true.
Proof.
  intros H. unfold digit_char, in_range. rewrite N_ascii_embedding by lia.
  apply andb_true_iff. split; apply N.leb_le; lia.
Qed.
Lemma digit_of n : (n < 10)%N -> digit 10 (ascii_of_N (48 + n)) = Some n.
Proof.
  intros H. unfold digit. rewrite N_ascii_embedding by lia.
  replace ((48 <=? 48 + n)%N) with true by (symmetry; apply N.leb_le; lia).
  replace ((48 + n <? 48 + 10)%N) with true by (symmetry; apply N.ltb_lt; lia).
  cbn [andb]. f_equal. lia.
Qed.

(* ---- decimal digits ---- *)
Lemma digits_show : forall fuel n acc, (n < 10 ^ N.of_nat fuel)%N ->
  digits 10 (show_digits fuel n acc) 0 = digits 10 acc n.
Proof.
  induction fuel as [|k IH]; intros n acc H.
  - cbn in H. assert (n = 0)%N as -> by lia. reflexivity.
  - cbn [show_digits].
    assert (n mod 10 < 10)%N as Hm by (apply N.mod_lt; lia).
    assert (n = 10 * (n / 10) + n mod 10)%N as Hd by (apply N.div_mod; lia).
    destruct (N.eqb_spec (n / 10) 0) as [E|E].
    + cbn [digits]. rewrite digit_of by assumption. f_equal. lia.
    + rewrite IH.
      * cbn [digits]. rewrite digit_of by assumption. f_equal. lia.
      * rewrite Nat2N.inj_succ, N.pow_succ_r' in H. apply N.div_lt_upper_bound; lia.
Qed.
Lemma show_digits_chars : forall fuel n acc, all_chars digit_char acc = true ->
  all_chars digit_char (show_digits fuel n acc) = true.
Proof.
  induction fuel as [|k IH]; intros n acc H; [exact H|].
  cbn [show_digits]. assert (all_chars digit_char (String (ascii_of_N (48 + n mod 10)) acc) = true) as H'.
  { cbn [all_chars]. rewrite digit_char_of by (apply N.mod_lt; lia). exact H. }
  destruct (N.eqb (n / 10) 0); [exact H'|now apply IH].
Qed.
Lemma show_digits_ne : forall fuel n c acc, show_digits fuel n (String c acc) <> "".
Proof.
  induction fuel as [|k IH]; intros n c acc; cbn [show_digits]; [discriminate|].
  destruct (N.eqb (n / 10) 0); [discriminate|apply IH].
Qed.
Lemma show_digits_first fuel n : exists c r, show_digits (S fuel) n "" = String c r /\ digit_char c = true /\ all_chars digit_char r = true.
Proof.
  pose proof (show_digits_chars (S fuel) n "" eq_refl) as H.
  assert (show_digits (S fuel) n "" <> "") as Hn.
  { cbn [show_digits]. destruct (N.eqb (n / 10) 0); [discriminate|apply show_digits_ne]. }
  destruct (show_digits (S fuel) n "") as [|c r]; [congruence|].
  cbn [all_chars] in H. apply andb_true_iff in H as [H1 H2]. eauto.
Qed.

(* ---- words ---- *)
Lemma all_chars_mono (p q : ascii -> bool) s : (forall c, p c = true -> q c = true) -> all_chars p s = true -> all_chars q s = true.
Proof.
  intros H. induction s as [|c r IH]; [auto|]. cbn [all_chars]. intros E. apply andb_true_iff in E as [E1 E2].
  rewrite (H c E1). auto.
Qed.
(* characters that can stand in a word and are not part of an arrow *)
Definition safe_char (c : ascii) : bool := word_char c && negb (Ascii.eqb c "=").
Lemma safe_word s : s <> "" -> all_chars safe_char s = true -> word s.
Proof.
  intros H1 H2. split; [exact H1|]. revert H2. apply all_chars_mono. intros c H. now apply andb_true_iff in H as [H _].
Qed.
Lemma safe_no_arrow s : all_chars safe_char s = true -> no_arrow s.
Proof.
  intros H a b E. rewrite E in H. clear E s. induction a as [|c a IH].
  - cbn in H. discriminate H.
  - cbn [append all_chars] in H. apply andb_true_iff in H as [_ H]. auto.
Qed.
Lemma digit_safe c : digit_char c = true -> safe_char c = true.
Proof. intros H. apply digit_char_cases in H. cbn in H. repeat destruct H as [<-|H]; try reflexivity. destruct H. Qed.
Lemma ident_safe c : ident_char c = true -> safe_char c = true.
Proof. destruct c as [[] [] [] [] [] [] [] []]; intros H; try discriminate H; reflexivity. Qed.
Lemma letter_ident c : letter_char c = true -> ident_char c = true.
Proof. unfold ident_char. intros ->. reflexivity. Qed.
Lemma identifier_text s : identifier s -> word s /\ no_arrow s /\ (forall c r, s <> String "?" (String c r)).
Proof.
  intros (c & r & -> & Hc & Hr).
  assert (all_chars safe_char (String c r) = true) as H.
  { cbn [all_chars]. rewrite (ident_safe c) by now apply letter_ident. cbn [andb]. revert Hr. apply all_chars_mono, ident_safe. }
  split; [apply safe_word; [discriminate|exact H]|]. split; [now apply safe_no_arrow|].
  intros c' r' E. injection E as -> _. discriminate Hc.
Qed.
Lemma app_safe a b : all_chars safe_char a = true -> all_chars safe_char b = true -> all_chars safe_char (a ++ b) = true.
Proof.
  intros Ha Hb. induction a as [|c a IH]; [exact Hb|]. cbn [append all_chars] in *.
  apply andb_true_iff in Ha as [H1 H2]. rewrite H1. auto.
Qed.

(* ---- bitvectors ---- *)
Lemma pow_39 n : (n < 2 ^ 128)%N -> (n < 10 ^ N.of_nat 39)%N.
Proof. intros H. eapply N.lt_trans; [exact H|]. reflexivity. Qed.
Lemma parse_bv_first w c r : digit_char c = true -> parse_bv w (String c r) =
  match digits 10 (String c r) 0 with
  | Some n => if (n <=? u128_max)%N then Some (bv_new w n) else None
  | None => None
  end.
Proof.
  intros H. apply digit_char_cases in H. cbn in H.
  repeat destruct H as [<-|H]; try destruct H; cbn [parse_bv parse_u128];
    (destruct (digits 10 _ 0); [destruct (N.leb n u128_max)|]; reflexivity).
Qed.
Lemma parse_bv_decimal w n : (w <= 128)%N -> (n < 2 ^ 128)%N -> parse_bv w (show_bv n) = Some (n mod 2 ^ w)%N.
Proof.
  intros Hw Hn. unfold show_bv. destruct (show_digits_first 38 n) as (c & r & E & Hc & _).
  rewrite E, parse_bv_first by assumption. rewrite <- E.
  rewrite digits_show by now apply pow_39. cbn [digits].
  replace ((n <=? u128_max)%N) with true.
  - f_equal. now apply new_mod.
  - symmetry. apply N.leb_le. change u128_max with (2 ^ 128 - 1)%N. lia.
Qed.
Lemma parse_bv_show w c : (w <= 128)%N -> (c < 2 ^ w)%N -> parse_bv w (show_bv c) = Some c.
Proof.
  intros Hw Hc. assert (2 ^ w <= 2 ^ 128)%N by (apply N.pow_le_mono_r; lia).
  rewrite parse_bv_decimal by lia. f_equal. now apply N.mod_small.
Qed.
Lemma digits_bin : forall l a, digits 2 (bin_text l) a = Some (fold_left (fun a (b : bool) => 2 * a + (if b then 1 else 0))%N l a).
Proof.
  induction l as [|b l IH]; intros a; [reflexivity|].
  cbn [bin_text digits]. destruct b.
  - change (digit 2 "1") with (Some 1%N). cbv iota beta. rewrite IH. cbn [fold_left]. do 2 f_equal. lia.
  - change (digit 2 "0") with (Some 0%N). cbv iota beta. rewrite IH. cbn [fold_left]. do 2 f_equal. lia.
Qed.
Lemma bin_bound : forall l a, (fold_left (fun a (b : bool) => 2 * a + (if b then 1 else 0)) l a < (a + 1) * 2 ^ N.of_nat (length l))%N.
Proof.
  induction l as [|b l IH]; intros a; [cbn; lia|].
  cbn [fold_left length]. rewrite Nat2N.inj_succ, N.pow_succ_r'.
  specialize (IH (2 * a + (if b then 1 else 0))%N).
  eapply N.lt_le_trans; [exact IH|]. rewrite N.mul_assoc. apply N.mul_le_mono_r. destruct b; lia.
Qed.
Lemma parse_bv_binary w l : (w <= 128)%N -> l <> [] -> length l <= 128 ->
  parse_bv w (String "#" (String "b" (bin_text l))) = Some (bin_value l mod 2 ^ w)%N.
Proof.
  intros Hw Hl Hn. cbn [parse_bv]. unfold parse_u128.
  assert ((match bin_text l with String "+" r => r | _ => bin_text l end) = bin_text l) as ->.
  { destruct l as [|[] l]; reflexivity. }
  rewrite digits_bin. destruct l as [|b l]; [congruence|]. cbn [bin_text]. fold (bin_value (b :: l)).
  replace ((bin_value (b :: l) <=? u128_max)%N) with true.
  - cbn [option_map]. f_equal. now apply new_mod.
  - symmetry. apply N.leb_le. change u128_max with (2 ^ 128 - 1)%N.
    pose proof (bin_bound (b :: l) 0) as B. fold (bin_value (b :: l)) in B.
    assert (2 ^ N.of_nat (length (b :: l)) <= 2 ^ 128)%N by (apply N.pow_le_mono_r; lia). lia.
Qed.
Lemma parse_bv_letter w s : identifier s -> parse_bv w s = None.
Proof.
  intros (c & r & -> & Hc & _). destruct c as [[] [] [] [] [] [] [] []]; try discriminate Hc; reflexivity.
Qed.

(* ---- signed integers and fractions ---- *)
Lemma fits_in z : fits z -> in_i64 z = true.
Proof. intros [H1 H2]. unfold in_i64, i64_min, i64_max. apply andb_true_iff. split; apply Z.leb_le; lia. Qed.
Lemma pow_20 n : (n <= 2 ^ 63)%N -> (n < 10 ^ N.of_nat 20)%N.
Proof. intros H. eapply N.le_lt_trans; [exact H|]. reflexivity. Qed.
Lemma parse_nat_show n : (n <= 2 ^ 63)%N -> parse_nat (show_N n) = Some n.
Proof.
  intros H. unfold parse_nat, show_N. destruct (show_digits_first 19 n) as (c & r & E & _).
  rewrite E. rewrite <- E. rewrite digits_show by now apply pow_20. reflexivity.
Qed.
Lemma parse_i64_first c r : digit_char c = true -> parse_i64 (String c r) =
  match option_map Z.of_N (parse_nat (String c r)) with Some z => if in_i64 z then Some z else None | None => None end.
Proof.
  intros H. apply digit_char_cases in H. cbn in H.
  repeat destruct H as [<-|H]; try destruct H; reflexivity.
Qed.
Lemma parse_i64_pos z : (0 <= z)%Z -> fits z -> parse_i64 (show_N (Z.to_N z)) = Some z.
Proof.
  intros H0 H. unfold show_N. destruct (show_digits_first 19 (Z.to_N z)) as (c & r & E & Hc & _).
  rewrite E, parse_i64_first by assumption. rewrite <- E. fold (show_N (Z.to_N z)).
  destruct H as [H1 H2]. rewrite parse_nat_show by lia. cbn [option_map]. rewrite Z2N.id by assumption.
  rewrite fits_in by (split; assumption). reflexivity.
Qed.
Lemma parse_i64_show z : fits z -> parse_i64 (show_i64 z) = Some z.
Proof.
  intros H. unfold show_i64. destruct (Z.ltb_spec z 0) as [L|L]; [|now apply parse_i64_pos].
  unfold parse_i64. cbv iota beta zeta. destruct H as [H1 H2]. rewrite parse_nat_show by lia. cbn [option_map].
  rewrite Z2N.id, Z.opp_involutive by lia. rewrite fits_in by (split; assumption). reflexivity.
Qed.
Lemma parse_i64_plus z : (0 <= z)%Z -> fits z -> parse_i64 (String "+" (show_i64 z)) = Some z.
Proof.
  intros H0 H. unfold show_i64. destruct (Z.ltb_spec z 0) as [L|L]; [lia|].
  unfold parse_i64. cbv iota beta zeta. destruct H as [H1 H2]. rewrite parse_nat_show by lia. cbn [option_map].
  rewrite Z2N.id by assumption. rewrite fits_in by (split; assumption). reflexivity.
Qed.
Lemma parse_i64_range s z : parse_i64 s = Some z -> fits z.
Proof.
  unfold parse_i64. match goal with |- context [match ?x with Some _ => _ | None => None end] => destruct x as [y|] eqn:E end; [|discriminate].
  destruct (in_i64 y) eqn:I; [|discriminate]. intros H. injection H as <-.
  unfold in_i64, i64_min, i64_max in I. apply andb_true_iff in I as [I1 I2]. apply Z.leb_le in I1, I2. split; lia.
Qed.
Lemma parse_i64_letter s : identifier s -> parse_i64 s = None.
Proof.
  intros (c & r & -> & Hc & _). destruct c as [[] [] [] [] [] [] [] []]; try discriminate Hc; reflexivity.
Qed.
Definition num_char (c : ascii) : bool := digit_char c || Ascii.eqb c "-".
Lemma num_safe c : num_char c = true -> safe_char c = true.
Proof. destruct c as [[] [] [] [] [] [] [] []]; intros H; try discriminate H; reflexivity. Qed.
Lemma show_i64_chars z : all_chars num_char (show_i64 z) = true.
Proof.
  assert (forall n, all_chars num_char (show_N n) = true) as H.
  { intros n. apply (all_chars_mono digit_char); [unfold num_char; intros c ->; reflexivity|]. now apply show_digits_chars. }
  unfold show_i64. destruct (Z.ltb z 0); [|apply H]. cbn [all_chars]. rewrite H. reflexivity.
Qed.
Lemma show_i64_first z : exists c r, show_i64 z = String c r /\ num_char c = true.
Proof.
  unfold show_i64. destruct (Z.ltb z 0); [eexists _, _; split; reflexivity|].
  unfold show_N. destruct (show_digits_first 19 (Z.to_N z)) as (c & r & E & Hc & _). exists c, r. split; [exact E|].
  unfold num_char. rewrite Hc. reflexivity.
Qed.
Lemma split_slash_none s : all_chars num_char s = true -> split_slash s = (s, None).
Proof.
  induction s as [|c r IH]; [reflexivity|]. cbn [all_chars split_slash]. intros H. apply andb_true_iff in H as [H1 H2].
  destruct (Ascii.eqb_spec c "/") as [->|_]; [discriminate H1|]. now rewrite IH.
Qed.
Lemma split_slash_some s r : all_chars num_char s = true -> split_slash (s ++ String "/" r) = (s, Some r).
Proof.
  induction s as [|c s IH]; [reflexivity|]. cbn [all_chars split_slash append]. intros H. apply andb_true_iff in H as [H1 H2].
  destruct (Ascii.eqb_spec c "/") as [->|_]; [discriminate H1|]. now rewrite IH.
Qed.
Lemma parse_ratio_int z : fits z -> parse_ratio (show_i64 z) = Some (Q2Qc (inject_Z z)).
Proof.
  intros H. unfold parse_ratio. rewrite split_slash_none by apply show_i64_chars. rewrite parse_i64_show by assumption.
  reflexivity.
Qed.
Lemma parse_ratio_frac n d : fits n -> fits d ->
  parse_ratio (show_i64 n ++ String "/" (show_i64 d)) = mk_ratio n d.
Proof.
  intros Hn Hd. unfold parse_ratio. rewrite split_slash_some by apply show_i64_chars.
  rewrite !parse_i64_show by assumption. reflexivity.
Qed.
Lemma mk_ratio_value n d : d <> 0%Z -> exists q, mk_ratio n d = Some q /\ (q * Q2Qc (inject_Z d) = Q2Qc (inject_Z n))%Qc.
Proof.
  intros Hd. destruct d as [|p|p]; [congruence| |].
  - exists (Q2Qc (n # p)). split; [reflexivity|]. apply Qc_is_canon. unfold Qcmult. cbn [this Q2Qc]. rewrite !Qred_correct.
    unfold Qeq, inject_Z, Qmult. cbn [Qnum Qden]. lia.
  - exists (Q2Qc ((- n) # p)). split; [reflexivity|]. apply Qc_is_canon. unfold Qcmult. cbn [this Q2Qc]. rewrite !Qred_correct.
    unfold Qeq, inject_Z, Qmult. cbn [Qnum Qden]. lia.
Qed.
Lemma parse_ratio_show q : fits (Qnum (this q)) -> fits (Zpos (Qden (this q))) -> parse_ratio (show_ratio q) = Some q.
Proof.
  intros Hn Hd. unfold show_ratio. assert (Q2Qc (this q) = q) as Eq.
  { apply Qc_is_canon. cbn [this Q2Qc]. apply Qred_correct. }
  destruct (Z.eqb_spec (Zpos (Qden (this q))) 1) as [E|E].
  - rewrite parse_ratio_int by assumption. f_equal. rewrite <- Eq at 2. f_equal.
    unfold inject_Z. destruct (this q) as [a b]. cbn in *. injection E as ->. reflexivity.
  - rewrite parse_ratio_frac by assumption. cbn [mk_ratio]. f_equal. rewrite <- Eq at 3. f_equal. now destruct (this q).
Qed.
Lemma parse_ratio_letter s : identifier s -> parse_ratio s = None.
Proof.
  intros (c & r & -> & Hc & _). unfold parse_ratio. cbn [split_slash].
  destruct (Ascii.eqb_spec c "/") as [->|_]; [discriminate Hc|].
  destruct (split_slash r) as [a b].
  assert (parse_i64 (String c a) = None) as ->; [|reflexivity].
  destruct c as [[] [] [] [] [] [] [] []]; try discriminate Hc; reflexivity.
Qed.

(* ---- texts of literals are words ---- *)
Lemma num_text c r : num_char c = true -> all_chars safe_char (String c r) = true ->
  word (String c r) /\ no_arrow (String c r) /\ (forall c' r', String c r <> String "?" (String c' r')).
Proof.
  intros Hc H. split; [apply safe_word; [discriminate|exact H]|]. split; [now apply safe_no_arrow|].
  intros c' r' E. injection E as -> _. discriminate Hc.
Qed.
Lemma show_bv_text n : word (show_bv n) /\ no_arrow (show_bv n) /\ (forall c r, show_bv n <> String "?" (String c r)).
Proof.
  unfold show_bv. destruct (show_digits_first 38 n) as (c & r & E & Hc & Hr). rewrite E. apply num_text.
  - unfold num_char. rewrite Hc. reflexivity.
  - apply (all_chars_mono digit_char); [apply digit_safe|]. cbn [all_chars]. rewrite Hc. exact Hr.
Qed.
Lemma show_i64_text z : word (show_i64 z) /\ no_arrow (show_i64 z) /\ (forall c r, show_i64 z <> String "?" (String c r)).
Proof.
  pose proof (show_i64_chars z) as H. destruct (show_i64_first z) as (c & r & E & Hc). rewrite E in *.
  apply num_text; [exact Hc|]. revert H. apply all_chars_mono, num_safe.
Qed.
Lemma show_ratio_text q : word (show_ratio q) /\ no_arrow (show_ratio q) /\ (forall c r, show_ratio q <> String "?" (String c r)).
Proof.
  unfold show_ratio. destruct (Z.eqb (Zpos (Qden (this q))) 1); [apply show_i64_text|].
  pose proof (show_i64_chars (Qnum (this q))) as H. pose proof (show_i64_chars (Zpos (Qden (this q)))) as H'.
  assert (all_chars safe_char (show_i64 (Qnum (this q)) ++ String "/" (show_i64 (Zpos (Qden (this q))))) = true) as S.
  { apply app_safe; [revert H; apply all_chars_mono, num_safe|]. cbn [all_chars]. change (safe_char "/") with true. cbn [andb].
    revert H'. apply all_chars_mono, num_safe. }
  destruct (show_i64_first (Qnum (this q))) as (c & r & E & Hc). rewrite E in *. cbn [append] in *. now apply num_text.
Qed.

(* ---- operators ---- *)
Ltac op_text := split; [split; [discriminate|reflexivity]|]; split; [apply split_arrow_none; reflexivity|];
  split; [reflexivity|intros ? ? E; discriminate E].
Ltac ops := unfold eov_ok; cbn [bv_name bool_name nat_name pos_name bb_name hal_name math_name
  bv_arity bool_arity nat_arity pos_arity bb_arity hal_arity math_arity].
Ltac from H := destruct H as (? & ? & ?); split; [assumption|]; split; [assumption|]; split; [|assumption].
Ltac zero := cbn [Nat.eqb]; rewrite ?andb_false_r.

Lemma parse_bool_none s : s <> "true" -> s <> "false" -> parse_bool s = None.
Proof. intros H1 H2. unfold parse_bool. destruct (String.eqb_spec s "true"); [congruence|]. destruct (String.eqb_spec s "false"); [congruence|reflexivity]. Qed.

Lemma bv_reads w o : (w <= 128)%N -> bv_plain w o -> eov_ok (bv_from_op w) bv_name bv_arity (EN o).
Proof.
  intros Hw H. destruct o; try op_text; ops.
  - from (show_bv_text c). unfold bv_from_op. zero. rewrite parse_bv_show by assumption. reflexivity.
  - cbn in H. from (identifier_text s H). unfold bv_from_op. zero. rewrite parse_bv_letter by assumption. reflexivity.
Qed.
Lemma bool_reads o : bool_plain o -> eov_ok bool_from_op bool_name bool_arity (EN o).
Proof.
  intros H. destruct o as [| | | | |[]|s]; try op_text; ops.
  destruct H as (H & H1 & H2). from (identifier_text s H). unfold bool_from_op. zero. rewrite parse_bool_none by assumption. reflexivity.
Qed.
Lemma nat_reads o : nat_plain o -> eov_ok nat_from_op nat_name nat_arity (EN o).
Proof.
  intros H. destruct o; try op_text; ops.
  destruct H as (H & H1). from (identifier_text s H). unfold nat_from_op. zero. destruct (String.eqb_spec s "Z"); [congruence|reflexivity].
Qed.
Lemma pos_reads o : pos_plain o -> eov_ok pos_from_op pos_name pos_arity (EN o).
Proof.
  intros H. destruct o; try op_text; ops.
  destruct H as (H & H1 & H2). from (identifier_text s H). unfold pos_from_op. zero.
  destruct (String.eqb_spec s "Z"); [congruence|]. destruct (String.eqb_spec s "XH"); [congruence|reflexivity].
Qed.
Lemma show_bv_not_bool n : parse_bool (show_bv n) = None.
Proof.
  unfold show_bv. destruct (show_digits_first 38 n) as (c & r & E & Hc & _). rewrite E.
  apply parse_bool_none; intros E'; injection E' as -> _; discriminate Hc.
Qed.
Lemma bb_reads o : bb_plain o -> eov_ok bb_from_op bb_name bb_arity (EN o).
Proof.
  intros H. destruct o as [| | | | |[]| | | | |v|s| | |]; try op_text; ops.
  - from (show_bv_text v). unfold bb_from_op. zero. rewrite show_bv_not_bool. rewrite parse_bv_show; [reflexivity|lia|exact H].
  - destruct H as (H & H1 & H2). from (identifier_text s H). unfold bb_from_op. zero. rewrite parse_bool_none by assumption.
    rewrite parse_bv_letter by assumption. reflexivity.
Qed.
Lemma hal_reads o : hal_plain o -> eov_ok hal_from_op hal_name hal_arity (EN o).
Proof.
  intros H. destruct o; try op_text; ops.
  - from (show_i64_text z). unfold hal_from_op. zero. rewrite parse_i64_show by assumption. reflexivity.
  - cbn in H. from (identifier_text s H). unfold hal_from_op. zero. rewrite parse_i64_letter by assumption. reflexivity.
Qed.
Lemma math_reads o : math_plain o -> eov_ok math_from_op math_name math_arity (EN o).
Proof.
  intros H. destruct o; try op_text; ops.
  - destruct H as [Hn Hd]. from (show_ratio_text q). unfold math_from_op. zero. rewrite parse_ratio_show by assumption. reflexivity.
  - cbn in H. from (identifier_text s H). unfold math_from_op. zero. rewrite parse_ratio_letter by assumption. reflexivity.
Qed.

(* ---- terms ---- *)
Lemma eov_op {O} from_op (name : O -> string) ar o : eov_ok from_op name ar (EN o) -> op_ok from_op name ar o.
Proof. intros (H & _ & H' & _). split; assumption. Qed.
Lemma term_reads {O} from_op (name : O -> string) ar (P : O -> Prop) :
  (forall o, P o -> eov_ok from_op name ar (EN o)) ->
  forall t, wf_term ar t -> tall P t -> parse_rec from_op (show_term name t) = Some (to_rec t).
Proof.
  intros H t Hw Ht.
  assert (forall s, (s ++ "")%string = s) as A by (induction s as [|c s IH]; cbn; congruence).
  rewrite <- (A (show_term name t)). apply (parse_rec_show _ _ ar); [|exact Hw|exact I].
  eapply tall_mono; [|exact Ht]. intros o Ho. apply eov_op. auto.
Qed.
Lemma term_distinct {O} from_op (name : O -> string) ar (P : O -> Prop) :
  (forall o, P o -> eov_ok from_op name ar (EN o)) ->
  forall t u, wf_term ar t -> tall P t -> wf_term ar u -> tall P u -> show_term name t = show_term name u -> t = u.
Proof.
  intros H t u Ht1 Ht2 Hu1 Hu2. apply (show_inj from_op name ar); try assumption.
  - eapply tall_mono; [|exact Ht2]. intros o Ho. apply eov_op. auto.
  - eapply tall_mono; [|exact Hu2]. intros o Ho. apply eov_op. auto.
Qed.
