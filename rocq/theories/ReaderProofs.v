From Verif Require Import Base BaseProofs Lines Sexp Reader Pattern Filter Workload EnumSpec SexpProofs.
Open Scope string_scope.
Open Scope list_scope.

Lemma sapp_assoc (a b c : string) : ((a ++ b) ++ c = a ++ (b ++ c))%string.
Proof. induction a; simpl; congruence. Qed.

Lemma sapp_nil (a : string) : (a ++ "" = a)%string.
Proof. induction a; simpl; congruence. Qed.

Lemma word_char_delim c : word_char c = negb (is_delim c).
Proof.
  unfold word_char, is_delim, is_space. simpl. f_equal.
  rewrite !orb_false_r, !orb_assoc. reflexivity.
Qed.

Lemma lex_word w s cur :
  all_chars word_char w = true -> lex (w ++ s)%string cur = lex s (cur ++ w)%string.
Proof.
  revert cur; induction w as [|c w IH]; intros cur H; simpl in *.
  - now rewrite sapp_nil.
  - apply andb_prop in H as [Hc H]. rewrite word_char_delim in Hc. unfold is_delim in Hc.
    destruct (is_space c); [discriminate|]. simpl in Hc.
    destruct (Ascii.eqb c "("); [discriminate|].
    destruct (Ascii.eqb c ")"); [discriminate|].
    destruct (Ascii.eqb c """"); [discriminate|].
    rewrite IH by assumption. now rewrite sapp_assoc.
Qed.

(* the text after a word is empty or starts with a delimiter *)
Definition cut (s : string) : Prop :=
  match s with "" => True | String c _ => is_delim c = true end.

Lemma lex_cut s cur : cut s -> cur <> "" -> lex s cur = TWord cur :: lex s "".
Proof.
  intros H Hc. assert (Hf : forall r, flush cur r = TWord cur :: r) by (intros; destruct cur; [congruence|reflexivity]).
  destruct s as [|c s]; simpl in *; [apply Hf|].
  unfold is_delim in H. destruct (is_space c); [apply Hf|].
  destruct (Ascii.eqb c "("); [apply Hf|].
  destruct (Ascii.eqb c ")"); [apply Hf|].
  destruct (Ascii.eqb c """"); [apply Hf|discriminate].
Qed.

Lemma lex_word_cut w s : word w -> cut s -> lex (w ++ s)%string "" = TWord w :: lex s "".
Proof. intros [Hne Hw] Hs. rewrite lex_word by assumption. simpl. now apply lex_cut. Qed.

Fixpoint toks (t : sexp) : list token :=
  match t with
  | Atom x => [TWord x]
  | Lst l => TOpen :: flat_map toks l ++ [TClose]
  end.

Lemma words_list l : words (Lst l) <-> forall t, In t l -> words t.
Proof.
  cbn [words]. induction l as [|x l IH]; simpl; [tauto|]. rewrite IH. split.
  - intros [H1 H2] t [<-|Ht]; auto.
  - intros H; split; auto.
Qed.

Lemma lex_display t : words t -> forall rest, cut rest ->
  lex (display t ++ rest)%string "" = toks t ++ lex rest "".
Proof.
  induction t as [x|l IH] using sexp_ind'; intros Hw rest Hc.
  - now apply lex_word_cut.
  - rewrite words_list in Hw. cbn [display toks].
    assert (Hl : lex (fold_right (fun x acc => display x ++ " " ++ acc)%string ")" l ++ rest)%string ""
                 = flat_map toks l ++ TClose :: lex rest "").
    { induction IH as [|x l Hx Hl IHl].
      - reflexivity.
      - cbn [fold_right flat_map]. rewrite !sapp_assoc. rewrite Hx.
        + rewrite <- app_assoc. f_equal. cbn. apply IHl. intros; apply Hw; simpl; auto.
        + apply Hw; simpl; auto.
        + reflexivity. }
    transitivity (TOpen :: lex (fold_right (fun x acc => display x ++ " " ++ acc)%string ")" l ++ rest)%string "");
      [reflexivity|].
    rewrite Hl. cbn [app]. rewrite <- app_assoc. reflexivity.
Qed.

Lemma read_toks t r cur st : read_tokens (toks t ++ r) (cur :: st) = read_tokens r ((t :: cur) :: st).
Proof.
  revert r cur st; induction t as [x|l IH] using sexp_ind'; intros r cur st; [reflexivity|].
  cbn [toks app read_tokens].
  assert (H : forall acc, read_tokens ((flat_map toks l ++ [TClose]) ++ r) (acc :: cur :: st)
              = read_tokens r ((Lst (rev acc ++ l) :: cur) :: st)).
  { induction IH as [|x l Hx Hl IHl]; intros acc.
    - cbn. now rewrite app_nil_r.
    - cbn [flat_map]. rewrite <- !app_assoc, Hx, app_assoc, IHl. simpl. now rewrite <- app_assoc. }
  now rewrite H.
Qed.

Lemma read_toks_top t r : read_tokens (toks t ++ r) [] = Some t.
Proof.
  destruct t as [x|l]; [reflexivity|]. cbn [toks app read_tokens].
  assert (H : forall acc, read_tokens ((flat_map toks l ++ [TClose]) ++ r) [acc] = Some (Lst (rev acc ++ l))).
  { induction l as [|x l IHl]; intros acc.
    - cbn. now rewrite app_nil_r.
    - cbn [flat_map]. rewrite <- !app_assoc, read_toks, app_assoc, IHl. simpl. now rewrite <- app_assoc. }
  now rewrite H.
Qed.

Lemma parse_display t rest : words t -> cut rest -> parse_str (display t ++ rest)%string = Some t.
Proof. intros Hw Hc. unfold parse_str, tokens. rewrite lex_display by assumption. apply read_toks_top. Qed.

Lemma sexp_from_display t : words t -> sexp_from_str (display t) = Val t.
Proof.
  intros Hw. unfold sexp_from_str. rewrite <- (sapp_nil (display t)), parse_display; simpl; auto.
Qed.

Lemma parse_word w : word w -> parse_str w = Some (Atom w).
Proof.
  intros H. pose proof (parse_display (Atom w) "" H I) as E. simpl in E. now rewrite sapp_nil in E.
Qed.

Lemma pattern_from_word w :
  word w -> w <> "*" -> starts_q w = false -> pattern_from_str w = Val (PLit w).
Proof.
  intros H H1 H2. unfold pattern_from_str. rewrite parse_word by assumption. simpl.
  destruct (String.eqb_spec w "*"); [contradiction|]. now rewrite H2.
Qed.

(* ---- display is injective on words ---- *)
Lemma display_inj a b : words a -> words b -> display a = display b -> a = b.
Proof.
  intros Ha Hb E. apply sexp_from_display in Ha, Hb. rewrite E in Ha. congruence.
Qed.

(* ---- lines ---- *)
Definition no_char (c : ascii) (s : string) : Prop := all_chars (fun d => negb (Ascii.eqb d c)) s = true.

Lemma all_chars_app p a b : all_chars p (a ++ b)%string = all_chars p a && all_chars p b.
Proof. induction a as [|c a IH]; simpl; [reflexivity|]. now rewrite IH, andb_assoc. Qed.

Lemma all_chars_impl p q s : (forall c, p c = true -> q c = true) -> all_chars p s = true -> all_chars q s = true.
Proof.
  intros H; induction s as [|c s IH]; simpl; [auto|]. intros Hs. apply andb_prop in Hs as [H1 H2].
  now rewrite H, IH.
Qed.

Lemma strip_cr_id s : no_char carriage s -> strip_cr s = s.
Proof.
  unfold no_char. induction s as [|c s IH]; [reflexivity|]. intros H. simpl in H. apply andb_prop in H as [H1 H2].
  cbn [strip_cr]. destruct s as [|d s].
  - apply negb_true_iff in H1. now rewrite H1.
  - now rewrite IH.
Qed.

Lemma lines_from_cons l s cur :
  no_char newline l -> lines_from (l ++ String newline s)%string cur = strip_cr (cur ++ l) :: lines_from s "".
Proof.
  unfold no_char. revert cur; induction l as [|c l IH]; intros cur H.
  - cbn. now rewrite sapp_nil.
  - cbn in H. apply andb_prop in H as [H1 H2]. apply negb_true_iff in H1. cbn [append lines_from].
    rewrite H1, IH by assumption. now rewrite sapp_assoc.
Qed.

Lemma lines_unlines ls :
  (forall l, In l ls -> no_char newline l /\ no_char carriage l) -> lines (unlines ls) = ls.
Proof.
  unfold lines. induction ls as [|l ls IH]; intros H; [reflexivity|].
  cbn [unlines]. destruct (H l (or_introl eq_refl)) as [H1 H2].
  rewrite lines_from_cons by assumption. cbn [append].
  rewrite strip_cr_id by assumption. f_equal. apply IH. intros; apply H; simpl; auto.
Qed.

Lemma display_no_char c t : c <> " "%char -> c <> "("%char -> c <> ")"%char ->
  (forall d, word_char d = true -> d <> c) -> words t -> no_char c (display t).
Proof.
  intros N1 N2 N3 Hd Hw.
  assert (E : forall d, d <> c -> negb (Ascii.eqb d c) = true).
  { intros d H. apply negb_true_iff. now apply Ascii.eqb_neq. }
  unfold no_char. induction t as [x|l IH] using sexp_ind'.
  - destruct Hw as [_ Hw]. cbn [display]. eapply all_chars_impl; [|eassumption]. auto.
  - rewrite words_list in Hw. cbn [display]. cbn [append all_chars]. rewrite E by congruence.
    cbn [andb]. induction IH as [|x l Hx Hl IHl].
    + cbn [fold_right all_chars]. now rewrite E by congruence.
    + cbn [fold_right]. rewrite !all_chars_app, Hx by (apply Hw; simpl; auto). cbn [all_chars andb].
      rewrite (E " "%char) by congruence. cbn. apply IHl. intros; apply Hw; simpl; auto.
Qed.

Lemma display_one_line t : words t -> no_char newline (display t) /\ no_char carriage (display t).
Proof.
  intros H; split; apply display_no_char; try discriminate; try assumption;
    intros d Hd ->; discriminate Hd.
Qed.

Lemma workload_roundtrip w ts :
  force w = Val ts -> (forall t, In t ts -> words t) ->
  exists content w', to_file w = Val content /\ from_file content = Val w' /\ force w' = Val ts.
Proof.
  intros Hf Hw. exists (unlines (map display ts)), (WSet ts).
  unfold to_file, from_file. rewrite Hf. split; [reflexivity|]. split; [|reflexivity].
  rewrite lines_unlines.
  - replace (rmapM sexp_from_str (map display ts)) with (Val ts); [reflexivity|].
    clear Hf. induction ts as [|t ts IH]; [reflexivity|]. cbn [map rmapM].
    rewrite sexp_from_display by (apply Hw; simpl; auto). cbn [rbind].
    rewrite <- IH by (intros; apply Hw; simpl; auto). reflexivity.
  - intros l Hl. apply in_map_iff in Hl as [t [<- Ht]]. now apply display_one_line, Hw.
Qed.
