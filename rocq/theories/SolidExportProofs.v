(* The replacements in the text are what exported does to the term. *)
From Coq Require Import ZArith.
From Verif Require Import EnumSpec.
From Verif Require Import Base BaseProofs Sexp Lang LangProofs Syntax Rule Util UtilProofs Number ReaderProofs TextSpec TextProofs Ruleset Recipe Solid SolidExport SolidExportSpec.
Open Scope string_scope.
Open Scope list_scope.

Lemma app_assoc_s : forall a b c : string, ((a ++ b) ++ c = a ++ b ++ c)%string.
Proof. induction a as [|x a IH]; intros b c; [reflexivity|]. cbn. now rewrite IH. Qed.
Definition args (l : list sexp) : string := fold_right (fun t acc => " " ++ spaced t ++ acc)%string ")" l.
Definition ending (k : string) : Prop := k = "" \/ exists c k', k = String c k' /\ (c = " " \/ c = ")")%char.
(* after the first i replacements *)
Fixpoint after (i : nat) (t : term (eov cf_op)) : sexp :=
  match t with T o ts =>
    let w := Atom (pat_name cf_name o) in let l := map (after i) ts in
    match o, ts with
    | EN CLit, [T (EN (CLiteral z)) []] => if Nat.ltb 3 i && Z.eqb z 0 then Atom "0" else if Nat.ltb 4 i && Z.eqb z 1 then Atom "1" else Lst (w :: l)
    | EN CScale, _ => if Nat.ltb 0 i then Lst (Atom "Affine" :: w :: l) else Lst (w :: l)
    | EN CTrans, _ => if Nat.ltb 1 i then Lst (Atom "Affine" :: w :: l) else Lst (w :: l)
    | EN COp, _ => if Nat.ltb 2 i then Lst l else Lst (w :: l)
    | _, [] => w
    | _, _ => Lst (w :: l)
    end
  end.
Lemma after_last : forall t, after 5 t = exported t.
Proof.
  induction t as [o ts IH] using term_ind'. assert (E : map (after 5) ts = map exported ts) by (apply map_ext_Forall; exact IH).
  cbn [after exported]. rewrite E. reflexivity.
Qed.
Lemma lettered_all : forall ts, fold_right (fun t acc => lettered t /\ acc) True ts -> Forall lettered ts.
Proof. induction ts as [|t ts IH]; cbn; [constructor|]. intros [A B]. constructor; auto. Qed.
(* an induction over lettered terms: leaves, literals and the operators with arguments *)
Definition leaf_names : list string := ["max"; "min"; "+"; "-"; "*"; "/"; "x"; "y"; "z"; "true"; "false"; "Empty"].
Definition head_names : list string := ["subst"; "Scalar"; "Cube"; "Cylinder"; "Sphere"; "Union"; "Inter"; "Vec3"].
Inductive view : term (eov cf_op) -> Prop :=
  | V_leaf o : In (pat_name cf_name o) leaf_names -> (forall i, after i (T o []) = Atom (pat_name cf_name o)) -> view (T o [])
  | V_var v n : letter n = Val v -> view (T (PV v) [])
  | V_num z : in_i64 z = true -> view (T (EN (CLiteral z)) [])
  | V_head o ts : ts <> [] -> In (pat_name cf_name o) head_names -> (forall i, after i (T o ts) = Lst (Atom (pat_name cf_name o) :: map (after i) ts)) -> view (T o ts)
  | V_scale x y : view (T (EN CScale) [x; y])
  | V_trans x y : view (T (EN CTrans) [x; y])
  | V_op x y z : view (T (EN COp) [x; y; z])
  | V_lit x : view (T (EN CLit) [x]).
Lemma viewed : forall t, lettered t -> view t.
Proof.
  intros [o ts] [H _]. destruct o as [o|v]; [|destruct H as [-> (n & H)]; now apply V_var with n].
  assert (X : (exists z, o = CLiteral z) \/ forall z, o <> CLiteral z) by (destruct o; eauto; right; discriminate). destruct X as [(z & ->)|X]; [destruct H as [-> H]; now apply V_num|].
  destruct o; cbn in H; try contradiction; try (elim (X _ eq_refl)); destruct ts as [|? [|? [|? [|? [|? ?]]]]]; try discriminate H;
    first [exact (V_op _ _ _)|exact (V_scale _ _)|exact (V_trans _ _)|exact (V_lit _)|apply V_leaf; [cbn; tauto|reflexivity]|apply V_head; [discriminate|cbn; tauto|reflexivity]].
Qed.

(* ---- one replacement ---- *)
Section Pass.
  Variable p r : string.
  Variable i : nat.
  Local Notation rep := (replace_from p r 0).
  Definition passes (t : term (eov cf_op)) : Prop := forall k, ending k -> rep (spaced (after i t) ++ k)%string = (spaced (after (S i) t) ++ rep k)%string.
  Lemma rep_char : forall c s, String.prefix p (String c s) = false -> rep (String c s) = String c (rep s).
  Proof. intros c s H. cbn [replace_from]. now rewrite H. Qed.
  Hypothesis P0 : exists c p', p = String c p' /\ c <> " "%char /\ c <> ")"%char /\ digit_char c = false /\ c <> "-"%char.
  Lemma first_not : forall c s, (forall p', p <> String c p') -> String.prefix p (String c s) = false.
  Proof. intros c s H. destruct P0 as (d & p' & E & _). rewrite E in *. cbn [String.prefix]. destruct (ascii_dec d c) as [->|]; [elim (H p' eq_refl)|reflexivity]. Qed.
  Lemma rep_args : forall ts k, Forall passes ts -> rep (args (map (after i) ts) ++ k)%string = (args (map (after (S i)) ts) ++ rep k)%string.
  Proof.
    intros ts k F. destruct P0 as (c & p' & E & N1 & N2 & _). induction F as [|t ts Ht F IH].
    - cbn [map args fold_right append]. rewrite rep_char; [reflexivity|]. apply first_not. congruence.
    - change (args (map (after i) (t :: ts))) with (String " " (spaced (after i t) ++ args (map (after i) ts))). change (args (map (after (S i)) (t :: ts))) with (String " " (spaced (after (S i) t) ++ args (map (after (S i)) ts))).
      cbn [append]. rewrite rep_char by (apply first_not; congruence). f_equal. rewrite !app_assoc_s. rewrite (Ht (args (map (after i) ts) ++ k)%string); [now rewrite IH|].
      right. destruct ts as [|u us]; cbn; do 2 eexists; (split; [reflexivity|tauto]).
  Qed.
  Lemma rep_digits : forall w k, all_chars digit_char w = true -> rep (w ++ k)%string = (w ++ rep k)%string.
  Proof.
    induction w as [|c w IH]; intros k H; [reflexivity|]. cbn in H. apply andb_prop in H as [H1 H2]. cbn [append]. rewrite rep_char; [now rewrite IH|]. apply first_not. intros p' E. destruct P0 as (d & q & E' & _ & _ & D & _). rewrite E in E'. injection E' as -> _. congruence.
  Qed.
  Lemma rep_i64 : forall z k, rep (show_i64 z ++ k)%string = (show_i64 z ++ rep k)%string.
  Proof.
    intros z k. unfold show_i64, show_N. destruct (Z.ltb z 0).
    - cbn [append]. rewrite rep_char; [rewrite rep_digits; [reflexivity|now apply show_digits_chars]|]. apply first_not. intros p' E. destruct P0 as (d & q & E' & _ & _ & _ & D). congruence.
    - apply rep_digits. now apply show_digits_chars.
  Qed.
End Pass.
Lemma all_pass : forall p r i, (forall o ts, lettered (T o ts) -> Forall (passes p r i) ts -> passes p r i (T o ts)) -> forall t, lettered t -> passes p r i t.
Proof.
  intros p r i H t. induction t as [o ts IH] using term_ind'. intros L. apply H; [exact L|]. destruct L as [_ L]. apply lettered_all in L. rewrite Forall_forall in *. auto.
Qed.
Lemma spaced_list : forall x l k, (spaced (Lst (x :: l)) ++ k = String "(" (spaced x ++ args l ++ k))%string.
Proof. intros x l k. cbn [spaced]. fold (args l). cbn [append]. now rewrite app_assoc_s. Qed.
Lemma args_first : forall l k, l <> [] -> exists s, (args l ++ k)%string = String " " s.
Proof. intros [|x l] k N; [congruence|]. cbn. eauto. Qed.
Lemma letter_in : forall n v, letter n = Val v -> In v (map (fun c => String c "") (list_ascii_of_string "abcdefghijklmnopqrstuvwxyz")).
Proof.
  intros n v H. unfold letter in H. destruct (String.get n "abcdefghijklmnopqrstuvwxyz") as [c|] eqn:E; [|discriminate H]. injection H as <-. apply (in_map (fun c => String c "")). change (In c (list_ascii_of_string "abcdefghijklmnopqrstuvwxyz")).
  do 26 (destruct n as [|n]; [cbn in E; injection E as <-; cbn; tauto|]). destruct n; discriminate E.
Qed.
Definition variables : list string := map (fun c => String "?" (String c "")) (list_ascii_of_string "abcdefghijklmnopqrstuvwxyz").
Lemma variable_in : forall n v, letter n = Val v -> In ("?" ++ v)%string variables.
Proof. intros n v H. apply letter_in in H. apply in_map_iff in H as (c & <- & I). unfold variables. apply in_map_iff. exists c. split; [reflexivity|exact I]. Qed.
(* words, and what an opened list begins with, stay *)
Definition stays (p r : string) : Prop :=
  (forall w k, In w (leaf_names ++ variables) -> ending k -> replace_from p r 0 (w ++ k)%string = (w ++ replace_from p r 0 k)%string) /\
  (forall w s, In w head_names -> replace_from p r 0 (String "(" (w ++ String " " s)) = String "(" (w ++ replace_from p r 0 (String " " s))%string).
Ltac stays_tac := split;
  [intros w k I Hk; cbn in I; repeat (destruct I as [<-|I]; [destruct Hk as [->|(c & k' & -> & [->| ->])]; reflexivity|]); destruct I
  |intros w s I; cbn in I; repeat (destruct I as [<-|I]; [reflexivity|]); destruct I].
Lemma stays1 : stays "Scale" "Affine Scale". Proof. stays_tac. Qed.
Lemma stays2 : stays "Trans" "Affine Trans". Proof. stays_tac. Qed.
Lemma stays3 : stays "op " "". Proof. stays_tac. Qed.
Lemma stays4 : stays "(Lit 0)" "0". Proof. stays_tac. Qed.
Lemma stays5 : stays "(Lit 1)" "1". Proof. stays_tac. Qed.
Section Common.
  Variable p r : string.
  Variable i : nat.
  Hypothesis P0 : exists c p', p = String c p' /\ c <> " "%char /\ c <> ")"%char /\ digit_char c = false /\ c <> "-"%char.
  Hypothesis St : stays p r.
  Local Notation rep := (replace_from p r 0).
  Lemma pass_common :
    (forall o x y, o = CScale \/ o = CTrans -> lettered x -> lettered y -> Forall (passes p r i) [x; y] -> passes p r i (T (EN o) [x; y])) ->
    (forall x y z, lettered x -> Forall (passes p r i) [x; y; z] -> passes p r i (T (EN COp) [x; y; z])) ->
    (forall x, lettered x -> passes p r i x -> passes p r i (T (EN CLit) [x])) -> forall t, lettered t -> passes p r i t.
  Proof.
    intros Hs Ho Hl. apply all_pass. intros o ts L F. pose proof L as [_ La]. apply lettered_all in La. apply viewed in L. inversion L as [o' I A|v n I|z I|o' ts' N I A|x y|x y|x y z|x]; subst.
    - intros k Hk. rewrite !A. cbn [spaced]. apply (proj1 St); [apply in_or_app; now left|exact Hk].
    - intros k Hk. cbn [after spaced pat_name]. apply (proj1 St); [apply in_or_app; right; exact (variable_in n v I)|exact Hk].
    - intros k Hk. cbn [after spaced pat_name cf_name map]. exact (rep_i64 p r P0 z k).
    - intros k Hk. rewrite !A. rewrite !spaced_list. cbn [spaced]. pose proof (rep_args p r i P0 ts k F) as E. destruct (args_first (map (after i) ts) k) as (s & Es); [destruct ts; [congruence|discriminate]|].
      rewrite Es in *. rewrite (proj2 St _ s I). now rewrite E.
    - inversion La as [|? ? L1 La1]; subst. inversion La1; subst. apply Hs; auto.
    - inversion La as [|? ? L1 La1]; subst. inversion La1; subst. apply Hs; auto.
    - inversion La; subst. now apply Ho.
    - inversion La; subst. inversion F; subst. now apply Hl.
  Qed.
End Common.
(* a list that begins with the words [hb] before and with [ha] after *)
Lemma opened : forall p r i, (exists c p', p = String c p' /\ c <> " "%char /\ c <> ")"%char /\ digit_char c = false /\ c <> "-"%char) -> forall hb ha ts t, ts <> [] -> Forall (passes p r i) ts ->
  (forall k, spaced (after i t) ++ k = hb ++ args (map (after i) ts) ++ k)%string -> (forall k, spaced (after (S i) t) ++ k = ha ++ args (map (after (S i)) ts) ++ k)%string ->
  (forall s, replace_from p r 0 (hb ++ String " " s)%string = (ha ++ replace_from p r 0 (String " " s))%string) -> passes p r i t.
Proof.
  intros p r i P0 hb ha ts t N F Eb Ea H k Hk. rewrite Eb, Ea. pose proof (rep_args p r i P0 ts k F) as E. destruct (args_first (map (after i) ts) k) as (s & Es); [destruct ts; [congruence|discriminate]|].
  rewrite Es in *. now rewrite H, E.
Qed.
Ltac p0 := do 2 eexists; split; [reflexivity|]; repeat split; try discriminate; reflexivity.
Ltac text := intros k; cbn [after map Nat.ltb Nat.leb andb]; rewrite ?spaced_list; cbn [spaced append pat_name cf_name]; reflexivity.
Lemma lit_before : forall i x, i <= 3 -> after i (T (EN CLit) [x]) = Lst [Atom "Lit"; after i x].
Proof. intros i x H. do 4 (destruct i as [|i]; [destruct x as [[[]|] []]; reflexivity|]). lia. Qed.
Ltac open_ b a l := eapply opened with (hb := b) (ha := a) (ts := l); [p0|discriminate|eassumption|text|text|intros s; reflexivity].
Ltac lit_ := intros x L H; eapply opened with (hb := "(Lit") (ha := "(Lit") (ts := [x]); [p0|discriminate|repeat constructor; assumption|intros k; rewrite lit_before by lia; rewrite spaced_list; reflexivity|intros k; rewrite lit_before by lia; rewrite spaced_list; reflexivity|intros s; reflexivity].
Lemma pass1 : forall t, lettered t -> passes "Scale" "Affine Scale" 0 t.
Proof.
  apply pass_common; [p0|exact stays1| | |].
  - intros o x y [->| ->] _ _ F; [open_ "(Scale" "(Affine Scale" [x; y]|open_ "(Trans" "(Trans" [x; y]].
  - intros x y z _ F. open_ "(op" "(op" [x; y; z].
  - lit_.
Qed.
Lemma pass2 : forall t, lettered t -> passes "Trans" "Affine Trans" 1 t.
Proof.
  apply pass_common; [p0|exact stays2| | |].
  - intros o x y [->| ->] _ _ F; [open_ "(Affine Scale" "(Affine Scale" [x; y]|open_ "(Trans" "(Affine Trans" [x; y]].
  - intros x y z _ F. open_ "(op" "(op" [x; y; z].
  - lit_.
Qed.
Lemma ending_args : forall l k, ending (args l ++ k).
Proof. intros [|x l] k; right; cbn; do 2 eexists; (split; [reflexivity|tauto]). Qed.
Lemma pass3 : forall t, lettered t -> passes "op " "" 2 t.
Proof.
  apply pass_common; [p0|exact stays3| | |].
  - intros o x y [->| ->] _ _ F; [open_ "(Affine Scale" "(Affine Scale" [x; y]|open_ "(Affine Trans" "(Affine Trans" [x; y]].
  - intros x y z _ F k Hk. inversion F as [|? ? Hx Fr]; subst.
    change (after 2 (T (EN COp) [x; y; z])) with (Lst (Atom "op" :: map (after 2) [x; y; z])). change (after 3 (T (EN COp) [x; y; z])) with (Lst (after 3 x :: map (after 3) [y; z])). rewrite !spaced_list.
    change (args (map (after 2) [x; y; z])) with (String " " (spaced (after 2 x) ++ args (map (after 2) [y; z]))%string). cbn [spaced append]. rewrite app_assoc_s.
    transitivity (String "(" (replace_from "op " "" 0 (spaced (after 2 x) ++ args (map (after 2) [y; z]) ++ k))); [generalize (spaced (after 2 x) ++ args (map (after 2) [y; z]) ++ k)%string; intros [|c X]; reflexivity|]. f_equal.
    rewrite (Hx _ (ending_args _ _)). f_equal. apply rep_args; [p0|exact Fr].
  - lit_.
Qed.

(* ---- literals ---- *)
Lemma first_digit : forall z, exists c s, show_i64 z = String c s /\ c <> "L"%char /\ (all_chars digit_char (String c s) = true \/ c = "-"%char).
Proof.
  intros z. unfold show_i64, show_N. destruct (Z.ltb z 0); [do 2 eexists; split; [reflexivity|split; [discriminate|now right]]|].
  destruct (show_digits_first 19 (Z.to_N z)) as (c & s & E & D & A). exists c, s. split; [exact E|]. split; [intros ->; discriminate D|left]. cbn. now rewrite D, A.
Qed.
Definition is_lit (x : term (eov cf_op)) : option Z := match x with T (EN (CLiteral z)) [] => Some z | _ => None end.
Lemma lit_after : forall i x, is_lit x = None -> after i (T (EN CLit) [x]) = Lst [Atom "Lit"; after i x].
Proof. intros i [[[]|] [|? ?]] H; try discriminate H; reflexivity. Qed.
(* what a term begins with *)
Lemma first_char : forall i x, lettered x -> exists c s, spaced (after i x) = String c s /\ c <> "L"%char /\
  (is_lit x = None -> (c <> "0" /\ c <> "1")%char \/ 3 < i /\ (c = "0" \/ 4 < i /\ c = "1")%char).
Proof.
  intros i x L. apply viewed in L. destruct L as [o I A|v n I|z I|o ts N I A|x y|x y|x y z|x].
  - rewrite A. cbn [spaced]. revert I. generalize (pat_name cf_name o). intros w I. cbn in I.
    repeat (destruct I as [<-|I]; [do 2 eexists; split; [reflexivity|]; split; [discriminate|intros _; left; split; discriminate]|]). destruct I.
  - do 2 eexists. split; [reflexivity|]. split; [discriminate|]. intros _. left. split; discriminate.
  - destruct (first_digit z) as (c & s & E & N & _). exists c, s. split; [exact E|]. split; [exact N|]. discriminate.
  - rewrite A. do 2 eexists. split; [reflexivity|]. split; [discriminate|]. intros _. left. split; discriminate.
  - cbn [after]. destruct (Nat.ltb 0 i); do 2 eexists; (split; [reflexivity|]); (split; [discriminate|]); intros _; left; split; discriminate.
  - cbn [after]. destruct (Nat.ltb 1 i); do 2 eexists; (split; [reflexivity|]); (split; [discriminate|]); intros _; left; split; discriminate.
  - cbn [after map]. destruct (Nat.ltb 2 i); do 2 eexists; (split; [reflexivity|]); (split; [discriminate|]); intros _; left; split; discriminate.
  - destruct (is_lit x) as [z|] eqn:E.
    + destruct x as [[[]|] [|? ?]]; try discriminate E. cbn [after]. destruct (Nat.ltb_spec 3 i) as [H3|H3], (Nat.ltb_spec 4 i) as [H4|H4], (Z.eqb _ 0), (Z.eqb _ 1); cbn [andb];
        (do 2 eexists; (split; [reflexivity|]); (split; [discriminate|]); intros _; first [left; split; discriminate|right; split; [lia|left; reflexivity]|right; split; [lia|right; split; [lia|reflexivity]]]).
    + rewrite lit_after by exact E. do 2 eexists. split; [reflexivity|]. split; [discriminate|]. intros _. left. split; discriminate.
Qed.
(* the digit d, closed at once *)
Lemma only_digit : forall z d dz k, in_i64 z = true -> digit_char d = true -> parse_i64 (String d "") = Some dz -> z <> dz -> String.prefix (String d ")") (show_i64 z ++ String ")" k)%string = false.
Proof.
  intros z d dz k I D E N. destruct (String.prefix _ _) eqn:P; [|reflexivity]. elim N. destruct (first_digit z) as (c & s & Ez & _ & H). rewrite Ez in P. cbn [append String.prefix] in P.
  destruct (ascii_dec d c) as [<-|]; [|discriminate P]. destruct H as [H|H]; [|subst; discriminate D]. destruct s as [|c' s].
  - assert (F : fits z). { unfold in_i64, i64_min, i64_max in I. apply andb_prop in I as [I1 I2]. apply Z.leb_le in I1, I2. unfold fits. lia. }
    apply parse_i64_show in F. rewrite Ez, E in F. now injection F as ->.
  - cbn [append String.prefix] in P. destruct (ascii_dec ")" c') as [<-|]; [|discriminate P]. cbn in H. rewrite andb_false_r in H. discriminate H.
Qed.
Lemma op_first : forall d r i x y z k, lettered x -> (2 < i) -> Forall (passes (String "(" (String "L" (String "i" (String "t" (String " " (String d ")")))))) r i) [x; y; z] ->
  ending k -> replace_from (String "(" (String "L" (String "i" (String "t" (String " " (String d ")")))))) r 0 (spaced (after i (T (EN COp) [x; y; z])) ++ k)%string =
  (spaced (after (S i) (T (EN COp) [x; y; z])) ++ replace_from (String "(" (String "L" (String "i" (String "t" (String " " (String d ")")))))) r 0 k)%string.
Proof.
  intros d r i x y z k L Hi F Hk. set (p := String "(" _). inversion F as [|? ? Hx Fr]; subst.
  assert (Ei : after i (T (EN COp) [x; y; z]) = Lst (after i x :: map (after i) [y; z])). { cbn [after]. now rewrite (proj2 (Nat.ltb_lt 2 i) Hi). }
  assert (Ej : after (S i) (T (EN COp) [x; y; z]) = Lst (after (S i) x :: map (after (S i)) [y; z])). { cbn [after]. now rewrite (proj2 (Nat.ltb_lt 2 (S i)) (Nat.lt_lt_succ_r _ _ Hi)). }
  rewrite Ei, Ej, !spaced_list. destruct (first_char i x L) as (c & s & E & N & _). rewrite rep_char.
  - f_equal. rewrite (Hx _ (ending_args _ _)). f_equal. apply rep_args; [p0|exact Fr].
  - rewrite E. cbn [append String.prefix p]. destruct (ascii_dec "(" "(") as [_|X]; [|congruence]. destruct (ascii_dec "L" c) as [X|_]; [now elim N|reflexivity].
Qed.
Definition lit_text (d : ascii) : string := String "(" (String "L" (String "i" (String "t" (String " " (String d ")"))))).
Lemma lit_other : forall d r i x k, digit_char d = true -> passes (lit_text d) r i x -> String.prefix (String d ")") (spaced (after i x) ++ String ")" k)%string = false ->
  after i (T (EN CLit) [x]) = Lst [Atom "Lit"; after i x] -> after (S i) (T (EN CLit) [x]) = Lst [Atom "Lit"; after (S i) x] -> 
  replace_from (lit_text d) r 0 (spaced (after i (T (EN CLit) [x])) ++ k)%string = (spaced (after (S i) (T (EN CLit) [x])) ++ replace_from (lit_text d) r 0 k)%string.
Proof.
  intros d r i x k D Hx P Ei Ej. rewrite Ei, Ej, !spaced_list. cbn [spaced append]. assert (Ea : forall y k, (args [y] ++ k)%string = String " " (spaced y ++ String ")" k)%string) by (intros y k0; cbn; now rewrite app_assoc_s).
  rewrite !Ea. rewrite rep_char.
  - f_equal. rewrite !rep_char by reflexivity. do 3 f_equal. f_equal. rewrite Hx by (right; do 2 eexists; split; [reflexivity|now right]). reflexivity.
  - cbn [lit_text]. unfold lit_text. do 5 (cbn [String.prefix]; match goal with |- context [ascii_dec ?a ?a] => destruct (ascii_dec a a) as [_|X]; [|now elim X] end). exact P.
Qed.
Lemma pass_lit : forall d dz r i, (d = "0"%char /\ dz = 0%Z /\ r = "0" /\ i = 3 \/ d = "1"%char /\ dz = 1%Z /\ r = "1" /\ i = 4) -> forall t, lettered t -> passes (lit_text d) r i t.
Proof.
  intros d dz r i H. apply pass_common.
  - destruct H as [(-> & _)|(-> & _)]; p0.
  - destruct H as [(-> & -> & -> & ->)|(-> & -> & -> & ->)]; [exact stays4|exact stays5].
  - intros o x y Ho _ _ F. destruct H as [(-> & -> & -> & ->)|(-> & -> & -> & ->)]; destruct Ho as [->| ->]; [open_ "(Affine Scale" "(Affine Scale" [x; y]|open_ "(Affine Trans" "(Affine Trans" [x; y]|open_ "(Affine Scale" "(Affine Scale" [x; y]|open_ "(Affine Trans" "(Affine Trans" [x; y]].
  - intros x y z L F k Hk. apply op_first; auto. destruct H as [(_ & _ & _ & ->)|(_ & _ & _ & ->)]; lia.
  - intros x L Hx k Hk. destruct (is_lit x) as [z|] eqn:E.
    + destruct x as [[[]|] [|? ?]]; try discriminate E. injection E as ->. destruct L as [[_ Iz] _]. destruct (Z.eq_dec z dz) as [->|N].
      * destruct H as [(-> & -> & -> & ->)|(-> & -> & -> & ->)]; destruct k; reflexivity.
      * destruct H as [(-> & -> & -> & ->)|(-> & -> & -> & ->)].
        -- apply lit_other; [reflexivity|exact Hx|apply (only_digit z "0" 0%Z); auto|reflexivity|]. cbn [after]. rewrite (proj2 (Z.eqb_neq z 0) N). reflexivity.
        -- destruct (Z.eq_dec z 0) as [->|N0]; [destruct Hk as [->|(c & k' & -> & [->| ->])]; reflexivity|].
           apply lit_other; [reflexivity|exact Hx|apply (only_digit z "1" 1%Z); auto| |]; cbn [after]; rewrite ?(proj2 (Z.eqb_neq z 0) N0), ?(proj2 (Z.eqb_neq z 1) N); reflexivity.
    + assert (D : digit_char d = true) by (destruct H as [(-> & _)|(-> & _)]; reflexivity). apply lit_other; [exact D|exact Hx| |now apply lit_after|now apply lit_after].
      destruct (first_char i x L) as (c & s & Ex & _ & C). rewrite Ex. cbn [append String.prefix]. destruct (ascii_dec d c) as [<-|]; [|reflexivity]. exfalso.
      destruct (C E) as [[C0 C1]|(C3 & C4)]; destruct H as [(-> & _ & _ & ->)|(-> & _ & _ & ->)]; try congruence; try lia. destruct C4 as [C4|[C4 _]]; [discriminate C4|lia].
Qed.
Lemma spaced_term : forall t, lettered t -> spaced (after 0 t) = show_term (pat_name cf_name) t.
Proof.
  induction t as [o ts IH] using term_ind'. intros L. pose proof L as [_ La]. apply lettered_all in La.
  assert (A : after 0 (T o ts) = match ts with [] => Atom (pat_name cf_name o) | _ => Lst (Atom (pat_name cf_name o) :: map (after 0) ts) end).
  { apply viewed in L. inversion L as [o' I A|v n I|z I|o' ts' N I A|x y|x y|x y z|x]; subst; try reflexivity; [apply A|rewrite A; destruct ts; [congruence|reflexivity]|]. now apply (lit_before 0 x), Nat.le_0_l. }
  rewrite A. destruct ts as [|t ts]; [reflexivity|]. cbn [spaced show_term]. f_equal. f_equal.
  revert IH La. generalize (t :: ts). intros l. induction l as [|u l IHl]; intros F1 F2; [reflexivity|]. inversion F1; subst. inversion F2; subst. cbn [map fold_right]. now rewrite IHl, H1.
Qed.
Lemma empty_end : forall s : string, (s ++ "")%string = s.
Proof. induction s as [|c s IH]; [reflexivity|]. cbn. now rewrite IH. Qed.
Theorem fixed_text : forall t, lettered t -> fix_ (show_term (pat_name cf_name) t) = spaced (exported t).
Proof.
  intros t L. unfold fix_, replace. rewrite <- (spaced_term t L), <- after_last.
  assert (P : forall p r i, passes p r i t -> replace_from p r 0 (spaced (after i t)) = spaced (after (S i) t)).
  { intros p r i H. specialize (H "" (or_introl eq_refl)). rewrite !empty_end in H. rewrite H. cbn [replace_from]. reflexivity. }
  rewrite (P _ _ _ (pass1 t L)), (P _ _ _ (pass2 t L)), (P _ _ _ (pass3 t L)).
  rewrite (P "(Lit 0)" "0" 3 (pass_lit "0" 0%Z "0" 3 ltac:(auto) t L)). exact (P "(Lit 1)" "1" 4 (pass_lit "1" 1%Z "1" 4 ltac:(auto) t L)).
Qed.

(* ---- all lines ---- *)
Lemma shown : forall q t, tree q = Val t -> show_pat cf_name q = Val (show_term (pat_name cf_name) t).
Proof. intros q t H. unfold show_pat, show_rec. destruct q; [discriminate H|]. now rewrite H. Qed.
Lemma export_lines : forall rs i, Forall (fun e => exists tl tr, sides (snd e) tl tr) rs ->
  exists lines, export_rules i rs = Val lines /\ length lines = length rs /\
    forall n k r tl tr, nth_error rs n = Some (k, r) -> sides r tl tr -> nth_error lines n = Some (exported_line (i + n) (exported tl) (exported tr)).
Proof.
  induction rs as [|[k r] rs IH]; intros i F; [exists []; split; [reflexivity|]; split; [reflexivity|]; intros [|n] k r tl tr E; discriminate E|].
  inversion F as [|? ? (tl & tr & T1 & T2 & L1 & L2) F2]; subst. cbn [snd] in *. destruct (IH (i + 1) F2) as (lines & E & Hl & Hn). cbn [export_rules].
  rewrite (shown _ _ T1), (shown _ _ T2). cbn [rbind]. rewrite E. cbn [rbind]. rewrite (fixed_text tl L1), (fixed_text tr L2). eexists. split; [reflexivity|]. split; [cbn; now rewrite Hl|].
  intros [|n] k' r' tl' tr' En Sd; cbn [nth_error] in *.
  - injection En as <- <-. destruct Sd as (T1' & T2' & _). rewrite T1 in T1'. rewrite T2 in T2'. injection T1' as <-. injection T2' as <-. rewrite Nat.add_0_r. reflexivity.
  - rewrite (Hn n k' r' tl' tr' En Sd). now replace (i + 1 + n) with (i + S n) by lia.
Qed.
Theorem export_text : forall rs, Forall (fun e => exists tl tr, sides (snd e) tl tr) rs ->
  exists lines, export_print rs = Val (["RULER RULES START"] ++ lines ++ ["RULER RULES END"; ""; ""]) /\ length lines = length rs /\
    forall n k r tl tr, nth_error rs n = Some (k, r) -> sides r tl tr -> nth_error lines n = Some (exported_line (1 + n) (exported tl) (exported tr)).
Proof. intros rs F. destruct (export_lines rs 1 F) as (lines & E & H). exists lines. unfold export_print. rewrite E. split; [reflexivity|exact H]. Qed.
