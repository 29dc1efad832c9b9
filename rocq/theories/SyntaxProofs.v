(* Reading, printing and layout of terms, patterns and rules. *)
From Verif Require Import Base BaseProofs Lines Sexp Reader EnumSpec SexpProofs ReaderProofs.
From Verif Require Import Lang LangProofs Syntax Rule.
Open Scope string_scope.
Open Scope list_scope.

(* ---- to_rec ---- *)
Lemma run_buf_app {O A} (f : O -> list A -> res A) a b : forall buf,
  run_buf f (a ++ b) buf = let* x := run_buf f a buf in run_buf f b x.
Proof.
  induction a as [|n a IH]; intros buf; [reflexivity|]. cbn [app run_buf].
  destruct (rmapM (index buf) (nch n)); [|reflexivity]. cbn [rbind].
  destruct (f (nop n) a0); [|reflexivity]. apply IH.
Qed.

Lemma nth_error_grow {A} (l m : list A) i a : nth_error l i = Some a -> nth_error (l ++ m) i = Some a.
Proof. intros H. rewrite nth_error_app1; [exact H|]. apply nth_error_Some. congruence. Qed.

Lemma rmapM_index_vals {A} (buf : list A) is vs :
  Forall2 (fun i v => nth_error buf i = Some v) is vs -> rmapM (index buf) is = Val vs.
Proof.
  induction 1 as [|i v is vs H HF IH]; [reflexivity|]. cbn [rmapM].
  apply index_val in H. rewrite H, IH. reflexivity.
Qed.

Section ToRec.
  Context {O : Type}.

  Fixpoint add_terms (ts : list (term O)) (r : recexpr O) (ids : list nat) : recexpr O * list nat :=
    match ts with
    | [] => (r, ids)
    | t :: ts' => let '(r', i) := add_term t r in add_terms ts' r' (ids ++ [i])
    end.

  Lemma add_term_eq o ts (r : recexpr O) :
    add_term (T o ts) r =
    let '(r', ids) := add_terms ts r [] in (r' ++ [Node o ids], length r').
  Proof.
    cbn [add_term].
    assert (forall ts r ids,
      (fix go (ts : list (term O)) (r : recexpr O) (ids : list nat) : recexpr O * list nat :=
           match ts with
           | [] => (r, ids)
           | t :: ts' => let '(r', i) := add_term t r in go ts' r' (ids ++ [i])
           end) ts r ids = add_terms ts r ids) as H.
    { clear. induction ts as [|t ts IH]; intros r ids; cbn; [reflexivity|].
      destruct (add_term t r). apply IH. }
    rewrite H. reflexivity.
  Qed.

  Context {A : Type} (f : O -> list A -> res A).

  (* what adding [t] at the end of an array does to a fold of the array *)
  Definition adds (t : term O) : Prop := forall r, exists r2,
    fst (add_term t r) = r ++ r2 /\ S (snd (add_term t r)) = length (r ++ r2) /\
    forall buf, length buf = length r ->
      match fold_term f t with
      | Val v => exists bufx, run_buf f r2 buf = Val (buf ++ bufx) /\ length bufx = length r2 /\
          nth_error (buf ++ bufx) (snd (add_term t r)) = Some v
      | Panic => run_buf f r2 buf = Panic
      end.

  Lemma add_terms_adds ts : Forall adds ts -> forall r ids, exists r2 is,
    add_terms ts r ids = (r ++ r2, ids ++ is) /\ length is = length ts /\
    forall buf, length buf = length r ->
      match rmapM (fold_term f) ts with
      | Val vs => exists bufx, run_buf f r2 buf = Val (buf ++ bufx) /\ length bufx = length r2 /\
          Forall2 (fun i v => nth_error (buf ++ bufx) i = Some v) is vs
      | Panic => run_buf f r2 buf = Panic
      end.
  Proof.
    induction 1 as [|t ts Ht Hts IH]; intros r ids; cbn [add_terms rmapM].
    - exists [], []. rewrite !app_nil_r. repeat split. intros buf Hb.
      exists []. rewrite app_nil_r. repeat split. constructor.
    - destruct (Ht r) as (r1 & E1 & L1 & F1). destruct (add_term t r) as [r' i]. simpl in *. subst r'.
      destruct (IH (r ++ r1) (ids ++ [i])) as (r2 & is & E2 & L2 & F2).
      exists (r1 ++ r2), (i :: is). rewrite E2, <- !app_assoc. repeat split; [simpl; congruence|].
      intros buf Hb. rewrite run_buf_app. specialize (F1 buf Hb).
      destruct (fold_term f t) as [v|]; cbn [rbind].
      2:{ rewrite F1. reflexivity. }
      destruct F1 as (b1 & R1 & LB1 & N1). rewrite R1. cbn [rbind].
      specialize (F2 (buf ++ b1)). rewrite !app_length in F2. specialize (F2 ltac:(lia)).
      destruct (rmapM (fold_term f) ts) as [vs|]; cbn [rbind]; [|exact F2].
      destruct F2 as (b2 & R2 & LB2 & N2). exists (b1 ++ b2). rewrite R2, !app_assoc, !app_length.
      repeat split; [lia|]. constructor; [|exact N2]. apply nth_error_grow. exact N1.
  Qed.

  Lemma add_term_adds t : adds t.
  Proof.
    induction t as [o ts IH] using term_ind'. intros r. rewrite add_term_eq.
    destruct (add_terms_adds ts IH r []) as (r2 & is & E & L & F). rewrite E. cbn [fst snd app].
    exists (r2 ++ [Node o is]). rewrite <- app_assoc. split; [reflexivity|].
    split; [rewrite !app_length; simpl; lia|]. intros buf Hb. rewrite run_buf_app. specialize (F buf Hb).
    cbn [fold_term]. destruct (rmapM (fold_term f) ts) as [vs|]; cbn [rbind]; [|rewrite F; reflexivity].
    destruct F as (bx & R & LB & N). rewrite R. cbn [rbind run_buf nch nop].
    rewrite (rmapM_index_vals _ _ _ N). cbn [rbind].
    destruct (f o vs) as [v|]; cbn [rbind]; [|reflexivity].
    exists (bx ++ [v]). rewrite !app_assoc, app_length. repeat split; [rewrite app_length; simpl; lia|].
    rewrite nth_error_app2 by (rewrite !app_length; lia).
    replace (length (r ++ r2) - length (buf ++ bx)) with 0; [reflexivity|]. rewrite !app_length. lia.
  Qed.

  Lemma fold_to_rec t : fold_rec f (to_rec t) = fold_term f t.
  Proof.
    unfold fold_rec, to_rec. destruct (add_term_adds t []) as (r2 & E & L & F). rewrite E.
    cbn [app] in *. specialize (F [] eq_refl). destruct (fold_term f t) as [v|].
    - destruct F as (bx & R & LB & N). rewrite R. cbn [rbind app] in *.
      destruct bx as [|x bx] using rev_ind; [simpl in *; lia|]. unfold pop_unwrap. rewrite rev_app_distr. cbn.
      f_equal. rewrite app_length in LB. simpl in LB.
      rewrite nth_error_app2 in N by lia. replace (snd (add_term t []) - length bx) with 0 in N by lia.
      simpl in N. congruence.
    - rewrite F. reflexivity.
  Qed.
End ToRec.

Lemma fold_id {O} (t : term O) : fold_term (fun o ts => Val (T o ts)) t = Val t.
Proof.
  induction t as [o ts IH] using term_ind'. cbn [fold_term].
  rewrite (rmapM_pure _ (fun x => x)); [rewrite map_id; reflexivity|].
  intros x Hx. rewrite Forall_forall in IH. auto.
Qed.
Lemma tree_to_rec {O} (t : term O) : tree (to_rec t) = Val t.
Proof. unfold tree. rewrite fold_to_rec. apply fold_id. Qed.
Lemma to_rec_nonempty {O} (t : term O) : to_rec t <> [].
Proof.
  intros H. pose proof (tree_to_rec t) as E. rewrite H in E. discriminate E.
Qed.

(* ---- printing and reading ---- *)
(* the s-expression of a term *)
Fixpoint term_sexp {O} (name : O -> string) (t : term O) : sexp :=
  match t with
  | T o [] => Atom (name o)
  | T o ts => Lst (Atom (name o) :: map (term_sexp name) ts)
  end.

Lemma lex_show {O} (name : O -> string) t : tall (fun o => word (name o)) t ->
  forall rest, cut rest -> lex (show_term name t ++ rest)%string "" = toks (term_sexp name t) ++ lex rest "".
Proof.
  induction t as [o ts IH] using term_ind'. intros Ht rest Hc. inversion Ht as [? ? Ho Hts]; subst.
  destruct ts as [|t0 ts0]; [apply lex_word_cut; assumption|].
  remember (t0 :: ts0) as ts eqn:Ets.
  assert (show_term name (T o ts) = "(" ++ name o ++ fold_right (fun t acc => " " ++ show_term name t ++ acc)%string ")" ts)%string as ->
    by (subst; reflexivity).
  assert (term_sexp name (T o ts) = Lst (Atom (name o) :: map (term_sexp name) ts)) as -> by (subst; reflexivity).
  clear Ets t0 ts0.
  assert (lex (fold_right (fun t acc => " " ++ show_term name t ++ acc)%string ")" ts ++ rest)%string ""
          = flat_map toks (map (term_sexp name) ts) ++ TClose :: lex rest "") as Hl.
  { clear Ht. induction ts as [|t ts IHts]; [reflexivity|].
    inversion IH as [|? ? IHt IHr]; inversion Hts as [|? ? Ht1 Ht2]; subst.
    cbn [fold_right map flat_map]. rewrite !sapp_assoc. cbn [append lex is_space Ascii.eqb orb flush].
    assert (forall s, lex (String " " s) "" = lex s "") as Hsp by reflexivity. 
    change (lex (String " " (show_term name t ++ fold_right (fun t acc => " " ++ show_term name t ++ acc)%string ")" ts ++ rest)%string) "" = (toks (term_sexp name t) ++ flat_map toks (map (term_sexp name) ts)) ++ TClose :: lex rest "").
    rewrite Hsp, IHt; auto.
    - rewrite <- app_assoc. f_equal. auto.
    - destruct ts; reflexivity. }
  cbn [toks flat_map]. rewrite !sapp_assoc.
  transitivity (TOpen :: lex (name o ++ fold_right (fun t acc => " " ++ show_term name t ++ acc)%string ")" ts ++ rest)%string "");
    [reflexivity|].
  rewrite lex_word_cut; [|assumption|destruct ts; reflexivity]. rewrite Hl.
  cbn [app]. rewrite <- app_assoc. reflexivity.
Qed.

Lemma parse_show {O} (name : O -> string) t rest : tall (fun o => word (name o)) t -> cut rest ->
  parse_str (show_term name t ++ rest)%string = Some (term_sexp name t).
Proof. intros H1 H2. unfold parse_str, tokens. rewrite lex_show by assumption. apply read_toks_top. Qed.

(* an operator is printed as a word that reads back as the operator *)
Definition op_ok {O} (from_op : string -> nat -> option O) (name : O -> string) (ar : O -> nat) (o : O) : Prop :=
  word (name o) /\ from_op (name o) (ar o) = Some o.

Lemma term_of_sexp_show {O} from_op (name : O -> string) ar t :
  tall (op_ok from_op name ar) t -> wf_term ar t -> term_of_sexp from_op (term_sexp name t) = Some t.
Proof.
  induction t as [o ts IH] using term_ind'. intros Ht Hw.
  inversion Ht as [? ? [_ Ho] Hts]; inversion Hw as [? ? Hl Hwts]; subst.
  destruct ts as [|t0 ts0].
  - cbn. simpl in Hl. rewrite <- Hl in Ho. rewrite Ho. reflexivity.
  - remember (t0 :: ts0) as ts eqn:Ets.
    assert (term_sexp name (T o ts) = Lst (Atom (name o) :: map (term_sexp name) ts)) as -> by (subst; reflexivity).
    clear Ets t0 ts0. cbn [term_of_sexp].
    assert ((fix go (l : list sexp) : option (list (term O)) :=
           match l with
           | [] => Some []
           | x :: r =>
               match term_of_sexp from_op x, go r with
               | Some t, Some ts => Some (t :: ts)
               | _, _ => None
               end
           end) (map (term_sexp name) ts) = Some ts) as Hgo.
    { clear Ht Hw Hl Ho. induction ts as [|t ts IHts]; [reflexivity|].
      inversion IH; inversion Hts; inversion Hwts; subst. cbn [map]. rewrite H1 by assumption.
      rewrite IHts by assumption. reflexivity. }
    rewrite Hgo, Hl, Ho. reflexivity.
Qed.

Lemma tall_mono {O} (P Q : O -> Prop) t : (forall o, P o -> Q o) -> tall P t -> tall Q t.
Proof.
  intros H. induction t as [o ts IH] using term_ind'. intros Ht. inversion Ht as [? ? Ho Hts]; subst.
  constructor; auto. clear Ht. induction Hts; inversion IH; subst; constructor; auto.
Qed.

(* printing then reading gives the same tree, also with text after a separator *)
Lemma parse_rec_show {O} from_op (name : O -> string) ar t rest :
  tall (op_ok from_op name ar) t -> wf_term ar t -> cut rest ->
  parse_rec from_op (show_term name t ++ rest)%string = Some (to_rec t).
Proof.
  intros Ht Hw Hc. unfold parse_rec. rewrite parse_show; auto.
  - rewrite (term_of_sexp_show from_op name ar) by assumption. reflexivity.
  - eapply tall_mono; [|exact Ht]. intros o [? ?]; assumption.
Qed.

(* the printed form determines the tree *)
Lemma show_inj {O} from_op (name : O -> string) ar t u :
  tall (op_ok from_op name ar) t -> wf_term ar t -> tall (op_ok from_op name ar) u -> wf_term ar u ->
  show_term name t = show_term name u -> t = u.
Proof.
  intros H1 H2 H3 H4 E.
  pose proof (parse_rec_show from_op name ar t "" H1 H2 I) as P1.
  pose proof (parse_rec_show from_op name ar u "" H3 H4 I) as P2.
  rewrite E, P2 in P1. inversion P1 as [P].
  pose proof (tree_to_rec t) as T1. pose proof (tree_to_rec u) as T2. rewrite P in T2. congruence.
Qed.
