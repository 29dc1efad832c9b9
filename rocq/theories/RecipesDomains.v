(* What each recipe returns. *)
From Coq Require Import NArith ZArith QArith Qcanon.
From Verif Require Import EnumSpec Filter.
From Verif Require Import Base BaseProofs Sexp SexpProofs Reader Lang LangProofs BoolDom BV BVSpec Number Rational RationalSpec Halide HalideSpec DomainSpec Syntax SyntaxProofs Rule RuleSpec Ruleset Workload
  Analysis Egraph EgraphSpec Synth SynthSpec Domains TotalSpec Match Infer InferProofs LearnSpec LearnDomains OpsSpec OpsProofs OpsDomains SaveProofs SaveDomains LearntSpec LearntProofs
  Conditional ConditionalSpec ConditionalLearn ForwardSpec Recipes RecipesSpec RecipesSig RecipesProofs.
Open Scope string_scope.
Open Scope list_scope.

(* the operators of the recipes *)
Definition bool_used (o : bool_op) : bool := match o with BNot | BAnd | BOr | BXor | BLit _ => true | _ => false end.
Definition bv_used (top : N) (o : bv_op) : bool :=
  match o with VNot | VNeg | VAnd | VOr | VMul | VSub | VAdd | VShl | VShr => true | VLit c => N.leb c top | _ => false end.
Definition hal_used (o : hal_op) : bool :=
  match o with HLit z => Z.leb (-1) z && Z.leb z 1 | HImplies | HDiv | HVar _ => false | _ => true end.
Definition math_used (o : math_op) : bool := match o with MIf | MVar _ => false | _ => true end.

Lemma rule_uses_more : forall O C (L : lang O C) ar (A B : O -> Prop), (forall o, A o -> B o) -> forall r, rule_uses L (over L ar A) r -> rule_uses L (over L ar B) r.
Proof.
  intros O C L ar A B M r [U1 U2]. split; (eapply Forall_impl; [|eassumption]); intros n; cbn beta; destruct (nop n) as [v|o]; auto; intros (X & Y & Z); (split; [exact X|]); split; auto; destruct Z as [Z|Z]; auto.
Qed.
Lemma learns_same : forall O C (L : lang O C) ar (A : O -> bool) B, (forall o, B o <-> A o = true) -> learns_only L ar (fun o => A o = true) B -> learns_only L ar (fun o => A o = true) (fun o => A o = true).
Proof.
  intros O C L ar A B Iff H keep fuel. destruct (H keep fuel) as (H1 & H2 & H3).
  assert (M : forall r, rule_uses L (over L ar B) r -> rule_uses L (over L ar (fun o => A o = true)) r).
  { intros r [U1 U2]. split; (eapply Forall_impl; [|eassumption]); intros n; cbn beta; destruct (nop n) as [v|o]; auto; intros (X & Y & Z); (split; [exact X|]); split; auto; destruct Z as [Z|Z]; auto; right; now apply Iff. }
  split; [|split].
  - intros w prior fast ae new N Fw Gp R. eapply Forall_impl; [|exact (H1 w prior fast ae new N Fw Gp R)]. intros e. apply M.
  - intros ex w prior new N Fw Gp Ge R. eapply Forall_impl; [|exact (H2 ex w prior new N Fw Gp Ge R)]. intros e. apply M.
  - intros met l prior n all N Fw Gp R e I. destruct (H3 met l prior n all N Fw Gp R e I); auto.
Qed.
Lemma fine_delivers : forall O C (L : lang O C) ar start A (good : rule O -> Prop) all, (learnt L start all -> NoDup (map fst all) /\ reloads L all /\ forall k r, In (k, r) all -> good r) ->
  fine L ar start A all -> delivers L ar (fun o => A o = true) good all.
Proof.
  intros O C L ar start A good all H [Hl F]. destruct (H Hl) as (N & R & G). split; [exact N|]. split; [exact R|]. rewrite Forall_forall in F. intros k r I. split; [exact (G k r I)|exact (F _ I)].
Qed.
Ltac known_here := vm_compute; reflexivity.

Section Step.
  Context {O C : Type} (L : lang O C) (ar : O -> nat) (start : ruleset O -> Prop) (A : O -> bool).
  Hypothesis Lo : learns_only L ar (fun o => A o = true) (fun o => A o = true).
  Hypothesis again : forall rs, learnt L start rs -> NoDup (map fst rs) /\ start rs.
  Lemma step_recursed : forall met l prior n all, recursed L met l prior n all -> fine L ar start A prior -> known L ar A (w_vars l ++ w_vals l) (lang_ops l) = true ->
    plain_namesb l && (Nat.eqb (length (w_ops l)) 2 || Nat.eqb (length (w_ops l)) 3) && zero_ok met l = true -> fine L ar start A all.
  Proof. intros met l prior n all H F Kn So. exact (fine_recursed L ar start A Lo again met l prior n all _ _ F Kn (steps_ok met l So) H). Qed.
  Lemma step_learned : forall atoms ops wl w prior fast new, learned L w prior fast new -> wl = Val w -> fine L ar start A prior -> known L ar A atoms ops = true -> sig_among wl atoms ops = true -> fine L ar start A new.
  Proof. intros atoms ops wl w prior fast new H E F Kn Si. exact (fine_learned L ar start A Lo again w prior fast new F (terms_fit L ar A atoms ops Kn wl w (sig_terms wl atoms ops Si) E) H). Qed.
End Step.

(* ---- booleans ---- *)
Definition bool_start (rs : ruleset bool_op) : Prop := plain_rules bool_lang bool_arity rs /\ read_rules bool_lang rs.
Lemma bool_both : forall rs, learnt bool_lang bool_start rs -> NoDup (map fst rs) /\ bool_start rs /\ reloads bool_lang rs /\ forall k r, In (k, r) rs -> identity BVar (fun _ => True) bool_den r.
Proof.
  intros rs H. destruct (bool_learnt rs (learnt_mono _ _ _ _ _ (fun _ X => proj1 X) rs H)) as [N F].
  destruct (readable_ready _ _ _ _ _ bool_readable rs (learnt_mono _ _ _ _ _ (fun _ X => proj2 X) rs H)) as (_ & R1 & R2). split; [exact N|]. split; [split; [|exact R1]|split; [exact R2|]].
  - eapply Forall_impl; [|exact F]. unfold plain_rhs. tauto.
  - intros k r I. rewrite Forall_forall in F. exact (bool_identity r (proj1 (F _ I))).
Qed.
Theorem bool_delivers : forall all, bool_rules all -> delivers bool_lang bool_arity (fun o => bool_used o = true) (identity BVar (fun _ => True) bool_den) all.
Proof.
  assert (Lo : learns_only bool_lang bool_arity (fun o => bool_used o = true) (fun o => bool_used o = true)).
  { refine (learns_same _ _ _ _ _ _ _ (bool_learns _)). intros o. split; [intros [H|(b & ->)]; [exact H|reflexivity]|auto]. }
  assert (Ag : forall rs, learnt bool_lang bool_start rs -> NoDup (map fst rs) /\ bool_start rs) by (intros rs H; destruct (bool_both rs H) as (N & S & _); auto).
  intros all (r5 & w & r7 & H5 & Ew & H7 & ->). apply (fine_delivers _ _ _ _ bool_start); [intros H; destruct (bool_both _ H) as (N & _ & R & G); auto|].
  assert (F5 : fine bool_lang bool_arity bool_start bool_used (extend [] r5)).
  { apply fine_extend; [apply fine_none|]. refine (step_recursed _ _ _ _ Lo Ag _ _ _ _ _ H5 (fine_none _ _ _ _) _ _); known_here. }
  apply fine_extend; [exact F5|]. refine (step_learned _ _ _ _ Lo Ag abc (each 1 ["~"] ++ each 2 ["&"; "|"; "^"]) _ _ _ _ _ H7 Ew F5 _ _); known_here.
Qed.

(* ---- bitvectors ---- *)
Lemma read_again : forall O C (L : lang O C), ready L -> forall rs, learnt L (read_rules L) rs -> NoDup (map fst rs) /\ read_rules L rs.
Proof. intros O C L R rs H. destruct (R rs H) as (N & S & _). auto. Qed.
Lemma bv_ready : forall w check, (w <= 128)%N -> ready (bv_lang w check).
Proof. intros w check W. exact (readable_ready _ _ _ _ _ (bv_readable w check W)). Qed.
Definition anything {O} (r : rule O) : Prop := True.
Section BVs.
  Variable w : N.
  Variable check : zbv -> zbv -> sat_result.
  Hypothesis W : (w <= 128)%N.
  Local Notation L := (bv_lang w check).
  Local Notation ok top := (fine L bv_arity (read_rules L) (bv_used top)).
  Definition bv_recursed top := step_recursed L bv_arity (read_rules L) (bv_used top) (bv_learns w check _) (read_again _ _ _ (bv_ready w check W)).
  Definition bv_learned top := step_learned L bv_arity (read_rules L) (bv_used top) (bv_learns w check _) (read_again _ _ _ (bv_ready w check W)).
  Lemma bv_delivers : forall top all, ok top all -> delivers L bv_arity (fun o => bv_used top o = true) anything all.
  Proof. intros top all. apply fine_delivers. intros H. destruct (bv_ready w check W all H) as (N & _ & R). repeat split; auto. Qed.
  Lemma bv_delivers_true : (w <= 64)%N -> unsat_right w check -> forall top all, ok top all -> delivers L bv_arity (fun o => bv_used top o = true) (identity VVar (inr w) (bv_den w)) all.
  Proof. intros W' Hu top all. apply fine_delivers. intros H. destruct (bv_ready w check W all H) as (N & _ & R). split; [exact N|]. split; [exact R|]. exact (bv_true w check W' Hu all H). Qed.
End BVs.
Lemma bv4_fine : forall check all, bv4_rules check all -> fine (bv_lang 4 check) bv_arity (read_rules (bv_lang 4 check)) (bv_used 1) all.
Proof. intros check all H. refine (bv_recursed _ _ _ _ _ _ _ _ _ H (fine_none _ _ _ _) _ _); [lia|known_here..]. Qed.
Lemma bv32_fine : forall check all, bv32_rules check all -> fine (bv_lang 32 check) bv_arity (read_rules (bv_lang 32 check)) (bv_used 0) all.
Proof. intros check all H. refine (bv_recursed _ _ _ _ _ _ _ _ _ H (fine_none _ _ _ _) _ _); [lia|known_here..]. Qed.
Lemma bv128_fine : forall check all, bv128_gen check all -> fine (bv_lang 128 check) bv_arity (read_rules (bv_lang 128 check)) (bv_used 1) all.
Proof. intros check all (r & H & ->). apply fine_extend; [apply fine_none|]. refine (bv_recursed _ _ _ _ _ _ _ _ _ H (fine_none _ _ _ _) _ _); [lia|known_here..]. Qed.
Lemma bv_fancy_fine : forall width check all, In width [4; 8; 16; 32; 64]%N -> bv_fancy_rules width check all -> fine (bv_lang width check) bv_arity (read_rules (bv_lang width check)) (bv_used 1) all.
Proof.
  intros width check all Hw (r & v & new & H1 & Ev & H2 & ->). assert (W : (width <= 128)%N) by (cbn in Hw; lia).
  assert (Kn : forall atoms ops, atoms = ["a"; "b"; "c"; "0"; "1"] -> ops = each 1 ["~"; "-"] ++ each 2 ["&"; "|"; "*"; "--"; "+"; "<<"; ">>"] -> known (bv_lang width check) bv_arity (bv_used 1) atoms ops = true).
  { intros atoms ops -> ->. destruct Hw as [<-|[<-|[<-|[<-|[<-|[]]]]]]; known_here. }
  assert (F : fine (bv_lang width check) bv_arity (read_rules (bv_lang width check)) (bv_used 1) (extend [] r)).
  { apply fine_extend; [apply fine_none|]. refine (bv_recursed _ _ W _ _ _ _ _ _ H1 (fine_none _ _ _ _) _ _); [apply Kn; reflexivity|known_here]. }
  apply fine_extend; [exact F|]. refine (bv_learned _ _ W _ _ _ _ _ _ _ _ H2 Ev F (Kn _ _ eq_refl eq_refl) _). known_here.
Qed.

(* ---- Halide ---- *)
Lemma hal_ready : forall check, ready (hal_lang check).
Proof. intros check. exact (readable_ready _ _ _ _ _ (hal_readable check)). Qed.
Theorem hal_delivers : forall check, hal_unsat_right check -> forall all, halide_rules check all ->
  delivers (hal_lang check) hal_arity (fun o => hal_used o = true) (identity HVar (fun _ => True) (hal_den div_smt)) all.
Proof.
  intros check Hu all (r1 & r2 & r3 & r4 & w1 & n1 & w2 & n2 & w3 & n3 & w4 & n4 & H).
  pose proof (read_again _ _ _ (hal_ready check)) as Ag.
  pose proof (step_recursed _ _ _ _ (hal_learns check (fun o => hal_used o = true)) Ag) as Rec. pose proof (step_learned _ _ _ _ (hal_learns check (fun o => hal_used o = true)) Ag) as Lrn.
  pose proof (fine_extend (hal_lang check) hal_arity (read_rules (hal_lang check)) hal_used) as Ext.
  cbv zeta in H. destruct H as (H1 & H2 & H3 & H4 & E1 & L1 & E2 & L2 & E3 & L3 & E4 & L4 & ->).
  apply fine_delivers with (start := read_rules (hal_lang check)); [intros Hl; destruct (hal_ready check _ Hl) as (N & _ & R); split; [exact N|]; split; [exact R|]; exact (hal_true check Hu _ Hl)|].
  assert (F1 : fine (hal_lang check) hal_arity (read_rules (hal_lang check)) hal_used r1) by (refine (Rec _ _ _ _ _ H1 (fine_none _ _ _ _) _ _); known_here).
  apply (Ext []) in F1; [|apply fine_none].
  assert (F2 : fine (hal_lang check) hal_arity (read_rules (hal_lang check)) hal_used r2) by (refine (Rec _ _ _ _ _ H2 F1 _ _); known_here).
  pose proof (Ext _ _ F1 F2) as A2.
  assert (F3 : fine (hal_lang check) hal_arity (read_rules (hal_lang check)) hal_used r3) by (refine (Rec _ _ _ _ _ H3 A2 _ _); known_here).
  pose proof (Ext _ _ A2 F3) as A3.
  assert (F4 : fine (hal_lang check) hal_arity (read_rules (hal_lang check)) hal_used r4) by (refine (Rec _ _ _ _ _ H4 A3 _ _); known_here).
  pose proof (Ext _ _ A3 F4) as A4.
  assert (F5 : fine (hal_lang check) hal_arity (read_rules (hal_lang check)) hal_used n1).
  { refine (Lrn abc (each 1 ["-"; "!"] ++ each 2 hal_arith_ops) _ _ _ _ _ L1 E1 A4 _ _); known_here. }
  pose proof (Ext _ _ A4 F5) as A5.
  assert (F6 : fine (hal_lang check) hal_arity (read_rules (hal_lang check)) hal_used n2).
  { refine (Lrn abc (each 1 ["-"; "!"] ++ each 2 hal_full_ops) _ _ _ _ _ L2 E2 A5 _ _); known_here. }
  pose proof (Ext _ _ A5 F6) as A6.
  assert (F7 : fine (hal_lang check) hal_arity (read_rules (hal_lang check)) hal_used n3).
  { refine (Lrn ["a"; "b"; "c"; "d"] (each 2 ["+"; "-"; "*"] ++ each 3 ["select"]) _ _ _ _ _ L3 E3 F2 _ _); known_here. }
  assert (F8 : fine (hal_lang check) hal_arity (read_rules (hal_lang check)) hal_used n4).
  { refine (Lrn ["a"; "b"; "c"; "d"] (each 2 ["min"; "max"] ++ each 3 ["select"]) _ _ _ _ _ L4 E4 F2 _ _); known_here. }
  exact (Ext _ _ (Ext _ _ A6 F7) F8).
Qed.

(* ---- rationals ---- *)
Lemma math_ready : forall ov check, ready (math_lang ov check).
Proof. intros ov check. exact (readable_ready _ _ _ _ _ (math_readable ov check)). Qed.
Lemma replicate_fine : forall ov check all, replicate_rules ov check all -> fine (math_lang ov check) math_arity (read_rules (math_lang ov check)) math_used all.
Proof.
  intros ov check all (w1 & r1 & w2 & r2 & E1 & L1 & E2 & L2 & ->).
  assert (Lo : learns_only (math_lang ov check) math_arity (fun o => math_used o = true) (fun o => math_used o = true)).
  { refine (learns_same _ _ _ _ _ _ _ (math_learns ov check _)). intros o. split; [intros [H|(q & ->)]; [exact H|reflexivity]|auto]. }
  pose proof (step_learned _ _ _ _ Lo (read_again _ _ _ (math_ready ov check))) as Lrn.
  assert (F1 : fine (math_lang ov check) math_arity (read_rules (math_lang ov check)) math_used (extend [] r1)).
  { apply fine_extend; [apply fine_none|]. refine (Lrn (abc ++ ["0"; "-1"; "1"]) (each 1 ["~"; "fabs"] ++ each 2 ["+"; "-"; "*"; "/"]) _ _ _ _ _ L1 E1 (fine_none _ _ _ _) _ _); known_here. }
  apply fine_extend; [exact F1|]. refine (Lrn (abc ++ ["0"; "-1"; "1"]) (each 1 ["~"; "fabs"] ++ each 2 ["+"; "-"; "*"; "/"]) _ _ _ _ _ L2 E2 F1 _ _); known_here.
Qed.
Theorem replicate_delivers : forall ov check, real_unsat_right check -> forall all, replicate_rules ov check all -> delivers (math_lang ov check) math_arity (fun o => math_used o = true) rational_identity all.
Proof.
  intros ov check Hu all H. apply fine_delivers with (start := read_rules (math_lang ov check)); [|exact (replicate_fine ov check all H)].
  intros Hl. destruct (math_ready ov check _ Hl) as (N & _ & R). split; [exact N|]. split; [exact R|]. exact (math_true ov check Hu _ Hl).
Qed.

(* a rule is kept only if no operator of its left side is printed with the character *)
Lemma has_char_app : forall c a b, has_char c (a ++ b)%string = has_char c a || has_char c b.
Proof. induction a as [|d a IH]; intros b; [reflexivity|]. cbn. rewrite IH. apply orb_assoc. Qed.
Lemma shown_without : forall O (name : O -> string) c t, has_char c (show_term name t) = false -> tall (fun o => has_char c (name o) = false) t.
Proof.
  intros O name c. induction t as [o ts IH] using term_ind'. intros H. destruct ts as [|t ts]; [constructor; [exact H|constructor]|].
  cbn [show_term] in H. rewrite !has_char_app in H. apply orb_false_iff in H as [_ H]. apply orb_false_iff in H as [H1 H2]. constructor; [exact H1|].
  revert IH H2. generalize (t :: ts). clear. induction l as [|t l IHl]; intros IH H; [constructor|]. inversion IH as [|? ? Ht IH']; subst. cbn [fold_right] in H.
  rewrite !has_char_app in H. apply orb_false_iff in H as [_ H]. apply orb_false_iff in H as [H1 H2]. constructor; [exact (Ht H1)|exact (IHl IH' H2)].
Qed.
Lemma kept_without : forall rs kept, without_division rs = Val kept -> forall e, In e kept -> In e rs /\ forall t, tree (rlhs (snd e)) = Val t -> ForwardSpec.without (fun o => o = MDiv) (rlhs (snd e)).
Proof.
  intros rs kept E e I. apply (rfilter_In _ _ _ E) in I as [I H]. split; [exact I|]. apply rbind_val in H as (s & Hs & Hb). injection Hb as Hb. apply negb_true_iff in Hb.
  intros t Et. unfold show_pat, show_rec in Hs. destruct (rlhs (snd e)) as [|n p]; [discriminate Et|]. rewrite Et in Hs. cbn [rbind] in Hs. injection Hs as <-.
  exists t. split; [exact Et|]. eapply tall_impl; [|exact (shown_without _ _ _ _ Hb)]. intros [o|v]; [|auto]. cbn. intros H ->. discriminate H.
Qed.
Theorem best_delivers : forall ov check, real_unsat_right check -> forall all, best_rules ov check all ->
  delivers (math_lang ov check) math_arity (fun _ => True) rational_identity all /\
  exists rules, replicate_rules ov check rules /\ incl (map fst rules) (map fst all) /\ forall e, In e all -> In e rules \/ ForwardSpec.without (fun o => o = MDiv) (rlhs (snd e)).
Proof.
  intros ov check Hu all (rules & w & keep & fuel & factor & kept & Hr & Ew & Hc & Hk & ->).
  pose proof (replicate_fine ov check rules Hr) as [Lr _]. destruct (math_readable ov check) as [K Re]. destruct (learnt_good _ _ _ _ Re rules Lr) as [N F].
  destruct (math_ready ov check rules Lr) as (_ & Rr & _). destruct (conditional_run ov check keep fuel w rules N Rr false factor Hc) as (N' & F' & _).
  assert (Nk : NoDup (map fst (extend rules kept))) by (now apply extend_nodup').
  assert (Fk : Forall (sound_entry (math_lang ov check) math_arity (fun _ => True)) (extend rules kept)).
  { rewrite Forall_forall in *. intros e I. apply extend_in' in I as [I|I]; [|exact (F' e (proj1 (kept_without _ _ Hk e I)))]. exact (F e I). }
  split; [split; [exact Nk|]; split; [exact (proj2 (sound_ready ov check _ Nk Fk))|]|].
  - rewrite Forall_forall in Fk. intros k r I. split; [exact (sound_identity ov check Hu _ (Fk _ I))|exact (proj1 (proj2 (Fk _ I)))].
  - exists rules. split; [exact Hr|]. split; [intros k I; apply extend_key'; now left|]. intros e I. apply extend_in' in I as [I|I]; [now left|right]. destruct (kept_without _ _ Hk e I) as [I' H].
    rewrite Forall_forall in F'. destruct (F' e I') as (_ & _ & En). destruct e as [k r]. destruct En as (_ & _ & tl & tr & (Tl & _) & _). exact (H tl Tl).
Qed.
