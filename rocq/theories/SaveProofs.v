(* Learned rules are well formed: their text is their key and reads back. *)
From Coq Require Import Permutation NArith.
From Verif Require Import EnumSpec.
From Verif Require Import Base BaseProofs Sexp Reader Lang Util LangProofs Syntax SyntaxProofs Rule RuleSpec RuleTextProofs Ruleset Workload Analysis Generalize GeneralizeProofs Egraph EgraphSpec EgraphProofs EgraphSound Synth SynthProofs Apply Sched TotalSpec
  Extract ExtractProofs Match MatchSpec MatchProofs Minimize MinimizeProofs MinimizeLoop Infer InferProofs InvProofs LearnSpec SettleProofs LearnProofs OpsSpec OpsProofs OpsDomains.
From Verif Require RulesetProofs.
Open Scope list_scope.

(* ---- what comes from text ---- *)
Lemma term_read : forall O (from_op : string -> nat -> option O) x t, term_of_sexp from_op x = Some t -> fits (fun o k => exists s, from_op s k = Some o) t.
Proof.
  intros O from_op. fix IH 1. intros [w|l] t H.
  - cbn in H. destruct (from_op w 0) as [o|] eqn:E; [|discriminate H]. cbn in H. inversion H; subst. constructor; [|constructor]. eauto.
  - destruct l as [|[w|l'] l]; cbn in H; try discriminate H.
    match type of H with match ?f l with _ => _ end = _ => assert (forall ts, f l = Some ts -> Forall (fits (fun o k => exists s, from_op s k = Some o)) ts) as G end.
    { clear H. induction l as [|x l IHl]; intros ts H; [inversion H; constructor|].
      destruct (term_of_sexp from_op x) as [t'|] eqn:E; [|discriminate H].
      match type of H with match ?g with _ => _ end = _ => destruct g as [us|] eqn:E2; [|discriminate H] end. inversion H; subst.
      constructor; [exact (IH x t' E)|exact (IHl us eq_refl)]. }
    match type of H with match ?f with _ => _ end = _ => destruct f as [ts|]; [|discriminate H] end.
    destruct (from_op w (length ts)) as [o|] eqn:E; [|discriminate H]. cbn in H. inversion H; subst. constructor; [eauto|now apply G].
Qed.
Lemma workload_read : forall O C (L : lang O C) w, workload_fits L (read_op L) w.
Proof.
  intros O C L w ss ts _ F. induction F as [|s t ss ts H F IH]; constructor; [|exact IH]. unfold reads, parse_rec in H. destruct (parse_str (display s)) as [x|]; [|discriminate H].
  destruct (term_of_sexp (l_from_op L) x) as [t'|] eqn:E; [|discriminate H]. cbn in H. injection H as H.
  assert (tree (to_rec t) = tree (to_rec t')) as E' by congruence. rewrite !tree_to_rec in E'. injection E' as ->. exact (term_read _ _ _ _ E).
Qed.
Lemma pat_read : forall O C (L : lang O C) s p, parse_pat (l_from_op L) s = Some p -> Forall (fun n => match nop n with EN o => read_op L o (length (nch n)) | PV _ => True end) p.
Proof.
  intros O C L s p H. unfold parse_pat, parse_rec in H. destruct (parse_str s) as [x|]; [|discriminate H].
  destruct (term_of_sexp _ x) as [t|] eqn:E; [|discriminate H]. cbn in H. injection H as <-. apply term_read in E.
  pose proof (fits_uses _ _ E) as U. eapply Forall_impl; [|exact U]. intros n (w & Hw). destruct (nop n) as [o|v]; [|exact I].
  exists w. unfold pat_from_op in Hw. destruct w as [|c [|d r]]; try (destruct (Ascii.eqb c "?")); try (destruct (length (nch n)); discriminate Hw);
    (match type of Hw with option_map _ ?y = _ => destruct y as [o'|]; [|discriminate Hw] end; cbn in Hw; injection Hw as ->; reflexivity).
Qed.
Lemma rules_read : forall O C (L : lang O C) ls m, rs_new (l_from_op L) (l_name L) ls = Val m -> Forall (fun e => rhs_uses (read_op L) (snd e)) m.
Proof.
  intros O C L ls m. unfold rs_new. assert (G : forall ls m0 m, Forall (fun e => rhs_uses (read_op L) (snd e)) m0 -> add_lines (l_from_op L) (l_name L) m0 ls = Val m -> Forall (fun e => rhs_uses (read_op L) (snd e)) m).
  2: { apply G. constructor. }
  clear ls m. induction ls as [|s ls IH]; intros m0 m Hm H; cbn [add_lines] in H; [injection H as <-; exact Hm|].
  destruct (add_line (l_from_op L) (l_name L) m0 s) as [m1|] eqn:E; [|discriminate H]. cbn [rbind] in H. refine (IH _ _ _ H). clear IH H.
  unfold add_line, rule_from_string in E. destruct (split_arrow s) as [[l r]|]; cbn [rbind] in E; [|injection E as <-; exact Hm].
  destruct (parse_pat (l_from_op L) l) as [lp|] eqn:El; [|discriminate E]. destruct (parse_pat (l_from_op L) r) as [rp|] eqn:Er; [|discriminate E]. cbn [unwrap rbind] in E.
  apply pat_read in El, Er.
  assert (R : forall a b x, rule_unwrap (l_name L) a b = Val x -> rrhs x = b).
  { intros a b x H. unfold rule_unwrap, rule_new in H. destruct (rule_name (l_name L) a b) as [nm|]; [|discriminate H]. cbn [rbind] in H. destruct (rewrite_ok a b); [|discriminate H]. injection H as <-. reflexivity. }
  assert (A : forall m x, Forall (fun e : string * rule O => rhs_uses (read_op L) (snd e)) m -> rhs_uses (read_op L) x -> Forall (fun e => rhs_uses (read_op L) (snd e)) (rs_add m x)).
  { intros m' x F Hx. apply Forall_forall. intros e J. apply rs_add_in in J as [J| ->]; [|exact Hx]. rewrite Forall_forall in F. auto. }
  destruct (rule_unwrap (l_name L) lp rp) as [fw|] eqn:Ef; [|discriminate E]. cbn [rbind] in E. apply R in Ef.
  assert (Hf : rhs_uses (read_op L) fw) by (unfold rhs_uses; rewrite Ef; exact Er).
  destruct (has_biarrow s); cbn [rbind] in E.
  - destruct (rule_unwrap (l_name L) rp lp) as [bw|] eqn:Eb; [|discriminate E]. cbn [rbind] in E. injection E as <-. apply R in Eb. apply A; [now apply A|]. unfold rhs_uses. rewrite Eb. exact El.
  - injection E as <-. now apply A.
Qed.

(* ---- keys ---- *)
Section Keyed.
  Context {O C : Type}.
  Variable L : lang O C.
  Variable keep : eg O C -> nat -> nat -> bool.
  Variable fuel : nat.
  Local Notation key m := (Forall (fun e : string * rule O => fst e = rname (snd e)) m).
  Lemma key_add : forall (m : ruleset O) x, key m -> key (rs_add m x).
  Proof. intros s x Fs. apply Forall_forall. intros e I. apply rs_add_in in I as [I| ->]; [|reflexivity]. rewrite Forall_forall in Fs. auto. Qed.
  Lemma select_loop_key : forall step m sel inv rest sel' inv', select_loop L step m sel inv = Val (rest, sel', inv') -> key sel -> key sel'.
  Proof.
    intros step. induction m as [|[k r] m IH]; intros sel inv rest sel' inv' H F; cbn [select_loop] in H.
    - destruct (Nat.ltb (length sel) step); inversion H; subst; auto.
    - destruct (Nat.ltb (length sel) step); [|inversion H; subst; auto].
      destruct (is_valid L r) as [b|] eqn:Ev; [|discriminate H]. cbn [rbind] in H.
      set (sel1 := if b then rs_add sel r else sel). assert (F1 : key sel1) by (unfold sel1; destruct b; [now apply key_add|exact F]).
      assert (H' : exists inv1, (let* o := reverse (l_name L) r in
          match o with
          | None => select_loop L step m sel1 inv1
          | Some r' =>
              let* b' := if rs_contains m r' then is_valid L r' else Val false in
              if b' then select_loop L step m (rs_add sel1 r') inv1
              else select_loop L step m sel1 (rs_add inv1 r')
          end) = Val (rest, sel', inv')).
      { unfold sel1. destruct b; eexists; exact H. }
      destruct H' as (inv1 & H'). destruct (reverse (l_name L) r) as [[r'|]|] eqn:Er; cbn [rbind] in H'; [|exact (IH _ _ _ _ _ H' F1)|discriminate H'].
      destruct (rs_contains m r'); cbn [rbind] in H'; [|exact (IH _ _ _ _ _ H' F1)].
      destruct (is_valid L r') as [[|]|]; cbn [rbind] in H'; [|exact (IH _ _ _ _ _ H' F1)|discriminate H'].
      apply (IH _ _ _ _ _ H'). now apply key_add.
  Qed.
  Lemma select_key : forall step m inv rest sel inv', select L step m inv = Val (rest, sel, inv') -> key sel.
  Proof.
    intros step m inv rest sel inv' H. unfold select in H. destruct (sort_candidates L m) as [sorted|] eqn:Es; [|discriminate H]. cbn [rbind] in H.
    destruct (select_loop L step (rev sorted) [] inv) as [[[r1 s1] i1]|] eqn:E; [|discriminate H]. cbn [rbind] in H. inversion H; subst.
    pose proof (select_loop_key _ _ _ _ _ _ _ E (Forall_nil _)) as F1.
    apply Forall_forall. intros e I. apply extend_in' in I as [[]|I]. rewrite Forall_forall in F1. auto.
  Qed.
  Lemma rounds_key : forall st (prior : ruleset O) x y, rounds L keep fuel st x y -> (forall e, In e (snd (fst x)) -> In e prior \/ fst e = rname (snd e)) ->
    forall e, In e (snd (fst y)) -> In e prior \/ fst e = rname (snd e).
  Proof.
    intros st prior x y R. induction R as [x|x y z R1 _ IH]; intros H; [exact H|]. inversion R1 as [m chosen invalid rest selected invalid' m' Nm Es Sh]; subst. cbn [fst snd] in *.
    pose proof (select_key _ _ _ _ _ _ Es) as F1. apply IH.
    intros e I. apply extend_in' in I as [I|I]; [auto|]. right. rewrite Forall_forall in F1. auto.
  Qed.
  Lemma minimize_key : forall st m prior new invalid, NoDup (map fst prior) -> minimize L keep fuel st m prior new invalid -> key new.
  Proof.
    intros st m prior new invalid N M. pose proof M as (chosen & R & ->).
    pose proof (rounds_valid L keep fuel st prior _ _ R) as (Nc & _); [split; [exact N|auto]|]. cbn [fst snd] in *.
    pose proof (rounds_key st prior _ _ R (fun e I => or_introl I)) as F. cbn [fst snd] in F.
    destruct (RulesetProofs.remove_all_spec prior chosen Nc) as [Nr Lk]. apply Forall_forall. intros [k r] I.
    apply (lookup_in_nodup _ _ _ Nr) in I. rewrite Lk in I. destruct (lookup prior k) eqn:E; [discriminate I|]. assert (Nk : ~ In k (map fst prior)) by now apply lookup_none.
    destruct (F (k, r)) as [H|H]; [now apply lookup_some_in|destruct Nk; change k with (fst (k, r)); now apply in_map|exact H].
  Qed.
End Keyed.

(* ---- learned rules are well formed ---- *)
Section Formed.
  Context {O C : Type}.
  Variable L : lang O C.
  Variable ar : O -> nat.
  Hypothesis eqb_eq : forall a b, l_eqb L a b = true <-> a = b.
  Hypothesis var_ok : forall s, l_to_var L (l_mk_var L s) = Some s.
  Hypothesis leaf : forall o, l_to_var L o <> None -> ar o = 0.
  Local Notation tv := (l_to_var L).

  Definition sided (p : pat O) (t : term (eov O)) : Prop :=
    tree p = Val t /\ wf_term (par ar) t /\ tall (fun o => match o with PV v => word v /\ no_arrow v | EN _ => True end) t /\
    forall n v, In n p -> nop n = PV v -> In v (ptvars t).
  Definition formed (r : rule O) : Prop :=
    rule_name (l_name L) (rlhs r) (rrhs r) = Val (rname r) /\
    exists tl tr, sided (rlhs r) tl /\ sided (rrhs r) tr /\ incl (ptvars tr) (ptvars tl).
  Lemma sides_formed : forall a b ta tb n, sided a ta -> sided b tb -> rule_name (l_name L) a b = Val n -> rewrite_ok a b = true -> formed (Rule n a b KRhs).
  Proof.
    intros a b ta tb n Sa Sb En Rk. split; [exact En|]. exists ta, tb. split; [exact Sa|]. split; [exact Sb|]. intros v Hv.
    destruct Sb as (Tb & _). pose proof (tree_vars_in _ _ _ Tb Hv) as X. apply (proj1 (rewrite_ok_iff a b) Rk) in X as (n0 & Hn & E). destruct Sa as (_ & _ & _ & J). exact (J n0 v Hn E).
  Qed.
  Lemma formed_reverse : forall r r', formed r -> reverse (l_name L) r = Val (Some r') -> formed r'.
  Proof.
    intros r r' (_ & tl & tr & Sl & Sr & _) E. unfold reverse, rule_new in E. destruct (rule_name (l_name L) (rrhs r) (rlhs r)) as [s|] eqn:En; [|discriminate E]. cbn in E.
    destruct (rewrite_ok _ _) eqn:Ek; [|discriminate E]. injection E as <-. exact (sides_formed _ _ _ _ _ Sr Sl En Ek).
  Qed.
  Lemma gen_letters : forall rho t, (forall s, In s (tvars tv t) -> exists i, letter i = Val (rho s)) ->
    tall (fun o => match o with PV v => word v /\ no_arrow v | EN _ => True end) (gen_term tv rho t).
  Proof.
    intros rho t. induction t as [o ts IH] using term_ind'. intros Hl. cbn [gen_term tvars] in *. destruct (tv o) as [s|].
    - constructor; [|constructor]. destruct (Hl s (or_introl eq_refl)) as (i & Hi). apply letter_word in Hi. exact Hi.
    - constructor; [exact I|]. rewrite Forall_forall in *. intros u Hu. apply in_map_iff in Hu as (t & <- & Hin). apply IH; [exact Hin|].
      intros s Hs. apply Hl. apply in_app_iff. right. apply in_flat_map. eauto.
  Qed.
  Lemma pair_formed : forall e1 t1 e2 t2 fw bw, wf_rec ar e1 -> wf_rec ar e2 -> tree e1 = Val t1 -> tree e2 = Val t2 ->
    candidate_pair (l_eqb L) tv (l_mk_var L) (l_name L) e1 e2 = Val (fw, bw) -> forall x, fw = Some x \/ bw = Some x -> formed x.
  Proof.
    intros e1 t1 e2 t2 fw bw W1 W2 T1 T2 H x Hx. unfold candidate_pair in H.
    destruct (generalize (l_eqb L) tv (l_mk_var L) [] e1) as [[l m1]|] eqn:G1; [|discriminate H]. cbn [rbind] in H.
    destruct (generalize (l_eqb L) tv (l_mk_var L) m1 e2) as [[r m2]|] eqn:G2; [|discriminate H]. cbn [rbind] in H.
    assert (exists tl tr, sided l tl /\ sided r tr) as (tl & tr & Sl & Sr).
    { pose proof (fun a b => proj1 (eqb_eq a b)) as Eq.
      assert (at_most 26 (tvars tv t1 ++ tvars tv t2)) as Am.
      { destruct (generalize_spec (l_eqb L) tv (l_mk_var L) Eq var_ok [] e1 t1 good_nil T1 (fun n => wf_leaf tv ar leaf e1 n W1)) as
          [(l' & m1' & L1 & L2 & L3 & L4 & _)|(X & _)]; [|rewrite X in G1; discriminate G1]. rewrite L1 in G1. injection G1 as -> ->.
        destruct (generalize_spec (l_eqb L) tv (l_mk_var L) Eq var_ok m1 e2 t2 L2 T2 (fun n => wf_leaf tv ar leaf e2 n W2)) as
          [(r' & m2' & R1 & R2 & R3 & R4 & _)|(X & _)]; [|rewrite X in G2; discriminate G2].
        intros ws N I. apply (nodup_le26 m2' R2 ws N). intros y Hy. apply I in Hy. apply R4. rewrite in_app_iff in Hy. destruct Hy; [left; apply L4; auto|auto]. }
      destruct (generalize_pair (l_eqb L) tv (l_mk_var L) Eq var_ok ar leaf e1 t1 e2 t2 W1 W2 T1 T2 Am) as (l' & m1' & r' & m2' & rho & E1 & E2 & _ & Hlet & Tl & Tr & JL & JR).
      rewrite E1 in G1. injection G1 as -> ->. rewrite E2 in G2. injection G2 as -> ->.
      pose proof (wf_rec_tree ar e1 t1 W1 T1) as V1. pose proof (wf_rec_tree ar e2 t2 W2 T2) as V2.
      exists (gen_term tv rho t1), (gen_term tv rho t2). split; (split; [assumption|]; split; [now apply gen_term_wf|]; split; [apply gen_letters; intros s Hs; apply Hlet; apply in_app_iff; auto|assumption]). }
    unfold rule_new in H. destruct (rule_name (l_name L) l r) as [s1|] eqn:E1; [|discriminate H]. cbn [rbind] in H.
    destruct (rule_name (l_name L) r l) as [s2|] eqn:E2; [|discriminate H]. cbn [rbind] in H. injection H as <- <-. destruct Hx as [Hx|Hx].
    - destruct (rewrite_ok l r) eqn:Ek; [|discriminate Hx]. injection Hx as <-. exact (sides_formed _ _ _ _ _ Sl Sr E1 Ek).
    - destruct (rewrite_ok r l) eqn:Ek; [|discriminate Hx]. injection Hx as <-. exact (sides_formed _ _ _ _ _ Sr Sl E2 Ek).
  Qed.
  (* with operators that read back, a well-formed rule is an entry of a ruleset *)
  Lemma sided_ok : forall p t, sided p t -> (forall n o, In n p -> nop n = EN o -> eov_ok (l_from_op L) (l_name L) ar (EN o)) -> pat_ok (l_from_op L) (l_name L) ar p t.
  Proof.
    intros p t (T & W & V & J) Ho. split; [exact T|]. split; [exact W|]. split; [|exact J].
    assert (X : tall (fun o => match o with EN o => eov_ok (l_from_op L) (l_name L) ar (EN o) | PV _ => True end) t).
    { apply (tree_tall _ p); [|exact T]. intros n Hn. destruct (nop n) as [o|] eqn:E; [|exact I]. exact (Ho n o Hn E). }
    clear T W J Ho. induction t as [o ts IH] using term_ind'. inversion V as [? ? V1 V2]; inversion X as [? ? X1 X2]; subst. constructor; [destruct o; assumption|].
    rewrite Forall_forall in *. intros u Hu. apply IH; auto.
  Qed.
  Lemma formed_entry : forall k r, k = rname r -> formed r -> (forall n o, In n (rlhs r ++ rrhs r) -> nop n = EN o -> eov_ok (l_from_op L) (l_name L) ar (EN o)) ->
    entry_ok (l_from_op L) (l_name L) ar (k, r).
  Proof.
    intros k r -> (En & tl & tr & Sl & Sr & Hi) Ho. split; [reflexivity|]. split; [exact En|]. exists tl, tr.
    split; [apply sided_ok; [exact Sl|intros n o Hn; apply (Ho n o); apply in_app_iff; auto]|]. split; [apply sided_ok; [exact Sr|intros n o Hn; apply (Ho n o); apply in_app_iff; auto]|exact Hi].
  Qed.
End Formed.

(* ---- learned rulesets ---- *)
Section Saved.
  Context {O C : Type}.
  Variable L : lang O C.
  Variable ar : O -> nat.
  Hypothesis eqb_eq : forall a b, l_eqb L a b = true <-> a = b.
  Hypothesis var_ok : forall s, l_to_var L (l_mk_var L s) = Some s.
  Hypothesis leaf : forall o, l_to_var L o <> None -> ar o = 0.
  Variable P : O -> Prop.
  Variable K : C -> Prop.
  Hypothesis Ad : admits L (over L ar P) K.
  Hypothesis Rd : forall o k, read_op L o k -> over L ar P o k.
  Hypothesis Ok : forall r, l_validate L (rlhs r) (rrhs r) = Val Valid -> rule_uses L (over L ar P) r ->
    forall n o, In n (rlhs r ++ rrhs r) -> nop n = EN o -> eov_ok (l_from_op L) (l_name L) ar (EN o).
  Variable keep : eg O C -> nat -> nat -> bool.
  Variable fuel : nat.
  Local Notation Q := (over L ar P).
  Local Notation R := (fun r => rule_uses L Q r /\ formed L ar r).
  Local Notation entry := (entry_ok (l_from_op L) (l_name L) ar).

  Lemma over_wf : forall e, uses Q e -> wf_rec ar e.
  Proof. intros e H. eapply Forall_impl; [|exact H]. intros n [E _]. exact E. Qed.
  Lemma both_pair : forall e1 t1 e2 t2 fw bw, uses Q e1 -> uses Q e2 -> tree e1 = Val t1 -> tree e2 = Val t2 ->
    candidate_pair (l_eqb L) (l_to_var L) (l_mk_var L) (l_name L) e1 e2 = Val (fw, bw) -> forall x, fw = Some x \/ bw = Some x -> R x.
  Proof.
    intros e1 t1 e2 t2 fw bw U1 U2 T1 T2 H x Hx. split; [exact (pair_uses L var_ok Q e1 e2 fw bw U1 U2 H x Hx)|].
    exact (pair_formed L ar eqb_eq var_ok leaf e1 t1 e2 t2 fw bw (over_wf _ U1) (over_wf _ U2) T1 T2 H x Hx).
  Qed.
  Lemma both_reverse : forall r r', R r -> reverse (l_name L) r = Val (Some r') -> R r'.
  Proof. intros r r' [U F] E. split; [exact (rule_uses_reverse L Q r r' U E)|exact (formed_reverse L ar r r' F E)]. Qed.
  Lemma both_rhs : forall r, R r -> rhs_uses Q r.
  Proof. intros r [U _]. exact (rule_uses_rhs L Q r U). Qed.
  Lemma read_kind : forall rs, read_rules L rs -> Forall (fun e => rhs_uses Q (snd e)) rs.
  Proof. intros rs. apply Forall_impl. intros e. apply rhs_uses_mono. exact Rd. Qed.
  Lemma read_workload : forall w, workload_fits L Q w.
  Proof. intros w. apply (workload_fits_mono _ _ L (read_op L)); [exact Rd|apply workload_read]. Qed.
  Lemma entry_of : forall k r, k = rname r -> R r -> l_validate L (rlhs r) (rrhs r) = Val Valid -> entry (k, r).
  Proof. intros k r E [U F] V. apply formed_entry; [exact E|exact F|exact (Ok r V U)]. Qed.

  Theorem workload_saved : forall w prior fast ae new, NoDup (map fst prior) -> read_rules L prior -> run_workload_internal L keep fuel w prior fast ae new ->
    ruleset_ok (l_from_op L) (l_name L) ar new.
  Proof.
    intros w prior fast ae new N Hp Rw.
    pose proof (workload_ops L eqb_eq keep Q K Ad R both_pair both_reverse fuel w prior fast ae new N (read_workload w) (read_kind _ Hp) Rw) as F.
    destruct (workload_valid L keep fuel w prior fast ae new N Rw) as [Nn V]. split; [exact Nn|].
    destruct Rw as (g & c & cands & _ & _ & _ & (order & invalid & _ & M) & _). pose proof (minimize_key L keep fuel _ _ _ _ _ N M) as Ky.
    rewrite Forall_forall in *. intros [k r] I. exact (entry_of k r (Ky _ I) (F _ I) (proj1 (V _ I))).
  Qed.
  Theorem forwarding_saved : forall exploratory w prior new, NoDup (map fst prior) -> read_rules L prior -> read_rules L exploratory -> run_fast_forwarding L keep fuel exploratory w prior new ->
    ruleset_ok (l_from_op L) (l_name L) ar new.
  Proof.
    intros ex w prior new N Hp He Rw.
    pose proof (forwarding_ops L eqb_eq keep Q K Ad R both_pair both_reverse fuel ex w prior new N (read_workload w) (read_kind _ Hp) (read_kind _ He) Rw) as F.
    destruct (forwarding_valid L keep fuel ex w prior new N Rw) as [Nn V]. split; [exact Nn|].
    destruct Rw as (g0 & allowed & other & g1 & g2 & g3 & c1 & c2 & _ & _ & _ & _ & _ & _ & _ & (order & invalid & _ & M)). pose proof (minimize_key L keep fuel _ _ _ _ _ N M) as Ky.
    rewrite Forall_forall in *. intros [k r] I. exact (entry_of k r (Ky _ I) (F _ I) (proj1 (V _ I))).
  Qed.
  Theorem recursive_saved : forall met l prior n all, ruleset_ok (l_from_op L) (l_name L) ar prior -> read_rules L prior -> recursive_rules L keep fuel met l prior n all ->
    ruleset_ok (l_from_op L) (l_name L) ar all.
  Proof.
    intros met l prior n all [N Fp] Hp Rr. destruct (recursive_ok L keep fuel met l prior n all N Rr) as (Na & _). split; [exact Na|]. clear Na.
    induction Rr as [|k rec w new Rr IH Ew Rw]; [constructor|].
    destruct (recursive_ok L keep fuel met l prior k rec N Rr) as (Nr & _).
    destruct (recursive_ops L eqb_eq keep Q K Ad R both_pair both_reverse both_rhs fuel met l prior k rec N (fun m w _ _ => read_workload w) (read_kind _ Hp) Rr) as [Kr _].
    pose proof (kind_extend Q rec prior Kr (read_kind _ Hp)) as Pe. pose proof (extend_nodup' rec prior Nr) as Ne.
    pose proof (workload_ops L eqb_eq keep Q K Ad R both_pair both_reverse fuel w (extend rec prior) true _ new Ne (read_workload w) Pe Rw) as F.
    destruct (workload_valid L keep fuel w _ true _ new Ne Rw) as [Nn V].
    destruct Rw as (g & c & cands & _ & _ & _ & (order & invalid & _ & M) & _). pose proof (minimize_key L keep fuel _ _ _ _ _ Ne M) as Ky.
    rewrite Forall_forall in *. intros [k' r] I. apply extend_in' in I as [I|I]; [exact (entry_of k' r (Ky _ I) (F _ I) (proj1 (V _ I)))|].
    apply extend_in' in I as [I|I]; auto.
  Qed.
End Saved.
