From Verif Require Import Base BaseProofs Sexp Pattern Filter EnumSpec SexpProofs CanonProofs PatternProofs.

Section FilterInd.
  Variable P : filter -> Prop.
  Hypothesis H1 : forall m n, P (MetricLt m n).
  Hypothesis H2 : forall m n, P (MetricEq m n).
  Hypothesis H3 : forall p, P (Contains p).
  Hypothesis H4 : forall p, P (Excludes p).
  Hypothesis H5 : forall s, P (Canon s).
  Hypothesis H6 : forall fs, Forall P fs -> P (FAnd fs).
  Hypothesis H7 : forall fs, Forall P fs -> P (FOr fs).
  Hypothesis H8 : forall f, P f -> P (Invert f).
  Fixpoint filter_ind' (f : filter) : P f :=
    let go := fix go (l : list filter) : Forall P l :=
                match l with
                | [] => Forall_nil _
                | t :: r => Forall_cons _ (filter_ind' t) (go r)
                end in
    match f with
    | MetricLt m n => H1 m n | MetricEq m n => H2 m n
    | Contains p => H3 p | Excludes p => H4 p | Canon s => H5 s
    | FAnd fs => H6 fs (go fs) | FOr fs => H7 fs (go fs)
    | Invert f => H8 f (filter_ind' f)
    end.
End FilterInd.

Lemma contains_iff p t :
  contains p t = true <-> exists s sigma, subterm s t /\ pinst sigma p s.
Proof.
  induction t as [x|l IH] using sexp_ind'.
  - cbn [contains]. rewrite orb_false_r, matches_iff. split.
    + intros [sigma H]. exists (Atom x), sigma. split; [constructor|assumption].
    + intros [s [sigma [Hs H]]]. apply subterm_atom in Hs; subst. eauto.
  - cbn [contains]. rewrite orb_true_iff, matches_iff, existsb_exists. rewrite Forall_forall in IH. split.
    + intros [[sigma H]|[t [Ht H]]].
      * exists (Lst l), sigma. split; [constructor|assumption].
      * apply IH in H as [s [sigma [Hs H]]]; [|assumption]. exists s, sigma. split; [|assumption].
        eapply sub_in; eauto.
    + intros [s [sigma [Hs H]]]. apply subterm_list in Hs as [->|[t [Ht Hs]]]; [eauto|].
      right. exists t; split; [assumption|]. apply IH; eauto.
Qed.

(* total version of test, used only in proofs *)
Fixpoint ptest (f : filter) (t : sexp) : bool :=
  match f with
  | MetricLt m n => Nat.ltb (size m t) n
  | MetricEq m n => Nat.eqb (size m t) n
  | Contains p => contains p t
  | Excludes p => negb (contains p t)
  | Canon symbols => match canon symbols t with Val c => sexp_eqb t c | Panic => false end
  | FAnd fs => forallb (fun f => ptest f t) fs
  | FOr fs => existsb (fun f => ptest f t) fs
  | Invert f => negb (ptest f t)
  end.

Lemma test_ptest f t b : test f t = Val b -> b = ptest f t.
Proof.
  revert b; induction f as [m n|m n|p|p|s|fs IH|fs IH|f IH] using filter_ind'; intros b H; cbn [test ptest] in *.
  - inv_bind H. apply measure_val in E. inversion H; subst; reflexivity.
  - inv_bind H. apply measure_val in E. inversion H; subst; reflexivity.
  - now inversion H.
  - now inversion H.
  - inv_bind H. rewrite E. now inversion H.
  - rewrite Forall_forall in IH. eapply rall_pure_inv; [|eassumption]. intros x y Hx Hy. now apply IH.
  - rewrite Forall_forall in IH. eapply rany_pure_inv; [|eassumption]. intros x y Hx Hy. now apply IH.
  - inv_bind H. apply IH in E. inversion H; subst. reflexivity.
Qed.

Lemma test_proper f t : proper t = true -> test f t = Val (ptest f t).
Proof.
  intros Hp; induction f as [m n|m n|p|p|s|fs IH|fs IH|f IH] using filter_ind'; cbn [test ptest].
  - now rewrite measure_proper.
  - now rewrite measure_proper.
  - reflexivity.
  - reflexivity.
  - rewrite canon_val. reflexivity.
  - rewrite Forall_forall in IH. now apply rall_pure.
  - rewrite Forall_forall in IH. now apply rany_pure.
  - now rewrite IH.
Qed.

Lemma ptest_sat f t : syms_ok f -> (ptest f t = true <-> sat f t).
Proof.
  induction f as [m n|m n|p|p|s|fs IH|fs IH|f IH] using filter_ind'; intros Hok; cbn [ptest sat].
  - apply Nat.ltb_lt.
  - apply Nat.eqb_eq.
  - apply contains_iff.
  - rewrite negb_true_iff. rewrite <- contains_iff. destruct (contains p t); intuition congruence.
  - cbn in Hok. rewrite <- canon_fixed_iff by assumption. rewrite canon_val.
    rewrite sexp_eqb_eq. split; intros H; [now rewrite <- H|congruence].
  - cbn in Hok. induction IH as [|f fs Hf Hfs IHfs]; simpl in *; [tauto|].
    rewrite andb_true_iff, Hf, IHfs; tauto.
  - cbn in Hok. induction IH as [|f fs Hf Hfs IHfs]; simpl in *; [split; [discriminate|tauto]|].
    rewrite orb_true_iff, Hf, IHfs; tauto.
  - cbn in Hok. rewrite negb_true_iff, <- IH by assumption. destruct (ptest f t); intuition congruence.
Qed.

Lemma test_sat f t :
  syms_ok f -> proper t = true ->
  (test f t = Val true <-> sat f t) /\ (test f t = Val false <-> ~ sat f t).
Proof.
  intros Hok Hp. rewrite test_proper by assumption. rewrite <- ptest_sat by assumption.
  destruct (ptest f t); split; split; intros; congruence.
Qed.

(* ---- monotonicity ---- *)

Lemma is_monotonic_test f s t :
  is_monotonic f = true -> subterm s t -> test f t = Val true -> test f s = Val true.
Proof.
  intros Hm Hs; induction f as [m n|m n|p|p|sy|fs IH|fs IH|f IH] using filter_ind'; try discriminate Hm; intros H; cbn [test] in *.
  - inv_bind H. destruct (measure_subterm _ _ _ _ Hs E) as [k' [-> Hk]]. simpl.
    inversion H as [Hlt]. apply Nat.ltb_lt in Hlt. f_equal. rewrite (proj2 (Nat.ltb_lt k' n)) by lia. now rewrite (proj2 (Nat.ltb_lt v n)).
  - f_equal. inversion H as [Hn]. rewrite Hn. apply negb_true_iff in Hn. apply negb_true_iff.
    destruct (contains p s) eqn:E; [|reflexivity].
    apply contains_iff in E as [u [sigma [Hu Hi]]].
    assert (contains p t = true); [|congruence].
    apply contains_iff. exists u, sigma. split; [eapply subterm_trans; eauto|assumption].
  - rewrite rall_true in *. rewrite Forall_forall in IH. cbn [is_monotonic] in Hm.
    rewrite forallb_forall in Hm. intros f Hf. apply IH; auto.
Qed.

Lemma is_monotonic_ptest f s t :
  is_monotonic f = true -> subterm s t -> ptest f t = true -> ptest f s = true.
Proof.
  intros Hm Hs; induction f as [m n|m n|p|p|sy|fs IH|fs IH|f IH] using filter_ind'; try discriminate Hm; intros H; cbn [ptest] in *.
  - apply Nat.ltb_lt in H. apply Nat.ltb_lt. pose proof (size_subterm m s t Hs). lia.
  - apply negb_true_iff in H. apply negb_true_iff.
    destruct (contains p s) eqn:E; [|reflexivity].
    apply contains_iff in E as [u [sigma [Hu Hi]]].
    assert (contains p t = true); [|congruence].
    apply contains_iff. exists u, sigma. split; [eapply subterm_trans; eauto|assumption].
  - rewrite forallb_forall in *. rewrite Forall_forall in IH. cbn [is_monotonic] in Hm.
    rewrite forallb_forall in Hm. intros f Hf. apply IH; auto.
Qed.

(* ---- conjunction ---- *)

Lemma subsumed_ptest f fs t :
  subsumed_by f fs = true -> forallb (fun g => ptest g t) fs = true -> ptest f t = true.
Proof.
  destruct f; cbn [subsumed_by]; try discriminate. intros H Ha.
  apply existsb_exists in H as [g [Hg H]]. destruct g; try discriminate.
  apply andb_prop in H as [H1 H2]. apply metric_eqb_eq in H1; subst. apply Nat.leb_le in H2.
  rewrite forallb_forall in Ha. specialize (Ha _ Hg). cbn [ptest] in *.
  apply Nat.ltb_lt in Ha. apply Nat.ltb_lt. lia.
Qed.

Lemma minimize_conj_ptest_aux t all acc :
  forallb (fun g => ptest g t)
    (fold_left (fun minimized f => if subsumed_by f minimized then minimized else minimized ++ [f]) all acc)
  = forallb (fun g => ptest g t) acc && forallb (fun g => ptest g t) all.
Proof.
  revert acc; induction all as [|f all IH]; intros acc; cbn [fold_left forallb].
  - now rewrite andb_true_r.
  - rewrite IH. destruct (subsumed_by f acc) eqn:E.
    + destruct (forallb (fun g => ptest g t) acc) eqn:Ea; [|reflexivity].
      rewrite (subsumed_ptest _ _ _ E Ea). reflexivity.
    + rewrite forallb_app. cbn [forallb]. rewrite andb_true_r. now rewrite andb_assoc.
Qed.

Lemma minimize_conj_ptest t all :
  forallb (fun g => ptest g t) (minimize_conj all) = forallb (fun g => ptest g t) all.
Proof. apply minimize_conj_ptest_aux. Qed.

Lemma and_all_ptest f g t :
  forallb (fun h => ptest h t) (and_all f g) = ptest f t && ptest g t.
Proof.
  destruct f, g; cbn [and_all]; rewrite ?forallb_app; cbn [forallb ptest];
    rewrite ?andb_true_r; try reflexivity; try apply andb_comm.
Qed.

Lemma fand_ptest f g t : ptest (fand f g) t = ptest f t && ptest g t.
Proof. unfold fand. cbn [ptest]. rewrite minimize_conj_ptest. apply and_all_ptest. Qed.

Lemma minimize_conj_incl all acc f :
  In f (fold_left (fun minimized f => if subsumed_by f minimized then minimized else minimized ++ [f]) all acc) ->
  In f acc \/ In f all.
Proof.
  revert acc; induction all as [|g all IH]; intros acc; cbn [fold_left]; [auto|].
  intros H. apply IH in H as [H|H]; [|simpl; auto].
  destruct (subsumed_by g acc); [simpl; auto|]. apply in_app_iff in H as [H|[->|[]]]; simpl; auto.
Qed.

Lemma fand_monotonic f g :
  is_monotonic f = true -> is_monotonic g = true -> is_monotonic (fand f g) = true.
Proof.
  intros Hf Hg. unfold fand. cbn [is_monotonic]. apply forallb_forall. intros h Hh.
  unfold minimize_conj in Hh. apply minimize_conj_incl in Hh as [[]|Hh].
  assert (Hand : forall fs, is_monotonic (FAnd fs) = true -> forall h, In h fs -> is_monotonic h = true).
  { intros fs H k Hk. cbn in H. rewrite forallb_forall in H. auto. }
  destruct f, g; cbn [and_all] in Hh; try discriminate Hf; try discriminate Hg;
    rewrite ?in_app_iff in Hh; simpl in Hh;
    repeat (match goal with
            | H : _ \/ _ |- _ => destruct H as [H|H]
            | H : False |- _ => destruct H
            | H : _ = h |- _ => subst h
            end); eauto.
Qed.

(* conjunction of tests, without any assumption on the term *)
Lemma minimize_true_aux t all acc :
  (forall g, In g (fold_left (fun minimized f => if subsumed_by f minimized then minimized else minimized ++ [f]) all acc)
     -> test g t = Val true)
  <-> (forall g, In g acc \/ In g all -> test g t = Val true).
Proof.
  revert acc; induction all as [|f all IH]; intros acc; cbn [fold_left].
  - split; intros H g; [intros [Hg|[]]|]; auto.
  - rewrite IH. destruct (subsumed_by f acc) eqn:E.
    + split; intros H g.
      * intros [Hg|[<-|Hg]]; [apply H; now left| |apply H; now right].
        destruct f; try discriminate E. cbn in E. apply existsb_exists in E as [h [Hh E]].
        destruct h; try discriminate. apply andb_prop in E as [E1 E2].
        apply metric_eqb_eq in E1; subst. apply Nat.leb_le in E2.
        assert (Ht : test (MetricLt m0 n0) t = Val true) by (apply H; now left).
        cbn [test] in *. inv_bind Ht. assert (Hlt : Nat.ltb v n0 = true) by congruence.
        apply Nat.ltb_lt in Hlt. rewrite E. cbn [rbind]. f_equal. apply Nat.ltb_lt. lia.
      * intros [Hg|Hg]; apply H; simpl; auto.
    + split; intros H g.
      * intros [Hg|[<-|Hg]]; apply H; rewrite in_app_iff; simpl; auto.
      * rewrite in_app_iff. intros [[Hg|[<-|[]]]|Hg]; apply H; simpl; auto.
Qed.

Lemma fand_true f g t :
  test (fand f g) t = Val true <-> test f t = Val true /\ test g t = Val true.
Proof.
  unfold fand. cbn [test]. rewrite rall_true. unfold minimize_conj. rewrite minimize_true_aux.
  assert (Hand : forall fs, test (FAnd fs) t = Val true <-> (forall h, In h fs -> test h t = Val true)).
  { intros fs. cbn [test]. apply rall_true. }
  assert (Hn : forall P : filter -> Prop, (forall h, In h [] \/ P h -> test h t = Val true) <-> (forall h, P h -> test h t = Val true)).
  { intros P; split; intros H h; [|intros [[]|Hh]]; auto. }
  rewrite Hn. clear Hn.
  destruct f as [| | | | |fs1| |]; destruct g as [| | | | |fs2| |]; cbn [and_all]; rewrite ?Hand;
    (split;
     [ intros H; split; try (intros h Hh); apply H; rewrite ?in_app_iff; simpl; auto
     | intros [H1 H2] h Hh; rewrite ?in_app_iff in Hh; simpl in Hh;
       repeat (match goal with
               | H : _ \/ _ |- _ => destruct H as [H|H]
               | H : False |- _ => destruct H
               | H : _ = h |- _ => subst h
               end); auto ]).
Qed.
