(* The rules returned by run_workload_conditional. *)
From Coq Require Import Permutation ZArith QArith Qcanon.
From Verif Require Import EnumSpec.
From Verif Require Import Base BaseProofs Lang LangProofs Util Syntax SyntaxProofs Rule Ruleset RuleSpec RuleTextProofs DomainSpec Number Rational RationalSpec RationalProofs RationalValidate
  Workload Analysis Egraph EgraphSpec EgraphProofs Synth SynthSpec Minimize MinimizeProofs Domains Infer InferProofs LearnSpec LearnProofs TextSpec TextProofs OpsSpec OpsProofs OpsDomains SaveProofs SaveDomains LearntSpec LearntProofs
  MinimizeSpec MinimizeLoop ProposedProofs Conditional ConditionalSpec ConditionalProofs.
Open Scope list_scope.

(* ---- rejected candidates ---- *)
Section Invalid.
  Context {O C : Type}.
  Variable L : lang O C.
  Variable keep : eg O C -> nat -> nat -> bool.
  Variable fuel : nat.
  (* [Q] holds for candidates, [Z] for rejected rules *)
  Variable Q Z : rule O -> Prop.
  Hypothesis Q_reverse : forall r r', Q r -> reverse (l_name L) r = Val (Some r') -> Q r'.
  Hypothesis Z_valid : forall r b, Q r -> is_valid L r = Val b -> Z r.
  Hypothesis Z_reverse : forall r r', Z r -> reverse (l_name L) r = Val (Some r') -> Z r'.
  Local Notation allq m := (Forall (fun e => Q (snd e)) m).
  Local Notation allz m := (Forall (fun e => Z (snd e)) m).
  Lemma allz_add : forall (m : ruleset O) x, allz m -> Z x -> allz (rs_add m x).
  Proof. intros s x Fs Hx. apply Forall_forall. intros e I. apply rs_add_in in I as [I| ->]; [|exact Hx]. rewrite Forall_forall in Fs. auto. Qed.
  Lemma select_loop_invalid : forall step m sel inv rest sel' inv', select_loop L step m sel inv = Val (rest, sel', inv') -> allq m -> allz inv -> allz inv'.
  Proof.
    intros step. induction m as [|[k r] m IH]; intros sel inv rest sel' inv' H Fm F; cbn [select_loop] in H.
    - destruct (Nat.ltb (length sel) step); inversion H; subst; auto.
    - destruct (Nat.ltb (length sel) step); [|inversion H; subst; auto]. inversion Fm as [|? ? Qr Fm']; subst. cbn in Qr.
      destruct (is_valid L r) as [b|] eqn:Ev; [|discriminate H]. cbn [rbind] in H. pose proof (Z_valid r b Qr Ev) as Zr.
      set (inv1 := if b then inv else rs_add inv r). assert (F1 : allz inv1) by (unfold inv1; destruct b; [exact F|now apply allz_add]).
      assert (H' : exists sel1, (let* o := reverse (l_name L) r in
          match o with
          | None => select_loop L step m sel1 inv1
          | Some r' =>
              let* b' := if rs_contains m r' then is_valid L r' else Val false in
              if b' then select_loop L step m (rs_add sel1 r') inv1
              else select_loop L step m sel1 (rs_add inv1 r')
          end) = Val (rest, sel', inv')).
      { unfold inv1. destruct b; eexists; exact H. }
      destruct H' as (sel1 & H'). destruct (reverse (l_name L) r) as [[r'|]|] eqn:Er; cbn [rbind] in H'; [|exact (IH _ _ _ _ _ H' Fm' F1)|discriminate H'].
      pose proof (Z_reverse r r' Zr Er) as Zr'.
      destruct (rs_contains m r'); cbn [rbind] in H'; [|exact (IH _ _ _ _ _ H' Fm' (allz_add _ _ F1 Zr'))].
      destruct (is_valid L r') as [[|]|]; cbn [rbind] in H'; [exact (IH _ _ _ _ _ H' Fm' F1)|exact (IH _ _ _ _ _ H' Fm' (allz_add _ _ F1 Zr'))|discriminate H'].
  Qed.
  Lemma select_invalid : forall step m inv rest sel inv', select L step m inv = Val (rest, sel, inv') -> allq m -> allz inv -> allz inv'.
  Proof.
    intros step m inv rest sel inv' H Fm F. unfold select in H. destruct (sort_candidates L m) as [sorted|] eqn:Es; [|discriminate H]. cbn [rbind] in H.
    destruct (sort_candidates_spec L m sorted Es) as (P & _).
    destruct (select_loop L step (rev sorted) [] inv) as [[[r1 s1] i1]|] eqn:E; [|discriminate H]. cbn [rbind] in H. inversion H; subst.
    assert (allq (rev sorted)) as Fs. { apply Forall_rev. apply Forall_forall. intros e I. rewrite Forall_forall in Fm. apply Fm. exact (Permutation_in _ P I). }
    exact (select_loop_invalid _ _ _ _ _ _ _ E Fs F).
  Qed.
  Lemma rounds_invalid : forall st x y, rounds L keep fuel st x y -> allq (fst (fst x)) -> allz (snd x) -> allz (snd y).
  Proof.
    intros st x y R. induction R as [x|x y z R1 _ IH]; intros Fm F; [exact F|]. inversion R1 as [m chosen invalid rest selected invalid' m' Nm Es Sh]; subst. cbn [fst snd] in *.
    destruct (select_origin L Q Q_reverse _ _ _ _ _ _ Es Fm) as [_ F2]. apply IH.
    - exact (shrinks_origin L keep fuel Q _ _ _ _ Sh F2).
    - exact (select_invalid _ _ _ _ _ _ Es Fm F).
  Qed.
  Lemma minimize_rejected : forall st m prior new invalid, minimize L keep fuel st m prior new invalid -> allq m -> allz invalid.
  Proof. intros st m prior new invalid (chosen & R & _) Fm. exact (rounds_invalid _ _ _ R Fm (Forall_nil _)). Qed.
End Invalid.

Section Run.
  Variable ov : math_op -> Qc -> Qc -> bool.
  Variable check : zbool -> sat_result.
  Local Notation L := (math_lang ov check).
  Variable keep : eg math_op Qc -> nat -> nat -> bool.
  Variable fuel : nat.
  Local Notation Q := (over L math_arity (fun _ => True)).
  Local Notation R := (fun r => rule_uses L Q r /\ formed L math_arity r).
  (* both sides have a translation for the solver *)
  Definition translates (r : rule math_op) : Prop := exists vl vr,
    fold_rec math_to_z3 (instantiate MVar (rlhs r)) = Val vl /\ fold_rec math_to_z3 (instantiate MVar (rrhs r)) = Val vr.
  Local Notation Z := (fun r => R r /\ translates r).
  Local Notation entry := (entry_ok math_from_op math_name math_arity).

  Lemma Z_valid : forall r b, R r -> is_valid L r = Val b -> Z r.
  Proof.
    intros r b Hr H. split; [exact Hr|]. unfold is_valid in H. apply rbind_val in H as (v & V & _). cbn [l_validate math_lang] in V. unfold math_validate in V.
    apply rbind_val in V as (vl & V1 & V). apply rbind_val in V as (vr & V2 & _). exists vl, vr. auto.
  Qed.
  Lemma R_reverse : forall r r', R r -> reverse (l_name L) r = Val (Some r') -> R r'.
  Proof. intros r r' [U F] E. split; [exact (rule_uses_reverse L Q r r' U E)|exact (formed_reverse L math_arity r r' F E)]. Qed.
  Lemma reverse_sides : forall (r r' : rule math_op), reverse (l_name L) r = Val (Some r') -> rlhs r' = rrhs r /\ rrhs r' = rlhs r.
  Proof. intros r r' E. unfold reverse, rule_new in E. apply rbind_val in E as (s & _ & E). destruct (rewrite_ok _ _); [|discriminate E]. injection E as <-. auto. Qed.
  Lemma Z_reverse : forall r r', Z r -> reverse (l_name L) r = Val (Some r') -> Z r'.
  Proof.
    intros r r' [Hr (vl & vr & V1 & V2)] E. split; [exact (R_reverse r r' Hr E)|]. destruct (reverse_sides r r' E) as [A B]. exists vr, vl. unfold translates. rewrite A, B. auto.
  Qed.
  Lemma Z_sides : forall r, Z r -> exists tl tr, mpat_ok (rlhs r) tl /\ mpat_ok (rrhs r) tr /\ incl (ptvars tr) (ptvars tl).
  Proof.
    intros r [[U (_ & tl & tr & Sl & Sr & Hi)] (vl & vr & V1 & V2)].
    assert (Ho : forall n o, In n (rlhs r ++ rrhs r) -> nop n = EN o -> mok (EN o)).
    { intros n o J E. destruct (uses_in _ _ _ _ _ _ _ U J E) as [Hn _]. apply math_reads. cbn in Hn.
      apply in_app_iff in J as [J|J]; [exact (math_i32 _ _ V1 n o J E Hn)|exact (math_i32 _ _ V2 n o J E Hn)]. }
    exists tl, tr. split; [apply (sided_ok L); [exact Sl|intros n o Hn; apply (Ho n o); apply in_app_iff; auto]|].
    split; [apply (sided_ok L); [exact Sr|intros n o Hn; apply (Ho n o); apply in_app_iff; auto]|exact Hi].
  Qed.
  (* the guarded rule is over the same operators and well formed *)
  Lemma tree_uses : forall p t, pat_uses L Q p -> tree p = Val t -> tall (fun o => match o with EN o => math_to_var o = None | PV _ => True end) t.
  Proof.
    intros p t U T. apply (tree_tall _ p); [|exact T]. intros n Hn. unfold pat_uses in U. rewrite Forall_forall in U. specialize (U n Hn). destruct (nop n); [tauto|exact I].
  Qed.
  Lemma to_rec_uses : forall t, wf_term mpar t -> tall (fun o => match o with EN o => math_to_var o = None | PV _ => True end) t -> pat_uses L Q (to_rec t).
  Proof.
    intros t W A. apply (fits_uses (fun (x : eov math_op) k => match x with EN o => l_to_var L o = None /\ Q o k | PV _ => True end)).
    induction t as [o ts IH] using term_ind'. inversion W as [? ? Hl Wt]; inversion A as [? ? Ho At]; subst. constructor.
    - destruct o as [o|v]; [|exact I]. split; [exact Ho|]. split; [exact Hl|right; exact I].
    - rewrite Forall_forall in *. auto.
  Qed.
  Lemma ok_sided : forall p t, mpat_ok p t -> sided math_arity p t.
  Proof.
    intros p t (T & W & A & J). split; [exact T|]. split; [exact W|]. split; [|exact J]. eapply tall_impl; [|exact A]. intros [o|v] H; [exact I|exact H].
  Qed.
  Lemma add_condition_rejected : forall r, Z r -> exists o, add_condition r = Val o /\ forall x, o = Some x -> R x /\ conditional_of r x.
  Proof.
    intros r Hz. destruct (Z_sides r Hz) as (tl & tr & Ol & Or & Hi). destruct (add_condition_spec r tl tr Ol Or Hi) as [(d & n & One & E & En & Og & Vg)|[_ E]].
    - exists (Some (Rule n (rlhs r) (to_rec (guarded d tl tr)) KPat)). split; [exact E|]. intros x Ex. injection Ex as <-. destruct Hz as [[[U1 U2] _] _]. split.
      + split.
        * split; [exact U1|]. cbn [rrhs]. destruct Og as (_ & Wg & _). apply to_rec_uses; [exact Wg|].
          pose proof (tree_uses _ _ U1 (proj1 Ol)) as Al. pose proof (tree_uses _ _ U2 (proj1 Or)) as Ar. constructor; [reflexivity|].
          constructor; [|constructor; [exact Ar|constructor; [exact Al|constructor]]].
          destruct One as [[[D _]|[D _]] _]; [exact (denominator_tall _ _ _ D Al)|exact (denominator_tall _ _ _ D Ar)].
        * split; [exact En|]. exists tl, (guarded d tl tr). split; [exact (ok_sided _ _ Ol)|]. split; [exact (ok_sided _ _ Og)|exact Vg].
      + exists tl, tr, d. split; [exact (proj1 Ol)|]. split; [exact (proj1 Or)|]. split; [exact One|]. split; [reflexivity|exact (proj1 Og)].
    - exists None. split; [exact E|]. discriminate.
  Qed.
  Lemma with_condition_rejected : forall invalid, Forall (fun e => Z (snd e)) invalid ->
    exists added, with_condition invalid = Val added /\
      Forall (fun e => R (snd e) /\ exists p, In p invalid /\ conditional_of (snd p) (snd e)) added.
  Proof.
    induction invalid as [|[k r] l IH]; intros F; [exists []; split; [reflexivity|constructor]|]. inversion F as [|? ? Zr Fl]; subst.
    destruct (IH Fl) as (added & E & Fa). destruct (add_condition_rejected r Zr) as (o & Eo & Ho). cbn [with_condition]. rewrite Eo. cbn [rbind]. rewrite E. cbn [rbind].
    eexists. split; [reflexivity|].
    assert (Fa' : Forall (fun e => R (snd e) /\ exists p, In p ((k, r) :: l) /\ conditional_of (snd p) (snd e)) added).
    { eapply Forall_impl; [|exact Fa]. intros e (He & p & Ip & Cp). split; [exact He|]. exists p. cbn. auto. }
    destruct o as [x|]; [|exact Fa']. constructor; [|exact Fa']. destruct (Ho x eq_refl) as [Rx Cx]. split; [exact Rx|]. exists (k, r). cbn. auto.
  Qed.

  (* ---- the run ---- *)
  Lemma same_sides_reverse : forall x y z, same_sides x y -> reverse (l_name L) x = Val (Some z) -> same_sides z y.
  Proof. intros x y z H E. destruct (reverse_sides x z E) as [A B]. unfold same_sides in *. rewrite A, B. tauto. Qed.

  Variable w : workload.
  Variable prior : ruleset math_op.
  Hypothesis Np : NoDup (map fst prior).
  Hypothesis Rp : read_rules L prior.
  Variable fast : bool.

  Lemma cands_ok : forall g c cands, to_egraph L keep fuel w = Val g -> compressed L keep fuel prior g c -> proposed L fuel fast c cands -> Forall (fun e => R (snd e)) cands.
  Proof.
    intros g c cands E Cm Pr. destruct (math_readable ov check) as [K Re]. apply compressed_run in Cm as (st & Cm).
    pose proof (read_kind L math_arity (fun _ => True) (fun o k H => LearntProofs.read_over L math_arity _ K Re o k H) prior Rp) as Hp.
    pose proof (read_workload L math_arity (fun _ => True) (fun o k H => LearntProofs.read_over L math_arity _ K Re o k H) w) as Hw.
    assert (G : grown L (rhs_uses Q) keep w c) by (refine (Gr_run _ _ _ _ _ _ _ _ _ (Gr_start _ _ _ _ _ g E) Hp Cm)).
    destruct (grown_ops L (re_eqb _ _ _ _ Re) keep Q K (re_admits _ _ _ _ Re) w c Hw G) as [W Iv].
    refine (proposed_uses L (re_eqb _ _ _ _ Re) Q K R _ fuel fast c cands W Iv Pr).
    exact (both_pair L math_arity (re_eqb _ _ _ _ Re) (re_var _ _ _ _ Re) (re_leaf _ _ _ _ Re) (fun _ => True)).
  Qed.

  (* the guards never make the run fail *)
  Lemma conditions_added : forall g c cands o1 chosen invalid, to_egraph L keep fuel w = Val g -> compressed L keep fuel prior g c -> proposed L fuel fast c cands ->
    minimize L keep fuel (Sched.Compress o1) cands prior chosen invalid ->
    exists added, with_condition invalid = Val added /\ Forall (fun e => R (snd e) /\ exists p, In p invalid /\ conditional_of (snd p) (snd e)) added.
  Proof.
    intros g c cands o1 chosen invalid E Cm Pr M. pose proof (cands_ok g c cands E Cm Pr) as Fc.
    exact (with_condition_rejected invalid (minimize_rejected L keep fuel R Z R_reverse Z_valid Z_reverse _ _ _ _ _ M Fc)).
  Qed.
  (* ---- no candidate is lost ---- *)
  Lemma with_condition_all : forall invalid added, with_condition invalid = Val added ->
    Forall (fun e => fst e = rname (snd e)) added /\
    forall k r, In (k, r) invalid -> add_condition r = Val None \/ exists x, add_condition r = Val (Some x) /\ In (rname x, x) added.
  Proof.
    induction invalid as [|[k r] l IH]; intros added H; cbn [with_condition] in H.
    - injection H as <-. split; [constructor|]. intros k r [].
    - apply rbind_val in H as (o & Eo & H). apply rbind_val in H as (a & Ea & H). injection H as <-. destruct (IH a Ea) as [Fk Ha]. split.
      + destruct o; [constructor; [reflexivity|exact Fk]|exact Fk].
      + intros k' r' [I|I].
        * injection I as <- <-. destruct o as [x|]; [|now left]. right. exists x. split; [exact Eo|now left].
        * destruct (Ha k' r' I) as [X|(x & X & Y)]; [now left|]. right. exists x. split; [exact X|]. destruct o; [now right|exact Y].
  Qed.
  Lemma R_readable : forall m : ruleset math_op, Forall (fun e => R (snd e)) m -> Forall (fun e => DeriveProofs.readable (snd e)) m.
  Proof. intros m. apply Forall_impl. intros e [_ (_ & tl & tr & (Tl & _) & (Tr & _) & _)]. exists tl, tr. auto. Qed.
  Theorem conditional_accounted : Forall (fun e => DeriveProofs.readable (snd e)) prior ->
    forall result, run_workload_conditional ov check keep fuel w prior fast result ->
    exists g c cands, to_egraph L keep fuel w = Val g /\ compressed L keep fuel prior g c /\ proposed L fuel fast c cands /\
      forall k r, In (k, r) cands -> let keys := map fst prior ++ map fst result in
        In k keys \/ follows L keep fuel prior keys r \/
        (is_valid L r = Val false /\ exists r', rname r' = k /\
          (add_condition r' = Val None \/
           exists x, add_condition r' = Val (Some x) /\
             (In (rname x) keys \/ exists x', rname x' = rname x /\ (is_valid L x' = Val false \/ follows L keep fuel prior keys x')))).
  Proof.
    intros Dp result (g & c & cands & o1 & chosen & invalid & added & o2 & cc & rest & E & Cm & Pr & A1 & M1 & Ad & A2 & M2 & ->).
    exists g, c, cands. split; [exact E|]. split; [exact Cm|]. split; [exact Pr|].
    pose proof (cands_ok g c cands E Cm Pr) as Fc. destruct (proposed_good L fuel fast c cands Pr) as [Kc Nc].
    destruct (conditions_added g c cands o1 chosen invalid E Cm Pr M1) as (added' & Ad' & Fa). rewrite Ad in Ad'. injection Ad' as <-.
    destruct (with_condition_all _ _ Ad) as [Ka Ha].
    destruct (math_readable ov check) as [K Re]. pose proof (re_eqb _ _ _ _ Re) as Eq.
    destruct (minimize_ok L Eq keep fuel (Sched.Compress o1) cands prior A1 Kc Nc Np (R_readable _ Fc) Dp chosen invalid M1) as (P1 & N1 & D1 & C1).
    assert (Nu : NoDup (map fst (rs_union prior chosen))) by (now apply extend_nodup').
    pose proof (minimize_origin L keep fuel R R_reverse _ _ _ _ _ Np M1 Fc) as F1.
    assert (Fx : Forall (fun e => R (snd e)) (extend [] added)).
    { apply Forall_forall. intros e I. apply extend_in' in I as [[]|I]. rewrite Forall_forall in Fa. exact (proj1 (Fa e I)). }
    assert (Kx : Forall (fun e => fst e = rname (snd e)) (extend [] added)).
    { apply Forall_forall. intros e I. apply extend_in' in I as [[]|I]. rewrite Forall_forall in Ka. exact (Ka e I). }
    assert (Du : Forall (fun e => DeriveProofs.readable (snd e)) (rs_union prior chosen)).
    { pose proof (R_readable _ F1) as D. rewrite Forall_forall in *. intros e I. apply extend_in' in I as [I|I]; auto. }
    destruct (minimize_ok L Eq keep fuel (Sched.Compress o2) (extend [] added) (rs_union prior chosen) A2 Kx (extend_nodup' [] added (NoDup_nil _)) Nu (R_readable _ Fx) Du cc rest M2) as (P2 & N2 & D2 & C2).
    intros k r I keys.
    assert (U1 : forall x, In x (map fst prior) \/ In x (map fst chosen) \/ In x (map fst cc) -> In x keys).
    { intros x H. unfold keys. apply in_app_iff. destruct H as [H|H]; [now left|]. right. apply extend_key'. exact H. }
    assert (U2 : forall x, In x (map fst (rs_union prior chosen)) -> In x keys).
    { intros x H. apply U1. apply extend_key' in H. tauto. }
    destruct (C1 _ I) as [X|[X|[[X Y]|(rules & X & Y)]]]; cbn [fst snd] in X.
    - left. apply U1. auto.
    - left. apply U1. auto.
    - right. right. split; [exact X|]. apply in_map_iff in Y as ([k' r'] & Ek & Ir). cbn [fst snd] in Ek. subst k'.
      exists r'. split; [symmetry; exact (proj1 (D1 _ Ir))|].
      destruct (Ha k r' Ir) as [Z|(x & Z & Ix)]; [now left|]. right. exists x. split; [exact Z|].
      assert (Kn : In (rname x) (map fst (extend [] added))) by (apply extend_key'; right; apply in_map_iff; now exists (rname x, x)).
      apply in_map_iff in Kn as ([kx x'] & Ex & Ix'). cbn [fst] in Ex. subst kx.
      assert (Nx : rname x' = rname x) by (rewrite Forall_forall in Kx; symmetry; exact (Kx _ Ix')).
      destruct (C2 _ Ix') as [V|[V|[[V _]|(rules & V & W)]]]; cbn [fst snd] in V.
      + left. apply U1. auto.
      + left. apply U2. exact V.
      + right. exists x'. auto.
      + right. exists x'. split; [exact Nx|]. right. exists (Sched.Compress o2), rules. split; [exact A2|]. split; [exact V|].
        intros e Ie. rewrite Forall_forall in W. destruct (W e Ie) as [W1 W2]. split.
        * apply in_app_iff in W2 as [W2|W2]; [exact (U2 _ W2)|apply U1; auto].
        * destruct W1 as [W1|(_ & W1 & _)]; [|now right]. apply extend_in' in W1 as [W1|W1]; [now left|right]. exact (proj1 (proj2 (proj1 (P1 e W1)))).
    - right. left. exists (Sched.Compress o1), rules. split; [exact A1|]. split; [exact X|].
      intros e Ie. rewrite Forall_forall in Y. destruct (Y e Ie) as [Y1 Y2]. split.
      + apply in_app_iff in Y2 as [Y2|Y2]; apply U1; auto.
      + destruct Y1 as [Y1|(_ & Y1 & _)]; auto.
  Qed.

  (* ---- what is returned ---- *)
  Lemma rejected_sides : forall st cands new invalid, minimize L keep fuel st cands prior new invalid ->
    Forall (fun e => exists p, In p cands /\ same_sides (snd e) (snd p)) new /\ Forall (fun e => exists p, In p cands /\ same_sides (snd e) (snd p)) invalid.
  Proof.
    intros st cands new invalid M. set (S := fun r : rule math_op => exists p, In p cands /\ same_sides r (snd p)).
    assert (SR : forall r r', S r -> reverse (l_name L) r = Val (Some r') -> S r') by (intros r r' (p & Ip & H) E; exists p; split; [exact Ip|exact (same_sides_reverse _ _ _ H E)]).
    assert (SC : Forall (fun e => S (snd e)) cands) by (apply Forall_forall; intros e I; exists e; split; [exact I|left; auto]).
    split.
    - exact (minimize_origin L keep fuel S SR _ _ _ _ _ Np M SC).
    - exact (minimize_rejected L keep fuel S S SR (fun r b H _ => H) SR _ _ _ _ _ M SC).
  Qed.
  Theorem conditional_run : forall result, run_workload_conditional ov check keep fuel w prior fast result ->
    NoDup (map fst result) /\ Forall (sound_entry L math_arity (fun _ => True)) result /\
    exists g c cands, to_egraph L keep fuel w = Val g /\ compressed L keep fuel prior g c /\ proposed L fuel fast c cands /\
      Forall (fun e => comes_from cands (snd e)) result.
  Proof.
    intros result (g & c & cands & o1 & chosen & invalid & added & o2 & cc & rest & E & Cm & Pr & _ & M1 & Ad & _ & M2 & ->).
    pose proof (cands_ok g c cands E Cm Pr) as Fc.
    destruct (conditions_added g c cands o1 chosen invalid E Cm Pr M1) as (added' & Ad' & Fa). rewrite Ad in Ad'. injection Ad' as <-.
    destruct (minimize_valid L keep fuel _ _ _ _ _ Np M1) as [N1 V1].
    pose proof (minimize_key L keep fuel _ _ _ _ _ Np M1) as K1. pose proof (minimize_origin L keep fuel R R_reverse _ _ _ _ _ Np M1 Fc) as F1.
    assert (Nu : NoDup (map fst (rs_union prior chosen))) by (now apply extend_nodup').
    destruct (minimize_valid L keep fuel _ _ _ _ _ Nu M2) as [N2 V2].
    pose proof (minimize_key L keep fuel _ _ _ _ _ Nu M2) as K2.
    assert (Fx : Forall (fun e => R (snd e)) (extend [] added)).
    { apply Forall_forall. intros e I. apply extend_in' in I as [[]|I]. rewrite Forall_forall in Fa. exact (proj1 (Fa e I)). }
    pose proof (minimize_origin L keep fuel R R_reverse _ _ _ _ _ Nu M2 Fx) as F2.
    destruct (math_readable ov check) as [K Re].
    assert (Snd : forall new : ruleset math_op, Forall (fun e => fst e = rname (snd e)) new -> Forall (fun e => R (snd e)) new ->
      (forall e, In e new -> l_validate L (rlhs (snd e)) (rrhs (snd e)) = Val Valid) -> Forall (sound_entry L math_arity (fun _ => True)) new).
    { intros new Kn Fn Vn. rewrite Forall_forall in *. intros [k r] I. split; [exact (Vn _ I)|]. destruct (Fn _ I) as [U F]. split; [exact U|].
      apply (formed_entry L); [exact (Kn _ I)|exact F|exact (re_ok _ _ _ _ Re r (Vn _ I) U)]. }
    split; [now apply extend_nodup'|]. split.
    - assert (S1 : Forall (sound_entry L math_arity (fun _ => True)) chosen) by (apply Snd; [exact K1|exact F1|intros e I; exact (proj1 (V1 e I))]).
      assert (S2 : Forall (sound_entry L math_arity (fun _ => True)) cc) by (apply Snd; [exact K2|exact F2|intros e I; exact (proj1 (V2 e I))]).
      rewrite Forall_forall in *. intros e I. apply extend_in' in I as [I|I]; auto.
    - exists g, c, cands. split; [exact E|]. split; [exact Cm|]. split; [exact Pr|].
      destruct (rejected_sides _ _ _ _ M1) as [O1 O2].
      set (S := fun x : rule math_op => exists p y, In p invalid /\ conditional_of (snd p) y /\ same_sides x y).
      assert (SR : forall r r', S r -> reverse (l_name L) r = Val (Some r') -> S r').
      { intros r r' (p & y & Ip & Cy & H) Er. exists p, y. split; [exact Ip|]. split; [exact Cy|]. exact (same_sides_reverse _ _ _ H Er). }
      assert (SC : Forall (fun e => S (snd e)) (extend [] added)).
      { apply Forall_forall. intros e I. apply extend_in' in I as [[]|I]. rewrite Forall_forall in Fa. destruct (Fa e I) as (_ & p & Ip & Cp). exists p, (snd e). split; [exact Ip|]. split; [exact Cp|left; auto]. }
      pose proof (minimize_origin L keep fuel S SR _ _ _ _ _ Nu M2 SC) as O3.
      rewrite Forall_forall in *. intros e I. apply extend_in' in I as [I|I].
      + destruct (O1 e I) as (p & Ip & H). exists p. split; [exact Ip|left; exact H].
      + destruct (O3 e I) as (r & y & Ir & Cy & H). destruct (O2 r Ir) as (p & Ip & Hp). exists p. split; [exact Ip|right]. exists (snd r), y. auto.
  Qed.
End Run.

Lemma sound_ready : forall ov check (rs : ruleset math_op), NoDup (map fst rs) -> Forall (sound_entry (math_lang ov check) math_arity (fun _ => True)) rs ->
  read_rules (math_lang ov check) rs /\ reloads (math_lang ov check) rs.
Proof.
  intros ov check rs N F. destruct (math_readable ov check) as [K Re]. split.
  - eapply Forall_impl; [|exact F]. intros e. exact (sound_read _ _ _ _ Re e).
  - apply (ok_reloads _ _ _ math_arity). split; [exact N|]. eapply Forall_impl; [|exact F]. unfold sound_entry. tauto.
Qed.
Lemma sound_identity : forall ov check, real_unsat_right check -> forall e, sound_entry (math_lang ov check) math_arity (fun _ => True) e -> rational_identity (snd e).
Proof.
  intros ov check Hu [k r] (V & _ & En). destruct En as (_ & _ & tl & tr & Ol & Or & _). cbn [snd l_validate math_lang l_from_op l_name] in *.
  exists (inst_term MVar tl), (inst_term MVar tr).
  split; [exact (tree_instantiate MVar _ _ (proj1 Ol))|]. split; [exact (tree_instantiate MVar _ _ (proj1 Or))|]. split.
  - intros env p q. exact (validate_values check _ tl _ tr env p q Hu Ol Or V).
  - intros S1 S2 env. exact (validate_errors check _ tl _ tr env Hu Ol Or V S1 S2).
Qed.
