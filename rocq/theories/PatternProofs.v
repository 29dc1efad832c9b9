From Verif Require Import Base BaseProofs Sexp Pattern EnumSpec SexpProofs.

Section PatInd.
  Variable P : pattern -> Prop.
  Hypothesis HW : P PWild.
  Hypothesis HV : forall v, P (PVar v).
  Hypothesis HS : forall s, P (PLit s).
  Hypothesis HL : forall l, Forall P l -> P (PList l).
  Fixpoint pattern_ind' (p : pattern) : P p :=
    match p with
    | PWild => HW | PVar v => HV v | PLit s => HS s
    | PList l => HL l ((fix go (l : list pattern) : Forall P l :=
                        match l with
                        | [] => Forall_nil _
                        | t :: r => Forall_cons _ (pattern_ind' t) (go r)
                        end) l)
    end.
End PatInd.

Fixpoint match_list (ps : list pattern) (ts : list sexp) (sub : substitution) : option substitution :=
  match ps, ts with
  | p :: ps', a :: ts' =>
      match matches_with p a sub with Some sub' => match_list ps' ts' sub' | None => None end
  | _, _ => Some sub
  end.

Lemma matches_with_list ps t sub :
  matches_with (PList ps) t sub =
  match t with
  | Atom _ => None
  | Lst ts => if Nat.eqb (length ps) (length ts) then match_list ps ts sub else None
  end.
Proof.
  destruct t as [|ts]; [reflexivity|]. cbn [matches_with].
  destruct (Nat.eqb (length ps) (length ts)); [|reflexivity].
  revert ts sub; induction ps as [|p ps IH]; intros [|t ts] sub; try reflexivity.
Qed.

(* sigma agrees with the bindings collected so far *)
Definition agrees (sigma : string -> sexp) (sub : substitution) : Prop :=
  forall v x, lookup sub v = Some x -> sigma v = x.

(* sub' extends sub *)
Definition extends (sub sub' : substitution) : Prop :=
  forall v x, lookup sub v = Some x -> lookup sub' v = Some x.

Lemma matches_with_spec p : forall t sub,
  match matches_with p t sub with
  | Some sub' =>
      extends sub sub' /\
      (forall sigma, agrees sigma sub' -> pinst sigma p t) /\
      (forall sigma, agrees sigma sub -> pinst sigma p t -> agrees sigma sub')
  | None => forall sigma, agrees sigma sub -> ~ pinst sigma p t
  end.
Proof.
  induction p as [|v|s|ps IH] using pattern_ind'; intros t sub.
  - cbn. repeat split; try (intros ? ?; auto); try constructor.
  - cbn. destruct (lookup sub v) as [x|] eqn:E.
    + destruct (sexp_eqb t x) eqn:Et.
      * apply sexp_eqb_eq in Et; subst. split; [intros ? ?; auto|]. split; [|auto].
        intros sigma Ha. rewrite <- (Ha v x E). constructor.
      * apply sexp_eqb_neq in Et. intros sigma Ha H. inversion H; subst. apply Et. now apply Ha.
    + split; [|split].
      * intros w x Hw. simpl. destruct (String.eqb_spec w v); [congruence|assumption].
      * intros sigma Ha. assert (sigma v = t) as <-; [|constructor].
        apply Ha. simpl. now rewrite String.eqb_refl.
      * intros sigma Ha H w x. simpl. inversion H; subst.
        destruct (String.eqb_spec w v); [intros Hx; inversion Hx; subst; reflexivity|apply Ha].
  - destruct t as [b|l]; cbn.
    + destruct (String.eqb_spec s b); subst.
      * split; [intros ? ?; auto|]. split; [constructor|auto].
      * intros sigma _ H. inversion H; congruence.
    + intros sigma _ H. inversion H.
  - rewrite matches_with_list. destruct t as [b|ts]; [intros sigma _ H; inversion H|].
    destruct (Nat.eqb_spec (length ps) (length ts)) as [Hlen|Hlen].
    + assert (Hgo : match match_list ps ts sub with
        | Some sub' =>
            extends sub sub' /\
            (forall sigma, agrees sigma sub' -> Forall2 (pinst sigma) ps ts) /\
            (forall sigma, agrees sigma sub -> Forall2 (pinst sigma) ps ts -> agrees sigma sub')
        | None => forall sigma, agrees sigma sub -> ~ Forall2 (pinst sigma) ps ts
        end).
      { revert ts sub Hlen. induction IH as [|p ps Hp Hps IHps]; intros [|t ts] sub Hlen;
          simpl in Hlen; try discriminate.
        - cbn. split; [intros ? ?; auto|]. split; [constructor|auto].
        - cbn [match_list]. specialize (Hp t sub). destruct (matches_with p t sub) as [sub1|].
          + destruct Hp as [He [Hs Hc]]. specialize (IHps ts sub1 (eq_add_S _ _ Hlen)).
            destruct (match_list ps ts sub1) as [sub2|].
            * destruct IHps as [He' [Hs' Hc']]. split; [intros ? ? ?; auto|]. split.
              -- intros sigma Ha. constructor; [|auto]. apply Hs. intros v x Hv. apply Ha. now apply He'.
              -- intros sigma Ha H. inversion H; subst. auto.
            * intros sigma Ha H. inversion H; subst. apply (IHps sigma); auto.
          + intros sigma Ha H. inversion H; subst. now apply (Hp sigma). }
      destruct (match_list ps ts sub) as [sub'|].
      * destruct Hgo as [He [Hs Hc]]. split; [assumption|]. split.
        -- intros sigma Ha. constructor. auto.
        -- intros sigma Ha H. inversion H; subst. auto.
      * intros sigma Ha H. inversion H; subst. now apply (Hgo sigma).
    + intros sigma _ H. inversion H as [| | |? ? HF]; subst. apply Forall2_length in HF. congruence.
Qed.

Lemma matches_iff p t : matches p t = true <-> exists sigma, pinst sigma p t.
Proof.
  unfold matches. pose proof (matches_with_spec p t []) as H.
  destruct (matches_with p t []) as [sub|].
  - split; [intros _|reflexivity]. destruct H as [_ [H _]].
    exists (fun v => match lookup sub v with Some x => x | None => Atom "" end).
    apply H. intros v x Hv. now rewrite Hv.
  - split; [discriminate|]. intros [sigma Hs]. exfalso. apply (H sigma); [|assumption].
    intros v x Hv. discriminate.
Qed.
