(* Proofs about Infer.v: what inference returns was accepted by the validator. *)
From Verif Require Import Base BaseProofs Lang Syntax Rule Ruleset RulesetProofs Analysis Egraph Synth Apply Sched Extract Match Minimize Infer.
Open Scope list_scope.

Section Infer.
  Context {O C : Type}.
  Variable L : lang O C.
  Variable keep : eg O C -> nat -> nat -> bool.
  Variable fuel : nat.
  Local Notation valid r := (l_validate L (rlhs r) (rrhs r) = Val Valid).

  Lemma is_valid_true : forall r, is_valid L r = Val true -> valid r.
  Proof. intros r H. unfold is_valid in H. destruct (l_validate L (rlhs r) (rrhs r)) as [[]|]; try discriminate H. reflexivity. Qed.
  Lemma extend_in' : forall (b a : ruleset O) e, In e (extend a b) -> In e a \/ In e b.
  Proof.
    unfold extend. induction b as [|[k r] b IH]; intros a e H; cbn [fold_left fst snd] in H; [auto|].
    apply IH in H as [H|H]; [|cbn; auto]. assert (In e a \/ e = (k, r)) as [X| ->]; [|auto|cbn; auto].
    clear - H. induction a as [|[k' r'] a IH]; cbn [insert] in H; [destruct H as [<-|[]]; auto|].
    destruct (String.eqb_spec k k') as [->|N]; destruct H as [<-|H]; cbn; auto. apply IH in H. tauto.
  Qed.
  Lemma extend_key' : forall (b a : ruleset O) k, In k (map fst (extend a b)) <-> In k (map fst a) \/ In k (map fst b).
  Proof.
    unfold extend. induction b as [|[k' r] b IH]; intros a k; cbn [fold_left fst snd map]; [cbn; tauto|].
    rewrite IH, insert_keys. destruct (Ruleset.has a k') eqn:E; [|rewrite in_app_iff; cbn; tauto].
    apply RulesetProofs.has_in in E. cbn. intuition (subst; auto).
  Qed.
  Lemma extend_nodup' : forall a b : ruleset O, NoDup (map fst a) -> NoDup (map fst (extend a b)).
  Proof. intros a b N. exact (proj1 (extend_spec b a N)). Qed.
  (* the entries of the second ruleset win *)
  Lemma extend_has : forall a b : ruleset O, NoDup (map fst a) -> NoDup (map fst b) -> forall e, In e b -> In e (extend a b).
  Proof.
    intros a b Na Nb [k r] I. apply lookup_some_in. rewrite (proj2 (extend_spec b a Na)), (lookup_rev b k Nb), (lookup_in_nodup _ _ _ Nb I). reflexivity.
  Qed.
  Lemma extend_keeps : forall a b : ruleset O, NoDup (map fst a) -> NoDup (map fst b) -> forall e, In e a -> ~ In (fst e) (map fst b) -> In e (extend a b).
  Proof.
    intros a b Na Nb [k r] I N. apply lookup_some_in. rewrite (proj2 (extend_spec b a Na)), (lookup_rev b k Nb). cbn in N. apply lookup_none in N. rewrite N. now apply lookup_in_nodup.
  Qed.

  Lemma select_loop_valid : forall step m sel inv rest sel' inv', select_loop L step m sel inv = Val (rest, sel', inv') ->
    Forall (fun e => valid (snd e)) sel -> Forall (fun e => valid (snd e)) sel'.
  Proof.
    intros step. induction m as [|[k r] m IH]; intros sel inv rest sel' inv' H F; cbn [select_loop] in H.
    - destruct (Nat.ltb (length sel) step); inversion H; subst; exact F.
    - destruct (Nat.ltb (length sel) step); [|inversion H; subst; exact F].
      destruct (is_valid L r) as [b|] eqn:Ev; [|discriminate H]. cbn [rbind] in H.
      assert (Add : forall sel x, Forall (fun e => valid (snd e)) sel -> valid x -> Forall (fun e => valid (snd e)) (rs_add sel x)).
      { intros s x Fs Hx. apply Forall_forall. intros e I. apply insert_vals in I as [I| ->]; [|exact Hx]. rewrite Forall_forall in Fs. auto. }
      set (sel1 := if b then rs_add sel r else sel). assert (F1 : Forall (fun e => valid (snd e)) sel1).
      { unfold sel1. destruct b; [|exact F]. apply Add; [exact F|]. now apply is_valid_true. }
      assert (H' : exists inv1, (let* o := reverse (l_name L) r in
          match o with
          | None => select_loop L step m sel1 inv1
          | Some r' =>
              let* b' := if rs_contains m r' then is_valid L r' else Val false in
              if b' then select_loop L step m (rs_add sel1 r') inv1
              else select_loop L step m sel1 (rs_add inv1 r')
          end) = Val (rest, sel', inv')).
      { unfold sel1. destruct b; eexists; exact H. }
      destruct H' as (inv1 & H'). destruct (reverse (l_name L) r) as [[r'|]|]; cbn [rbind] in H'; [|exact (IH _ _ _ _ _ H' F1)|discriminate H'].
      destruct (rs_contains m r'); cbn [rbind] in H'; [|exact (IH _ _ _ _ _ H' F1)].
      destruct (is_valid L r') as [[|]|] eqn:Ev'; cbn [rbind] in H'; [|exact (IH _ _ _ _ _ H' F1)|discriminate H'].
      apply (IH _ _ _ _ _ H'). apply Add; [exact F1|]. now apply is_valid_true.
  Qed.
  Lemma select_valid : forall step m inv rest sel inv', select L step m inv = Val (rest, sel, inv') -> Forall (fun e => valid (snd e)) sel.
  Proof.
    intros step m inv rest sel inv' H. unfold select in H. destruct (sort_candidates L m) as [sorted|]; [|discriminate H]. cbn [rbind] in H.
    destruct (select_loop L step (rev sorted) [] inv) as [[[r1 s1] i1]|] eqn:E; [|discriminate H]. cbn [rbind] in H. inversion H; subst.
    apply Forall_forall. intros e I. apply extend_in' in I as [[]|I]. pose proof (select_loop_valid _ _ _ _ _ _ _ E (Forall_nil _)) as F. rewrite Forall_forall in F. auto.
  Qed.
  Lemma rounds_valid : forall st prior x y, rounds L keep fuel st x y ->
    NoDup (map fst (snd (fst x))) /\ (forall e, In e (snd (fst x)) -> In e prior \/ valid (snd e)) ->
    NoDup (map fst (snd (fst y))) /\ (forall e, In e (snd (fst y)) -> In e prior \/ valid (snd e)).
  Proof.
    intros st prior x y R. induction R as [x|x y z R1 _ IH]; intros H; [exact H|]. apply IH. inversion R1 as [m chosen invalid rest selected invalid' m' Nm Es Sh]; subst. cbn [fst snd] in *.
    destruct H as [N F]. split; [now apply extend_nodup'|]. intros e I. apply extend_in' in I as [I|I]; [auto|]. right. pose proof (select_valid _ _ _ _ _ _ Es) as Fs. rewrite Forall_forall in Fs. auto.
  Qed.
  Lemma minimize_valid : forall st m prior new invalid, NoDup (map fst prior) -> minimize L keep fuel st m prior new invalid ->
    NoDup (map fst new) /\ forall e, In e new -> valid (snd e) /\ ~ In (fst e) (map fst prior).
  Proof.
    intros st m prior new invalid N (chosen & R & ->). destruct (rounds_valid st prior _ _ R) as [Nc F]; [split; [exact N|auto]|]. cbn [fst snd] in *.
    destruct (remove_all_spec prior chosen Nc) as [Nr Lk]. split; [exact Nr|]. intros [k r] I. cbn [fst snd].
    apply (lookup_in_nodup _ _ _ Nr) in I. rewrite Lk in I. destruct (lookup prior k) eqn:E; [discriminate I|]. assert (Nk : ~ In k (map fst prior)) by now apply lookup_none. split; [|exact Nk].
    destruct (F (k, r)) as [H|H]; [now apply lookup_some_in|destruct Nk; change k with (fst (k, r)); now apply in_map|exact H].
  Qed.
  Lemma workload_valid : forall w prior fast ae chosen, NoDup (map fst prior) -> run_workload_internal L keep fuel w prior fast ae chosen ->
    NoDup (map fst chosen) /\ forall e, In e chosen -> valid (snd e) /\ ~ In (fst e) (map fst prior).
  Proof. intros w prior fast ae chosen N (g & c & cands & _ & _ & _ & (order & inv & _ & M) & _). exact (minimize_valid _ _ _ _ _ N M). Qed.
  Lemma forwarding_valid : forall expl w prior chosen, NoDup (map fst prior) -> run_fast_forwarding L keep fuel expl w prior chosen ->
    NoDup (map fst chosen) /\ forall e, In e chosen -> valid (snd e) /\ ~ In (fst e) (map fst prior).
  Proof.
    intros expl w prior chosen N (g0 & a & o & g1 & g2 & g3 & c1 & c2 & _ & _ & _ & _ & _ & _ & _ & (order & inv & _ & M)). exact (minimize_valid _ _ _ _ _ N M).
  Qed.

  Lemma recursive_ok : forall met l prior n all, NoDup (map fst prior) -> recursive_rules L keep fuel met l prior n all ->
    NoDup (map fst all) /\ (0 < n -> incl prior all) /\ forall e, In e all -> In e prior \/ valid (snd e).
  Proof.
    intros met l prior n all Np R. induction R as [|n rec w new R (Nr & Ip & Vr) Ew Rw].
    - split; [constructor|]. split; [lia|]. intros e [].
    - pose proof (extend_nodup' rec prior Nr) as Nx. destruct (workload_valid _ _ _ _ _ Nx Rw) as [Nn Vn]. split; [now apply extend_nodup'|]. split.
      + intros _ e I. apply extend_has; [exact Nn|exact Nx|]. now apply extend_has.
      + intros e I. apply extend_in' in I as [I|I]; [right; now apply Vn|]. apply extend_in' in I as [I|I]; auto.
  Qed.
  Lemma recursive_grows : forall met l prior n all, NoDup (map fst prior) -> recursive_rules L keep fuel met l prior (S n) all ->
    exists rec w new, recursive_rules L keep fuel met l prior n rec /\ sized_workload met (S n) l = Val w /\
      run_workload_internal L keep fuel w (extend rec prior) true (Nat.ltb (S n) 3) new /\
      incl rec all /\ incl prior all /\ incl new all /\ (forall e, In e all -> In e rec \/ In e prior \/ In e new).
  Proof.
    intros met l prior n all Np R. inversion R as [|n' rec w new R' Ew Rw]; subst. exists rec, w, new. split; [exact R'|]. split; [exact Ew|]. split; [exact Rw|].
    destruct (recursive_ok met l prior n rec Np R') as (Nr & Ip & Vr). pose proof (extend_nodup' rec prior Nr) as Nx. destruct (workload_valid _ _ _ _ _ Nx Rw) as [Nn Vn].
    assert (Hp : incl prior (extend rec prior)) by (intros e I; now apply extend_has).
    assert (Hr : incl rec (extend rec prior)).
    { intros [k r] I. destruct (in_dec string_dec k (map fst prior)) as [Ik|Nk]; [|now apply extend_keeps]. destruct n as [|n].
      - inversion R'; subst. destruct I.
      - assert (Ip' : incl prior rec) by (apply Ip; lia). apply Hp. apply in_map_iff in Ik as ([k' r'] & Ek & I'). cbn in Ek. subst k'. 
        assert (lookup rec k = Some r) by (now apply lookup_in_nodup). assert (lookup rec k = Some r') by (apply lookup_in_nodup; [exact Nr|now apply Ip']). congruence. }
    assert (Hx : incl (extend rec prior) (extend new (extend rec prior))) by (intros e I; now apply extend_has).
    split; [intros e I; auto|]. split; [intros e I; auto|]. split.
    - intros e I. apply extend_keeps; [exact Nn|exact Nx|exact I|now apply Vn].
    - intros e I. apply extend_in' in I as [I|I]; [auto|]. apply extend_in' in I as [I|I]; auto.
  Qed.
End Infer.
