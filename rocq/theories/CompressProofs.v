(* Compress in languages whose analysis only knows literals: nothing is merged
   that plain saturation did not merge. *)
From Coq Require Import Permutation.
From Verif Require Import Base BaseProofs Sexp Reader Lang LangProofs Syntax SyntaxProofs Rule Ruleset RulesetProofs Analysis Generalize Workload
  Egraph EgraphSpec EgraphProofs EgraphSound Synth Apply Sched SynthSpec SynthProofs DeriveProofs CalmSpec Cover Calm CalmRun.
Open Scope list_scope.

Section Lit.
  Context {O C : Type}.
  Variable L : lang O C.
  Variable ar : O -> nat.
  Hypothesis Lo : literal_only L ar.

  (* what an interval says in an algebra *)
  Definition lit_says {V} (sem : O -> list V -> V) (i : interval C) (v : V) : Prop :=
    i = full \/ exists c o, i = point c /\ lit_of L ar o c /\ v = sem o [].
  Definition lit_alg {V} (sem : O -> list V -> V) : algebra O C V := Alg sem (fun _ => True) (lit_says sem).
  Lemma lit_interprets : forall V (sem : O -> list V -> V), (forall o vs, ar o = 0 -> sem o vs = sem o []) -> interprets L (lit_alg sem).
  Proof.
    intros V sem Hs. constructor; cbn.
    - auto.
    - intros o is i vs _ _ H. destruct (lo_itv L ar Lo o is i H) as [->|(c & -> & Hc & Ha)]; [now left|].
      right. exists c, o. split; [reflexivity|]. split; [now split|]. now apply Hs.
    - intros v i j k _ [->|(c & o & -> & Hc & Ev)] [->|(d & o' & -> & Hd & Ew)] H; unfold full, point in H; cbn [low high] in H.
      + cbn in H. inversion H. now left.
      + cbn in H. destruct (l_cleb L d d); inversion H. right. exists d, o'. auto.
      + cbn in H. destruct (l_cleb L c c); inversion H. right. exists c, o. auto.
      + destruct (mk_point L ar Lo _ _ _ H) as [<- ->]. right. exists c, o. auto.
    - intros a b v t _ [E|(c & o & E & [Hc _] & ->)] _ H; [discriminate E|]. inversion E; subst a b. rewrite Hc in H. inversion H; subst t. reflexivity.
    - intros val g i ts _ _ _ _ H r t I. rewrite (lo_custom L ar Lo) in H. inversion H; subst. destruct I.
    - intros vars n vs v c ts r t H I J. rewrite (lo_links L ar Lo _ _ _ _ _ _ H I) in J. destruct J.
  Qed.
End Lit.

Fixpoint all_some {A} (l : list (option A)) : option (list A) :=
  match l with
  | [] => Some []
  | Some a :: r => option_map (cons a) (all_some r)
  | None :: _ => None
  end.

Section Compress.
  Context {O C : Type}.
  Variable L : lang O C.
  Variable ar : O -> nat.
  Hypothesis Lo : literal_only L ar.
  Variable keep : eg O C -> nat -> nat -> bool.
  Variable fuel : nat.
  Local Notation wf := (@wf O (sig O C) nat).
  Local Notation eqb_eq := (lo_eqb L ar Lo).

  Section Classes.
    (* the classes of [out] as an algebra *)
    Variable out : eg O C.
    Hypothesis Wo : wf out.
    Hypothesis Co : congruent out.
    Hypothesis No : canonical out.
    Definition osem (o : O) (vs : list (option nat)) : option nat :=
      match all_some (if Nat.eqb (ar o) 0 then [] else vs) with
      | Some ids => match lookup_node (l_eqb L) out (Node o ids) with Val (Some c) => Some c | _ => None end
      | None => None
      end.
    Definition oval (i : nat) : option nat := match find out i with Val r => Some r | Panic => None end.
    Lemma osem_const : forall o vs, ar o = 0 -> osem o vs = osem o [].
    Proof. intros o vs H. unfold osem. now rewrite H. Qed.
    Lemma oval_eqv : forall i j, i < size out -> j < size out -> oval i = oval j <-> eqv out i j.
    Proof.
      intros i j Li Lj. unfold oval. destruct (find_val out i Li) as (ri & Fi). destruct (find_val out j Lj) as (rj & Fj). rewrite Fi, Fj. split.
      - intros E. inversion E; subst. exists rj. auto.
      - intros (r & H1 & H2). congruence.
    Qed.
    Lemma osem_has : forall o ch c, has out o ch c -> length ch = ar o -> osem o (map oval ch) = oval c.
    Proof.
      intros o ch c Hh Ty. unfold osem.
      assert (Fl : exists ids, Forall2 (fun a r => find out a = Val r) ch ids).
      { destruct Hh as (m & j & _ & _ & F & _). clear - F. induction F as [|a b l l' (r & _ & R) F (ids & IH)]; [exists []; constructor|exists (r :: ids); now constructor]. }
      destruct Fl as (ids & Fl).
      assert (all_some (if Nat.eqb (ar o) 0 then [] else map oval ch) = Some ids) as ->.
      { assert (all_some (map oval ch) = Some ids) as G.
        { clear - Fl. induction Fl as [|a r l l' H F IH]; cbn; [reflexivity|]. unfold oval at 1. rewrite H, IH. reflexivity. }
        destruct (Nat.eqb_spec (ar o) 0) as [Z|N]; [|exact G]. rewrite Z in Ty. destruct ch; [|discriminate Ty]. exact G. }
      assert (Cn : canon out (Node o ids) = Val (Node o ids)).
      { apply canon_spec. cbn. split; [reflexivity|]. clear - Fl Wo. induction Fl; constructor; auto. exact (wf_rep out Wo _ _ H). }
      unfold lookup_node. rewrite Cn. cbn [rbind].
      assert (Hi : has out o ids c).
      { apply has_eqv with ch c; [exact Hh| |].
        - clear - Fl Wo. induction Fl; constructor; auto. exact (eqv_find out _ _ Wo H).
        - destruct Hh as (m & j & _ & _ & _ & Q). apply eqv_refl. exact (proj2 (eqv_lt _ _ _ Q)). }
      destruct (get_node (l_eqb L) (g_nodes out) (Node o ids)) as [k|] eqn:G.
      - apply (get_node_in _ eqb_eq) in G. pose proof (EgraphProofs.has_in out _ k Wo G) as Hk. cbn in Hk.
        destruct (Co o ids k c Hk Hi) as (r & R1 & R2). rewrite R1. cbn. unfold oval. now rewrite R2.
      - exfalso. destruct Hi as (m & j & I & <- & F & Q). apply (get_node_none _ eqb_eq _ _ G j). replace (Node (nop m) ids) with m; [exact I|].
        destruct m as [o1 c1]. cbn in *. f_equal. pose proof (No _ _ I) as Fc. cbn in Fc.
        apply canon_spec in Cn as [_ Cn]. cbn in Cn. clear - F Fc Cn. revert Cn Fc. induction F as [|a b l l' (r & R1 & R2) F IH]; intros Cn Fc; [reflexivity|].
        inversion Cn; inversion Fc; subst. f_equal; [congruence|auto].
    Qed.
  End Classes.

  Lemma compress_with_only : forall order (g out : eg O C) g', (forall l, Permutation l (order l)) -> calm L ar g -> wf out -> congruent out -> canonical out -> ext g out ->
    compress_with L keep fuel order g out = Val g' ->
    forall i j, i < size g -> j < size g -> (eqv g' i j <-> eqv out i j).
  Proof.
    intros order g out g' Po Cm Wo Co No Eo H i j Li Lj. pose proof (cm_wf _ _ g Cm) as W. split.
    2: { apply (compress_with_merges L eqb_eq keep fuel order g out g' Po W Wo Eo H); assumption. }
    pose proof (lit_interprets L ar Lo _ (osem out) (osem_const out)) as Ia. set (A := lit_alg L ar (osem out)) in *.
    assert (Sd : sound (A := nat) (a_sem A) (sdok A) (oval out) g).
    { split; [split|].
      - intros a b Q. pose proof (proj1 (proj2 Eo) _ _ Q) as Q'. destruct (eqv_lt _ _ _ Q'). now apply oval_eqv.
      - intros n k I. symmetry. apply osem_has; auto.
        + apply Eo. now apply EgraphProofs.has_in.
        + exact (cm_typed _ _ g Cm n k I).
      - intros k d Hd. split; [exact Coq.Init.Logic.I|]. cbn. destruct (cm_lits _ _ g Cm k d Hd) as [E|(c & o & E & Hc & Hh)]; [now left|].
        right. exists c, o. split; [exact E|]. split; [exact Hc|]. symmetry. apply (osem_has out Wo Co No o [] k); [now apply Eo|]. symmetry. apply Hc. }
    unfold compress_with in H. destruct (group_by out (class_ids g) []) as [m|] eqn:Gb; [|discriminate H]. cbn in H.
    destruct (union_groups L keep fuel g (order (map snd m))) as [g1|] eqn:U; [|discriminate H]. cbn in H.
    destruct (union_groups_moves L eqb_eq keep fuel A Ia _ _ _ W U) as (W1 & E1 & C1).
    destruct (rebuild_moves L eqb_eq keep fuel A Ia g1 g' W1 H) as [(W2 & E2 & C2) _].
    assert (carries (a_sem A) (sdok A) (oval out) g g1) as (v1 & A1 & S1).
    { apply C1; [exact Sd|]. apply Forall_forall. intros is Iis.
      apply (Permutation_in _ (Permutation_sym (Po _))) in Iis. apply in_map_iff in Iis as (e & <- & Ie).
      pose proof (group_by_ok _ _ _ _ Gb (Forall_nil _)) as F. rewrite Forall_forall in F. specialize (F e Ie). rewrite Forall_forall in F.
      assert (Lt : forall a, In a (snd e) -> a < size g).
      { intros a I. destruct (group_by_mem _ _ _ _ _ _ Gb Ie I) as [X|(e' & [] & _)]. apply in_class_ids in X. exact (find_some _ _ _ X). }
      intros a b I J. split; [|auto]. unfold oval. now rewrite (F a I), (F b J). }
    destruct (C2 v1 S1) as (v2 & A2 & S2). intros Q. destruct Eo as (Ls & _). apply oval_eqv; [lia|lia|].
    destruct E1 as (L1 & _). rewrite <- (A1 i Li), <- (A1 j Lj), <- (A2 i), <- (A2 j) by lia. now apply S2.
  Qed.
End Compress.
