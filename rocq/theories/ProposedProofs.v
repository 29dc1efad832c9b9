(* Keys of the candidates of vector matching. *)
From Coq Require Import Permutation.
From Verif Require Import Base BaseProofs Lang Rule Ruleset Analysis Egraph Synth Generalize Match Minimize MinimizeProofs Infer.
Open Scope list_scope.

Section Keys.
  Context {O C : Type}.
  Variable L : lang O C.
  Local Notation good m := (Forall (fun e => fst e = rname (snd e)) m /\ NoDup (map fst m)).
  Lemma good_add : forall (m : ruleset O) x, good m -> good (rs_add m x).
  Proof.
    intros m x [F N]. split; [|now apply rs_add_nodup]. apply Forall_forall. intros e I. rewrite Forall_forall in F. apply rs_add_in in I as [I| ->]; [auto|reflexivity].
  Qed.
  Lemma propose_good : forall l m m', propose L m l = Val m' -> good m -> good m'.
  Proof.
    induction l as [|[e1 e2] l IH]; intros m m' H G; cbn [propose] in H; [injection H as <-; exact G|].
    unfold add_from_recexprs in H. destruct (candidate_pair _ _ _ _ e1 e2) as [[fw bw]|]; [|discriminate H]. cbn [rbind] in H.
    apply IH in H; [exact H|]. destruct bw; [apply good_add|]; (destruct fw; [apply good_add|]); exact G.
  Qed.
  Lemma propose_val : forall l m m', propose L m l = Val m' -> forall e1 e2, In (e1, e2) l ->
    exists o, candidate_pair (l_eqb L) (l_to_var L) (l_mk_var L) (l_name L) e1 e2 = Val o.
  Proof.
    induction l as [|[a b] l IH]; intros m m' H e1 e2 I; [destruct I|]. cbn [propose] in H. unfold add_from_recexprs in H.
    destruct (candidate_pair _ _ _ _ a b) as [[fw bw]|] eqn:E; [|discriminate H]. cbn [rbind] in H. destruct I as [I|I]; [injection I as <- <-; eauto|exact (IH _ _ H e1 e2 I)].
  Qed.
  Lemma proposed_good : forall fuel fast g cands, proposed L fuel fast g cands -> good cands.
  Proof.
    intros fuel fast g cands (order & arrange & _ & H).
    assert (exists l, propose L [] l = Val cands) as (l & P).
    { destruct fast; unfold fast_cvec_match, cvec_match in H; apply rbind_val in H as (t & _ & H); apply rbind_val in H as (ps & _ & H); apply rbind_val in H as (es & _ & H); eauto. }
    apply propose_good in P; [exact P|]. split; constructor.
  Qed.
End Keys.
