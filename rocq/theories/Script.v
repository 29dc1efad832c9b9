(* Concrete runs: a list of rule applications, each given by text, is checked and
   carried out; what it does is a run of the rewriting engine (Sched.v). *)
From Verif Require Import Base BaseProofs Lang LangProofs Syntax Rule Ruleset Egraph EgraphSpec Synth Apply Sched.
Open Scope string_scope.
Open Scope list_scope.

(* the rule, a term in the class it is applied to, terms in the classes of its
   variables *)
Definition step : Type := string * string * list (string * string).
Section Script.
  Context {O C : Type}.
  Variable L : lang O C.
  Hypothesis eqb_eq : forall a b, l_eqb L a b = true <-> a = b.
  Variable keep : eg O C -> nat -> nat -> bool.
  Variable fuel : nat.

  Definition eqvb (g : eg O C) (i j : nat) : bool :=
    match find g i, find g j with Val a, Val b => Nat.eqb a b | _, _ => false end.
  Fixpoint pmatchb (g : eg O C) (s : subst) (t : term (eov O)) (c : nat) : bool :=
    match t with
    | T (PV v) _ => match lookup s v with Some i => eqvb g i c | None => false end
    | T (EN o) ts =>
        existsb (fun e => l_eqb L (nop (fst e)) o && eqvb g (snd e) c && forallb (fun j => eqvb g j j) (nch (fst e)) &&
          (fix all (ts : list (term (eov O))) (ch : list nat) : bool :=
             match ts, ch with [], [] => true | t :: ts, i :: ch => pmatchb g s t i && all ts ch | _, _ => false end) ts (nch (fst e))) (g_nodes g)
    end.
  (* the class of a term *)
  Definition class_of (g : eg O C) (s : string) : res nat :=
    let* r := unwrap (parse_rec (l_from_op L) s) in
    let* c := lookup_expr (l_eqb L) g r in unwrap c.
  Definition run_step (rs : ruleset O) (g : eg O C) (st : step) : res (eg O C) :=
    let '(name, at_, vars) := st in
    let* r := unwrap (option_map snd (List.find (fun e => String.eqb (fst e) name) rs)) in
    let* c := class_of g at_ in
    let* s := rmapM (fun e => let* i := class_of g (snd e) in Val (fst e, i)) vars in
    let* t := tree (rlhs r) in
    if pmatchb g s t c && forallb (fun e => Nat.ltb (snd e) (size g)) s
    then let* (g1, _) := apply_one L keep fuel r g c s in s_rebuild L keep fuel g1
    else Panic.
  Fixpoint run_script (rs : ruleset O) (sts : list step) (g : eg O C) : res (eg O C) :=
    match sts with [] => Val g | st :: r => let* g1 := run_step rs g st in run_script rs r g1 end.

  Lemma eqvb_ok : forall g i j, eqvb g i j = true -> eqv g i j.
  Proof.
    intros g i j H. unfold eqvb in H. destruct (find g i) as [a|] eqn:E1; [|discriminate H]. destruct (find g j) as [b|] eqn:E2; [|discriminate H].
    apply Nat.eqb_eq in H as ->. exists b. auto.
  Qed.
  Lemma pmatchb_ok : forall g s t c, pmatchb g s t c = true -> pmatch g s t c.
  Proof.
    intros g s t. induction t as [[o|v] ts IH] using term_ind'; intros c H; cbn [pmatchb] in H.
    - apply existsb_exists in H as ([n i] & J & H). cbn [fst snd] in H.
      apply andb_true_iff in H as [H Hc]. apply andb_true_iff in H as [H Hr]. apply andb_true_iff in H as [Ho Hi]. apply eqb_eq in Ho.
      apply PM_node with (nch n).
      + clear - IH Hc. revert Hc. generalize (nch n). induction IH as [|t ts E F IH2]; intros ch Hc; destruct ch as [|j ch]; try discriminate Hc; [constructor|].
        apply andb_true_iff in Hc as [H1 H2]. constructor; auto.
      + exists n, i. split; [exact J|]. split; [exact Ho|]. split; [|exact (eqvb_ok _ _ _ Hi)].
        clear - Hr. induction (nch n) as [|j ch IH2]; [constructor|]. cbn in Hr. apply andb_true_iff in Hr as [H1 H2]. constructor; [exact (eqvb_ok _ _ _ H1)|auto].
    - destruct (lookup s v) as [i|] eqn:E; [|discriminate H]. exact (PM_var _ _ _ _ i c E (eqvb_ok _ _ _ H)).
  Qed.
  Lemma rsteps_trans : forall rules x y z, rsteps L keep fuel rules x y -> rsteps L keep fuel rules y z -> rsteps L keep fuel rules x z.
  Proof. intros rules x y z H. induction H; intros K; [exact K|]. eapply RS_step; eauto. Qed.
  Lemma run_step_ok : forall rs st g g' ms, run_step rs g st = Val g' -> exists ms', rsteps L keep fuel (map snd rs) (g, ms) (g', ms').
  Proof.
    intros rs [[name at_] vars] g g' ms H. unfold run_step in H.
    destruct (List.find (fun e => String.eqb (fst e) name) rs) as [[k r]|] eqn:Er; [|discriminate H]. cbn [option_map unwrap rbind snd] in H.
    destruct (class_of g at_) as [c|]; [|discriminate H]. cbn [rbind] in H. destruct (rmapM _ vars) as [s|]; [|discriminate H]. cbn [rbind] in H.
    destruct (tree (rlhs r)) as [t|] eqn:Et; [|discriminate H]. cbn [rbind] in H.
    destruct (pmatchb g s t c && forallb (fun e => Nat.ltb (snd e) (size g)) s) eqn:B; [|discriminate H]. apply andb_true_iff in B as [B1 B2].
    destruct (apply_one L keep fuel r g c s) as [[g1 ids]|] eqn:Ea; [|discriminate H]. cbn [rbind] in H.
    exists ((r, c, s) :: ms). eapply RS_step; [eapply (RSearch _ _ _ _ _ _ r c s)|].
    - apply in_map_iff. exists (k, r). split; [reflexivity|]. exact (proj1 (List.find_some _ _ Er)).
    - split; [exists t; split; [reflexivity || exact Et|exact (pmatchb_ok _ _ _ _ B1)]|]. apply Forall_forall. intros e J. rewrite forallb_forall in B2. apply Nat.ltb_lt. exact (B2 e J).
    - eapply RS_step; [eapply RApply; [left; reflexivity|exact Ea]|]. eapply RS_step; [exact (RRebuild _ _ _ _ _ _ _ H)|]. apply RS_refl.
  Qed.
  Lemma run_script_ok : forall rs sts g g', run_script rs sts g = Val g' -> runs L keep fuel (map snd rs) g g'.
  Proof.
    intros rs sts g g' H. unfold runs. enough (G : forall ms, exists ms', rsteps L keep fuel (map snd rs) (g, ms) (g', ms')) by apply G.
    revert g H. induction sts as [|st sts IH]; intros g H ms; cbn in H; [injection H as <-; exists ms; apply RS_refl|].
    destruct (run_step rs g st) as [g1|] eqn:E; [|discriminate H]. cbn [rbind] in H.
    destruct (run_step_ok _ _ _ _ ms E) as (m1 & S1). destruct (IH g1 H m1) as (m2 & S2). exists m2. exact (rsteps_trans _ _ _ _ S1 S2).
  Qed.
  Lemma script_simple : forall rs sts g g1 g', run_script rs sts g = Val g1 -> s_rebuild L keep fuel g1 = Val g' -> scheduled L keep fuel Simple rs g g'.
  Proof. intros rs sts g g1 g' H E. exists g1. split; [exact (run_script_ok rs sts g g1 H)|exact E]. Qed.
End Script.
