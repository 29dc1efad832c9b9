(* What the sized tests learn. *)
From Coq Require Import NArith.
From Verif Require Import Base BaseProofs Sexp Lang LangProofs Syntax Rule Ruleset RuleSpec NatDom PosDom BoolDom DomainSpec Workload Egraph Synth SynthSpec Infer Domains DomainAlg DomainSound LearnSpec LearnDomains OpsSpec OpsDomains SaveProofs SaveDomains LearntSpec LearntProofs ForwardSpec ForwardDomains.
From Verif Require Import InferProofs Recipes RecipesSpec RecipesProofs RecipesDomains SizedTests SizedSpec SizedProofs.
Open Scope string_scope.
Open Scope list_scope.

Lemma lists_over : forall vals vars uops bops n, apart vals vars uops bops = true -> 1 <= n -> terms_over (sized_test vals vars uops bops n) (vars ++ vals) (each 1 uops ++ each 2 bops).
Proof.
  intros vals vars uops bops n Ap Hn. destruct (sized_lists _ _ _ _ n Ap Hn) as (w & us & E & Ef & _ & Iff). exists w, us. split; [exact E|]. split; [exact Ef|].
  apply Forall_forall. intros u I. apply Iff in I as (B & _). exact B.
Qed.
Section Climb.
  Context {O C : Type} (L : lang O C) (ar : O -> nat) (start : ruleset O -> Prop) (A : O -> bool).
  Hypothesis Lo : learns_only L ar (fun o => A o = true) (fun o => A o = true).
  Hypothesis again : forall rs, learnt L start rs -> NoDup (map fst rs) /\ start rs.
  Lemma by_hand_internal : forall w prior new, by_hand L w prior new <-> exists keep fuel, run_workload_internal L keep fuel w prior false true new.
  Proof.
    intros w prior new. split.
    - intros (keep & fuel & g & c & cands & H1 & H2 & H3 & H4). exists keep, fuel, g, c, cands. repeat (split; [assumption|]). discriminate.
    - intros (keep & fuel & g & c & cands & H1 & H2 & H3 & H4 & _). exists keep, fuel, g, c, cands. auto.
  Qed.
  Lemma fine_by_hand : forall w prior new, fine L ar start A prior -> workload_fits L (over L ar (fun o => A o = true)) w -> by_hand L w prior new -> fine L ar start A new.
  Proof.
    intros w prior new Hp Hw H. apply by_hand_internal in H as (keep & fuel & R). destruct (again prior (proj1 Hp)) as [N S]. split; [exact (Lt_workload L start keep fuel w prior false true new N S R)|].
    destruct (Lo keep fuel) as (U & _). exact (U w prior false true new N Hw (fine_given _ _ _ _ _ Hp) R).
  Qed.
  Variable vals vars uops bops : list string.
  Hypothesis Ap : apart vals vars uops bops = true.
  Hypothesis Kn : known L ar A (vars ++ vals) (each 1 uops ++ each 2 bops) = true.
  Lemma fine_climb : forall step : workload -> ruleset O -> ruleset O -> Prop, (forall w prior new, fine L ar start A prior -> workload_fits L (over L ar (fun o => A o = true)) w -> step w prior new -> fine L ar start A new) ->
    forall ns all final, Forall (fun n => 1 <= n) ns -> fine L ar start A all -> climb step (sized_test vals vars uops bops) ns all final -> fine L ar start A final.
  Proof.
    intros step Hs. induction ns as [|n ns IH]; intros all final Fn Fa H; [cbn in H; now subst|]. cbn [climb] in H. destruct H as (w & new & Ew & St & H). inversion Fn as [|? ? N1 N2]; subst.
    apply (IH (extend all new) final N2); [|exact H]. apply fine_extend; [exact Fa|]. exact (Hs w all new Fa (terms_fit L ar A _ _ Kn _ w (lists_over _ _ _ _ n Ap N1) Ew) St).
  Qed.
End Climb.

(* ---- booleans ---- *)
Definition bool_full (o : bool_op) : bool := match o with BVar _ => false | _ => true end.
Lemma bool_full_learns : learns_only bool_lang bool_arity (fun o => bool_full o = true) (fun o => bool_full o = true).
Proof. refine (learns_same _ _ _ _ _ _ _ (bool_learns _)). intros o. split; [intros [H|(b & ->)]; [exact H|reflexivity]|auto]. Qed.
Lemma bool_again : forall rs, learnt bool_lang bool_start rs -> NoDup (map fst rs) /\ bool_start rs.
Proof. intros rs H. destruct (bool_both rs H) as (N & S & _). auto. Qed.
Theorem bool_tests : forall ns all, Forall (fun n => 1 <= n) ns -> bool_dsl ns all \/ bool_simple ns all ->
  delivers bool_lang bool_arity (fun o => bool_to_var o = None) (identity BVar (fun _ => True) bool_den) all.
Proof.
  intros ns all Fn H. assert (F : fine bool_lang bool_arity bool_start bool_full all).
  { destruct H as [H|H]; (refine (fine_climb _ _ _ _ _ _ _ _ _ _ _ _ _ _ _ Fn (fine_none _ _ _ _) H); [reflexivity|vm_compute; reflexivity|]).
    - exact (fine_by_hand _ _ _ _ bool_full_learns bool_again).
    - intros w prior new Fp Fw R. exact (fine_learned _ _ _ _ bool_full_learns bool_again w prior false new Fp Fw R). }
  apply (fine_delivers _ _ _ _ bool_start _ (identity BVar (fun _ => True) bool_den)) in F; [|intros Hl; destruct (bool_both _ Hl) as (N & _ & R & G); auto].
  destruct F as (N & R & G). split; [exact N|]. split; [exact R|]. intros k r I. destruct (G k r I) as [G1 G2]. split; [exact G1|]. revert G2. apply rule_uses_more. intros [] E; [reflexivity..|discriminate E].
Qed.

(* ---- naturals ---- *)
Definition nat_full (o : nat_op) : bool := match o with NVar _ => false | _ => true end.
Theorem nat_tests : forall depth rng check, int_unsat_right check -> forall ns all, Forall (fun n => 1 <= n) ns -> nat_simple depth rng check ns all ->
  delivers (nat_lang depth rng check) nat_arity (fun o => nat_to_var o = None) (identity NVar (fun _ => True) nat_den) all.
Proof.
  intros depth rng check Hu ns all Fn H. set (L := nat_lang depth rng check) in *.
  assert (Lo : learns_only L nat_arity (fun o => nat_full o = true) (fun o => nat_full o = true)).
  { refine (learns_same _ _ _ _ _ _ _ (nat_learns depth rng check _)). intros o. split; [intros [H'|[->| ->]]; [exact H'|reflexivity..]|auto]. }
  pose proof (readable_ready _ _ _ _ _ (nat_readable depth rng check)) as Rd. pose proof (read_again _ _ _ Rd) as Ag.
  assert (F : fine L nat_arity (read_rules L) nat_full all).
  { refine (fine_climb _ _ _ _ _ _ _ _ _ _ _ _ _ _ _ Fn (fine_none _ _ _ _) H); [reflexivity|vm_compute; reflexivity|].
    intros w prior new Fp Fw R. exact (fine_learned _ _ _ _ Lo Ag w prior false new Fp Fw R). }
  apply (fine_delivers _ _ _ _ (read_rules L) _ (identity NVar (fun _ => True) nat_den)) in F; [|intros Hl; destruct (Rd _ Hl) as (N & _ & R); split; [exact N|]; split; [exact R|]; exact (nat_true depth rng check Hu _ Hl)].
  destruct F as (N & R & G). split; [exact N|]. split; [exact R|]. intros k r I. destruct (G k r I) as [G1 G2]. split; [exact G1|]. revert G2. apply rule_uses_more. intros [] E; [reflexivity..|discriminate E].
Qed.

(* ---- binary positives ---- *)
Lemma side_without : forall O C (L : lang O C) (forbidden : O -> Prop) p, (forall o, l_allowed L o = true -> ~ forbidden o) -> allowed_side L p -> without forbidden p.
Proof. intros O C L forbidden p H (t & E & T). exists t. split; [exact E|]. revert T. apply LangProofs.tall_impl. intros [o|v]; auto. Qed.
Lemma pos_given_true : forall depth rs, pos_nat_rules = Val rs -> Forall (fun e => true_rule (pos_lang depth) PVar (fun _ => True) pos_den (snd e)) rs.
Proof.
  intros depth rs E. assert (X : exists rs', pos_nat_rules = Val rs' /\ Forall (fun e => true_rule (pos_lang depth) PVar (fun _ => True) pos_den (snd e)) rs'); [|destruct X as (rs' & E' & F); rewrite E in E'; injection E' as <-; exact F].
  eexists. split; [vm_compute; reflexivity|]. repeat apply Forall_cons; [..|apply Forall_nil]; cbn [snd];
    (split; [intros n o I E1; cbn [rlhs] in I; repeat (destruct I as [<-|I]; [cbn in E1; first [discriminate E1|injection E1 as <-; reflexivity]|]); destruct I|]);
    (split; [intros n o I E1; cbn [rrhs] in I; repeat (destruct I as [<-|I]; [cbn in E1; first [discriminate E1|injection E1 as <-; reflexivity]|]); destruct I|]);
    (cbv [identity rlhs rrhs]; eexists; eexists; split; [vm_compute; reflexivity|]; split; [vm_compute; reflexivity|]; intros env _; eexists; split; cbv [pos_den fold_term map with_vars pos_to_var pos_sem rmapM rbind]; [reflexivity|f_equal; ring]).
Qed.
Theorem pos_tests : forall depth ns all prior, pos_lifting depth ns all -> pos_nat_rules = Val prior ->
  NoDup (map fst all) /\ forall k r, In (k, r) all -> true_rule (pos_lang depth) PVar (fun _ => True) pos_den r /\
    (In (k, r) prior \/ without (fun o => o = PZ \/ o = PS) (rlhs r) /\ without (fun o => o = PZ \/ o = PS) (rrhs r)).
Proof.
  intros depth ns all prior (ex & prior' & Ex & Ep & H) Ep'. rewrite Ep in Ep'. injection Ep' as ->. set (L := pos_lang depth) in *.
  pose proof (readable_ready _ _ _ _ _ (pos_readable depth)) as Rd.
  set (ok := fun rs : ruleset pos_op => NoDup (map fst rs) /\ read_rules L rs /\ forall k r, In (k, r) rs -> true_rule L PVar (fun _ => True) pos_den r /\
    (In (k, r) prior \/ without (fun o => o = PZ \/ o = PS) (rlhs r) /\ without (fun o => o = PZ \/ o = PS) (rrhs r))).
  assert (Start : ok (extend [] prior)).
  { split; [apply extend_nodup'; constructor|]. split.
    - pose proof (rules_read _ _ L _ _ Ep) as F. unfold read_rules in *. rewrite Forall_forall in *. intros e I. apply extend_in' in I as [[]|I]. auto.
    - intros k r I. apply extend_in' in I as [[]|I]. split; [|now left]. pose proof (pos_given_true depth prior Ep) as F. rewrite Forall_forall in F. exact (F _ I). }
  assert (G : forall ns rs final, ok rs -> climb (fun w p new => forwarded L ex w p new) iter_pos ns rs final -> ok final).
  { clear H ns all. induction ns as [|n ns0 IH]; intros rs final Ok Hc; [cbn in Hc; subst final; exact Ok|]. cbn [climb] in Hc. destruct Hc as (w & new & Ew & (keep & fuel & R) & Hc). apply (IH (extend rs new) final); [|exact Hc].
    destruct Ok as (N & Rr & Tr). pose proof (rules_read _ _ L _ _ Ex) as He.
    destruct (Rd new (Lt_forwarding L (read_rules L) keep fuel ex w rs new N Rr He R)) as (N' & Rn & _).
    split; [now apply extend_nodup'|]. split.
    - unfold read_rules in *. rewrite Forall_forall in *. intros e I. apply extend_in' in I as [I|I]; auto.
    - intros k r I. apply extend_in' in I as [I|I]; [exact (Tr k r I)|]. split.
      + exact (pos_lifted depth keep fuel ex w rs new Ex N Rr (fun k q J => proj1 (Tr k q J)) R k r I).
      + right. destruct (readable_lifts _ _ _ _ _ (pos_readable depth) keep fuel ex w rs new N Rr He R k r I) as (_ & A & B).
        split; (eapply side_without; [|eassumption]); intros o X [->| ->]; discriminate X. }
  destruct (G ns _ _ Start H) as (N & _ & Tr). auto.
Qed.

(* ---- what the tests expect ---- *)
Ltac env_cases := repeat match goal with |- context [?e ?s] => match type of e with string -> bool => destruct (e s) end end.
Lemma bool_expected_true : exists rs, rs_new bool_from_op bool_name bool_expected = Val rs /\ forall k r, In (k, r) rs -> identity BVar (fun _ => True) bool_den r.
Proof.
  eexists. split; [vm_compute; reflexivity|]. match goal with |- forall k r, In (k, r) ?l -> _ => assert (F : Forall (fun e => identity BVar (fun _ => True) bool_den (snd e)) l); [|rewrite Forall_forall in F; intros k r I; exact (F _ I)] end.
  repeat apply Forall_cons; [..|apply Forall_nil]; cbv [snd identity rlhs rrhs]; eexists; eexists; (split; [vm_compute; reflexivity|]); (split; [vm_compute; reflexivity|]);
    intros env _; eexists; (split; cbv [bool_den fold_term map with_vars bool_to_var bool_sem rmapM rbind]; [reflexivity|f_equal]); env_cases; reflexivity.
Qed.
Lemma nat_expected_true : exists rs, rs_new nat_from_op nat_name nat_expected = Val rs /\ forall k r, In (k, r) rs -> identity NVar (fun _ => True) nat_den r.
Proof.
  eexists. split; [vm_compute; reflexivity|]. match goal with |- forall k r, In (k, r) ?l -> _ => assert (F : Forall (fun e => identity NVar (fun _ => True) nat_den (snd e)) l); [|rewrite Forall_forall in F; intros k r I; exact (F _ I)] end.
  repeat apply Forall_cons; [..|apply Forall_nil]; cbv [snd identity rlhs rrhs]; eexists; eexists; (split; [vm_compute; reflexivity|]); (split; [vm_compute; reflexivity|]);
    intros env _; eexists; (split; cbv [nat_den fold_term map with_vars nat_to_var nat_sem rmapM rbind]; [reflexivity|f_equal]); ring.
Qed.
Lemma pos_expected_true : exists rs, rs_new pos_from_op pos_name pos_expected = Val rs /\ forall k r, In (k, r) rs -> identity PVar (fun _ => True) pos_den r.
Proof.
  eexists. split; [vm_compute; reflexivity|]. match goal with |- forall k r, In (k, r) ?l -> _ => assert (F : Forall (fun e => identity PVar (fun _ => True) pos_den (snd e)) l); [|rewrite Forall_forall in F; intros k r I; exact (F _ I)] end.
  repeat apply Forall_cons; [..|apply Forall_nil]; cbv [snd identity rlhs rrhs]; eexists; eexists; (split; [vm_compute; reflexivity|]); (split; [vm_compute; reflexivity|]);
    intros env _; eexists; (split; cbv [pos_den fold_term map with_vars pos_to_var pos_sem rmapM rbind]; [reflexivity|f_equal]); ring.
Qed.
