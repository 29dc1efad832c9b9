(* Layers of fast-forwarding. *)
From Coq Require Import NArith ZArith QArith Qcanon.
From Verif Require Import EnumSpec Filter.
From Verif Require Import Base BaseProofs Sexp Reader Lang LangProofs Number DomainSpec Syntax SyntaxProofs Rule RuleSpec RulesetProofs CheckRules Ruleset Workload
  Analysis Egraph EgraphSpec Synth SynthSpec TotalSpec Match Infer InferProofs ForwardSpec ForwardDomains OpsSpec OpsProofs OpsDomains SaveProofs SaveDomains LearntSpec LearntProofs
  Trig TrigProofs Exp ExpProofs Recipes RecipesSpec.
Open Scope string_scope.
Open Scope list_scope.

Section Layers.
  Context {O C : Type} (L : lang O C) (ar : O -> nat) (P : O -> Prop) (K : C -> Prop).
  Hypothesis Re : readable L ar P K.
  Variable good : rule O -> Prop.
  Variable ex : ruleset O.
  Hypothesis Hx : read_rules L ex.
  Hypothesis learns : forall keep fuel w prior new, NoDup (map fst prior) -> read_rules L prior -> run_fast_forwarding L keep fuel ex w prior new -> forall k r, In (k, r) new -> good r.
  Local Notation entry := (entry_ok (l_from_op L) (l_name L) ar).
  Definition layered (s : ruleset O * ruleset O) : Prop :=
    (NoDup (map fst (fst s)) /\ read_rules L (fst s)) /\ NoDup (map fst (snd s)) /\ Forall (fun e => entry e /\ good (snd e) /\ rule_uses L (over L ar P) (snd e)) (snd s).
  Lemma layer_ok : forall w r s, layered s -> forwarded L ex w (fst s) r -> layered (extend (fst s) r, extend (snd s) r).
  Proof.
    intros w r [a n] ((Na & Ra) & Nn & Fn) (keep & fuel & H). cbn [fst snd] in *.
    assert (Hl : learnt L (read_rules L) r) by exact (Lt_forwarding L _ keep fuel ex w a r Na Ra Hx H).
    destruct (learnt_good L ar P K Re r Hl) as [Nr Fr]. destruct (learnt_ready L ar P K Re r Hl) as (_ & Rr & _).
    split; [split; [now apply extend_nodup'|]|split; [now apply extend_nodup'|]]; cbn [fst snd].
    - unfold read_rules in *. rewrite Forall_forall in *. intros e I. apply extend_in' in I as [I|I]; auto.
    - rewrite Forall_forall in *. intros e I. apply extend_in' in I as [I|I]; [auto|]. destruct (Fr e I) as (_ & U & En). split; [exact En|]. split; [|exact U]. destruct e as [k x]. exact (learns keep fuel w a r Na Ra H k x I).
  Qed.
  Lemma layered_delivers : forall s, layered s -> delivers L ar P good (snd s).
  Proof.
    intros s (_ & N & F). split; [exact N|]. split; [apply (ok_reloads _ _ L ar); split; [exact N|]; eapply Forall_impl; [|exact F]; cbn; tauto|].
    rewrite Forall_forall in F. intros k r I. destruct (F _ I) as (_ & G & U). auto.
  Qed.
End Layers.

Lemma read_joined : forall O C (L : lang O C) (a b : ruleset O), read_rules L a -> read_rules L b -> read_rules L (extend a b).
Proof. intros O C L a b Ha Hb. unfold read_rules in *. rewrite Forall_forall in *. intros e I. apply extend_in' in I as [I|I]; auto. Qed.
Definition the {A} (x : res (list A)) : list A := match x with Val y => y | Panic => [] end.

(* ---- exponentials ---- *)
Lemma exp_start_layered : forall rational starting, exp_rational = Val rational -> exp_starting = Val starting ->
  layered exp_lang exp_arity exp_plain (fun _ => True) (extend rational starting, extend [] starting).
Proof.
  intros rational starting E1 E2. split; [split|split].
  - apply extend_nodup'. assert (X : ruleset_b exp_eqb exp_from_op exp_name exp_arity (the exp_rational) = true) by (vm_compute; reflexivity). rewrite E1 in X. exact (proj1 (ruleset_b_ok _ exp_eqb_eq _ _ _ _ X)).
  - apply read_joined; [exact (rules_read _ _ exp_lang _ _ E1)|exact (rules_read _ _ exp_lang _ _ E2)].
  - apply extend_nodup'. constructor.
  - assert (X : ruleset_b exp_eqb exp_from_op exp_name exp_arity (the exp_starting) = true) by (vm_compute; reflexivity). rewrite E2 in X. pose proof (proj2 (ruleset_b_ok _ exp_eqb_eq _ _ _ _ X)) as F.
    assert (Y : forallb (fun e => forallb (fun n => match nop n with EN o => Nat.eqb (length (nch n)) (exp_arity o) && match exp_to_var o with None => true | Some _ => false end | PV _ => true end) (rlhs (snd e) ++ rrhs (snd e))) (the exp_starting) = true) by (vm_compute; reflexivity).
    rewrite E2 in Y. rewrite forallb_forall in Y. rewrite Forall_forall in *. intros e I. apply extend_in' in I as [[]|I]. split; [exact (F e I)|]. split; [exact Logic.I|].
    specialize (Y e I). rewrite forallb_forall in Y. unfold rule_uses, pat_uses. rewrite !Forall_forall.
    assert (Z : forall n, In n (rlhs (snd e) ++ rrhs (snd e)) -> match nop n with EN o => l_to_var exp_lang o = None /\ over exp_lang exp_arity exp_plain o (length (nch n)) | PV _ => True end).
    { intros n J. specialize (Y n J). destruct (nop n) as [o|v]; [|exact Logic.I]. apply andb_prop in Y as [Y1 Y2]. apply Nat.eqb_eq in Y1. cbn [l_to_var exp_lang].
      destruct (exp_to_var o) eqn:Eo; [discriminate Y2|]. split; [reflexivity|]. split; [exact Y1|right; exact Eo]. }
    split; intros n J; apply Z, in_or_app; auto.
Qed.
Theorem exp_delivers : forall new, exponential_rules new -> delivers exp_lang exp_arity exp_plain (fun _ => True) new.
Proof.
  intros new (rational & starting & ex & E1 & E2 & E3 & s1 & s2 & s3 & s4 & s5 & s6 & L1 & L2 & L3 & L4 & L5 & L6 & ->).
  apply layered_delivers. pose proof (layer_ok exp_lang exp_arity exp_plain _ exp_readable (fun _ => True) ex (rules_read _ _ exp_lang _ _ E3) (fun _ _ _ _ _ _ _ _ _ _ _ => Logic.I)) as Step.
  pose proof (exp_start_layered _ _ E1 E2) as H.
  repeat match goal with L : exp_layer _ _ ?s _ |- _ => destruct L as (? & ? & _ & ? & ->) end.
  repeat (eapply Step; [|eassumption]). exact H.
Qed.

(* ---- trigonometry ---- *)
Definition trig_bare (r : rule trig_op) : Prop := without (fun o => o = TI \/ o = TCis \/ o = TSqr) (rlhs r) /\ without (fun o => o = TI \/ o = TCis \/ o = TSqr) (rrhs r).
Lemma trig_learns_bare : forall order keep fuel ex w prior new, NoDup (map fst prior) -> read_rules (trig_lang order) prior -> read_rules (trig_lang order) ex ->
  run_fast_forwarding (trig_lang order) keep fuel ex w prior new -> forall k r, In (k, r) new -> trig_bare r.
Proof.
  intros order keep fuel ex w prior new N P E R k r J. destruct (readable_lifts _ _ _ trig_arity trig_plain (ex_intro _ _ (trig_readable order)) keep fuel ex w prior new N P E R k r J) as (_ & (t & Et & At) & (u & Eu & Au)).
  split; [exists t|exists u]; (split; [assumption|]); [revert At|revert Au]; apply LangProofs.tall_impl; intros [o|v]; auto; intros H [->|[->| ->]]; discriminate H.
Qed.
Theorem trig_delivers : forall order new, trig_rules order new -> delivers (trig_lang order) trig_arity trig_plain trig_bare new.
Proof.
  intros order new (complex & prior & ex & E1 & E2 & E3 & s1 & s2 & s3 & s4 & s5 & s6 & s7 & L1 & L2 & L3 & L4 & L5 & L6 & L7 & ->).
  pose proof (rules_read _ _ (trig_lang order) _ _ E3) as Hx.
  apply layered_delivers. pose proof (layer_ok (trig_lang order) trig_arity trig_plain _ (trig_readable order) trig_bare ex Hx (fun keep fuel w p n N R => trig_learns_bare order keep fuel ex w p n N R Hx)) as Step.
  assert (H : layered (trig_lang order) trig_arity trig_plain trig_bare (extend complex prior, [])).
  { split; [split|split; constructor].
    - apply extend_nodup'. assert (X : ruleset_b trig_eqb trig_from_op trig_name trig_arity (the complex_rules) = true) by (vm_compute; reflexivity). rewrite E1 in X. exact (proj1 (ruleset_b_ok _ trig_eqb_eq _ _ _ _ X)).
    - apply read_joined; [|exact (rules_read _ _ (trig_lang order) _ _ E2)]. apply (rules_read _ _ (trig_lang order) complex_lines). rewrite <- E1. vm_compute. reflexivity. }
  repeat match goal with L : trig_layer _ _ _ ?s _ |- _ => destruct L as (? & ? & _ & ? & ->) end.
  repeat (eapply Step; [|eassumption]). exact H.
Qed.
