(* The rules that the trigonometric domain starts from. *)
From Coq Require Import Reals QArith Qcanon Qreals Lra Field.
From Verif Require Import Base Lang Rule RuleSpec Ruleset Synth PartialSpec Trig TrigSpec TrigField.
Open Scope string_scope.
Open Scope list_scope.

(* ---- the constants in the rules ---- *)
Ltac konst := cbn; f_equal; apply cx_eq; cbn; unfold Q2R; cbn; lra.
Lemma sem_0 : trig_sem (TConst "0") [] = Val c0. Proof. konst. Qed.
Lemma sem_1 : trig_sem (TConst "1") [] = Val c1. Proof. konst. Qed.
Lemma sem_2 : trig_sem (TConst "2") [] = Val (cadd c1 c1). Proof. konst. Qed.
Lemma sem_4 : trig_sem (TConst "4") [] = Val (cmul (cadd c1 c1) (cadd c1 c1)). Proof. konst. Qed.
Lemma sem_m1 : trig_sem (TConst "-1") [] = Val (copp c1). Proof. konst. Qed.
Opaque cadd cmul csub copp cdiv cinv ccis csin ccos ctan ci cpi c_dec c0 c1 cre parse_bigratio.

Lemma copp1_nz : copp c1 <> c0.
Proof. intros E. apply c1_nz. transitivity (copp (copp c1)); [ring|]. rewrite E. ring. Qed.
Lemma prod_nz : forall z w, cmul z w <> c0 -> z <> c0 /\ w <> c0.
Proof. intros z w H. split; [exact (cmul_nz_l _ _ H)|exact (cmul_nz_r _ _ H)]. Qed.
Ltac consts := cbn in *; rewrite ?sem_0, ?sem_1, ?sem_2, ?sem_4, ?sem_m1 in *; cbn in *.
Ltac sem_in H := cbn in H;
  repeat (match type of H with context [match parse_bigratio ?s with Some q => Val (cre (Q2R (this q))) | None => Panic end] =>
    change (match parse_bigratio s with Some q => Val (cre (Q2R (this q))) | None => Panic end) with (trig_sem (TConst s) []) in H end; rewrite ?sem_0, ?sem_1, ?sem_2, ?sem_4, ?sem_m1 in H; cbn in H).
Ltac sem_goal := unfold pden, fold_rec; cbn;
  repeat (match goal with |- context [match parse_bigratio ?s with Some q => Val (cre (Q2R (this q))) | None => Panic end] =>
    change (match parse_bigratio s with Some q => Val (cre (Q2R (this q))) | None => Panic end) with (trig_sem (TConst s) []) end; rewrite ?sem_0, ?sem_1, ?sem_2, ?sem_4, ?sem_m1; cbn).
Lemma c4_nz : cmul (cadd c1 c1) (cadd c1 c1) <> c0.
Proof. exact (cmul_nz _ _ c2_nz c2_nz). Qed.
Ltac nz := repeat match goal with H : cmul _ _ <> c0 |- _ => apply prod_nz in H as [? ?] end;
  repeat match goal with |- _ /\ _ => split end; try exact c4_nz; try exact c2_nz; repeat apply cmul_nz; try apply cdbl_nz; auto using c1_nz, c2_nz, copp1_nz, cdbl_nz', ci_nz, cis_nz.
Ltac start := eexists; eexists; (split; [reflexivity|]); (split; [reflexivity|]); intros genv env v H; sem_in H; sem_goal.
Ltac cases H :=
  repeat match type of H with context [c_dec ?z] => destruct (c_dec z) as [?|?]; [discriminate H|]; cbn in H end;
  injection H as <-.
Ltac denominators :=
  repeat match goal with |- context [c_dec ?z] => let E := fresh "E" in destruct (c_dec z) as [E|?]; [exfalso; revert E; change (z <> c0); nz|cbn] end.
Ltac both := start; match goal with H : _ = Val _ |- _ => cases H end; denominators.
Ltac algebra := both; apply (f_equal Val); try ring; try (field; nz).
Lemma csin_eq : forall z, csin z = cdiv (csub (ccis z) (ccis (copp z))) (cmul (cadd c1 c1) ci).
Proof. intros z. rewrite <- cre2. reflexivity. Qed.
Lemma ccos_eq : forall z, ccos z = cdiv (cadd (ccis z) (ccis (copp z))) (cadd c1 c1).
Proof. intros z. rewrite <- cre2. reflexivity. Qed.
Lemma ctan_eq : forall z, ctan z = cdiv (csin z) (ccos z). Proof. reflexivity. Qed.
Lemma half : cdiv cpi (cadd c1 c1) = cdiv cpi (cre 2). Proof. now rewrite cre2. Qed.
Ltac euler := rewrite ?ctan_eq, ?csin_eq, ?ccos_eq; rewrite ?half, ?cis_half_pi, ?cis_0, ?cis_pi, ?crem1, ?half; repeat rewrite ?cis_sub, ?cis_add, ?cis_opp, ?half, ?cis_half_pi; try ring; try ring [ci_sq]; try (field [ci_sq]; nz).
Lemma cos_zero : forall z, ccos z = c0 <-> cadd (ccis (copp z)) (ccis z) = c0.
Proof.
  intros z. rewrite ccos_eq. split; intros E.
  - transitivity (cmul (cadd c1 c1) (cdiv (cadd (ccis z) (ccis (copp z))) (cadd c1 c1))); [field; nz|]. rewrite E. ring.
  - transitivity (cdiv (cadd (ccis (copp z)) (ccis z)) (cadd c1 c1)); [field; nz|]. rewrite E. field. nz.
Qed.
Lemma tan_cis : forall z, cadd (ccis (copp z)) (ccis z) <> c0 ->
  cmul ci (cdiv (csub (ccis (copp z)) (ccis z)) (cadd (ccis (copp z)) (ccis z))) = ctan z.
Proof.
  intros z N. rewrite ctan_eq, csin_eq, ccos_eq. set (p := ccis z) in *. set (q := ccis (copp z)) in *.
  assert (N' : cadd p q <> c0) by (intros E; apply N; rewrite <- E; ring). field [ci_sq]. nz.
Qed.

Theorem prior_safe : forall order, exists m, trig_prior = Val m /\ Forall (fun e => safe_rule (trig_lang order) trig_sem (snd e)) m.
Proof.
  intros order. eexists. split; [vm_compute; reflexivity|].
  do 15 (apply Forall_cons; [both; apply (f_equal Val); euler|]). apply Forall_nil.
Qed.
Theorem exploratory_safe : forall order, exists m, trig_exploratory = Val m /\ Forall (fun e => safe_rule (trig_lang order) trig_sem (snd e)) m.
Proof.
  intros order. eexists. split; [vm_compute; reflexivity|].
  do 4 (apply Forall_cons; [both; apply (f_equal Val); euler|]).
  apply Forall_cons.
  { start. destruct (c_dec (ccos (env "a"))) as [E|Nc]; [discriminate H|]. injection H as <-.
    destruct (c_dec (cadd (ccis (copp (env "a"))) (ccis (env "a")))) as [E|Ns]; [elim Nc; now apply cos_zero|].
    apply (f_equal Val). exact (tan_cis _ Ns). }
  apply Forall_cons.
  { start. destruct (c_dec (cadd (ccis (copp (env "a"))) (ccis (env "a")))) as [E|Ns]; [discriminate H|]. injection H as <-.
    destruct (c_dec (ccos (env "a"))) as [E|Nc]; [elim Ns; now apply cos_zero|].
    apply (f_equal Val). symmetry. exact (tan_cis _ Ns). }
  do 12 (apply Forall_cons; [both; apply (f_equal Val); euler|]). apply Forall_nil.
Qed.

(* the rule of complex.rules that is not safe *)
Definition swapped_quotient : string := "(/ ?a (- (/ ?b ?c) ?a)) ==> (/ ?c (- (/ ?b ?a) ?c))".
Theorem complex_safe : forall order, exists m, complex_rules = Val m /\
  Forall (fun e => fst e <> swapped_quotient -> safe_rule (trig_lang order) trig_sem (snd e)) m.
Proof.
  intros order. eexists. split; [vm_compute; reflexivity|].
  do 23 (apply Forall_cons; [intros _; algebra|]).
  apply Forall_cons; [intros Ne; elim Ne; reflexivity|].
  do 33 (apply Forall_cons; [intros _; algebra|]). apply Forall_nil.
Qed.
Theorem swapped_unsafe : forall order, exists m r, complex_rules = Val m /\ In (swapped_quotient, r) m /\ ~ safe_rule (trig_lang order) trig_sem r.
Proof.
  intros order. do 2 eexists. split; [vm_compute; reflexivity|]. split; [do 23 right; left; reflexivity|].
  intros (tl & tr & T1 & T2 & H). vm_compute in T1. injection T1 as <-.
  specialize (H (fun _ => c0) (fun x => if String.eqb x "a" then c0 else c1) c0).
  assert (E : cdiv c1 c1 = c1) by (field; nz). assert (E' : csub c1 c0 = c1) by ring.
  unfold pden, fold_rec in H. cbn in H. destruct (c_dec c1) as [X|_]; [elim (c1_nz X)|]. cbn in H. rewrite E, E' in H.
  destruct (c_dec c1) as [X|_]; [elim (c1_nz X)|]. destruct (c_dec c0) as [_|X]; [|now elim X].
  discriminate H. apply (f_equal Val). field. nz.
Qed.

(* a rule of the files and lists above, other than that one *)
Definition given_rule (e : string * rule trig_op) : Prop :=
  (exists m, complex_rules = Val m /\ In e m /\ fst e <> swapped_quotient) \/
  (exists m, trig_prior = Val m /\ In e m) \/ (exists m, trig_exploratory = Val m /\ In e m).
Lemma given_safe : forall order e, given_rule e -> safe_rule (trig_lang order) trig_sem (snd e).
Proof.
  intros order e [(m & E & J & Ne)|[(m & E & J)|(m & E & J)]].
  - destruct (complex_safe order) as (m' & E' & F). rewrite E in E'. injection E' as <-. rewrite Forall_forall in F. exact (F e J Ne).
  - destruct (prior_safe order) as (m' & E' & F). rewrite E in E'. injection E' as <-. rewrite Forall_forall in F. exact (F e J).
  - destruct (exploratory_safe order) as (m' & E' & F). rewrite E in E'. injection E' as <-. rewrite Forall_forall in F. exact (F e J).
Qed.
