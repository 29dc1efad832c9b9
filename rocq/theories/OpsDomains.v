(* The operators of learned rules in the single domains. *)
From Coq Require Import NArith ZArith QArith Qcanon.
From Verif Require Import Base BaseProofs Lang Util UtilProofs LangProofs BV BVText BVSpec BVProofs BoolDom NatDom PosDom BvBoolDom Number Rational Halide Syntax Rule Ruleset Workload Analysis Egraph EgraphProofs Synth Domains DomainAlg
  CalmDomains TotalSpec Match Infer InferProofs LearnSpec SampledDomains OpsSpec OpsProofs.
Open Scope list_scope.

Lemma fits_mono : forall O (Q Q' : O -> nat -> Prop), (forall o k, Q o k -> Q' o k) -> forall t, fits Q t -> fits Q' t.
Proof.
  intros O Q Q' M t. induction t as [o ts IH] using term_ind'. intros H. inversion H as [? ? Ho Hs]; subst. constructor; [exact (M _ _ Ho)|].
  clear H Ho. induction IH as [|t ts Ht IH IHl]; [constructor|]. inversion Hs as [|? ? H1 H2]; subst. constructor; auto.
Qed.
Lemma workload_fits_mono : forall O C (L : lang O C) (Q Q' : O -> nat -> Prop) w, (forall o k, Q o k -> Q' o k) -> workload_fits L Q w -> workload_fits L Q' w.
Proof. intros O C L Q Q' w M H ss ts E F. eapply Forall_impl; [|exact (H ss ts E F)]. exact (fits_mono _ Q Q' M). Qed.
Lemma rhs_uses_mono : forall O (Q Q' : O -> nat -> Prop) r, (forall o k, Q o k -> Q' o k) -> rhs_uses Q r -> rhs_uses Q' r.
Proof. intros O Q Q' r M H. eapply Forall_impl; [|exact H]. intros n. cbn. destruct (nop n); [apply M|auto]. Qed.
Lemma over_mono : forall O C (L : lang O C) ar (A B : O -> Prop), (forall o, A o -> B o) -> forall o k, over L ar A o k -> over L ar B o k.
Proof. intros O C L ar A B M o k [E [H|H]]; split; auto. Qed.

(* no interval that is a single point, no hooks *)
Lemma sampled_admits : forall O C (L : lang O C) ar A K, sampled L ar ->
  (forall o is i, over L ar A o (length is) -> Forall (ends K) is -> l_itv L o is = Val i -> ends K i) ->
  (forall c, K c -> uses (over L ar A) (l_const L c)) -> admits L (over L ar A) K.
Proof.
  intros O C L ar A K Sp Hi Hc. constructor; [exact Hi|exact Hc| | |].
  - intros o k s _ _. split; [symmetry; apply (sp_leaf L ar Sp)|]. left. rewrite (sp_var L ar Sp). discriminate.
  - intros g i ts _ E. rewrite (sp_custom L ar Sp) in E. injection E as <-. constructor.
  - intros vars n vs _ E v c ts I. destruct (sp_init L ar Sp _ _ _ E) as [Ev H]. destruct (H v c ts I) as [_ ->]. split; [|constructor].
    rewrite <- Ev. apply in_map_iff. exists (v, c, []). auto.
Qed.
Lemma ends_full : forall C (K : C -> Prop), ends K full.
Proof. intros C K. split; intros x H; discriminate H. Qed.
Lemma ends_any : forall C (i : interval C), ends (fun _ => True) i.
Proof. intros C i. split; auto. Qed.
Lemma mk_itv_ends : forall C (leb : C -> C -> bool) (K : C -> Prop) lo hi i, (forall x, lo = Some x -> K x) -> (forall x, hi = Some x -> K x) -> mk_itv leb lo hi = Val i -> ends K i.
Proof.
  intros C leb K lo hi i Hl Hh E. unfold mk_itv in E. destruct lo as [a|], hi as [b|]; try (injection E as <-; split; cbn; auto).
  destruct (leb a b); [|discriminate E]. injection E as <-. split; cbn; auto.
Qed.

Lemma bv_admits : forall w check A, admits (bv_lang w check) (over (bv_lang w check) bv_arity A) (fun c => A (VLit c)).
Proof.
  intros w check A. apply sampled_admits; [apply bv_sampled| |].
  - intros o is i [_ Ho] _ H. cbn in H, Ho. destruct o; cbn in H; try (injection H as <-; apply ends_full).
    destruct Ho as [Ho|Ho]; [now elim Ho|]. refine (mk_itv_ends _ N.leb _ (Some c) (Some c) _ _ _ H); intros x E; injection E as <-; exact Ho.
  - intros c H. constructor; [|constructor]. split; [reflexivity|]. right. exact H.
Qed.
Lemma hal_admits : forall check A, admits (hal_lang check) (over (hal_lang check) hal_arity A) (fun _ => False).
Proof.
  intros check A. apply sampled_admits; [apply hal_sampled| |].
  - intros o is i _ _ H. cbn in H. injection H as <-. apply ends_full.
  - intros c [].
Qed.
Lemma bool_admits : forall A : bool_op -> Prop, (forall b, A (BLit b)) -> admits bool_lang (over bool_lang bool_arity A) (fun _ => True).
Proof.
  intros A HA. apply sampled_admits; [apply bool_sampled| |].
  - intros. apply ends_any.
  - intros c _. constructor; [|constructor]. split; [reflexivity|]. right. apply HA.
Qed.
Lemma math_admits : forall ov check (A : math_op -> Prop), (forall q, A (MLit q)) -> admits (math_lang ov check) (over (math_lang ov check) math_arity A) (fun _ => True).
Proof.
  intros ov check A HA. apply sampled_admits; [apply math_sampled| |].
  - intros. apply ends_any.
  - intros c _. constructor; [|constructor]. split; [reflexivity|]. right. apply HA.
Qed.
Lemma const_nodes_uses : forall O (Q : O -> nat -> Prop) r, (forall t, r = Val t -> fits Q t) -> uses Q (const_nodes r).
Proof. intros O Q [t|] H; [|constructor]. apply fits_uses. exact (H t eq_refl). Qed.
Lemma nat_const_fits : forall (Q : nat_op -> nat -> Prop) depth c t, Q NZ 0 -> Q NS 1 -> nat_constant depth c = Val t -> fits Q t.
Proof.
  intros Q depth c t H0 H1. assert (forall c t, nat_constant_id depth c = Val t -> fits Q t) as J.
  { clear c t. induction depth as [|d IH]; intros c t E; [discriminate E|]. cbn in E. destruct (Z.eqb c 0); [injection E as <-; constructor; [exact H0|constructor]|].
    destruct (nat_constant_id d (c - 1)) as [u|] eqn:Eu; [|discriminate E]. cbn in E. injection E as <-. constructor; [exact H1|]. constructor; [exact (IH _ _ Eu)|constructor]. }
  unfold nat_constant. intros E. destruct (Z.eqb c 0); [injection E as <-; constructor; [exact H0|constructor]|].
  destruct (nat_constant_id depth (c - 1)) as [u|] eqn:Eu; [|discriminate E]. cbn in E. injection E as <-. constructor; [exact H1|]. constructor; [exact (J _ _ Eu)|constructor].
Qed.
Lemma nat_admits : forall depth rng check (A : nat_op -> Prop), A NZ -> A NS -> admits (nat_lang depth rng check) (over (nat_lang depth rng check) nat_arity A) (fun _ => True).
Proof.
  intros depth rng check A HZ HS. apply sampled_admits; [apply nat_sampled| |].
  - intros. apply ends_any.
  - intros c _. apply const_nodes_uses. intros t. apply nat_const_fits; (split; [reflexivity|right; assumption]).
Qed.
Lemma pos_admits : forall depth A, admits (pos_lang depth) (over (pos_lang depth) pos_arity A) (fun _ => False).
Proof.
  intros depth A. constructor.
  - intros o is i _ _ H. cbn in H. injection H as <-. apply ends_full.
  - intros c [].
  - intros o k s _ _. split; [reflexivity|]. left. discriminate.
  - intros g i ts _ E. cbn in E. injection E as <-. constructor.
  - intros vars n vs _ E v c ts I. cbn in E. injection E as <- <-. destruct I.
Qed.
(* what initialize_vars and custom_modify of bv-bool add *)
Lemma bb_small : forall class i c, bb_custom_modify class i = Some c -> (c < 4)%N.
Proof.
  intros class i c H. unfold bb_custom_modify in H. destruct (existsb _ (class i)); [discriminate H|]. induction (class i) as [|n l IH]; [discriminate H|]. cbn [fold_make] in H.
  destruct (nop n); try exact (IH H). destruct (nch n) as [|a [|b [|d q]]]; try exact (IH H).
  destruct (bool_const (class a)) as [x|]; [|exact (IH H)]. destruct (bool_const (class b)) as [y|]; [|exact (IH H)]. injection H as <-. destruct x, y; cbn; lia.
Qed.
Lemma bb_admits : forall A : bb_op -> Prop, (forall o, bb_added o -> A o) -> admits bb_lang (over bb_lang bb_arity A) (fun _ => False).
Proof.
  intros A HA. constructor.
  - intros o is i _ _ H. cbn in H. injection H as <-. apply ends_full.
  - intros c [].
  - intros o k s _ _. split; [reflexivity|]. left. discriminate.
  - intros g i ts _ E. cbn in E. unfold bb_custom in E. destruct (class_nodes g i) as [ns|]; [|discriminate E]. cbn [rbind] in E.
    destruct (rmapM _ _) as [tab|]; [|discriminate E]. cbn [rbind] in E. injection E as <-. destruct (bb_custom_modify _ i) as [c|] eqn:E; [|constructor].
    constructor; [|constructor]. constructor; [|constructor]. split; [reflexivity|]. right. apply HA. exact (bb_small _ _ _ E).
  - intros vars n vs _ E v c ts I. cbn in E. injection E as <- <-. apply in_map_iff in I as (x & E & I). injection E as <- <- <-. split; [exact I|].
    constructor; [|constructor]. unfold bb_split, uses. apply Forall_forall. intros n J. cbn [In] in J. destruct J as [<-|[<-|[<-|[<-|[]]]]]; (split; [reflexivity|]);
      first [left; discriminate|right; apply HA; exact Logic.I].
Qed.

Lemma admits_learns : forall O C (L : lang O C) ar (A B : O -> Prop) K, (forall a b, l_eqb L a b = true <-> a = b) -> (forall s, l_to_var L (l_mk_var L s) = Some s) ->
  (forall o, A o -> B o) -> admits L (over L ar B) K -> learns_only L ar A B.
Proof.
  intros O C L ar A B K He Hv M Ad. intros keep fuel. pose proof (over_mono _ _ L ar A B M) as Mo.
  assert (forall rs, Forall (fun e : string * rule O => rhs_uses (over L ar A) (snd e)) rs -> Forall (fun e => rhs_uses (over L ar B) (snd e)) rs) as G.
  { intros rs. apply Forall_impl. intros e. apply rhs_uses_mono. exact Mo. }
  pose proof (fun e1 (t1 : term O) e2 (t2 : term O) fw bw U1 U2 (T1 : tree e1 = Val t1) (T2 : tree e2 = Val t2) => pair_uses L Hv (over L ar B) e1 e2 fw bw U1 U2) as P1.
  pose proof (rule_uses_reverse L (over L ar B)) as P2. pose proof (rule_uses_rhs L (over L ar B)) as P3.
  split; [|split].
  - intros w prior fast ae new N Hw Hp R. exact (workload_ops L He keep _ K Ad _ P1 P2 fuel w prior fast ae new N (workload_fits_mono _ _ _ _ _ w Mo Hw) (G _ Hp) R).
  - intros ex w prior new N Hw Hp Hx R. exact (forwarding_ops L He keep _ K Ad _ P1 P2 fuel ex w prior new N (workload_fits_mono _ _ _ _ _ w Mo Hw) (G _ Hp) (G _ Hx) R).
  - intros met l prior n all N Hw Hp R. exact (proj2 (recursive_ops L He keep _ K Ad _ P1 P2 P3 fuel met l prior n all N (fun m w Hm E => workload_fits_mono _ _ _ _ _ w Mo (Hw m w Hm E)) (G _ Hp) R)).
Qed.
Lemma bv_learns : forall w check A, learns_only (bv_lang w check) bv_arity A A.
Proof. intros w check A. refine (admits_learns _ _ _ _ _ _ _ _ _ _ (bv_admits w check A)); [exact bv_eqb_eq|reflexivity|auto]. Qed.
Lemma hal_learns : forall check A, learns_only (hal_lang check) hal_arity A A.
Proof. intros check A. refine (admits_learns _ _ _ _ _ _ _ _ _ _ (hal_admits check A)); [exact hal_eqb_eq|reflexivity|auto]. Qed.
Lemma pos_learns : forall depth A, learns_only (pos_lang depth) pos_arity A A.
Proof. intros depth A. refine (admits_learns _ _ _ _ _ _ _ _ _ _ (pos_admits depth A)); [exact pos_op_eqb_eq|reflexivity|auto]. Qed.
Lemma bool_learns : forall A, learns_only bool_lang bool_arity A (fun o => A o \/ exists b, o = BLit b).
Proof. intros A. refine (admits_learns _ _ _ _ _ _ _ _ _ _ (bool_admits _ _)); [exact bool_op_eqb_eq|reflexivity|eauto..]. Qed.
Lemma math_learns : forall ov check A, learns_only (math_lang ov check) math_arity A (fun o => A o \/ exists q, o = MLit q).
Proof. intros ov check A. refine (admits_learns _ _ _ _ _ _ _ _ _ _ (math_admits ov check _ _)); [exact math_eqb_eq|reflexivity|eauto..]. Qed.
Lemma nat_learns : forall depth rng check A, learns_only (nat_lang depth rng check) nat_arity A (fun o => A o \/ o = NZ \/ o = NS).
Proof. intros depth rng check A. refine (admits_learns _ _ _ _ _ _ _ _ _ _ (nat_admits depth rng check _ _ _)); [exact nat_op_eqb_eq|reflexivity|eauto..]. Qed.
Lemma bb_learns : forall A, learns_only bb_lang bb_arity A (fun o => A o \/ bb_added o).
Proof. intros A. refine (admits_learns _ _ _ _ _ _ _ _ _ _ (bb_admits (fun o => A o \/ bb_added o) _)); [exact bb_eqb_eq|reflexivity|eauto..]. Qed.
