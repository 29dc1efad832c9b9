(* Proofs about learned rules: where they come from, and that no sample refutes them. *)
From Coq Require Import Permutation NArith.
From Verif Require Import Base BaseProofs Sexp Reader Lang Util Syntax SyntaxProofs Rule Ruleset RuleSpec RulesetProofs LangProofs UtilProofs Analysis Generalize GeneralizeProofs
  Egraph EgraphSpec EgraphProofs Synth Apply Sched SynthProofs Workload TotalSpec CalmSpec MatchSpec PlainSpec Extract ExtractProofs Match MatchProofs
  Minimize MinimizeProofs MinimizeLoop Infer InferProofs InvProofs LearnSpec SettleProofs.
Open Scope list_scope.

(* ---- more fuel does not change what is returned ---- *)
Section Fuel.
  Context {O D A : Type}.
  Variable op_eqb : O -> O -> bool.
  Variable allowed : O -> bool.
  Variable arrange : list (node O) -> list (node O).
  Variable g : egraph O D A.
  Lemma find_costs_mono : forall f f' order t t', f <= f' -> find_costs allowed arrange g f order t = Val t' -> find_costs allowed arrange g f' order t = Val t'.
  Proof.
    induction f as [|f IH]; intros f' order t t' Le H; [discriminate H|]. destruct f' as [|f']; [lia|]. cbn [find_costs] in *.
    destruct (one_pass allowed arrange g t order false) as [[t1 did]|]; [|discriminate H]. cbn [rbind] in *. destruct did; [|exact H]. apply IH; [lia|exact H].
  Qed.
  Lemma build_mono' : forall f f' t todo ids set r, f <= f' -> build op_eqb g f t todo ids set = Val r -> build op_eqb g f' t todo ids set = Val r.
  Proof.
    induction f as [|f IH]; intros f' t todo ids set r Le H.
    - destruct todo; [destruct f'; exact H|discriminate H].
    - destruct f' as [|f']; [lia|]. destruct todo as [|i todo]; [exact H|]. cbn [build] in *.
      destruct (nlookup ids i); [apply IH; [lia|exact H]|]. destruct (best_node g t i) as [[k n]|]; [|discriminate H]. cbn [rbind] in *.
      destruct (List.filter _ (nch n)); [|apply IH; [lia|exact H]]. destruct (rmapM _ (nch n)) as [ch|]; [|discriminate H]. cbn [rbind] in *.
      destruct (insert_full op_eqb set (Node (nop n) ch)) as [set' j]. apply IH; [lia|exact H].
  Qed.
  Lemma find_best_mono : forall f f' t i r, f <= f' -> find_best op_eqb g f t i = Val r -> find_best op_eqb g f' t i = Val r.
  Proof.
    intros f f' t i r Le H. unfold find_best in *. destruct (best_node g t i) as [[k n]|]; [|discriminate H]. cbn [rbind] in *.
    destruct (build op_eqb g f t (rev (nch n)) [] []) as [[ids set]|] eqn:B; [|discriminate H]. rewrite (build_mono' _ _ _ _ _ _ _ Le B). exact H.
  Qed.
  (* what is extracted denotes a term of the class *)
  Lemma best_any : (forall a b, op_eqb a b = true <-> a = b) -> (forall l, Permutation l (arrange l)) -> wf g -> forall order, (forall c, In c order <-> find g c = Val c) ->
    forall f t i k e, extractor allowed arrange g f order = Val t -> find_best op_eqb g f t i = Val (k, e) -> i < size g ->
    exists u, tree e = Val u /\ repr g u i /\ Forall (from_g g) e.
  Proof.
    intros Eq Ha W order Ho f t i k e Ex Fb Hi. destruct (extractor_spec op_eqb Eq allowed arrange Ha g W order Ho) as (f0 & t' & E' & F').
    unfold extractor in *. pose proof (find_costs_mono f (max f f0) order [] t ltac:(lia) Ex) as E1. rewrite (E' (max f f0) ltac:(lia)) in E1. injection E1 as <-.
    destruct (F' i Hi) as (e' & u & K1 & K2 & K3 & _ & K5). pose proof (find_best_mono f (max f f0) t' i _ ltac:(lia) Fb) as E2. rewrite (K1 (max f f0) ltac:(lia)) in E2.
    injection E2 as _ <-. eauto.
  Qed.
End Fuel.

(* ---- generalization ---- *)
Section Gen.
  Context {O C : Type}.
  Variable L : lang O C.
  Variable ar : O -> nat.
  Hypothesis eqb_eq : forall a b, l_eqb L a b = true <-> a = b.
  Hypothesis var_ok : forall s, l_to_var L (l_mk_var L s) = Some s.
  Hypothesis leaf : forall o, l_to_var L o <> None -> ar o = 0.
  Local Notation tv := (l_to_var L).

  Local Notation plain_pat := (plain_pat L ar).
  Definition fit (n : node O) : Prop := tv (nop n) = None -> length (nch n) = ar (nop n).
  Lemma rename_fit : forall m n n' m', length (nch n) = ar (nop n) -> rename_node tv (l_mk_var L) m n = Val (n', m') -> fit n'.
  Proof.
    intros m n n' m' Hn H. unfold rename_node in H. destruct (tv (nop n)) as [s|] eqn:E.
    - assert (exists v, nop n' = l_mk_var L v) as [v Ev].
      { destruct (lookup m s) as [v|]; [injection H as <- <-; eexists; reflexivity|]. destruct (letter (length m)) as [v0|]; [|discriminate H]. cbn in H. injection H as <- <-. eexists; reflexivity. }
      intros X. rewrite Ev, var_ok in X. discriminate X.
    - injection H as <- <-. intros _. exact Hn.
  Qed.
  Lemma build_fit : forall f e, wf_rec ar e -> forall todo st st', Forall fit (bs_set st) -> build_loop (l_eqb L) tv (l_mk_var L) f e todo st = Val st' -> Forall fit (bs_set st').
  Proof.
    intros f e We. induction f as [|f IH]; intros [|id todo] st st' Hs H; cbn [build_loop] in H; try discriminate H; try (injection H as <-; exact Hs).
    destruct (nlookup (bs_ids st) id); [exact (IH _ _ _ Hs H)|]. destruct (index e id) as [n|] eqn:En; [|discriminate H]. cbn [rbind] in H.
    assert (Hn : length (nch n) = ar (nop n)).
    { unfold wf_rec in We. rewrite Forall_forall in We. apply We. unfold index in En. destruct (nth_error e id) eqn:Ei; [|discriminate En]. injection En as <-. exact (nth_error_In _ _ Ei). }
    destruct (rename_node tv (l_mk_var L) (bs_map st) n) as [[n' m']|] eqn:Rn; [|discriminate H]. cbn [rbind] in H. pose proof (rename_fit _ _ _ _ Hn Rn) as Fn.
    destruct (List.filter _ (nch n')); [|exact (IH _ (BS _ _ _) _ Hs H)].
    destruct (rmapM _ (nch n')) as [ch|] eqn:Ech; [|discriminate H]. cbn [rbind] in H.
    destruct (insert_full (l_eqb L) (bs_set st) (Node (nop n') ch)) as [set' i] eqn:Ei. refine (IH _ (BS _ _ _) _ _ H). cbn [bs_set].
    unfold insert_full in Ei. destruct (find_node _ _ _ _); injection Ei as <- <-; [exact Hs|]. apply Forall_app. split; [exact Hs|]. constructor; [|constructor].
    intros X. cbn in *. rewrite <- (Fn X). apply rmapM_F2 in Ech. symmetry. exact (Forall2_length _ _ _ Ech).
  Qed.
  Lemma generalize_plain : forall m e p m', wf_rec ar e -> generalize (l_eqb L) tv (l_mk_var L) m e = Val (p, m') -> plain_pat p.
  Proof.
    intros m e p m' We H. unfold generalize in H. destruct (rev e) as [|n re] eqn:Er; [discriminate H|]. cbn [rbind] in H.
    assert (Hn : length (nch n) = ar (nop n)). { unfold wf_rec in We. rewrite Forall_forall in We. apply We. apply in_rev. rewrite Er. now left. }
    destruct (rename_node tv (l_mk_var L) m n) as [[n' m1]|] eqn:Rn; [|discriminate H]. cbn [rbind] in H. pose proof (rename_fit _ _ _ _ Hn Rn) as Fn.
    destruct (build_loop _ _ _ _ e _ _) as [st|] eqn:B; [|discriminate H]. cbn [rbind] in H. pose proof (build_fit _ _ We _ (BS [] [] m1) _ (Forall_nil _) B) as Fs.
    destruct (rmapM _ (nch n')) as [ch|] eqn:Ech; [|discriminate H]. cbn [rbind] in H. injection H as <- <-.
    unfold plain_pat. apply Forall_map. assert (forall n0, fit n0 -> match to_enode_or_var tv (nop n0) with EN o => tv o = None /\ length (nch n0) = ar o | PV _ => True end) as K.
    { intros n0 F0. unfold to_enode_or_var. destruct (tv (nop n0)) as [s|] eqn:E; [exact I|]. split; [exact E|exact (F0 E)]. }
    apply Forall_app. split; [|constructor; [|constructor]].
    - eapply Forall_impl; [|exact Fs]. intros n0 F0. exact (K n0 F0).
    - apply K. intros X. cbn in *. rewrite <- (Fn X). apply rmapM_F2 in Ech. symmetry. exact (Forall2_length _ _ _ Ech).
  Qed.

  Local Notation from_terms := (from_terms L ar).

  Lemma generalizes_sym : forall a b n n' k k' t1 t2, generalizes L (Rule n a b k) t1 t2 -> generalizes L (Rule n' b a k') t2 t1.
  Proof.
    intros a b n n' k k' t1 t2 (rho & Inj & H1 & H2). exists rho. split; [|auto]. intros x y Hx Hy. apply Inj; rewrite in_app_iff in *; tauto.
  Qed.
  Lemma from_terms_reverse : forall (R : term O -> term O -> Prop) r r', (forall a b, R a b -> R b a) -> from_terms R r -> reverse (l_name L) r = Val (Some r') -> from_terms R r'.
  Proof.
    intros R r r' Sy (P1 & P2 & K & t1 & t2 & H & G) E. unfold reverse, rule_new in E. destruct (rule_name (l_name L) (rrhs r) (rlhs r)) as [s|]; [|discriminate E]. cbn in E.
    destruct (rewrite_ok _ _); [|discriminate E]. injection E as <-. split; [exact P2|]. split; [exact P1|]. split; [reflexivity|]. exists t2, t1. split; [auto|].
    destruct r as [n a b k]. cbn in *. exact (generalizes_sym a b n s k KRhs t1 t2 G).
  Qed.

  Lemma pair_rule : forall (R : term O -> term O -> Prop) e1 t1 e2 t2 fw bw, (forall a b, R a b -> R b a) -> wf_rec ar e1 -> wf_rec ar e2 -> tree e1 = Val t1 -> tree e2 = Val t2 -> R t1 t2 ->
    candidate_pair (l_eqb L) tv (l_mk_var L) (l_name L) e1 e2 = Val (fw, bw) -> forall x, fw = Some x \/ bw = Some x -> from_terms R x.
  Proof.
    intros R e1 t1 e2 t2 fw bw Sy W1 W2 T1 T2 HR H x Hx. unfold candidate_pair in H.
    destruct (generalize (l_eqb L) tv (l_mk_var L) [] e1) as [[l m1]|] eqn:G1; [|discriminate H]. cbn [rbind] in H.
    destruct (generalize (l_eqb L) tv (l_mk_var L) m1 e2) as [[r m2]|] eqn:G2; [|discriminate H]. cbn [rbind] in H.
    pose proof (generalize_plain _ _ _ _ W1 G1) as P1. pose proof (generalize_plain _ _ _ _ W2 G2) as P2.
    assert (generalizes L (Rule "" l r KRhs) t1 t2) as G.
    { pose proof (fun a b => proj1 (eqb_eq a b)) as Eq.
      assert (at_most 26 (tvars tv t1 ++ tvars tv t2)) as Am.
      { destruct (generalize_spec (l_eqb L) tv (l_mk_var L) Eq var_ok [] e1 t1 good_nil T1 (fun n => wf_leaf tv ar leaf e1 n W1)) as
          [(l' & m1' & L1 & L2 & L3 & L4 & _)|(X & _)]; [|rewrite X in G1; discriminate G1]. rewrite L1 in G1. injection G1 as -> ->.
        destruct (generalize_spec (l_eqb L) tv (l_mk_var L) Eq var_ok m1 e2 t2 L2 T2 (fun n => wf_leaf tv ar leaf e2 n W2)) as
          [(r' & m2' & R1 & R2 & R3 & R4 & _)|(X & _)]; [|rewrite X in G2; discriminate G2].
        intros ws N I. apply (nodup_le26 m2' R2 ws N). intros y Hy. apply I in Hy. apply R4. rewrite in_app_iff in Hy. destruct Hy; [left; apply L4; auto|auto]. }
      destruct (generalize_pair (l_eqb L) tv (l_mk_var L) Eq var_ok ar leaf e1 t1 e2 t2 W1 W2 T1 T2 Am) as (l' & m1' & r' & m2' & rho & E1 & E2 & Inj & _ & Tl & Tr & _).
      rewrite E1 in G1. injection G1 as -> ->. rewrite E2 in G2. injection G2 as -> ->. exists rho. auto. }
    unfold rule_new in H. destruct (rule_name (l_name L) l r) as [s1|]; [|discriminate H]. cbn [rbind] in H.
    destruct (rule_name (l_name L) r l) as [s2|]; [|discriminate H]. cbn [rbind] in H. injection H as <- <-. destruct Hx as [Hx|Hx].
    - destruct (rewrite_ok l r); [|discriminate Hx]. injection Hx as <-. split; [exact P1|]. split; [exact P2|]. split; [reflexivity|]. exists t1, t2. split; [exact HR|]. exact G.
    - destruct (rewrite_ok r l); [|discriminate Hx]. injection Hx as <-. split; [exact P2|]. split; [exact P1|]. split; [reflexivity|]. exists t2, t1. split; [auto|].
      exact (generalizes_sym _ _ _ _ _ _ _ _ G).
  Qed.
  Lemma propose_from : forall (Q : rule O -> Prop) l m m', (forall e1 e2, In (e1, e2) l -> forall fw bw, candidate_pair (l_eqb L) tv (l_mk_var L) (l_name L) e1 e2 = Val (fw, bw) ->
      forall x, fw = Some x \/ bw = Some x -> Q x) -> Forall (fun e => Q (snd e)) m -> propose L m l = Val m' -> Forall (fun e => Q (snd e)) m'.
  Proof.
    intros Q. induction l as [|[e1 e2] l IH]; intros m m' Hl Hm H; cbn [propose] in H; [injection H as <-; exact Hm|].
    unfold add_from_recexprs in H. destruct (candidate_pair _ _ _ _ e1 e2) as [[fw bw]|] eqn:E; [|discriminate H]. cbn [rbind] in H.
    assert (Add : forall m x, Forall (fun e : string * rule O => Q (snd e)) m -> Q x -> Forall (fun e => Q (snd e)) (rs_add m x)).
    { intros s x Fs Hx. apply Forall_forall. intros e I. apply rs_add_in in I as [I| ->]; [|exact Hx]. rewrite Forall_forall in Fs. auto. }
    pose proof (Hl e1 e2 (or_introl eq_refl) fw bw E) as Hx. refine (IH _ _ (fun a b I => Hl a b (or_intror I)) _ H).
    destruct bw as [b|]; [apply Add|]; try (destruct fw as [a|]; [apply Add|]); auto.
  Qed.
End Gen.

(* ---- minimize ---- *)
Section Origin.
  Context {O C : Type}.
  Variable L : lang O C.
  Variable keep : eg O C -> nat -> nat -> bool.
  Variable fuel : nat.
  Variable Q : rule O -> Prop.
  Hypothesis Q_reverse : forall r r', Q r -> reverse (l_name L) r = Val (Some r') -> Q r'.
  Local Notation all m := (Forall (fun e => Q (snd e)) m).
  Lemma all_add : forall (m : ruleset O) x, all m -> Q x -> all (rs_add m x).
  Proof. intros s x Fs Hx. apply Forall_forall. intros e I. apply rs_add_in in I as [I| ->]; [|exact Hx]. rewrite Forall_forall in Fs. auto. Qed.
  Lemma select_loop_origin : forall step m sel inv rest sel' inv', select_loop L step m sel inv = Val (rest, sel', inv') -> all m -> all sel -> all sel' /\ all rest.
  Proof.
    intros step. induction m as [|[k r] m IH]; intros sel inv rest sel' inv' H Fm F; cbn [select_loop] in H.
    - destruct (Nat.ltb (length sel) step); inversion H; subst; auto.
    - destruct (Nat.ltb (length sel) step); [|inversion H; subst; auto]. inversion Fm as [|? ? Qr Fm']; subst. cbn in Qr.
      destruct (is_valid L r) as [b|] eqn:Ev; [|discriminate H]. cbn [rbind] in H.
      set (sel1 := if b then rs_add sel r else sel). assert (F1 : all sel1) by (unfold sel1; destruct b; [now apply all_add|exact F]).
      assert (H' : exists inv1, (let* o := reverse (l_name L) r in
          match o with
          | None => select_loop L step m sel1 inv1
          | Some r' =>
              let* b' := if rs_contains m r' then is_valid L r' else Val false in
              if b' then select_loop L step m (rs_add sel1 r') inv1
              else select_loop L step m sel1 (rs_add inv1 r')
          end) = Val (rest, sel', inv')).
      { unfold sel1. destruct b; eexists; exact H. }
      destruct H' as (inv1 & H'). destruct (reverse (l_name L) r) as [[r'|]|] eqn:Er; cbn [rbind] in H'; [|exact (IH _ _ _ _ _ H' Fm' F1)|discriminate H'].
      destruct (rs_contains m r'); cbn [rbind] in H'; [|exact (IH _ _ _ _ _ H' Fm' F1)].
      destruct (is_valid L r') as [[|]|]; cbn [rbind] in H'; [|exact (IH _ _ _ _ _ H' Fm' F1)|discriminate H'].
      apply (IH _ _ _ _ _ H' Fm'). apply all_add; [exact F1|]. exact (Q_reverse r r' Qr Er).
  Qed.
  Lemma select_origin : forall step m inv rest sel inv', select L step m inv = Val (rest, sel, inv') -> all m -> all sel /\ all rest.
  Proof.
    intros step m inv rest sel inv' H Fm. unfold select in H. destruct (sort_candidates L m) as [sorted|] eqn:Es; [|discriminate H]. cbn [rbind] in H.
    destruct (sort_candidates_spec L m sorted Es) as (P & _).
    destruct (select_loop L step (rev sorted) [] inv) as [[[r1 s1] i1]|] eqn:E; [|discriminate H]. cbn [rbind] in H. inversion H; subst.
    assert (all (rev sorted)) as Fs. { apply Forall_rev. apply Forall_forall. intros e I. rewrite Forall_forall in Fm. apply Fm. exact (Permutation_in _ P I). }
    destruct (select_loop_origin _ _ _ _ _ _ _ E Fs (Forall_nil _)) as [F1 F2]. split; [|now apply Forall_rev].
    apply Forall_forall. intros e I. apply extend_in' in I as [[]|I]. rewrite Forall_forall in F1. auto.
  Qed.
  Lemma add_sides_rules : forall rs (g : eg O C) acc g' acc', add_sides L keep fuel g rs acc = Val (g', acc') -> map snd acc' = map snd acc ++ rs.
  Proof.
    induction rs as [|r rs IH]; intros g acc g' acc' H; cbn [add_sides] in H; [injection H as <- <-; now rewrite app_nil_r|].
    destruct (s_add_expr L keep fuel g _) as [[g1 l]|]; [|discriminate H]. cbn [rbind] in H. destruct (s_add_expr L keep fuel g1 _) as [[g2 i]|]; [|discriminate H]. cbn [rbind] in H.
    apply IH in H. rewrite H, map_app. cbn. now rewrite <- app_assoc.
  Qed.
  Lemma shrinks_origin : forall st chosen m m', shrinks L keep fuel st chosen m m' -> all m -> all m'.
  Proof.
    intros st chosen m m' (g & initial & out & A & _ & K) Fm. apply add_sides_rules in A. cbn in A. destruct (keep_apart_ok out initial [] m' K) as (K1 & _).
    apply Forall_forall. intros e I. destruct (K1 e I) as [[]|(t & It & ->)]. cbn. assert (In (snd t) (map snd m)) as X by (rewrite <- A; now apply in_map).
    apply in_map_iff in X as (x & <- & Ix). rewrite Forall_forall in Fm. exact (Fm x Ix).
  Qed.
  Lemma rounds_origin : forall st (prior : ruleset O) x y, rounds L keep fuel st x y -> all (fst (fst x)) -> (forall e, In e (snd (fst x)) -> In e prior \/ Q (snd e)) ->
    forall e, In e (snd (fst y)) -> In e prior \/ Q (snd e).
  Proof.
    intros st prior x y R. induction R as [x|x y z R1 _ IH]; intros Fm H; [exact H|]. inversion R1 as [m chosen invalid rest selected invalid' m' Nm Es Sh]; subst. cbn [fst snd] in *.
    destruct (select_origin _ _ _ _ _ _ Es Fm) as [F1 F2]. apply IH.
    - exact (shrinks_origin _ _ _ _ Sh F2).
    - intros e I. apply extend_in' in I as [I|I]; [auto|]. right. rewrite Forall_forall in F1. auto.
  Qed.
  Lemma minimize_origin : forall st m prior new invalid, NoDup (map fst prior) -> minimize L keep fuel st m prior new invalid -> all m -> all new.
  Proof.
    intros st m prior new invalid N M Fm. pose proof M as (chosen & R & ->).
    pose proof (rounds_valid L keep fuel st prior _ _ R) as (Nc & _); [split; [exact N|auto]|]. cbn [fst snd] in *.
    pose proof (rounds_origin st prior _ _ R Fm (fun e I => or_introl I)) as F. cbn [fst snd] in F.
    destruct (remove_all_spec prior chosen Nc) as [Nr Lk]. apply Forall_forall. intros [k r] I.
    apply (lookup_in_nodup _ _ _ Nr) in I. rewrite Lk in I. destruct (lookup prior k) eqn:E; [discriminate I|]. assert (Nk : ~ In k (map fst prior)) by now apply lookup_none.
    destruct (F (k, r)) as [H|H]; [now apply lookup_some_in|destruct Nk; change k with (fst (k, r)); now apply in_map|exact H].
  Qed.
End Origin.

(* ---- learned rules ---- *)
Section Learn.
  Context {O C : Type}.
  Variable L : lang O C.
  Variable ar : O -> nat.
  Hypothesis Sp : sampled L ar.
  Hypothesis Rg : regular L ar.
  Variable keep : eg O C -> nat -> nat -> bool.
  Local Notation tv := (l_to_var L).
  Local Notation wvars := (wvars L).

  Lemma samples_fun : forall w ts n vs ts' n' vs', samples_of L w ts n vs -> samples_of L w ts' n' vs' -> ts = ts' /\ n = n' /\ vs = vs'.
  Proof.
    intros w ts n vs ts' n' vs' (ss & ls & F1 & R1 & I1 & V1) (ss' & ls' & F2 & R2 & I2 & V2). assert (ss' = ss) by congruence. subst ss'.
    assert (ts = ts') as <-.
    { clear - R1 R2. revert ts' R2. induction R1 as [|s t ss ts H R1 IH]; intros ts' R2; inversion R2 as [|? t' ? ts2 H' R2']; subst; [reflexivity|]. f_equal; [|auto].
      unfold reads in *. assert (to_rec t = to_rec t') as E by congruence. pose proof (tree_to_rec t) as X. rewrite E, tree_to_rec in X. congruence. }
    assert (E : (n, ls) = (n', ls')) by congruence. injection E as <- <-. subst. auto.
  Qed.

  Lemma agree_below : forall (v1 v2 u1 u2 : cvec C), below v1 u1 -> below v2 u2 -> agree u1 u2 -> agree v1 v2.
  Proof.
    intros v1 v2 u1 u2 B1 B2 A k a b [H1 H2].
    assert (G : forall (v u : cvec C), below v u -> forall k a, nth_error v k = Some (Some a) -> nth_error u k = Some (Some a)).
    { clear. intros v u B. induction B as [|x y v u H B IH]; intros [|k] a E; try discriminate E; [|exact (IH k a E)]. cbn in *. destruct H as [->| ->]; [discriminate E|exact E]. }
    apply (A k a b). split; [exact (G _ _ B1 k a H1)|exact (G _ _ B2 k b H2)].
  Qed.
  Lemma ran_untold : forall w g ts n vs, ran L (plain_rhs L ar) keep w g -> samples_of L w ts n vs -> forall t1 t2 i j u1 u2, repr g t1 i -> repr g t2 j -> vec g i u1 -> vec g j u2 -> agree u1 u2 ->
    untold L ar (wvars ts) n vs t1 t2.
  Proof.
    intros w g ts n vs R S t1 t2 i j u1 u2 R1 R2 V1 V2 Ag. destruct (ran_settled L ar Sp keep w g R) as (ts' & n' & vs' & S' & H).
    destruct (samples_fun _ _ _ _ _ _ _ S S') as (<- & <- & <-).
    destruct (H t1 i R1) as (v1 & u1' & E1 & V1' & B1 & L1 & W1 & I1). destruct (H t2 j R2) as (v2 & u2' & E2 & V2' & B2 & L2 & W2 & I2).
    assert (u1' = u1) as -> by (destruct V1 as (d & Hd & <-), V1' as (d' & Hd' & <-); congruence).
    assert (u2' = u2) as -> by (destruct V2 as (d & Hd & <-), V2' as (d' & Hd' & <-); congruence).
    split; [exact W1|]. split; [exact W2|]. split; [exact I1|]. split; [exact I2|]. exists v1, v2. split; [exact E1|]. split; [exact E2|].
    split; [rewrite (below_len _ _ _ B1); exact L1|]. split; [rewrite (below_len _ _ _ B2); exact L2|]. exact (agree_below _ _ _ _ B1 B2 Ag).
  Qed.
  Lemma untold_sym : forall vars n vs t1 t2, untold L ar vars n vs t1 t2 -> untold L ar vars n vs t2 t1.
  Proof.
    intros vars n vs t1 t2 (W1 & W2 & I1 & I2 & v1 & v2 & E1 & E2 & L1 & L2 & A). repeat (split; [assumption|]). exists v2, v1. repeat (split; [assumption|]).
    intros k a b [H1 H2]. symmetry. apply (A k b a). split; assumption.
  Qed.
  Lemma ran_samples : forall w g, grown L (plain_rhs L ar) keep w g -> exists ts n vs, samples_of L w ts n vs.
  Proof. intros w g G. destruct (grown_from L ar Sp keep w g G) as (ss & ts & n & vs & F & R & _ & I & _). exists ts, n, (map fst vs), ss, vs. auto. Qed.

  Lemma repr_lt : forall (g : eg O C) t i, repr g t i -> i < size g.
  Proof. intros g t i H. inversion H as [? ? ch ? F (m & j & Hm & _ & _ & (r & E1 & E2))]; subst. exact (find_some _ _ _ E2). Qed.
  Lemma ran_grown : forall w g, ran L (plain_rhs L ar) keep w g -> grown L (plain_rhs L ar) keep w g.
  Proof. intros w g (f & st & rs & g0 & G & P & S). exact (Gr_run _ _ _ _ _ _ _ _ _ G P S). Qed.
  Lemma ran_wf_rec : forall w g e, ran L (plain_rhs L ar) keep w g -> Forall (from_g g) e -> wf_rec ar e.
  Proof.
    intros w g e R F. pose proof (grown_wf L ar Sp keep w g (ran_grown w g R)) as W. eapply Forall_impl; [|exact F]. intros n (m & i & Hm & Eo & El). cbn. rewrite El, Eo.
    destruct (wf_nodes g W m i Hm) as [Hi Hc].
    assert (exists ts, Forall2 (repr g) ts (nch m)) as (ts & Ft).
    { clear - Hc W. induction Hc as [|c l H Hc (ts & IH)]; [exists []; constructor|]. destruct (all_inhabited g W c H) as [u Hu]. exists (u :: ts). constructor; assumption. }
    assert (repr g (T (nop m) ts) i) as Rt.
    { apply (Rp g (nop m) ts (nch m) i Ft). destruct (find_val g i Hi) as [r Er]. exists m, i. split; [exact Hm|]. split; [reflexivity|]. split; [|exists r; auto].
      clear - Hc W. induction Hc as [|c l H Hc IH]; constructor; [|exact IH]. destruct (find_val g c H) as [r Er]. exists r. auto. }
    destruct (ran_settled L ar Sp keep w g R) as (ts0 & n0 & vs0 & _ & H). destruct (H _ _ Rt) as (v0 & u0 & _ & _ & _ & _ & Wt & _).
    assert (Lt : length ts = ar (nop m)) by (inversion Wt; assumption). rewrite <- Lt. symmetry. exact (Forall2_length _ _ _ Ft).
  Qed.

  Section Props.
    Variables (w : workload) (g : eg O C) (ts : list (term O)) (n : nat) (vs : list (string * cvec C)).
    Hypothesis R : ran L (plain_rhs L ar) keep w g.
    Hypothesis S : samples_of L w ts n vs.
    Local Notation learned := (from_terms L ar (untold L ar (wvars ts) n vs)).
    Let W : wf g := grown_wf L ar Sp keep w g (ran_grown w g R).

    Lemma propose_learned : forall allowed arrange order fuel t (g1 : eg O C) ps es rs (sel : _ -> bool), (forall l, Permutation l (arrange l)) -> wf g1 -> Permutation (class_ids g1) order ->
      (forall e, Forall (from_g g1) e -> wf_rec ar e) -> (forall t1 t2 i j, In (i, j) ps -> repr g1 t1 i -> repr g1 t2 j -> untold L ar (wvars ts) n vs t1 t2) ->
      (forall i j, In (i, j) ps -> i < size g1 /\ j < size g1) ->
      extractor allowed arrange g1 fuel order = Val t -> rmapM (best_pair L fuel g1 t) ps = Val es ->
      propose L [] (map (fun p => (snd (fst p), snd (snd p))) (List.filter sel es)) = Val rs -> Forall (fun e => learned (snd e)) rs.
    Proof.
      intros allowed arrange order fuel t g1 ps es rs sel Ha W1 Po Wr Hu Hlt Ex Es H.
      refine (propose_from L learned _ [] rs _ (Forall_nil _) H). intros e1 e2 I fw bw Cp x Hx. apply in_map_iff in I as ([[k1 e1'] [k2 e2']] & E & I). cbn in E. injection E as -> ->.
      apply filter_In in I as [I _]. apply rmapM_F2 in Es.
      assert (exists i j, In (i, j) ps /\ find_best (l_eqb L) g1 fuel t i = Val (k1, e1) /\ find_best (l_eqb L) g1 fuel t j = Val (k2, e2)) as (i & j & Ip & B1 & B2).
      { clear - Es I. induction Es as [|[i j] e ps es H Es IH]; [destruct I|]. destruct I as [->|I].
        - unfold best_pair in H. cbn [fst snd] in H. destruct (find_best _ _ _ _ i) as [a|] eqn:E1; [|discriminate H]. cbn [rbind] in H.
          destruct (find_best _ _ _ _ j) as [b|] eqn:E2; [|discriminate H]. cbn [rbind] in H. injection H as -> ->. exists i, j. split; [now left|]. auto.
        - destruct (IH I) as (i' & j' & K1 & K2). exists i', j'. split; [now right|exact K2]. }
      destruct (Hlt i j Ip) as [Hi Hj]. pose proof (order_ids g1 order Po) as Oi.
      destruct (best_any (l_eqb L) allowed arrange g1 (sp_eqb L ar Sp) Ha W1 order Oi fuel t i k1 e1 Ex B1 Hi) as (u1 & T1 & R1 & F1).
      destruct (best_any (l_eqb L) allowed arrange g1 (sp_eqb L ar Sp) Ha W1 order Oi fuel t j k2 e2 Ex B2 Hj) as (u2 & T2 & R2 & F2).
      exact (pair_rule L ar (sp_eqb L ar Sp) (sp_var L ar Sp) (rg_leaf L ar Rg) _ e1 u1 e2 u2 fw bw (untold_sym _ _ _) (Wr e1 F1) (Wr e2 F2) T1 T2 (Hu u1 u2 i j Ip R1 R2) Cp x Hx).
    Qed.
    Lemma filter_all : forall X (l : list X), List.filter (fun _ => true) l = l.
    Proof. intros X l. induction l as [|x l IH]; cbn; [reflexivity|now rewrite IH]. Qed.
    Lemma proposed_learned : forall fuel fast rs, proposed L fuel fast g rs -> Forall (fun e => learned (snd e)) rs.
    Proof.
      intros fuel fast rs (order & arrange & (Po & Ha) & H).
      assert (Lt : forall i, In i order -> i < size g) by (intros i Hi; exact (in_order_lt g order Po i Hi)).
      assert (exists ps, (forall i j, In (i, j) ps -> In i order /\ In j order /\ agree (cv g i) (cv g j)) /\
        exists t es, extractor (fun _ => true) arrange g fuel order = Val t /\ rmapM (best_pair L fuel g t) ps = Val es /\ propose L [] (map (fun p => (snd (fst p), snd (snd p))) es) = Val rs)
        as (ps & Hps & t & es & Ex & Es & Ep).
      { destruct fast.
        - unfold fast_cvec_match in H. destruct (extractor _ _ _ _ _) as [t|] eqn:Ex; [|discriminate H]. cbn [rbind] in H.
          destruct (fast_pairs_spec L ar Rg g W order Po) as (ps & Eps & Hps). rewrite Eps in H. cbn [rbind] in H. destruct (rmapM _ ps) as [es|] eqn:Es; [|discriminate H]. cbn [rbind] in H.
          exists ps. split; [|exists t, es; auto]. intros i j I. apply Hps in I as (I & _ & E). apply pairs_in in I as [I1 I2]. split; [exact I1|]. split; [exact I2|]. rewrite E. intros k a b [X Y]. congruence.
        - unfold cvec_match in H. destruct (extractor _ _ _ _ _) as [t|] eqn:Ex; [|discriminate H]. cbn [rbind] in H.
          destruct (cvec_pairs_spec L ar Rg g W order Po) as (ps & Eps & Hps). rewrite Eps in H. cbn [rbind] in H. destruct (rmapM _ ps) as [es|] eqn:Es; [|discriminate H]. cbn [rbind] in H.
          exists ps. split; [|exists t, es; auto]. intros i j I. apply Hps in I as (I1 & I2 & _ & _ & A & _). auto. }
      rewrite <- (filter_all _ es) in Ep. refine (propose_learned _ arrange order fuel t g ps es rs _ Ha W Po (fun e F => ran_wf_rec w g e R F) _ _ Ex Es Ep).
      - intros t1 t2 i j I R1 R2. destruct (Hps i j I) as (I1 & I2 & A). exact (ran_untold w g ts n vs R S t1 t2 i j _ _ R1 R2 (proj2 (cv_vec g W i (Lt i I1))) (proj2 (cv_vec g W j (Lt j I2))) A).
      - intros i j I. destruct (Hps i j I) as (I1 & I2 & _). auto.
    Qed.
    Lemma extracted_learned : forall fuel g1 rs, ran L (plain_rhs L ar) keep w g1 -> ext g1 g -> extracted L fuel g1 g rs -> Forall (fun e => learned (snd e)) rs.
    Proof.
      intros fuel g1 rs R1 X (order & arrange & uorder & (Po & Ha) & Pu & H). pose proof (grown_wf L ar Sp keep w g1 (ran_grown w g1 R1)) as W1.
      unfold extract_candidates in H. destruct (extractor _ _ _ _ _) as [t|] eqn:Ex; [|discriminate H]. cbn [rbind] in H.
      destruct (merged_pairs_spec g1 g order uorder Po Pu (proj1 X)) as (ps & Eps & Hps). rewrite Eps in H. cbn [rbind] in H. destruct (rmapM _ ps) as [es|] eqn:Es; [|discriminate H]. cbn [rbind] in H.
      refine (propose_learned _ arrange order fuel t g1 ps es rs _ Ha W1 Po (fun e F => ran_wf_rec w g1 e R1 F) _ _ Ex Es H).
      - intros t1 t2 i j I K1 K2. apply Hps in I as (_ & _ & E). apply (repr_ext g1 g X) in K1, K2.
        pose proof (repr_lt g t1 i K1) as Li. pose proof (repr_lt g t2 j K2) as Lj.
        refine (ran_untold w g ts n vs R S t1 t2 i j _ _ K1 K2 (proj2 (cv_vec g W i Li)) (proj2 (cv_vec g W j Lj)) _).
        destruct E as (r & E1 & E2). assert (cv g i = cv g j) as ->; [|intros k a b [Y Z]; congruence]. unfold cv, cvec_of, class_data. now rewrite E1, E2.
      - intros i j I. apply Hps in I as (I1 & I2 & _). split; [exact (find_some _ _ _ I1)|exact (find_some _ _ _ I2)].
    Qed.
  End Props.

  Lemma learned_reverse : forall ts n vs r r', from_terms L ar (untold L ar (wvars ts) n vs) r -> reverse (l_name L) r = Val (Some r') -> from_terms L ar (untold L ar (wvars ts) n vs) r'.
  Proof. intros ts n vs r r'. exact (from_terms_reverse L ar _ r r' (untold_sym _ _ _)). Qed.
  Lemma compressed_run : forall fuel rs (g g' : eg O C), compressed L keep fuel rs g g' -> exists st, scheduled L keep fuel st rs g g'.
  Proof. intros fuel rs g g' (order & _ & H). exists (Compress order). exact H. Qed.
  Theorem workload_learned : forall fuel w prior fast ae new, NoDup (map fst prior) -> plain_rules L ar prior -> run_workload_internal L keep fuel w prior fast ae new ->
    exists ts n vs, samples_of L w ts n vs /\ Forall (fun e => from_terms L ar (untold L ar (wvars ts) n vs) (snd e)) new.
  Proof.
    intros fuel w prior fast ae new N Hp (g & c & cands & E & Cm & Pr & (order & invalid & _ & M) & _). apply compressed_run in Cm as (st & Cm).
    pose proof (Gr_start L (plain_rhs L ar) keep w fuel g E) as G0. assert (Rc : ran L (plain_rhs L ar) keep w c) by (exists fuel, st, prior, g; auto).
    destruct (ran_samples w g G0) as (ts & n & vs & S). exists ts, n, vs. split; [exact S|].
    exact (minimize_origin L keep fuel _ (learned_reverse ts n vs) _ _ _ _ _ N M (proposed_learned w c ts n vs Rc S fuel fast cands Pr)).
  Qed.
  Lemma plain_extend : forall a b, plain_rules L ar a -> plain_rules L ar b -> plain_rules L ar (extend a b).
  Proof.
    intros a b Ha Hb. apply Forall_forall. intros e I. unfold plain_rules in *. rewrite Forall_forall in Ha, Hb. apply extend_in' in I as [I|I]; auto.
  Qed.
  Theorem forwarding_learned : forall fuel exploratory w prior new, NoDup (map fst prior) -> plain_rules L ar prior -> plain_rules L ar exploratory ->
    run_fast_forwarding L keep fuel exploratory w prior new ->
    exists ts n vs, samples_of L w ts n vs /\ Forall (fun e => from_terms L ar (untold L ar (wvars ts) n vs) (snd e)) new.
  Proof.
    intros fuel expl w prior new N Hp He (g0 & allowed & other & g1 & g2 & g3 & c1 & c2 & E & Pt & C1 & S2 & X1 & C3 & X2 & (order & invalid & _ & M)).
    apply compressed_run in C1 as (st1 & C1). apply compressed_run in C3 as (st3 & C3).
    pose proof (Gr_start L (plain_rhs L ar) keep w fuel g0 E) as G0.
    assert (Ha : plain_rules L ar allowed).
    { destruct (RulesetProofs.partition_sub _ _ _ _ Pt) as [Sub _]. apply Forall_forall. intros e I. unfold plain_rules in Hp. rewrite Forall_forall in Hp. apply Sub in I. apply in_map_iff in I as (x & <- & Ix). exact (Hp x Ix). }
    assert (R1 : ran L (plain_rhs L ar) keep w g1) by (exists fuel, st1, allowed, g0; auto).
    assert (R2 : ran L (plain_rhs L ar) keep w g2) by (exists fuel, Simple, expl, g1; split; [now apply ran_grown|auto]).
    assert (R3 : ran L (plain_rhs L ar) keep w g3) by (exists fuel, st3, (extend prior expl), g2; split; [now apply ran_grown|split; [now apply plain_extend|exact C3]]).
    destruct (ran_samples w g0 G0) as (ts & n & vs & S). exists ts, n, vs. split; [exact S|].
    refine (minimize_origin L keep fuel _ (learned_reverse ts n vs) _ _ _ _ _ N M _).
    pose proof (run_ext L ar Sp keep w fuel Simple expl g1 g2 (ran_grown w g1 R1) He S2) as E12.
    pose proof (run_ext L ar Sp keep w fuel st3 (extend prior expl) g2 g3 (ran_grown w g2 R2) (plain_extend _ _ Hp He) C3) as E23.
    pose proof (extracted_learned w g2 ts n vs R2 S fuel g1 c1 R1 E12 X1) as F1. pose proof (extracted_learned w g3 ts n vs R3 S fuel g2 c2 R2 E23 X2) as F2.
    apply Forall_forall. intros e I. rewrite Forall_forall in F1, F2. apply extend_in' in I as [I|I]; auto.
  Qed.
  Theorem recursive_learned : forall fuel met l prior k all, NoDup (map fst prior) -> plain_rules L ar prior -> recursive_rules L keep fuel met l prior k all ->
    plain_rules L ar all /\ forall e, In e all -> In e prior \/ exists m w ts n vs, m <= k /\ sized_workload met m l = Val w /\ samples_of L w ts n vs /\
      from_terms L ar (untold L ar (wvars ts) n vs) (snd e).
  Proof.
    intros fuel met l prior k all N Hp R. induction R as [|k rec w new R IH Ew Rw]; [split; [constructor|intros e []]|].
    destruct IH as [IP IH]. destruct (recursive_ok L keep fuel met l prior k rec N R) as (Nr & _).
    pose proof (plain_extend rec prior IP Hp) as Pe.
    destruct (workload_learned fuel w (extend rec prior) true _ new (extend_nodup' rec prior Nr) Pe Rw) as (ts & n & vs & S & F). split.
    - apply plain_extend; [|exact Pe]. eapply Forall_impl; [|exact F]. intros e (_ & P2 & _). exact P2.
    - intros e I. apply extend_in' in I as [I|I].
      + right. exists (Datatypes.S k), w, ts, n, vs. rewrite Forall_forall in F. auto.
      + apply extend_in' in I as [I|I]; [|now left]. destruct (IH e I) as [H|(m & w' & ts' & n' & vs' & Lm & H)]; [now left|]. right. exists m, w', ts', n', vs'. split; [lia|exact H].
  Qed.
End Learn.
