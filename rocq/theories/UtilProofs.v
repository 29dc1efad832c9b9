(* self_product enumerates all assignments of samples to variables. *)
From Verif Require Import Base BaseProofs Lang Util.

Section SelfProduct.
  Context {A : Type}.
  Variable ts : list A.
  Let k := length ts.

  (* one block: every sample repeated p times *)
  Let block (p : nat) : list A := flat_map (fun c => repeat c p) ts.

  Lemma block_length_gen (l : list A) p : length (flat_map (fun c => repeat c p) l) = length l * p.
  Proof. induction l; simpl; [reflexivity|]. rewrite app_length, repeat_length, IHl. reflexivity. Qed.

  Lemma nth_error_repeat_lt (a : A) p i : i < p -> nth_error (repeat a p) i = Some a.
  Proof. revert i; induction p; intros [|i] H; simpl; try lia; auto. apply IHp; lia. Qed.

  Lemma block_nth_gen (l : list A) p r : p <> 0 -> r < length l * p ->
    nth_error (flat_map (fun c => repeat c p) l) r = nth_error l (r / p).
  Proof.
    intros Hp. revert r; induction l as [|a l IH]; intros r Hr; simpl in *; [lia|].
    destruct (lt_dec r p) as [H|H].
    - rewrite nth_error_app1 by (rewrite repeat_length; lia).
      rewrite Nat.div_small by lia. simpl. apply nth_error_repeat_lt; lia.
    - rewrite nth_error_app2 by (rewrite repeat_length; lia). rewrite repeat_length.
      rewrite IH by lia.
      replace (r / p) with (S ((r - p) / p)); [reflexivity|].
      replace r with ((r - p) + 1 * p) at 2 by lia. rewrite Nat.div_add by lia. lia.
  Qed.

  (* m passes of the loop *)
  Fixpoint blocks (p m : nat) : list A := match m with 0 => [] | S m => block p ++ blocks p m end.

  Lemma blocks_snoc p m : blocks p m ++ block p = block p ++ blocks p m.
  Proof. induction m; simpl; [now rewrite app_nil_r|]. rewrite <- app_assoc, IHm. reflexivity. Qed.

  Lemma blocks_length p m : length (blocks p m) = m * (k * p).
  Proof. induction m; simpl; [reflexivity|]. rewrite app_length, IHm. unfold block. rewrite block_length_gen. reflexivity. Qed.

  Lemma blocks_nth p m r : p <> 0 -> r < m * (k * p) ->
    nth_error (blocks p m) r = nth_error ts ((r / p) mod k).
  Proof.
    intros Hp. revert r; induction m as [|m IH]; intros r Hr; [simpl in Hr; lia|].
    assert (k <> 0) as Hk by (intros E; rewrite E in Hr; lia).
    assert (length (block p) = k * p) as Hlen by apply block_length_gen.
    cbn [blocks]. destruct (lt_dec r (k * p)) as [H|H].
    - rewrite nth_error_app1 by lia.
      unfold block. rewrite block_nth_gen by auto.
      rewrite Nat.mod_small; [reflexivity|]. apply Nat.div_lt_upper_bound; [auto|]. lia.
    - rewrite nth_error_app2 by lia. rewrite Hlen.
      rewrite IH by (simpl in Hr; lia). f_equal.
      replace r with ((r - k * p) + k * p) at 2 by lia.
      rewrite Nat.div_add by lia. rewrite <- Nat.add_mod_idemp_r, Nat.mod_same, Nat.add_0_r by auto.
      reflexivity.
  Qed.

  Lemma fill_entry_blocks fuel p m j rows :
    rows = (j + m) * (k * p) -> k * p <> 0 -> m <= fuel ->
    fill_entry fuel ts p rows (blocks p j) = Val (blocks p (j + m)).
  Proof.
    revert j fuel; induction m as [|m IH]; intros j fuel Hr Hk Hf.
    - destruct fuel; simpl; rewrite blocks_length, Nat.add_0_r in *;
        (destruct (Nat.ltb_spec (j * (k * p)) rows); [lia|reflexivity]).
    - destruct fuel as [|fuel]; [lia|]. cbn [fill_entry]. rewrite blocks_length.
      destruct (Nat.ltb_spec (j * (k * p)) rows) as [H|H]; [|exfalso; nia].
      unfold one_pass. fold (block p). rewrite blocks_snoc.
      change (block p ++ blocks p j) with (blocks p (S j)).
      rewrite (IH (S j)) by lia. f_equal. f_equal. lia.
  Qed.

  (* the column of variable i *)
  Definition column (n i : nat) : list A := blocks (k ^ i) (k ^ (n - S i)).

  Lemma fill_entry_col n i : i < n ->
    fill_entry (k ^ n) ts (k ^ i) (k ^ n) [] = Val (column n i).
  Proof.
    intros Hi. unfold column. destruct (Nat.eq_dec k 0) as [Hk|Hk].
    - rewrite Hk. replace (0 ^ n) with 0 by (rewrite Nat.pow_0_l; lia).
      simpl. f_equal. symmetry. apply length_zero_iff_nil.
      rewrite blocks_length, Hk. lia.
    - assert (k ^ n = k ^ (n - S i) * (k * k ^ i)) as E.
      { rewrite <- Nat.pow_succ_r', <- Nat.pow_add_r. f_equal. lia. }
      change ([]) with (blocks (k ^ i) 0).
      apply (fill_entry_blocks (k ^ n) (k ^ i) (k ^ (n - S i)) 0 (k ^ n)).
      + exact E.
      + pose proof (Nat.pow_nonzero k i Hk). nia.
      + apply Nat.pow_le_mono_r; lia.
  Qed.

  Lemma self_product_val n : self_product ts n = Val (map (column n) (seq 0 n)).
  Proof.
    unfold self_product. apply rmapM_pure. intros i Hi. apply in_seq in Hi.
    apply fill_entry_col; lia.
  Qed.

  Lemma column_length n i : i < n -> length (column n i) = k ^ n.
  Proof.
    intros Hi. unfold column. rewrite blocks_length.
    rewrite <- Nat.pow_succ_r', <- Nat.pow_add_r. f_equal. lia.
  Qed.

  Lemma column_nth n i r : i < n -> r < k ^ n ->
    nth_error (column n i) r = nth_error ts ((r / k ^ i) mod k).
  Proof.
    intros Hi Hr. unfold column. apply blocks_nth.
    - apply Nat.pow_nonzero. intros E. rewrite E in Hr. rewrite Nat.pow_0_l in Hr; lia.
    - rewrite <- Nat.pow_succ_r', <- Nat.pow_add_r. replace (n - S i + S i) with n by lia. exact Hr.
  Qed.
End SelfProduct.

(* digits in base k *)
Fixpoint undigits (k : nat) (ds : list nat) : nat :=
  match ds with [] => 0 | d :: r => d + k * undigits k r end.

Lemma undigits_lt k ds : Forall (fun d => d < k) ds -> undigits k ds < k ^ length ds.
Proof.
  induction 1; simpl; [lia|]. nia.
Qed.

Lemma undigits_digit k ds i : Forall (fun d => d < k) ds -> i < length ds ->
  nth_error ds i = Some ((undigits k ds / k ^ i) mod k).
Proof.
  intros H. revert i; induction H as [|d ds Hd H IH]; simpl; intros i Hi; [lia|].
  assert (k <> 0) as H0 by lia.
  destruct i as [|i].
  - rewrite Nat.pow_0_r, Nat.div_1_r. cbn [nth_error]. f_equal.
    rewrite (Nat.mul_comm k), Nat.mod_add by auto. now rewrite Nat.mod_small.
  - cbn [nth_error]. rewrite IH by lia. f_equal. f_equal. rewrite Nat.pow_succ_r'.
    pose proof (Nat.pow_nonzero k i H0). rewrite <- Nat.div_div by assumption.
    rewrite (Nat.mul_comm k), Nat.div_add, (Nat.div_small d k) by auto. reflexivity.
Qed.

Lemma digits_inj k : forall n r s, r < k ^ n -> s < k ^ n ->
  (forall i, i < n -> (r / k ^ i) mod k = (s / k ^ i) mod k) -> r = s.
Proof.
  induction n as [|n IH]; simpl; intros r s Hr Hs H; [lia|].
  assert (k <> 0) as Hk by (intros ->; lia).
  assert (r / k = s / k) as E.
  { apply IH; try (apply Nat.div_lt_upper_bound; lia).
    intros i Hi. specialize (H (S i) ltac:(lia)). rewrite Nat.pow_succ_r' in H.
    pose proof (Nat.pow_nonzero k i Hk). rewrite <- !Nat.div_div in H by assumption. exact H. }
  specialize (H 0 ltac:(lia)). rewrite Nat.pow_0_r, !Nat.div_1_r in H.
  rewrite (Nat.div_mod r k), (Nat.div_mod s k) by auto. congruence.
Qed.

(* value of variable i in row r *)
Definition cell {A} (cols : list (list A)) (i r : nat) : option A :=
  match nth_error cols i with Some c => nth_error c r | None => None end.

Lemma cell_self_product {A} (ts : list A) n cols i r :
  self_product ts n = Val cols -> i < n -> r < length ts ^ n ->
  cell cols i r = nth_error ts ((r / length ts ^ i) mod length ts).
Proof.
  rewrite self_product_val. intros E Hi Hr. inversion E; subst. unfold cell.
  rewrite nth_error_map, (nth_error_nth' _ 0) by (rewrite seq_length; lia). simpl.
  rewrite seq_nth by lia. simpl. apply column_nth; auto.
Qed.

(* every assignment of samples is some row *)
Lemma self_product_complete {A} (ts : list A) n cols (vs : list A) :
  self_product ts n = Val cols -> length vs = n -> incl vs ts ->
  exists r, r < length ts ^ n /\ forall i, i < n -> cell cols i r = nth_error vs i.
Proof.
  intros E Hl Hin.
  assert (exists pos, length pos = n /\ Forall (fun d => d < length ts) pos /\ forall i, i < n -> exists d, nth_error pos i = Some d /\ nth_error ts d = nth_error vs i)
    as (pos & Hpl & Hpb & Hp).
  { clear E. revert n Hl; induction vs as [|v vs IH]; intros n Hl.
    - simpl in Hl. subst. exists []. repeat split; auto. intros; lia.
    - destruct (IH (fun x Hx => Hin x (or_intror Hx)) (length vs) eq_refl) as (pos & H1 & H2 & H3).
      destruct (In_nth_error ts v (Hin v (or_introl eq_refl))) as (d & Hd).
      exists (d :: pos). simpl in *. repeat split; [lia| |].
      + constructor; auto. apply nth_error_Some. congruence.
      + intros [|i] Hi; simpl; [eauto|]. apply H3. lia. }
  exists (undigits (length ts) pos). rewrite <- Hpl. split; [apply undigits_lt; auto|].
  intros i Hi. rewrite (cell_self_product ts n) by (auto; rewrite <- Hpl; auto using undigits_lt).
  destruct (Hp i ltac:(lia)) as (d & Hd & <-).
  rewrite (undigits_digit (length ts)) in Hd by auto. inversion Hd; subst. reflexivity.
Qed.

(* different rows are different assignments *)
Lemma self_product_distinct {A} (ts : list A) n cols r s :
  NoDup ts -> self_product ts n = Val cols -> r < length ts ^ n -> s < length ts ^ n ->
  (forall i, i < n -> cell cols i r = cell cols i s) -> r = s.
Proof.
  intros Hnd E Hr Hs H. apply (digits_inj (length ts) n); auto.
  intros i Hi. specialize (H i Hi). rewrite !(cell_self_product ts n) in H by auto.
  assert (length ts <> 0) as Hk by (intros Ek; rewrite Ek, Nat.pow_0_l in Hr; lia).
  apply (proj1 (NoDup_nth_error ts) Hnd); auto. apply Nat.mod_upper_bound; auto.
Qed.

Lemma self_product_shape {A} (ts : list A) n : exists cols,
  self_product ts n = Val cols /\ length cols = n /\ forall c, In c cols -> length c = length ts ^ n /\ incl c ts.
Proof.
  rewrite self_product_val. eexists. split; [reflexivity|]. rewrite map_length, seq_length.
  split; [reflexivity|]. intros c Hc. apply in_map_iff in Hc as (i & <- & Hi). apply in_seq in Hi.
  split; [apply column_length; lia|].
  intros a Ha. apply In_nth_error in Ha as (r & Hr).
  assert (r < length ts ^ n) as Hlt.
  { rewrite <- (column_length ts n i) by lia. apply nth_error_Some. congruence. }
  rewrite column_nth in Hr by (auto; lia). eapply nth_error_In; eauto.
Qed.

Lemma letter_26 i : (exists s, letter i = Val s) <-> i < 26.
Proof.
  split.
  - intros (s & H). destruct (lt_dec i 26); [assumption|].
    unfold letter in H. do 26 (destruct i as [|i]; [lia|]). destruct i; discriminate.
  - intros H. do 26 (destruct i as [|i]; [eexists; reflexivity|]). lia.
Qed.

Lemma letter_inj i j s : letter i = Val s -> letter j = Val s -> i = j.
Proof.
  intros Hi Hj.
  assert (i < 26) by (apply letter_26; eauto). assert (j < 26) by (apply letter_26; eauto).
  rewrite <- Hj in Hi.
  do 26 (destruct i as [|i];
    [do 26 (destruct j as [|j]; [first [reflexivity|discriminate Hi]|]); lia|]). lia.
Qed.

(* ---- initial vectors of the variables ---- *)

Lemma rmapM_index {A} (l : list A) : rmapM (index l) (seq 0 (length l)) = Val l.
Proof.
  assert (forall l1 l2 : list A, rmapM (index (l1 ++ l2)) (seq (length l1) (length l2)) = Val l2) as H.
  { intros l1 l2. revert l1; induction l2 as [|a l2 IH]; intros l1; simpl; [reflexivity|].
    unfold index at 1. rewrite nth_error_app2, Nat.sub_diag by lia. simpl.
    specialize (IH (l1 ++ [a])). rewrite <- app_assoc, app_length in IH. simpl in IH.
    replace (S (length l1)) with (length l1 + 1) by lia. rewrite IH. reflexivity. }
  apply (H []).
Qed.

Lemma init_product_val {C} (consts : list (option C)) vars cols :
  vars <> [] -> self_product consts (length vars) = Val cols ->
  init_product consts vars = Val (length consts ^ length vars, combine vars cols).
Proof.
  intros Hv Hc. unfold init_product. rewrite Hc. cbn [rbind].
  destruct (self_product_shape consts (length vars)) as (cols' & E & Hl & Hcol).
  rewrite Hc in E. inversion E; subst cols'.
  rewrite <- Hl, rmapM_index. cbn [rbind].
  destruct cols as [|c cols]; [destruct vars; [easy|discriminate Hl]|].
  simpl. destruct (Hcol c (or_introl eq_refl)) as [-> _]. simpl in Hl. rewrite <- Hl. reflexivity.
Qed.

Lemma init_product_empty {C} (consts : list (option C)) : init_product consts [] = Panic.
Proof. reflexivity. Qed.

Lemma lookup_combine {V} (ks : list string) (vs : list V) i k v :
  NoDup ks -> nth_error ks i = Some k -> nth_error vs i = Some v ->
  lookup (combine ks vs) k = Some v.
Proof.
  revert vs i; induction ks as [|k0 ks IH]; intros [|v0 vs] [|i] Hnd Hk Hv; simpl in *; try discriminate.
  - inversion Hk; inversion Hv; subst. rewrite String.eqb_refl. reflexivity.
  - inversion Hnd; subst. destruct (String.eqb_spec k k0) as [->|Hne].
    + exfalso. apply H1. eapply nth_error_In; eauto.
    + eauto.
Qed.

(* every variable gets a vector of the common length *)
Lemma init_product_length {C} (consts : list (option C)) vars n vcs s :
  NoDup vars -> init_product consts vars = Val (n, vcs) -> In s vars ->
  length (var_cvec vcs s) = n.
Proof.
  intros Hnd Hi Hs.
  assert (vars <> []) as Hv by (intros ->; destruct Hs).
  destruct (self_product_shape consts (length vars)) as (cols & E & Hl & Hcol).
  rewrite (init_product_val _ _ _ Hv E) in Hi. inversion Hi; subst.
  apply In_nth_error in Hs as (i & Hi').
  assert (i < length cols) as Hlt by (rewrite Hl; apply nth_error_Some; congruence).
  apply nth_error_Some in Hlt. destruct (nth_error cols i) as [c|] eqn:Ec; [|congruence].
  unfold var_cvec, cvec in *. rewrite (lookup_combine vars cols i s c) by auto.
  apply Hcol. eapply nth_error_In; eauto.
Qed.

(* for every assignment of sample values there is a row *)
Lemma init_product_row {C} (samples : list C) vars n vcs (env : string -> C) :
  NoDup vars -> init_product (map Some samples) vars = Val (n, vcs) ->
  (forall s, In (env s) samples) ->
  exists r, r < n /\ forall s, In s vars -> nth r (var_cvec vcs s) None = Some (env s).
Proof.
  intros Hnd Hi Henv.
  destruct (list_eq_dec string_dec vars []) as [->|Hv]; [discriminate Hi|].
  destruct (self_product_shape (map Some samples) (length vars)) as (cols & E & Hl & Hcol).
  rewrite (init_product_val _ _ _ Hv E) in Hi. inversion Hi; subst.
  destruct (self_product_complete (map Some samples) (length vars) cols
              (map (fun s => Some (env s)) vars) E) as (r & Hr & H).
  { apply map_length. }
  { intros x Hx. apply in_map_iff in Hx as (s & <- & _). apply in_map. apply Henv. }
  exists r. split; [exact Hr|]. intros s Hs. apply In_nth_error in Hs as (i & Hi').
  assert (i < length vars) as Hlt by (apply nth_error_Some; congruence).
  specialize (H i Hlt). rewrite nth_error_map, Hi' in H. simpl in H. unfold cell in H.
  destruct (nth_error cols i) as [c|] eqn:Ec; [|discriminate].
  unfold var_cvec, cvec in *. rewrite (lookup_combine vars cols i s c) by auto.
  apply nth_error_nth with (d := None) in H. exact H.
Qed.

(* every row is an assignment of sample values *)
Lemma init_product_row_env {C} (samples : list C) (d : C) vars n vcs r :
  NoDup vars -> In d samples -> init_product (map Some samples) vars = Val (n, vcs) -> r < n ->
  exists env, (forall s, In (env s) samples) /\
    forall s, In s vars -> nth r (var_cvec vcs s) None = Some (env s).
Proof.
  intros Hnd Hd Hi Hr.
  destruct (list_eq_dec string_dec vars []) as [->|Hv]; [discriminate Hi|].
  destruct (self_product_shape (map Some samples) (length vars)) as (cols & E & Hl & Hcol).
  pose proof Hi as Hi0. rewrite (init_product_val _ _ _ Hv E) in Hi. inversion Hi; subst.
  exists (fun s => match nth r (var_cvec (combine vars cols) s) None with Some a => a | None => d end).
  assert (forall s, In s vars -> exists a, nth r (var_cvec (combine vars cols) s) None = Some a /\ In a samples) as H.
  { intros s Hs. apply In_nth_error in Hs as (i & Hi').
    assert (i < length cols) as Hlt by (rewrite Hl; apply nth_error_Some; congruence).
    apply nth_error_Some in Hlt. destruct (nth_error cols i) as [c|] eqn:Ec; [|congruence].
    unfold var_cvec, cvec in *. rewrite (lookup_combine vars cols i s c) by auto.
    destruct (Hcol c (nth_error_In _ _ Ec)) as [Hlen Hin].
    assert (In (nth r c None) c) as Hn by (apply nth_In; lia).
    apply Hin in Hn. apply in_map_iff in Hn as (a & <- & Ha). eauto. }
  split.
  - intros s. destruct (in_dec string_dec s vars) as [Hs|Hs].
    + destruct (H s Hs) as (a & -> & Ha). exact Ha.
    + unfold var_cvec, cvec in *. replace (lookup (combine vars cols) s) with (@None (list (option C))).
      * destruct r; exact Hd.
      * symmetry. apply lookup_none. intros Hin. apply Hs.
        apply in_map_iff in Hin as ((k, v) & <- & Hkv). eapply in_combine_l; eauto.
  - intros s Hs. destruct (H s Hs) as (a & -> & _). reflexivity.
Qed.
