From Verif Require Import Base BaseProofs Sexp EnumSpec.

(* induction over terms with the hypothesis for all members of a list *)
Section SexpInd.
  Variable P : sexp -> Prop.
  Hypothesis HA : forall s, P (Atom s).
  Hypothesis HL : forall l, Forall P l -> P (Lst l).
  Fixpoint sexp_ind' (t : sexp) : P t :=
    match t with
    | Atom s => HA s
    | Lst l => HL l ((fix go (l : list sexp) : Forall P l :=
                        match l with
                        | [] => Forall_nil _
                        | t :: r => Forall_cons _ (sexp_ind' t) (go r)
                        end) l)
    end.
End SexpInd.

Lemma sexp_eqb_eq a b : sexp_eqb a b = true <-> a = b.
Proof.
  revert b; induction a as [s|l IH] using sexp_ind'; intros [s'|l']; simpl; try (split; discriminate).
  - rewrite String.eqb_eq. split; [now intros ->|now inversion 1].
  - revert l'; induction IH as [|x l Hx Hl IHl]; intros [|y l']; try (split; [discriminate|discriminate]).
    + now split.
    + rewrite andb_true_iff, Hx, IHl. split.
      * intros [-> H]; now inversion H.
      * now inversion 1.
Qed.

Lemma sexp_eqb_refl a : sexp_eqb a a = true.
Proof. now apply sexp_eqb_eq. Qed.

Lemma sexp_eqb_neq a b : sexp_eqb a b = false <-> a <> b.
Proof.
  destruct (sexp_eqb a b) eqn:E.
  - apply sexp_eqb_eq in E. split; [discriminate|contradiction].
  - split; [|reflexivity]. intros _ H. apply sexp_eqb_eq in H. congruence.
Qed.

Lemma sexp_eq_dec (a b : sexp) : {a = b} + {a <> b}.
Proof.
  destruct (sexp_eqb a b) eqn:E; [left; now apply sexp_eqb_eq|right; now apply sexp_eqb_neq].
Qed.

Lemma metric_eqb_eq a b : metric_eqb a b = true <-> a = b.
Proof. destruct a, b; simpl; split; congruence. Qed.

Lemma subterm_trans a b c : subterm a b -> subterm b c -> subterm a c.
Proof. intros H1 H2; induction H2; [assumption|]. eapply sub_in; eauto. Qed.

Lemma subterm_list s l : subterm s (Lst l) <-> s = Lst l \/ exists t, In t l /\ subterm s t.
Proof.
  split.
  - inversion 1; subst; [now left|right; eauto].
  - intros [->|[t [H1 H2]]]; [constructor|econstructor; eauto].
Qed.

Lemma subterm_atom s x : subterm s (Atom x) <-> s = Atom x.
Proof. split; [now inversion 1|intros ->; constructor]. Qed.

(* ---- sizes ---- *)

Lemma measure_val m t k : measure m t = Val k -> k = size m t.
Proof.
  revert k; induction t as [s|l IH] using sexp_ind'; intros k.
  - destruct m; simpl; now inversion 1.
  - assert (Hmap : forall ns, rmapM (measure m) l = Val ns -> ns = map (size m) l).
    { intros ns. apply rmapM_pure_inv. intros x y Hx. rewrite Forall_forall in IH. now apply IH. }
    simpl. intros H. inv_bind H. apply Hmap in E; subst v. destruct m; simpl in *.
    + inversion H; subst. clear. induction l as [|t l IHl]; simpl; [reflexivity|].
      rewrite app_length, IHl. reflexivity.
    + inversion H; subst. change (map (size Lists) l) with (map nlists l). lia.
    + inv_bind H. inversion H; subst. change (map (size Depth) l) with (map height l) in E.
      unfold max_unwrap in E.
      destruct (map height l) eqn:El; [discriminate|]. inversion E; subst. simpl. lia.
Qed.

Lemma measure_proper m t : proper t = true -> measure m t = Val (size m t).
Proof.
  induction t as [s|l IH] using sexp_ind'; simpl; intros Hp.
  - now destruct m.
  - apply andb_prop in Hp as [Hne Hp]. rewrite forallb_forall in Hp. rewrite Forall_forall in IH.
    rewrite (rmapM_pure _ (size m)) by (intros x Hx; apply IH; auto). simpl.
    destruct m; simpl.
    + f_equal. clear. induction l as [|t l IHl]; simpl; [reflexivity|].
      rewrite app_length, IHl. reflexivity.
    + f_equal. change (map (size Lists) l) with (map nlists l). lia.
    + destruct l as [|t l]; [discriminate|]. change (map (size Depth) (t :: l)) with (map height (t :: l)).
      simpl. f_equal. lia.
Qed.

Lemma size_subterm m s t : subterm s t -> size m s <= size m t.
Proof.
  induction 1 as [|s t l Hin Hs IH]; [lia|]. destruct m; simpl in *.
  - etransitivity; [exact IH|]. clear -Hin. induction l as [|x l IHl]; simpl in *; [easy|].
    rewrite app_length. destruct Hin as [->|Hin]; [lia|]. specialize (IHl Hin). lia.
  - assert (nlists t <= sum (map nlists l)) by (apply sum_in, in_map, Hin). lia.
  - assert (height t <= maxl (map height l)) by (apply maxl_in, in_map, Hin). lia.
Qed.

Lemma measure_subterm m s t k :
  subterm s t -> measure m t = Val k -> exists k', measure m s = Val k' /\ k' <= k.
Proof.
  intros Hs; revert k; induction Hs as [|s t l Hin Hs IH]; intros k Hk; [eauto|].
  pose proof Hk as Hk0. simpl in Hk. inv_bind Hk. apply rmapM_val in E.
  assert (exists kt, measure m t = Val kt) as [kt Hkt].
  { clear -E Hin. induction E; simpl in *; [easy|]. destruct Hin as [->|Hin]; eauto. }
  destruct (IH _ Hkt) as [k' [H1 H2]]. exists k'. split; [assumption|].
  apply measure_val in Hkt, Hk0. subst.
  pose proof (size_subterm m t (Lst l)) as Hle.
  assert (subterm t (Lst l)) by (eapply sub_in; [eassumption|constructor]). specialize (Hle H). lia.
Qed.

Lemma proper_subterm s t : subterm s t -> proper t = true -> proper s = true.
Proof.
  induction 1 as [|s t l Hin Hs IH]; [auto|]. simpl. intros H.
  apply andb_prop in H as [_ H]. rewrite forallb_forall in H. auto.
Qed.

Lemma proper_size_pos m t : proper t = true -> match m with Lists => True | _ => 1 <= size m t end.
Proof.
  destruct m; auto; intros H.
  - induction t as [s|l IH] using sexp_ind'; simpl in *; [lia|].
    apply andb_prop in H as [Hne Hp]. destruct l as [|t l]; [discriminate|].
    inversion IH; subst. simpl in *. apply andb_prop in Hp as [Hp _].
    rewrite app_length. specialize (H1 Hp). lia.
  - destruct t; simpl; lia.
Qed.

Lemma proper_subterm_lt m s t l :
  In t l -> subterm s t -> m <> Atoms -> size m s < size m (Lst l).
Proof.
  intros Hin Hs Hm. pose proof (size_subterm m s t Hs). destruct m; [congruence| |]; simpl in *.
  - assert (nlists t <= sum (map nlists l)) by (apply sum_in, in_map, Hin). lia.
  - assert (height t <= maxl (map height l)) by (apply maxl_in, in_map, Hin). lia.
Qed.

(* ---- cartesian products and plug ---- *)

Lemma in_cart {A} (ls : list (list A)) xs : In xs (cart ls) <-> Forall2 (@In A) xs ls.
Proof.
  revert xs; induction ls as [|l ls IH]; intros xs; simpl.
  - split; [intros [<-|[]]; constructor|inversion 1; auto].
  - rewrite in_flat_map. split.
    + intros [x [Hx H]]. apply in_map_iff in H as [ys [<- Hys]]. constructor; [assumption|now apply IH].
    + inversion 1; subst. eexists; split; [eassumption|]. apply in_map, IH. assumption.
Qed.

Lemma flat_map_const_length {A B} (f : A -> list B) l k :
  (forall x, In x l -> length (f x) = k) -> length (flat_map f l) = length l * k.
Proof.
  induction l as [|x l IH]; simpl; intros H; [reflexivity|].
  rewrite app_length, IH, H by auto. reflexivity.
Qed.

Lemma cart_length {A} (ls : list (list A)) :
  length (cart ls) = fold_right Nat.mul 1 (map (@length A) ls).
Proof.
  induction ls as [|l ls IH]; simpl; [reflexivity|].
  rewrite <- IH. apply flat_map_const_length. intros x _. apply map_length.
Qed.

Lemma NoDup_flat_map {A B} (f : A -> list B) l :
  NoDup l -> (forall x, In x l -> NoDup (f x)) ->
  (forall x y b, In x l -> In y l -> In b (f x) -> In b (f y) -> x = y) ->
  NoDup (flat_map f l).
Proof.
  induction l as [|x l IH]; simpl; intros Hnd Hf Hd; [constructor|].
  inversion Hnd; subst. assert (Hx : NoDup (f x)) by auto.
  assert (Hr : NoDup (flat_map f l)) by (apply IH; eauto 6).
  assert (Hdis : forall b, In b (f x) -> In b (flat_map f l) -> False).
  { intros b Hb Hb'. apply in_flat_map in Hb' as [y [Hy Hb']].
    assert (x = y) by (eapply Hd; eauto). subst. contradiction. }
  clear -Hx Hr Hdis. induction (f x) as [|b bs IHb]; simpl; [assumption|].
  inversion Hx; subst. constructor.
  - rewrite in_app_iff. intros [H|H]; [contradiction|]. apply (Hdis b); simpl; auto.
  - apply IHb; [assumption|]. intros c Hc. apply Hdis. simpl; auto.
Qed.

Lemma NoDup_map_inj {A B} (f : A -> B) l :
  (forall x y, In x l -> In y l -> f x = f y -> x = y) -> NoDup l -> NoDup (map f l).
Proof.
  induction l as [|x l IH]; simpl; intros Hi Hnd; [constructor|].
  inversion Hnd; subst. constructor; [|apply IH; eauto].
  intros H. apply in_map_iff in H as [y [E Hy]]. assert (y = x) by (apply Hi; auto). subst; contradiction.
Qed.

Lemma NoDup_cart {A} (ls : list (list A)) : Forall (@NoDup A) ls -> NoDup (cart ls).
Proof.
  induction 1 as [|l ls Hl Hls IH]; simpl.
  - constructor; [easy|constructor].
  - apply NoDup_flat_map; [assumption| |].
    + intros x _. apply NoDup_map_inj; [|assumption]. intros; congruence.
    + intros x y b _ _ Hb Hb'. apply in_map_iff in Hb as [? [<- _]], Hb' as [? [E _]]. congruence.
Qed.

Lemma plug_list name pegs l :
  l <> [] -> plug name pegs (Lst l) = map Lst (cart (map (plug name pegs) l)).
Proof. destruct l; simpl; congruence. Qed.

Lemma in_plug_list name pegs l t :
  In t (plug name pegs (Lst l)) <->
  l <> [] /\ exists ts, t = Lst ts /\ Forall2 (fun x y => In y (plug name pegs x)) l ts.
Proof.
  destruct l as [|x l].
  - simpl. split; [easy|intros [H _]; congruence].
  - rewrite plug_list by congruence. rewrite in_map_iff. split.
    + intros [ts [<- H]]. split; [congruence|]. exists ts; split; [reflexivity|].
      apply in_cart in H. clear -H. remember (x :: l) as xs eqn:E; clear E.
      remember (map (plug name pegs) xs) as ls eqn:E. revert xs E.
      induction H; intros [|z zs] E; simpl in *; try discriminate; constructor;
        inversion E; subst; auto.
    + intros [_ [ts [-> H]]]. exists ts; split; [reflexivity|]. apply in_cart.
      remember (x :: l) as xs eqn:E; clear E. induction H; simpl; constructor; auto.
Qed.

Lemma Forall2_impl_in {A B} (P Q : A -> B -> Prop) l l' :
  Forall2 P l l' -> (forall x y, In x l -> In y l' -> P x y -> Q x y) -> Forall2 Q l l'.
Proof. induction 1; intros Hi; constructor; simpl in *; auto. Qed.

Lemma Forall2_in_l {A B} (P : A -> B -> Prop) l l' x :
  Forall2 P l l' -> In x l -> exists y, In y l' /\ P x y.
Proof.
  induction 1; simpl; [easy|]. intros [->|H']; [eauto|].
  destruct (IHForall2 H') as [z [? ?]]; eauto.
Qed.

Lemma Forall2_in_r {A B} (P : A -> B -> Prop) l l' y :
  Forall2 P l l' -> In y l' -> exists x, In x l /\ P x y.
Proof.
  induction 1; simpl; [easy|]. intros [->|H']; [eauto|].
  destruct (IHForall2 H') as [z [? ?]]; eauto.
Qed.

Lemma plug_sound name pegs t t' :
  In t' (plug name pegs t) -> fill (fun p => In p pegs) name t t'.
Proof.
  revert t'; induction t as [s|l IH] using sexp_ind'; intros t'.
  - simpl. destruct (String.eqb_spec s name) as [->|Hne].
    + intros H; now constructor.
    + intros [<-|[]]; now constructor.
  - rewrite in_plug_list. intros [_ [ts [-> H]]]. constructor. rewrite Forall_forall in IH.
    eapply Forall2_impl_in; [eassumption|]. intros x y Hx _ Hy. now apply IH.
Qed.

Lemma plug_complete name pegs t t' :
  proper t = true -> fill (fun p => In p pegs) name t t' -> In t' (plug name pegs t).
Proof.
  revert t'; induction t as [s|l IH] using sexp_ind'; intros t' Hp H.
  - inversion H; subst; simpl.
    + now rewrite String.eqb_refl.
    + destruct (String.eqb_spec s name); [congruence|]. simpl; auto.
  - inversion H as [| |? l' Hl]; subst. apply in_plug_list. simpl in Hp. apply andb_prop in Hp as [Hne Hp].
    split; [now destruct l|]. exists l'; split; [reflexivity|].
    rewrite Forall_forall in IH. rewrite forallb_forall in Hp.
    eapply Forall2_impl_in; [eassumption|]. intros x y Hx _ Hy. apply IH; auto.
Qed.

Lemma plug_exact name pegs t t' :
  proper t = true ->
  (In t' (plug name pegs t) <-> fill (fun p => In p pegs) name t t').
Proof. intros Hp; split; [apply plug_sound|now apply plug_complete]. Qed.

Lemma plug_length name pegs t :
  proper t = true -> length (plug name pegs t) = length pegs ^ occurrences name t.
Proof.
  induction t as [s|l IH] using sexp_ind'; intros Hp.
  - unfold occurrences; simpl. destruct (String.eqb_spec s name) as [->|Hne].
    + destruct (string_dec name name); [simpl; lia|congruence].
    + destruct (string_dec s name); [congruence|reflexivity].
  - simpl in Hp. apply andb_prop in Hp as [Hne Hp].
    rewrite plug_list by (destruct l; discriminate). rewrite map_length, cart_length.
    clear Hne. rewrite forallb_forall in Hp. unfold occurrences in *. simpl.
    induction IH as [|x l Hx Hl IHl]; simpl; [reflexivity|].
    rewrite count_occ_app, Nat.pow_add_r, Hx, IHl by (simpl in Hp; auto).
    reflexivity.
Qed.

Lemma plug_NoDup name pegs t : NoDup pegs -> NoDup (plug name pegs t).
Proof.
  intros Hnd; induction t as [s|l IH] using sexp_ind'.
  - simpl. destruct (String.eqb s name); [assumption|]. constructor; [easy|constructor].
  - destruct l as [|x l]; [simpl; constructor|]. rewrite plug_list by congruence.
    apply NoDup_map_inj; [intros; congruence|]. apply NoDup_cart.
    apply Forall_map. assumption.
Qed.

(* ---- fill ---- *)

Lemma fill_impl (P Q : sexp -> Prop) a t t' : (forall x, P x -> Q x) -> fill P a t t' -> fill Q a t t'.
Proof.
  intros Hi; revert t'; induction t as [s|l IH] using sexp_ind'; intros t' H; inversion H; subst.
  - constructor; auto.
  - now constructor.
  - constructor. rewrite Forall_forall in IH. eapply Forall2_impl_in; [eassumption|]. auto.
Qed.

Lemma fill_no_hole P a t t' : ~ occurs a t -> fill P a t t' -> t' = t.
Proof.
  revert t'; induction t as [s|l IH] using sexp_ind'; intros t' Ho H; inversion H; subst.
  - exfalso; apply Ho; left; reflexivity.
  - reflexivity.
  - f_equal. rewrite Forall_forall in IH.
    assert (Hl : forall x, In x l -> ~ occurs a x).
    { intros x Hx Hox. apply Ho. unfold occurs in *; simpl. apply in_flat_map; eauto. }
    clear -H1 IH Hl. induction H1; [reflexivity|]. f_equal.
    + apply IH; [now left|apply Hl; now left|assumption].
    + apply IHForall2; simpl in *; auto.
Qed.

Lemma fill_id P a t : ~ occurs a t -> fill P a t t.
Proof.
  induction t as [s|l IH] using sexp_ind'; intros Ho.
  - constructor. intros ->. apply Ho; left; reflexivity.
  - constructor. rewrite Forall_forall in IH.
    assert (Hl : forall x, In x l -> fill P a x x).
    { intros x Hx. apply IH; [assumption|]. intros Hox. apply Ho. unfold occurs; simpl.
      apply in_flat_map; eauto. }
    clear -Hl. induction l; constructor; simpl in *; auto.
Qed.

Lemma fill_hole_exists P a t t' : occurs a t -> fill P a t t' -> exists q, P q /\ subterm q t'.
Proof.
  revert t'; induction t as [s|l IH] using sexp_ind'; intros t' Ho H; inversion H; subst.
  - exists t'; split; [assumption|constructor].
  - destruct Ho as [->|[]]; congruence.
  - unfold occurs in Ho; simpl in Ho. apply in_flat_map in Ho as [x [Hx Ho]].
    rewrite Forall_forall in IH. destruct (Forall2_in_l _ _ _ _ H1 Hx) as [y [Hy Hf]].
    destruct (IH x Hx y Ho Hf) as [q [Hq Hs]]. exists q; split; [assumption|].
    eapply sub_in; eauto.
Qed.

(* what replaced the holes appears in the result *)
Lemma fill_refine P a t t' :
  fill P a t t' -> fill (fun q => P q /\ subterm q t') a t t'.
Proof.
  revert t'; induction t as [s|l IH] using sexp_ind'; intros t' H; inversion H; subst.
  - constructor. split; [assumption|constructor].
  - now constructor.
  - constructor. rewrite Forall_forall in IH. eapply Forall2_impl_in; [eassumption|].
    intros x y Hx Hy Hf. apply (fill_impl (fun q => P q /\ subterm q y)).
    + intros q [Hq Hs]; split; [assumption|]. eapply sub_in; eauto.
    + now apply IH.
Qed.

Lemma fill_proper (P : sexp -> Prop) a t t' :
  (forall q, P q -> proper q = true) -> proper t = true -> fill P a t t' -> proper t' = true.
Proof.
  intros HP; revert t'; induction t as [s|l IH] using sexp_ind'; intros t' Hp H; inversion H; subst; auto.
  simpl in *. apply andb_prop in Hp as [Hne Hp]. rewrite forallb_forall in Hp.
  rewrite Forall_forall in IH. apply andb_true_intro; split.
  - destruct l; [discriminate|]. inversion H1; reflexivity.
  - apply forallb_forall. intros y Hy. destruct (Forall2_in_r _ _ _ _ H1 Hy) as [x [Hx Hf]]. eauto.
Qed.

Lemma fill_leaves_occurs P a b t t' :
  fill P a t t' -> occurs b t' -> (b <> a /\ occurs b t) \/ exists q, P q /\ occurs b q /\ subterm q t'.
Proof.
  revert t'; induction t as [s|l IH] using sexp_ind'; intros t' H Hb; inversion H; subst.
  - right. exists t'; split; [assumption|]. split; [assumption|constructor].
  - left. destruct Hb as [<-|[]]. split; [assumption|now left].
  - unfold occurs in Hb; simpl in Hb. apply in_flat_map in Hb as [y [Hy Hb]].
    destruct (Forall2_in_r _ _ _ _ H1 Hy) as [x [Hx Hf]]. rewrite Forall_forall in IH.
    destruct (IH x Hx y Hf Hb) as [[Hn Ho]|[q [Hq [Ho Hs]]]].
    + left; split; [assumption|]. unfold occurs; simpl. apply in_flat_map; eauto.
    + right; exists q; repeat split; auto. eapply sub_in; eauto.
Qed.

(* plug with a single peg is uniform substitution *)
Lemma cart_singletons {A} (xs : list A) : cart (map (fun x => [x]) xs) = [xs].
Proof. induction xs as [|x xs IH]; simpl; [reflexivity|]. now rewrite IH. Qed.

Lemma plug_single a s t : proper t = true -> plug a [s] t = [subst_atom a s t].
Proof.
  induction t as [x|l IH] using sexp_ind'; intros Hp.
  - simpl. now destruct (String.eqb x a).
  - simpl in Hp. apply andb_prop in Hp as [Hne Hp]. rewrite forallb_forall in Hp.
    rewrite Forall_forall in IH. rewrite plug_list by (destruct l; discriminate).
    replace (map (plug a [s]) l) with (map (fun x => [x]) (map (subst_atom a s) l)).
    + rewrite cart_singletons. reflexivity.
    + rewrite map_map. apply map_ext_in. intros x Hx. symmetry. apply IH; auto.
Qed.
