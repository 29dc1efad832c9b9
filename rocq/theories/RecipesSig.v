(* The terms of a workload, computed without enumerating it: which atoms and which
   operators can occur.  Used to prove what the terms of the recipes are. *)
From Verif Require Import Base BaseProofs Sexp SexpProofs CanonProofs Reader Pattern Filter Workload EnumSpec FilterProofs WorkloadProofs Recipe InferSpec Infer GrammarProofs RecipesSpec.
Open Scope list_scope.

(* atoms that are whole terms, atoms that are arguments, operators *)
Record sg : Type := Sg { tops : list string; inner : list string; heads : list (string * nat) }.
Definition ok (s : sg) (t : sexp) : Prop := match t with Atom x => In x (tops s) | Lst _ => built (inner s) (heads s) t end.

Lemma built_more : forall a a' o o', incl a a' -> incl o o' -> forall t, built a o t -> built a' o' t.
Proof.
  intros a a' o o' Ha Ho t. induction t as [s|l IH] using sexp_ind'; intros B; inversion B as [? I|h args I F]; subst; constructor; auto.
  inversion IH as [|? ? _ IH']; subst. rewrite Forall_forall in *. auto.
Qed.

Definition rem (x : string) (l : list string) : list string := List.filter (fun y => negb (String.eqb y x)) l.
Lemma in_rem : forall x y l, In y (rem x l) <-> In y l /\ y <> x.
Proof. intros x y l. unfold rem. rewrite filter_In, negb_true_iff, String.eqb_neq. reflexivity. Qed.

(* arguments and operators of a term *)
Fixpoint parts (t : sexp) : option (list string * list (string * nat)) :=
  match t with
  | Atom s => Some ([s], [])
  | Lst (Atom o :: args) =>
      match (fix go (l : list sexp) : option (list string * list (string * nat)) :=
               match l with
               | [] => Some ([], [])
               | x :: r => match parts x, go r with Some (a, h), Some (a', h') => Some (a ++ a', h ++ h') | _, _ => None end
               end) args with
      | Some (a, h) => Some (a, (o, length args) :: h)
      | None => None
      end
  | Lst _ => None
  end.
Fixpoint parts_all (l : list sexp) : option (list string * list (string * nat)) :=
  match l with
  | [] => Some ([], [])
  | x :: r => match parts x, parts_all r with Some (a, h), Some (a', h') => Some (a ++ a', h ++ h') | _, _ => None end
  end.
Lemma parts_app : forall o args, parts (Lst (Atom o :: args)) = match parts_all args with Some (a, h) => Some (a, (o, length args) :: h) | None => None end.
Proof. reflexivity. Qed.
Lemma parts_built : forall t a h, parts t = Some (a, h) -> built a h t /\ proper t = true.
Proof.
  induction t as [s|l IH] using sexp_ind'; intros a h E.
  - injection E as <- <-. split; [constructor; now left|reflexivity].
  - destruct l as [|[o|?] args]; try discriminate E. rewrite parts_app in E. inversion IH as [|? ? _ IH']; subst.
    destruct (parts_all args) as [[a' h']|] eqn:Ea; [|discriminate E]. injection E as <- <-.
    assert (X : Forall (built a' h') args /\ forallb proper args = true).
    { clear IH. revert a' h' Ea. induction IH' as [|x r Hx _ IHr]; intros a' h' Ea; [split; [constructor|reflexivity]|].
      cbn [parts_all] in Ea. destruct (parts x) as [[a1 h1]|] eqn:E1; [|discriminate Ea]. destruct (parts_all r) as [[a2 h2]|] eqn:E2; [|discriminate Ea]. injection Ea as <- <-.
      destruct (Hx _ _ eq_refl) as [B1 P1], (IHr _ _ eq_refl) as [B2 P2]. split.
      - constructor; [exact (built_more _ _ _ _ (incl_appl _ (incl_refl _)) (incl_appl _ (incl_refl _)) _ B1)|].
        revert B2. apply Forall_impl. intros y. apply built_more; apply incl_appr, incl_refl.
      - cbn [forallb]. now rewrite P1, P2. }
    destruct X as [F P]. split.
    + constructor; [now left|]. revert F. apply Forall_impl. intros y. apply built_more; [apply incl_refl|apply incl_tl, incl_refl].
    + cbn [proper forallb]. exact P.
Qed.

Definition sg_none : sg := Sg [] [] [].
Definition pair_dec : forall x y : string * nat, {x = y} + {x <> y}.
Proof. intros x y. decide equality; [apply Nat.eq_dec|apply string_dec]. Defined.
Definition sg_union (a b : sg) : sg :=
  Sg (nodup string_dec (tops a ++ tops b)) (nodup string_dec (inner a ++ inner b)) (nodup pair_dec (heads a ++ heads b)).
Lemma union_ok : forall a b t, ok a t \/ ok b t -> ok (sg_union a b) t.
Proof.
  intros a b [s|l]; cbn [ok sg_union tops inner heads].
  - intros H. apply nodup_In, in_or_app. exact H.
  - intros [H|H]; (eapply built_more; [| |exact H]); intros x I; apply nodup_In, in_or_app; auto.
Qed.
Definition sg_term (t : sexp) : option sg :=
  match t with Atom s => Some (Sg [s] [] []) | _ => match parts t with Some (a, h) => Some (Sg [] a h) | None => None end end.
Lemma term_ok : forall t s, sg_term t = Some s -> ok s t /\ proper t = true.
Proof.
  intros [x|l] s E; cbn [sg_term] in E.
  - injection E as <-. split; [now left|reflexivity].
  - destruct (parts (Lst l)) as [[a h]|] eqn:Ep; [|discriminate E]. injection E as <-. exact (parts_built _ _ _ Ep).
Qed.
Fixpoint sg_all (l : list (option sg)) : option sg :=
  match l with
  | [] => Some sg_none
  | o :: r => match o, sg_all r with Some a, Some b => Some (sg_union a b) | _, _ => None end
  end.
Lemma all_ok : forall l s, sg_all l = Some s -> Forall (fun o => exists a, o = Some a /\ forall t, ok a t -> ok s t) l.
Proof.
  induction l as [|o r IH]; intros s E; cbn [sg_all] in E; [constructor|]. destruct o as [a|]; [|discriminate E]. destruct (sg_all r) as [b|]; [|discriminate E]. injection E as <-.
  constructor; [exists a; split; [reflexivity|intros t H; apply union_ok; auto]|]. generalize (IH b eq_refl). apply Forall_impl. intros x (a' & -> & H). exists a'. split; [reflexivity|]. intros t Ht. apply union_ok. auto.
Qed.

(* replacing an atom *)
Definition is_head (name : string) (s : sg) : bool := existsb (fun h => String.eqb (fst h) name) (heads s).
Definition sg_plug (s : sg) (name : string) (p : sg) : option sg :=
  if is_head name s && negb (match heads p with [] => true | _ => false end) then None
  else Some (Sg (rem name (tops s) ++ (if mem_str name (tops s) then tops p else []))
                (nodup string_dec (rem name (inner s) ++ (if mem_str name (inner s) then tops p else []) ++ inner p))
                (nodup pair_dec (flat_map (fun h => if String.eqb (fst h) name then map (fun x => (x, snd h)) (tops p) else [h]) (heads s) ++ heads p))).
Lemma fill_atom_inv : forall (P : sexp -> Prop) a x u, fill P a (Atom x) u -> (x = a /\ P u) \/ (x <> a /\ u = Atom x).
Proof. intros P a x u F. inversion F; subst; auto. Qed.
Lemma plug_ok : forall s name p q, sg_plug s name p = Some q -> forall (P : sexp -> Prop) t u, (forall x, P x -> ok p x) -> ok s t -> fill P name t u -> ok q u.
Proof.
  intros s name p q E P. unfold sg_plug in E. destruct (is_head name s && negb (match heads p with [] => true | _ => false end)) eqn:Eh; [discriminate E|]. injection E as <-.
  set (q := Sg _ _ _).
  assert (Hi : forall x, In x (rem name (inner s)) -> In x (inner q)) by (intros x I; unfold q; cbn; apply nodup_In, in_or_app; auto).
  assert (Hp : forall x, ok p x -> mem_str name (inner s) = true -> built (inner q) (heads q) x).
  { intros [x|l] H M.
    - constructor. unfold q. cbn [inner]. apply nodup_In, in_or_app. right. apply in_or_app. left. rewrite M. exact H.
    - eapply built_more; [| |exact H]; intros y I; unfold q; cbn [inner heads]; apply nodup_In, in_or_app; right; [apply in_or_app; auto|exact I]. }
  assert (Hb : forall t u, (forall x, P x -> ok p x) -> built (inner s) (heads s) t -> fill P name t u -> built (inner q) (heads q) u).
  { induction t as [x|l IH] using sexp_ind'; intros u HP B F.
    - inversion B as [? I|]; subst. apply fill_atom_inv in F as [[-> Px]|[N ->]].
      + apply Hp; [auto|]. now apply mem_str_in.
      + constructor. apply Hi, in_rem. auto.
    - inversion B as [|o args I Fa]; subst. inversion F as [| |? l' F2]; subst. inversion F2 as [|? u0 ? us F0 F1]; subst. inversion IH as [|? ? _ IH']; subst.
      assert (Len : length us = length args) by (symmetry; exact (Forall2_length _ _ _ F1)).
      assert (exists o', u0 = Atom o' /\ In (o', length us) (heads q)) as (o' & -> & Io).
      { apply fill_atom_inv in F0 as [[-> Px]|[N ->]].
        - assert (Hh : is_head name s = true) by (unfold is_head; apply existsb_exists; exists (name, length args); split; [exact I|apply String.eqb_refl]).
          rewrite Hh in Eh. cbn [andb] in Eh. destruct (heads p) as [|h hs] eqn:Ehp; [|discriminate Eh]. specialize (HP _ Px). destruct u0 as [x|l0].
          + exists x. split; [reflexivity|]. rewrite Len. unfold q. cbn [heads]. apply nodup_In, in_or_app. left. apply in_flat_map. exists (name, length args). split; [exact I|].
            cbn [fst snd]. rewrite String.eqb_refl. apply in_map_iff. exists x. split; [reflexivity|exact HP].
          + cbn [ok] in HP. rewrite Ehp in HP. inversion HP as [|? ? I0 _]; subst. destruct I0.
        - exists o. split; [reflexivity|]. rewrite Len. unfold q. cbn [heads]. apply nodup_In, in_or_app. left. apply in_flat_map. exists (o, length args). split; [exact I|].
          cbn [fst snd]. rewrite (proj2 (String.eqb_neq o name) N). now left. }
      constructor; [exact Io|]. clear - F1 Fa IH' HP. revert Fa IH'. induction F1 as [|x y l l' Fx _ IHf]; intros Fa IH'; [constructor|].
      inversion Fa; inversion IH'; subst. constructor; auto. }
  intros [x|l] u HP B F; cbn [ok] in B.
  - apply fill_atom_inv in F as [[-> Px]|[N ->]].
    + specialize (HP _ Px). destruct u as [y|l0]; cbn [ok] in *.
      * unfold q. cbn [tops]. apply in_or_app. right. now rewrite (proj2 (mem_str_in name (tops s)) B).
      * eapply built_more; [| |exact HP]; intros y I; unfold q; cbn [inner heads]; apply nodup_In, in_or_app; right; [apply in_or_app; auto|exact I].
    + cbn [ok]. unfold q. cbn [tops]. apply in_or_app. left. apply in_rem. auto.
  - inversion F as [| |? l' F2]; subst. cbn [ok]. exact (Hb (Lst l) (Lst l') HP B F).
Qed.

(* filters: atoms that are excluded, and sizes that leave only atoms *)
Fixpoint gone (f : filter) : list string :=
  match f with Excludes (PLit s) => [s] | FAnd fs => flat_map gone fs | _ => [] end.
Fixpoint flat (f : filter) : bool :=
  match f with MetricLt Lists n => Nat.leb n 1 | MetricLt _ n => Nat.leb n 2 | FAnd fs => existsb flat fs | _ => false end.
Definition sg_drop (x : string) (s : sg) : sg := Sg (rem x (tops s)) (rem x (inner s)) (List.filter (fun h => negb (String.eqb (fst h) x)) (heads s)).
Definition sg_flat (s : sg) : sg := Sg (tops s) [] (List.filter (fun h => Nat.eqb (snd h) 0) (heads s)).
Definition sg_filter (f : filter) (s : sg) : sg := fold_right sg_drop (if flat f then sg_flat s else s) (gone f).
Lemma drop_ok : forall x s t, ~ occurs x t -> ok s t -> ok (sg_drop x s) t.
Proof.
  intros x s. assert (B : forall t, ~ occurs x t -> built (inner s) (heads s) t -> built (inner (sg_drop x s)) (heads (sg_drop x s)) t).
  { induction t as [y|l IH] using sexp_ind'; intros N H; inversion H as [? I|o args I F]; subst.
    - constructor. cbn [sg_drop inner]. apply in_rem. split; [exact I|]. intros ->. apply N. now left.
    - constructor.
      + cbn [sg_drop heads]. apply filter_In. split; [exact I|]. cbn [fst]. apply negb_true_iff, String.eqb_neq. intros ->. apply N. now left.
      + inversion IH as [|? ? _ IH']; subst. rewrite Forall_forall in *. intros y Iy. apply IH'; [exact Iy| |exact (F y Iy)]. intros O. apply N. apply existsb_occurs. exists y. split; [now right|exact O]. }
  intros [y|l] N H; cbn [ok] in *; [|exact (B _ N H)]. cbn [sg_drop tops]. apply in_rem. split; [exact H|]. intros ->. apply N. now left.
Qed.
Lemma built_leaves : forall a h t, built a h t -> 1 <= length (leaves t).
Proof.
  intros a h t B. inversion B as [? I|o args I F]; subst; cbn; lia.
Qed.
Lemma flat_ok : forall f s t, flat f = true -> ptest f t = true -> ok s t -> ok (sg_flat s) t.
Proof.
  assert (K : forall s t, ok s t -> (size Atoms t < 2 \/ size Depth t < 2 \/ size Lists t < 1) -> ok (sg_flat s) t).
  { intros s [x|l] B H; cbn [ok] in *; [exact B|]. inversion B as [|o args I F]; subst. destruct args as [|x args].
    - constructor; [|constructor]. cbn [sg_flat heads]. apply filter_In. split; [exact I|reflexivity].
    - exfalso. inversion F as [|? ? Bx _]; subst. destruct H as [H|[H|H]].
      + cbn in H. pose proof (built_leaves _ _ _ Bx) as L1. rewrite app_length in H. lia.
      + cbn [size height map] in H. unfold maxl in H. cbn [fold_right] in H. lia.
      + cbn [size nlists] in H. lia. }
  fix IH 1. intros f s t E T B. destruct f as [m n|m n|p|p|sy|fs|fs|f]; try discriminate E.
  - cbn [ptest] in T. apply Nat.ltb_lt in T. apply K; [exact B|]. cbn [flat] in E. destruct m; apply Nat.leb_le in E; cbn [size] in *; lia.
  - cbn [flat ptest] in E, T. induction fs as [|f fs IHf]; [discriminate E|]. cbn [existsb forallb] in E, T. apply andb_prop in T as [T1 T2]. apply orb_prop in E as [E|E]; [exact (IH f s t E T1 B)|exact (IHf E T2)].
Qed.
Lemma gone_ok : forall f t x, ptest f t = true -> In x (gone f) -> ~ occurs x t.
Proof.
  fix IH 1. intros f t x T I. destruct f as [m n|m n|p|p|sy|fs|fs|f]; try (elim I; fail).
  - destruct p as [| |y|]; try (elim I; fail). destruct I as [<-|[]]. cbn [ptest] in T. apply negb_true_iff in T. intros O. apply contains_lit in O. congruence.
  - cbn [gone ptest] in I, T. induction fs as [|f fs IHf]; [destruct I|]. cbn [flat_map forallb] in I, T. apply andb_prop in T as [T1 T2]. apply in_app_or in I as [I|I]; [exact (IH f t x T1 I)|exact (IHf T2 I)].
Qed.
Lemma filter_ok : forall f s t, ptest f t = true -> ok s t -> ok (sg_filter f s) t.
Proof.
  intros f s t T B. unfold sg_filter. assert (B' : ok (if flat f then sg_flat s else s) t) by (destruct (flat f) eqn:E; [exact (flat_ok f s t E T B)|exact B]).
  assert (G : forall x, In x (gone f) -> ~ occurs x t) by (intros x; exact (gone_ok f t x T)). induction (gone f) as [|x l IH]; [exact B'|].
  cbn [fold_right]. apply drop_ok; [apply G; now left|]. apply IH. intros y I. apply G. now right.
Qed.

Fixpoint sig (w : workload) : option sg :=
  match w with
  | WSet l => sg_all (map sg_term l)
  | WPlug w name p => match sig w, sig p with Some s, Some q => sg_plug s name q | _, _ => None end
  | WFilter f w => match sig w with Some s => Some (sg_filter f s) | None => None end
  | WAppend ws => sg_all (map sig ws)
  end.
Theorem sig_ok : forall w s, sig w = Some s -> wproper w /\ Forall (ok s) (pforce w).
Proof.
  induction w as [l|w a p IHw IHp|f w IH|ws IH] using workload_ind'; intros s E; cbn [sig wproper pforce] in *.
  - apply all_ok in E. rewrite Forall_map in E. split; (eapply Forall_impl; [|exact E]); intros t (a & Ea & H); destruct (term_ok _ _ Ea); auto.
  - destruct (sig w) as [s1|]; [|discriminate E]. destruct (sig p) as [s2|]; [|discriminate E]. destruct (IHw _ eq_refl) as [P1 F1], (IHp _ eq_refl) as [P2 F2].
    split; [auto|]. apply Forall_forall. intros u I. apply in_flat_map in I as (t & It & Iu). rewrite Forall_forall in F1, F2.
    exact (plug_ok s1 a s2 s E (fun x => In x (pforce p)) t u F2 (F1 t It) (plug_sound _ _ _ _ Iu)).
  - destruct (sig w) as [s1|]; [|discriminate E]. injection E as <-. destruct (IH _ eq_refl) as [P1 F1]. split; [exact P1|].
    apply Forall_forall. intros t I. apply filter_In in I as [I T]. rewrite Forall_forall in F1. exact (filter_ok f s1 t T (F1 t I)).
  - apply all_ok in E. rewrite Forall_map in E. assert (X : Forall (fun w => wproper w /\ Forall (ok s) (pforce w)) ws).
    { rewrite Forall_forall in *. intros w I. destruct (E w I) as (a & Ea & H). destruct (IH w I a Ea) as [P F]. split; [exact P|]. revert F. apply Forall_impl. exact H. }
    split.
    + clear - X. induction X as [|w ws [P _] _ IHx]; cbn; auto.
    + clear - X. induction X as [|w ws [_ F] _ IHx]; cbn; [constructor|]. apply Forall_app. auto.
Qed.

(* what is computed is what is claimed *)
Definition among (s : sg) (atoms : list string) (ops : list (string * nat)) : bool :=
  forallb (fun x => mem_str x atoms) (tops s ++ inner s) &&
  forallb (fun h => existsb (fun g => String.eqb (fst g) (fst h) && Nat.eqb (snd g) (snd h)) ops) (heads s).
Definition sig_among (wl : res workload) atoms ops : bool :=
  match wl with Val w => match sig w with Some s => among s atoms ops | None => false end | Panic => false end.
Theorem sig_terms : forall wl atoms ops, sig_among wl atoms ops = true -> terms_over wl atoms ops.
Proof.
  intros wl atoms ops E. unfold sig_among in E. destruct wl as [w|]; [|discriminate E]. destruct (sig w) as [s|] eqn:Es; [|discriminate E].
  destruct (sig_ok w s Es) as [P F]. exists w, (pforce w). split; [reflexivity|]. split; [exact (proj1 (force_proper w P))|].
  unfold among in E. apply andb_prop in E as [E1 E2]. rewrite forallb_forall in E1, E2.
  assert (Ha : forall x, In x (tops s) \/ In x (inner s) -> In x atoms) by (intros x I; apply mem_str_in, E1, in_or_app; exact I).
  assert (Ho : incl (heads s) ops).
  { intros [o k] I. specialize (E2 _ I). apply existsb_exists in E2 as ([o' k'] & I' & X). apply andb_prop in X as [X1 X2]. apply String.eqb_eq in X1. apply Nat.eqb_eq in X2. cbn in *. now subst. }
  revert F. apply Forall_impl. intros [x|l] H; cbn [ok] in H; [constructor; auto|]. apply (built_more _ atoms _ ops) in H; [exact H| |exact Ho]. intros x I. auto.
Qed.
