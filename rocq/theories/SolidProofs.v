(* The rules of the domain of solids are equations, and equal meanings have the same
   points. *)
From Coq Require Import ZArith Reals Lra FunctionalExtensionality.
From Verif Require Import Base BaseProofs EnumSpec Lang LangProofs Syntax Rule RuleSpec Ruleset Number Analysis Egraph EgraphSpec Synth SynthSpec SynthProofs
  DomainAlg Solid SolidSpec.
From Verif Require Import RuleTextProofs TextSpec TextProofs OpsSpec OpsProofs OpsDomains SaveProofs SaveDomains LearntSpec LearntProofs ForwardSpec ForwardDomains InferProofs Domains Infer Workload.
Open Scope list_scope.

Lemma decode_code : forall o, In o [CMax; CMin; CAdd; CSub; CMul; CDiv] -> decode (code o) = o.
Proof.
  intros o H. unfold decode. cbn in H. destruct H as [<-|[<-|[<-|[<-|[<-|[<-|[]]]]]]]; cbn [code];
    repeat match goal with |- context [Req_EM_T ?a ?b] => let E := fresh in destruct (Req_EM_T a b) as [E|E]; try reflexivity; try (exfalso; lra); try (elim (E eq_refl)) end.
Qed.
Lemma with_at : forall o a b p, In o [CMax; CMin; CAdd; CSub; CMul; CDiv] -> with_op o a b p = match a p, b p with Some x, Some y => arith o x y | _, _ => None end.
Proof. intros o a b p H. unfold with_op, applyf, apply1, num_field. rewrite decode_code by exact H. reflexivity. Qed.
Lemma min_at : forall a b p, min_f a b p = match a p, b p with Some x, Some y => Some (Rmin x y) | _, _ => None end.
Proof. intros. exact (with_at CMin a b p ltac:(cbn; tauto)). Qed.
Lemma add_at : forall a b p, add_f a b p = match a p, b p with Some x, Some y => Some (x + y)%R | _, _ => None end.
Proof. intros. exact (with_at CAdd a b p ltac:(cbn; tauto)). Qed.
Lemma sub_at : forall a b p, sub_f a b p = match a p, b p with Some x, Some y => Some (x - y)%R | _, _ => None end.
Proof. intros. exact (with_at CSub a b p ltac:(cbn; tauto)). Qed.
Lemma mul_at : forall a b p, mul_f a b p = match a p, b p with Some x, Some y => Some (x * y)%R | _, _ => None end.
Proof. intros. exact (with_at CMul a b p ltac:(cbn; tauto)). Qed.
Lemma div_at : forall a b p, div_f a b p = match a p, b p with Some x, Some y => if Req_EM_T y 0 then None else Some (x / y)%R | _, _ => None end.
Proof. intros. exact (with_at CDiv a b p ltac:(cbn; tauto)). Qed.
Lemma max_at : forall a b p, with_op CMax a b p = match a p, b p with Some x, Some y => Some (Rmax x y) | _, _ => None end.
Proof. intros. exact (with_at CMax a b p ltac:(cbn; tauto)). Qed.

(* ---- the rules ---- *)
Ltac codes := unfold trans, scale, cube, cylinder, sphere, unit_cube, cone, component, vector, choose, add_f, sub_f, mul_f, div_f, min_f, one_f, half_f, with_op, applyf, apply1, scalar, num_shape, num_field, origin;
  rewrite ?(decode_code CMax), ?(decode_code CMin), ?(decode_code CAdd), ?(decode_code CSub), ?(decode_code CMul), ?(decode_code CDiv) by (cbn; tauto); cbn [arith].
Ltac cases s := repeat match goal with
  | |- context [s ?v ?a ?b ?c ?p] => destruct (s v a b c p); try reflexivity; cbn [arith]
  | |- context [if Req_EM_T ?a ?b then _ else _] => destruct (Req_EM_T a b) as [?E|?E]; try reflexivity
  end.
Ltac given := eexists; eexists; split; [reflexivity|]; split; [reflexivity|]; intros env s; cbn [paval map nop cf_sem a_sem set_vars cf_lang l_to_var cf_to_var cf_alg]; try reflexivity;
  extensionality x; extensionality y; extensionality z; extensionality p.
Ltac finish :=
  try (exfalso; lra);
  try match goal with E : (?a * ?b = 0)%R |- _ => exfalso; apply Rmult_integral in E as [E|E]; contradiction end;
  try match goal with E : (?a * ?b <> 0)%R |- _ => exfalso; apply E; (replace a with 0%R by congruence) || (replace b with 0%R by congruence); ring end;
  try (apply (f_equal Some)); try solve [field; auto].
Lemma prior_equations : exists m, cf_prior = Val m /\ Forall (fun e => equation (snd e)) m.
Proof.
  eexists. split; [vm_compute; reflexivity|]. repeat apply Forall_cons; [..|apply Forall_nil]; given; codes; cases s.
  all: finish.
Qed.
Lemma exploratory_equations : exists m, cf_exploratory = Val m /\ Forall (fun e => equation (snd e)) m.
Proof.
  eexists. split; [vm_compute; reflexivity|]. repeat apply Forall_cons; [..|apply Forall_nil]; given.
  all: codes; cases s. all: destruct (x p), (y p), (z p); try reflexivity.
  all: cases s; finish.
  all: try match goal with H : code _ = _ |- _ => cbn [code] in H; exfalso; lra | H : code _ <> _ |- _ => elim (H eq_refl) end.
  replace (r + (r - r) * (r3 / r0 + 1 / 2))%R with r by ring. f_equal. f_equal; lra.
Qed.

(* ---- the rules that the test expects ---- *)
Lemma component_0 : forall a b c, component 0 (vector a b c) = a origin origin origin.
Proof. reflexivity. Qed.
Lemma component_1 : forall a b c, component 1 (vector a b c) = b origin origin origin.
Proof. reflexivity. Qed.
Lemma component_2 : forall a b c, component 2 (vector a b c) = c origin origin origin.
Proof. reflexivity. Qed.
Ltac fields := intros; extensionality p; rewrite ?sub_at, ?div_at, ?mul_at, ?add_at; rewrite ?sub_at, ?div_at, ?mul_at, ?add_at; unfold num_field;
  repeat match goal with |- context [match ?a ?p with Some _ => _ | None => _ end] => destruct (a p); try reflexivity end;
  repeat match goal with |- context [if Req_EM_T ?a ?b then _ else _] => let E := fresh in destruct (Req_EM_T a b) as [E|E]; try reflexivity end; finish.
Lemma sub_zero : forall f, sub_f f (num_field 0) = f.
Proof. fields. Qed.
Lemma div_one : forall f, div_f f (num_field 1) = f.
Proof. fields. Qed.
Lemma div_div : forall a b c, div_f (div_f a b) c = div_f a (mul_f b c).
Proof. fields. Qed.
Lemma sub_sub : forall a b c, sub_f (sub_f a b) c = sub_f a (add_f b c).
Proof. fields. Qed.
Lemma div_sub : forall a b c, sub_f (div_f a b) c = div_f (sub_f a (mul_f c b)) b.
Proof. fields. Qed.
Lemma sub_div : forall a b c, div_f (sub_f a b) c = sub_f (div_f a c) (div_f b c).
Proof. fields. Qed.
Ltac folds := unfold trans, scale; cbv beta; rewrite ?component_0, ?component_1, ?component_2; cbv beta;
  repeat match goal with
  | |- context [applyf (num_shape (code CMul) origin origin origin) ?a ?b] => change (applyf (num_shape (code CMul) origin origin origin) a b) with (mul_f a b)
  | |- context [applyf (num_shape (code CDiv) origin origin origin) ?a ?b] => change (applyf (num_shape (code CDiv) origin origin origin) a b) with (div_f a b)
  | |- context [applyf (num_shape (code CAdd) origin origin origin) ?a ?b] => change (applyf (num_shape (code CAdd) origin origin origin) a b) with (add_f a b)
  | |- context [scalar (num_shape ?n) ?a ?b ?c] => change (scalar (num_shape n) a b c) with (num_field n)
  end.
Lemma choose_true : forall f g, choose (num_field 1) f g = f.
Proof. intros f g. extensionality p. unfold choose, num_field. destruct (Req_EM_T 1 1) as [_|E]; [reflexivity|elim (E eq_refl)]. Qed.
Lemma cylinder_scaled : forall (b : shape) x y z, let one := scalar (num_shape 1) in let r := b origin origin origin in
  cylinder (vector one one one) (num_shape (code CTrue)) (div_f x r) (div_f y r) (div_f z r) = cylinder (vector b b b) (num_shape (code CTrue)) x y z.
Proof.
  intros b x y z one r. unfold cylinder. change (component 0 (vector one one one)) with (num_field 1). change (component 1 (vector one one one)) with (num_field 1).
  change (component 2 (vector one one one)) with (num_field 1). rewrite component_0, component_1, component_2. fold r. rewrite div_one. extensionality p.
  unfold num_shape. cbn [code]. rewrite !choose_true. unfold cone, one_f, half_f.
  repeat first [rewrite min_at|rewrite add_at|rewrite sub_at|rewrite mul_at|rewrite div_at]. unfold num_field.
  destruct (x p) as [x'|], (y p) as [y'|], (z p) as [z'|], (r p) as [r'|]; try reflexivity.
  all: repeat match goal with |- context [if Req_EM_T ?a ?b then _ else _] => let E := fresh in destruct (Req_EM_T a b) as [E|E]; try reflexivity end; finish.
  replace (1 + (1 - 1) * (z' / r' + 1 / 2))%R with 1%R by ring. replace (r' + (r' - r') * (z' / r' + 1 / 2))%R with r' by ring.
  replace (x' / r' / 1)%R with (x' / r')%R by (field; assumption). replace (y' / r' / 1)%R with (y' / r')%R by (field; assumption). reflexivity.
Qed.
Lemma expected_equations : exists m, cf_expected = Val m /\ Forall (fun e => equation (snd e)) m.
Proof.
  eexists. split; [vm_compute; reflexivity|]. repeat apply Forall_cons; [..|apply Forall_nil].
  all: eexists; eexists; split; [reflexivity|]; split; [reflexivity|]; intros env s; cbn [paval map nop cf_sem a_sem set_vars cf_lang l_to_var cf_to_var cf_alg]; extensionality x; extensionality y; extensionality z.
  all: folds.
  all: try (rewrite ?sub_zero, ?div_one; reflexivity).
  all: try (rewrite ?div_div, ?sub_sub; reflexivity).
  all: try (rewrite !div_sub; reflexivity).
  all: try (rewrite !sub_div; reflexivity).
  1: exact (cylinder_scaled (s "b"%string) x y z). 1: symmetry; exact (cylinder_scaled (s "b"%string) x y z).
  all: unfold cube; folds; rewrite ?div_one, ?div_div; reflexivity.
Qed.

(* ---- the points of a solid ---- *)
Section Points.
  Variables (num : string -> R) (sol : string -> R -> R -> R -> R) (is_num : string -> bool).
  Local Notation env := (stands num sol is_num).
  Local Notation number := (number num is_num).
  Local Notation proper := (proper num is_num).
  Local Notation inside := (inside num sol is_num).

  Lemma number_meaning : forall t x, number t = Some x -> meaning env t = num_shape x.
  Proof.
    induction t as [o ts IH] using term_ind'. intros x H. unfold meaning. cbn [aval]. destruct o; try discriminate H.
    - destruct ts as [|[o []] [|a [|b []]]]; try discriminate H. cbn [SolidSpec.number] in H.
      destruct (number a) as [xa|] eqn:Ea; [|discriminate H]. destruct (number b) as [xb|] eqn:Eb; [|discriminate H].
      inversion IH as [|? ? _ IH1]; subst. inversion IH1 as [|? ? Ia IH2]; subst. inversion IH2 as [|? ? Ib _]; subst.
      cbn [map]. fold (meaning env a) (meaning env b). rewrite (Ia _ Ea), (Ib _ Eb).
      assert (J : In o [CMax; CMin; CAdd; CSub; CMul; CDiv]). { destruct o; try discriminate H; cbn; tauto. }
      assert (Eo : aval (a_sem (set_vars cf_lang cf_alg env)) (T o []) = num_shape (code o)). { destruct o; try discriminate H; reflexivity. }
      rewrite Eo. cbn [a_sem set_vars cf_lang l_to_var cf_to_var cf_alg cf_sem]. extensionality u. extensionality v. extensionality w. extensionality p.
      unfold applyf, apply1, num_shape, num_field. rewrite decode_code by exact J. exact H.
    - destruct ts as [|[[] []] []]; try discriminate H. injection H as <-. reflexivity.
    - destruct ts; [|discriminate H]. cbn [SolidSpec.number] in H. unfold stands in *. cbn. destruct (is_num s); [|discriminate H]. now injection H as <-.
  Qed.
  Lemma sub_num : forall a b, sub_f (num_field a) (num_field b) = num_field (a - b).
  Proof. intros a b. extensionality p. rewrite sub_at. reflexivity. Qed.
  Lemma div_num : forall a b, b <> 0%R -> div_f (num_field a) (num_field b) = num_field (a / b).
  Proof. intros a b H. extensionality p. rewrite div_at. unfold num_field. destruct (Req_EM_T b 0); [contradiction|reflexivity]. Qed.
  Lemma mul_num : forall a b, mul_f (num_field a) (num_field b) = num_field (a * b).
  Proof. intros a b. extensionality p. rewrite mul_at. reflexivity. Qed.
  Lemma add_num : forall a b, add_f (num_field a) (num_field b) = num_field (a + b).
  Proof. intros a b. extensionality p. rewrite add_at. reflexivity. Qed.
  Lemma min_num : forall a b, min_f (num_field a) (num_field b) = num_field (Rmin a b).
  Proof. intros a b. extensionality p. rewrite min_at. reflexivity. Qed.
  Lemma max_num : forall a b, with_op CMax (num_field a) (num_field b) = num_field (Rmax a b).
  Proof. intros a b. extensionality p. rewrite max_at. reflexivity. Qed.
  Lemma choose_false : forall f g, choose (num_field 0) f g = g.
  Proof. intros f g. extensionality p. unfold choose, num_field. destruct (Req_EM_T 0 1) as [E|_]; [lra|reflexivity]. Qed.

  Definition holds_points (t : term cf_op) : Prop :=
    proper t -> forall x y z, exists v, meaning env t (num_field x) (num_field y) (num_field z) = num_field v /\ ((0 <= v)%R <-> inside t x y z).
  Lemma min_sign : forall a b, (0 <= Rmin a b <-> 0 <= a /\ 0 <= b)%R.
  Proof. intros a b. unfold Rmin. destruct (Rle_dec a b); lra. Qed.
  Lemma max_sign : forall a b, (0 <= Rmax a b <-> 0 <= a \/ 0 <= b)%R.
  Proof. intros a b. unfold Rmax. destruct (Rle_dec a b); lra. Qed.
  Lemma div_sign : forall w u, (0 < u)%R -> (0 <= w / u <-> 0 <= w)%R.
  Proof.
    intros w u H. split; intros J.
    - replace w with (w / u * u)%R by (field; lra). apply Rmult_le_pos; lra.
    - apply Rmult_le_pos; [exact J|]. left. now apply Rinv_0_lt_compat.
  Qed.
  (* the value of a cube, a cylinder and a sphere at a point *)
  Lemma unit_num : forall x y z, unit_cube (num_field x) (num_field y) (num_field z) = num_field (Rmin (Rmin (Rmin x y) z) (Rmin (Rmin (1 - x) (1 - y)) (1 - z))).
  Proof. intros x y z. unfold unit_cube, one_f. now rewrite ?sub_num, ?min_num. Qed.
  Lemma cone_num : forall r x y s, (0 < r)%R -> cone (num_field r) (num_field r) (num_field x) (num_field y) (num_field s) = num_field (Rmin (1 - x / r * (x / r) - y / r * (y / r)) (Rmin (1 - s) s)).
  Proof.
    intros r x y s H. unfold cone, one_f. rewrite sub_num, mul_num, add_num. replace (r + (r - r) * s)%R with r by ring.
    rewrite !div_num by lra. now rewrite ?mul_num, ?sub_num, ?min_num.
  Qed.
  Lemma vec_num : forall a b c x y z, number a = Some x -> number b = Some y -> number c = Some z ->
    let v := meaning env (T CVec3 [a; b; c]) in component 0 v = num_field x /\ component 1 v = num_field y /\ component 2 v = num_field z.
  Proof.
    intros a b c x y z Ha Hb Hc v. assert (E : v = vector (meaning env a) (meaning env b) (meaning env c)) by reflexivity. rewrite E.
    rewrite (number_meaning _ _ Ha), (number_meaning _ _ Hb), (number_meaning _ _ Hc). split; [|split]; reflexivity.
  Qed.
  Lemma meaning_inside : forall t, holds_points t.
  Proof.
    induction t as [o ts IH] using term_ind'. intros P x y z. destruct o; cbn [SolidSpec.proper] in P; try (exfalso; exact P).
    all: repeat match type of P with match ?l with _ => _ end => destruct l; try (exfalso; exact P) end.
    - destruct P as ((u & v & w & Eu & Ev & Ew & Pu & Pv & Pw) & F). destruct (vec_num _ _ _ _ _ _ Eu Ev Ew) as (C0 & C1 & C2). rename t into a, t0 into b, t1 into c.
      assert (E : meaning env (T CCube [T CVec3 [a; b; c]; T o []]) = cube (meaning env (T CVec3 [a; b; c])) (num_shape (code o))) by (destruct F as [-> | ->]; reflexivity).
      rewrite E. unfold cube. rewrite C0, C1, C2, !div_num by lra. unfold half_f. rewrite !add_num, !unit_num. unfold num_shape. cbn [SolidSpec.inside]. rewrite Eu, Ev, Ew. cbn [the].
      assert (Q : forall p d k, (0 < d)%R -> (0 <= p / d + k <-> 0 <= p + k * d)%R).
      { intros p d k D. replace (p / d + k)%R with ((p + k * d) / d)%R by (field; lra). apply div_sign. exact D. }
      assert (Q' : forall p d k, (0 < d)%R -> (0 <= 1 - (p / d + k) <-> p + k * d <= d)%R).
      { intros p d k D. replace (1 - (p / d + k))%R with ((d - (p + k * d)) / d)%R by (field; lra). rewrite div_sign by exact D. lra. }
      destruct F as [-> | ->]; cbn [code]; [rewrite choose_true|rewrite choose_false]; (eexists; split; [reflexivity|]); rewrite !min_sign.
      + rewrite !Q, !Q' by lra. lra.
      + replace (x / u)%R with (x / u + 0)%R by lra. replace (y / v)%R with (y / v + 0)%R by lra. replace (z / w)%R with (z / w + 0)%R by lra. rewrite !Q, !Q' by lra. lra.
    - destruct P as ((u & v & Eu & Ev & Ew & Pu & Pv) & F). destruct (vec_num _ _ _ _ _ _ Eu Ev Ew) as (C0 & C1 & C2). rename t into h, t0 into r, t1 into r'.
      assert (E : meaning env (T CCylinder [T CVec3 [h; r; r']; t2; T o []]) = cylinder (meaning env (T CVec3 [h; r; r'])) (num_shape (code o))) by (destruct F as [-> | ->]; reflexivity).
      rewrite E. unfold cylinder. rewrite C0, C1, C2, !div_num by lra. unfold half_f. rewrite !add_num, !cone_num by lra. unfold num_shape. cbn [SolidSpec.inside]. rewrite Eu, Ev. cbn [the].
      assert (Q : (0 <= 1 - x / v * (x / v) - y / v * (y / v) <-> x * x + y * y <= v * v)%R).
      { replace (1 - x / v * (x / v) - y / v * (y / v))%R with ((v * v - (x * x + y * y)) / (v * v))%R by (field; lra). rewrite div_sign by (apply Rmult_lt_0_compat; lra). lra. }
      assert (Qz : forall k, (0 <= z / u + k <-> 0 <= z + k * u)%R).
      { intros k. replace (z / u + k)%R with ((z + k * u) / u)%R by (field; lra). apply div_sign. exact Pu. }
      assert (Qz' : forall k, (0 <= 1 - (z / u + k) <-> z + k * u <= u)%R).
      { intros k. replace (1 - (z / u + k))%R with ((u - (z + k * u)) / u)%R by (field; lra). rewrite div_sign by exact Pu. lra. }
      destruct F as [-> | ->]; cbn [code]; [rewrite choose_true|rewrite choose_false]; (eexists; split; [reflexivity|]); rewrite !min_sign, Q.
      + rewrite Qz, Qz'. lra.
      + replace (z / u)%R with (z / u + 0)%R by lra. rewrite Qz, Qz'. lra.
    - destruct P as (u & Eu & Pu). change (meaning env (T CSphere [t; t0])) with (sphere (meaning env t)). rewrite (number_meaning _ _ Eu). unfold sphere, num_shape, one_f. rewrite !div_num by lra. rewrite ?mul_num, ?sub_num.
      eexists. split; [reflexivity|]. cbn [SolidSpec.inside]. rewrite Eu. cbn [the].
      replace (1 - x / u * (x / u) - y / u * (y / u) - z / u * (z / u))%R with ((u * u - (x * x + y * y + z * z)) / (u * u))%R by (field; lra).
      rewrite div_sign by (apply Rmult_lt_0_compat; lra). lra.
    - destruct P as ((u & v & w & Eu & Ev & Ew) & Pe). destruct (vec_num _ _ _ _ _ _ Eu Ev Ew) as (C0 & C1 & C2).
      inversion IH as [|? ? _ IH1]; subst. inversion IH1 as [|? ? It _]; subst.
      change (meaning env (T CTrans [T CVec3 [t; t0; t1]; t2])) with (trans (meaning env (T CVec3 [t; t0; t1])) (meaning env t2)).
      unfold trans. rewrite C0, C1, C2, !sub_num. cbn [SolidSpec.inside]. rewrite Eu, Ev, Ew. exact (It Pe _ _ _).
    - destruct P as ((u & v & w & Eu & Ev & Ew & Nu & Nv & Nw) & Pe). destruct (vec_num _ _ _ _ _ _ Eu Ev Ew) as (C0 & C1 & C2).
      inversion IH as [|? ? _ IH1]; subst. inversion IH1 as [|? ? It _]; subst.
      change (meaning env (T CScale [T CVec3 [t; t0; t1]; t2])) with (scale (meaning env (T CVec3 [t; t0; t1])) (meaning env t2)).
      unfold scale. rewrite C0, C1, C2, !div_num by assumption. cbn [SolidSpec.inside]. rewrite Eu, Ev, Ew. exact (It Pe _ _ _).
    - destruct P as [P1 P2]. inversion IH as [|? ? I1 IH1]; subst. inversion IH1 as [|? ? I2 _]; subst. destruct (I1 P1 x y z) as (v1 & E1 & V1). destruct (I2 P2 x y z) as (v2 & E2 & V2).
      exists (Rmax v1 v2). split; [|rewrite max_sign, V1, V2; reflexivity].
      change (with_op CMax (meaning env t (num_field x) (num_field y) (num_field z)) (meaning env t0 (num_field x) (num_field y) (num_field z)) = num_field (Rmax v1 v2)). rewrite E1, E2. apply max_num.
    - destruct P as [P1 P2]. inversion IH as [|? ? I1 IH1]; subst. inversion IH1 as [|? ? I2 _]; subst. destruct (I1 P1 x y z) as (v1 & E1 & V1). destruct (I2 P2 x y z) as (v2 & E2 & V2).
      exists (Rmin v1 v2). split; [|rewrite min_sign, V1, V2; reflexivity].
      change (min_f (meaning env t (num_field x) (num_field y) (num_field z)) (meaning env t0 (num_field x) (num_field y) (num_field z)) = num_field (Rmin v1 v2)). rewrite E1, E2. apply min_num.
    - exists (-1)%R. split; [reflexivity|]. cbn [SolidSpec.inside]. lra.
    - exists (sol s x y z). split; [|reflexivity]. unfold meaning, stands. cbn. rewrite P. extensionality p. reflexivity.
  Qed.
End Points.
Theorem equal_points : forall t u, (forall env, meaning env t = meaning env u) -> same_points t u.
Proof.
  intros t u E num sol is_num Pt Pu x y z. destruct (meaning_inside num sol is_num t Pt x y z) as (v & Ev & Hv). destruct (meaning_inside num sol is_num u Pu x y z) as (w & Ew & Hw).
  rewrite E, Ew in Ev. pose proof (f_equal (fun f => f []) Ev) as X. injection X as ->. now rewrite <- Hv, <- Hw.
Qed.

(* ---- the language ---- *)
Lemma cf_eqb_eq : forall a b, cf_eqb a b = true <-> a = b.
Proof.
  intros a b. destruct a, b; cbn; split; intros H; try discriminate H; try reflexivity.
  - apply Z.eqb_eq in H. now subst.
  - injection H as ->. apply Z.eqb_refl.
  - apply String.eqb_eq in H. now subst.
  - injection H as ->. apply String.eqb_refl.
Qed.
Lemma cf_from_op_arity : forall s k o, cf_from_op s k = Some o -> cf_arity o = k.
Proof.
  intros s k o E. unfold cf_from_op in E.
  repeat match type of E with
  | (if ?b && Nat.eqb ?k ?n then _ else _) = _ => let X := fresh in destruct (b && Nat.eqb k n) eqn:X; [apply andb_true_iff in X as [_ X]; apply Nat.eqb_eq in X; injection E as <-; rewrite X; reflexivity|]
  end.
  destruct (if Nat.eqb k 0 then parse_i64 s else None) as [z|] eqn:Ez.
  { destruct (Nat.eqb k 0) eqn:X; [|discriminate Ez]. apply Nat.eqb_eq in X as ->. injection E as <-. reflexivity. }
  repeat match type of E with
  | (if ?b && Nat.eqb ?k ?n then _ else _) = _ => let X := fresh in destruct (b && Nat.eqb k n) eqn:X; [apply andb_true_iff in X as [_ X]; apply Nat.eqb_eq in X; injection E as <-; rewrite X; reflexivity|]
  end.
  destruct (Nat.eqb k 0) eqn:X; [|discriminate E]. apply Nat.eqb_eq in X as ->. injection E as <-. reflexivity.
Qed.
Definition cf_plain (o : cf_op) : Prop := match o with CVar _ => False | CLiteral z => TextSpec.fits z | _ => True end.
Lemma cf_reads : forall o, cf_plain o -> RuleSpec.eov_ok cf_from_op cf_name cf_arity (EN o).
Proof.
  intros o H. unfold RuleSpec.eov_ok. destruct o; cbn [cf_name cf_arity]; try op_text; [|destruct H].
  from (show_i64_text z). cbn in H. pose proof (parse_i64_show z H) as P. unfold cf_from_op.
  repeat match goal with |- context [String.eqb (show_i64 z) ?t] => let E := fresh in destruct (String.eqb_spec (show_i64 z) t) as [E|_]; [exfalso; rewrite E in P; vm_compute in P; discriminate P|] end.
  cbn [andb Nat.eqb]. now rewrite P.
Qed.
Lemma cf_admits : forall A, admits cf_lang (over cf_lang cf_arity A) (fun _ => False).
Proof.
  intros A. constructor.
  - intros o is i _ _ H. cbn in H. injection H as <-. apply ends_full.
  - intros c [].
  - intros o k s _ _. split; [reflexivity|]. left. discriminate.
  - intros g i ts _ E. cbn in E. injection E as <-. constructor.
  - intros vars n vs _ E v c ts J. cbn in E. injection E as <- <-. destruct J.
Qed.
Lemma cf_readable : exists K, readable cf_lang cf_arity cf_plain K.
Proof.
  eexists. refine (Build_readable _ _ _ _ cf_plain _ _ _ _ (cf_admits cf_plain) _ _ _).
  - exact cf_eqb_eq.
  - reflexivity.
  - leafs.
  - exact cf_from_op_arity.
  - intros s k o E. cbn in *. unfold cf_from_op in E.
    repeat match type of E with (if ?b && ?c then _ else _) = _ => destruct (b && c); [injection E as <-; right; exact I|] end.
    destruct (if Nat.eqb k 0 then parse_i64 s else None) as [z|] eqn:Ez.
    + injection E as <-. right. destruct (Nat.eqb k 0); [|discriminate Ez]. exact (parse_i64_fits s z Ez).
    + repeat match type of E with (if ?b && ?c then _ else _) = _ => destruct (b && c); [injection E as <-; right; exact I|] end.
      destruct (Nat.eqb k 0); [|discriminate E]. injection E as <-. left. discriminate.
  - apply plain_ok. exact cf_reads.
Qed.
Lemma cf_interprets : forall env, interprets cf_lang (set_vars cf_lang cf_alg env).
Proof.
  intros env. apply quiet_interprets; [|reflexivity| |cbn; auto|reflexivity].
  - intros o is i H. now inversion H.
  - intros vars n vs v c ts H J. inversion H; subst. destruct J.
Qed.
Lemma equation_holds : forall q env, equation q -> holds cf_lang (set_vars cf_lang cf_alg env) q.
Proof. intros q env (tl & tr & E1 & E2 & H). exists tl, tr. split; [exact E1|]. split; [exact E2|]. intros s _ _. apply H. Qed.
Lemma given_equation : forall q, given_rule q -> equation q.
Proof.
  intros q (m & k & [E|E] & J).
  - destruct prior_equations as (m' & E' & F). rewrite E in E'. injection E' as <-. rewrite Forall_forall in F. exact (F _ J).
  - destruct exploratory_equations as (m' & E' & F). rewrite E in E'. injection E' as <-. rewrite Forall_forall in F. exact (F _ J).
Qed.

(* ---- rules that are learned ---- *)
Lemma set_twice : forall env env', set_vars cf_lang (set_vars cf_lang cf_alg env) env' = set_vars cf_lang cf_alg env'.
Proof. intros env env'. unfold set_vars. cbn [a_sem a_dom a_says]. f_equal. extensionality o. extensionality vs. now destruct (l_to_var cf_lang o). Qed.
Lemma consequence_equation : forall (given : rule cf_op -> Prop) r, (forall q, given q -> equation q) -> consequence cf_lang given r -> equation r.
Proof.
  intros given r H Cn. assert (X : forall env, exists tl tr, tree (rlhs r) = Val tl /\ tree (rrhs r) = Val tr /\ forall s, paval (a_sem (set_vars cf_lang cf_alg env)) s tl = paval (a_sem (set_vars cf_lang cf_alg env)) s tr).
  { intros env. destruct (Cn shape (set_vars cf_lang cf_alg env) (fun _ => True)) as (tl & tr & E1 & E2 & E); [auto| |eauto 7].
    intros env' _. rewrite set_twice. split; [apply cf_interprets|]. intros q Hq. apply equation_holds. exact (H q Hq). }
  destruct (X (fun _ => num_shape 0)) as (tl & tr & E1 & E2 & _). exists tl, tr. split; [exact E1|]. split; [exact E2|]. intros env. destruct (X env) as (tl' & tr' & E1' & E2' & E). congruence.
Qed.
Lemma layer_equation : forall keep fuel ex w prior new, cf_exploratory = Val ex -> NoDup (map fst prior) -> read_rules cf_lang prior ->
  (forall k q, In (k, q) prior -> equation q) -> run_fast_forwarding cf_lang keep fuel ex w prior new ->
  NoDup (map fst new) /\ read_rules cf_lang new /\ reloads cf_lang new /\
  forall k r, In (k, r) new -> equation r /\ allowed_side cf_lang (rlhs r) /\ allowed_side cf_lang (rrhs r).
Proof.
  intros keep fuel ex w prior new Ex N Hp Ht R. pose proof (rules_read _ _ cf_lang _ _ Ex) as He.
  destruct (readable_ready _ _ _ _ _ cf_readable new (Lt_forwarding _ _ keep fuel ex w prior new N Hp He R)) as (Nn & Rn & Ln).
  split; [exact Nn|]. split; [exact Rn|]. split; [exact Ln|]. intros k r J.
  destruct (readable_lifts _ _ _ _ _ cf_readable keep fuel ex w prior new N Hp He R k r J) as (Cn & Al & Ar). split; [|split; assumption].
  refine (consequence_equation _ r _ Cn). intros q [(n & Jq)|(n & Jq)]; [exact (Ht n q Jq)|]. apply given_equation. exists ex, n. split; [right; exact Ex|exact Jq].
Qed.
Lemma layers_equations : forall keep fuel ex ws all learned all' learned', layers keep fuel ex ws all learned all' learned' ->
  cf_exploratory = Val ex -> NoDup (map fst all) -> read_rules cf_lang all -> (forall k q, In (k, q) all -> equation q) ->
  NoDup (map fst learned) -> (forall k r, In (k, r) learned -> equation r /\ allowed_side cf_lang (rlhs r) /\ allowed_side cf_lang (rrhs r)) ->
  (forall k q, In (k, q) all' -> equation q) /\ NoDup (map fst all') /\ read_rules cf_lang all' /\ NoDup (map fst learned') /\
  forall k r, In (k, r) learned' -> equation r /\ allowed_side cf_lang (rlhs r) /\ allowed_side cf_lang (rrhs r).
Proof.
  intros keep fuel ex ws all learned all' learned' H. induction H as [all learned|w ws all learned chosen all' learned' R _ IH]; intros Ex Na Ra Ha Nl Hl.
  - split; [exact Ha|]. split; [exact Na|]. split; [exact Ra|]. split; [exact Nl|exact Hl].
  - destruct (layer_equation keep fuel ex w all chosen Ex Na Ra Ha R) as (Nc & Rc & _ & Hc). apply IH; [exact Ex|now apply extend_nodup'| | |now apply extend_nodup'|].
    + unfold read_rules in *. rewrite Forall_forall in *. intros e J. apply extend_in' in J as [J|J]; auto.
    + intros k q J. apply extend_in' in J as [J|J]; [exact (Ha k q J)|exact (proj1 (Hc k q J))].
    + intros k q J. apply extend_in' in J as [J|J]; [exact (Hl k q J)|exact (Hc k q J)].
Qed.
(* ---- rules at terms ---- *)
Lemma psubst_val : forall (sem : cf_op -> list shape -> shape) sigma t, aval sem (psubst sigma t) = paval sem (fun v => aval sem (sigma v)) t.
Proof.
  intros sem sigma. induction t as [o ts IH] using term_ind'. destruct o as [o|v]; cbn; [|reflexivity]. f_equal. rewrite map_map. apply map_ext_in.
  rewrite Forall_forall in IH. exact IH.
Qed.
Lemma equation_at : forall r, equation r -> preserves r.
Proof.
  intros r (tl & tr & E1 & E2 & H). exists tl, tr. split; [exact E1|]. split; [exact E2|]. intros sigma. apply equal_points. intros env. unfold meaning. rewrite !psubst_val. apply H.
Qed.
