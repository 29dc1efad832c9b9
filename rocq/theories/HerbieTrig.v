(* The rules of baseline/herbie-trig.rules. *)
From Coq Require Import Reals QArith Qcanon Qreals Lra Field.
From Verif Require Import Base Lang Rule RuleSpec Ruleset Synth PartialSpec Trig TrigSpec TrigField TrigRules Herbie HerbieSpec BaselineSpec BaselineProofs HerbieDerive.
Open Scope string_scope.
Open Scope list_scope.

(* ---- addition theorems ---- *)
Lemma sin_add z w : csin (cadd z w) = cadd (cmul (csin z) (ccos w)) (cmul (ccos z) (csin w)). Proof. euler. Qed.
Lemma cos_add z w : ccos (cadd z w) = csub (cmul (ccos z) (ccos w)) (cmul (csin z) (csin w)). Proof. euler. Qed.
Lemma sin_opp z : csin (copp z) = copp (csin z). Proof. euler. Qed.
Lemma cos_opp z : ccos (copp z) = ccos z. Proof. euler. Qed.
Lemma csub_add z w : csub z w = cadd z (copp w). Proof. ring. Qed.
Lemma pyth z : cmul (csin z) (csin z) = csub c1 (cmul (ccos z) (ccos z)). Proof. euler. Qed.
Lemma opp_zero : copp c0 = c0. Proof. ring. Qed.
Lemma sin_zero : csin c0 = c0. Proof. rewrite csin_eq, opp_zero, cis_0. field. nz. Qed.
Lemma cos_c0 : ccos c0 = c1. Proof. rewrite ccos_eq, opp_zero, cis_0. field. nz. Qed.
Lemma twice z : cmul (cadd c1 c1) z = cadd z z. Proof. ring. Qed.
Lemma halves z : exists h, z = cadd h h. Proof. exists (cdiv z (cadd c1 c1)). field. nz. Qed.
Lemma half_sum h k : cdiv (cadd (cadd h h) (cadd k k)) (cadd c1 c1) = cadd h k. Proof. field. nz. Qed.
Lemma half_diff h k : cdiv (csub (cadd h h) (cadd k k)) (cadd c1 c1) = csub h k. Proof. field. nz. Qed.
Lemma half_of h : cdiv (cadd h h) (cadd c1 c1) = h. Proof. field. nz. Qed.
Lemma half_opp h : cdiv (copp (cadd h h)) (cadd c1 c1) = copp h. Proof. field. nz. Qed.
Lemma sem_half : trig_sem (TConst "1/2") [] = Val (cdiv c1 (cadd c1 c1)).
Proof. rewrite <- cre2. Transparent cre c1 cdiv cmul cinv parse_bigratio. konst. Opaque cre c1 cdiv cmul cinv parse_bigratio. Qed.
Lemma sem_m2 : trig_sem (TConst "-2") [] = Val (copp (cadd c1 c1)).
Proof. Transparent cre c1 cadd copp parse_bigratio. konst. Opaque cre c1 cadd copp parse_bigratio. Qed.
Lemma sin_sub z w : csin (csub z w) = csub (cmul (csin z) (ccos w)) (cmul (ccos z) (csin w)).
Proof. rewrite csub_add, sin_add, sin_opp, cos_opp. ring. Qed.
Lemma cos_sub z w : ccos (csub z w) = cadd (cmul (ccos z) (ccos w)) (cmul (csin z) (csin w)).
Proof. rewrite csub_add, cos_add, sin_opp, cos_opp. ring. Qed.
Ltac byp h k := rewrite ?sin_sub, ?cos_sub, ?sin_add, ?cos_add; generalize (pyth h) (pyth k); intros Ph Pk; ring [Ph Pk].
Local Notation c2 := (cadd c1 c1).
Lemma sum_sin h k : cadd (csin (cadd h h)) (csin (cadd k k)) = cmul c2 (cmul (csin (cadd h k)) (ccos (csub h k))). Proof. byp h k. Qed.
Lemma sum_cos h k : cadd (ccos (cadd h h)) (ccos (cadd k k)) = cmul c2 (cmul (ccos (cadd h k)) (ccos (csub h k))). Proof. byp h k. Qed.
Lemma diff_sin h k : csub (csin (cadd h h)) (csin (cadd k k)) = cmul c2 (cmul (ccos (cadd h k)) (csin (csub h k))). Proof. byp h k. Qed.
Lemma dbl_sin h : csin (cadd h h) = cmul c2 (cmul (csin h) (ccos h)). Proof. byp h h. Qed.
Lemma one_cos h : cadd c1 (ccos (cadd h h)) = cmul c2 (cmul (ccos h) (ccos h)). Proof. byp h h. Qed.
Lemma one_less_cos h : csub c1 (ccos (cadd h h)) = cmul c2 (cmul (csin h) (csin h)). Proof. byp h h. Qed.
Lemma tan_sum_one a b : ccos a <> c0 -> ccos b <> c0 -> csub c1 (cmul (ctan a) (ctan b)) = cdiv (ccos (cadd a b)) (cmul (ccos a) (ccos b)).
Proof. intros A B. rewrite !ctan_eq, cos_add. field. auto. Qed.
Lemma tan_sum_two a b : ccos a <> c0 -> ccos b <> c0 -> cadd (ctan a) (ctan b) = cdiv (csin (cadd a b)) (cmul (ccos a) (ccos b)).
Proof. intros A B. rewrite !ctan_eq, sin_add. field. auto. Qed.
Lemma quot_nz z w : w <> c0 -> cdiv z w <> c0 -> z <> c0.
Proof. intros W N ->. apply N. field. exact W. Qed.
Lemma nz_opp z : z <> c0 -> copp z <> c0. Proof. intros N E. apply N. transitivity (copp (copp z)); [ring|]. rewrite E. ring. Qed.
Lemma opp_nz z : copp z <> c0 -> z <> c0. Proof. intros N ->. apply N. ring. Qed.

Opaque cadd cmul csub copp cdiv cinv ccis csin ccos ctan ci cpi c_dec c0 c1 cre parse_bigratio.
Definition right_angle : cx := cre (PI / 2).
Opaque right_angle.
Lemma cos_right : ccos right_angle = c0. Proof. Transparent right_angle. unfold right_angle. rewrite cos_real, cos_PI2. reflexivity. Opaque right_angle. Qed.
Lemma sin_right : csin right_angle = c1. Proof. Transparent right_angle. unfold right_angle. rewrite sin_real, sin_PI2. reflexivity. Opaque right_angle. Qed.
Lemma cos_straight : ccos (cadd right_angle right_angle) = copp c1. Proof. rewrite cos_add, cos_right, sin_right. ring. Qed.
Section Rules.
  Variable order : list (node trig_op) -> list (node trig_op).
  Local Notation L := (trig_lang order).
  Definition tline (P : rule trig_op -> Prop) : string -> Prop := line trig_from_op trig_name P.
  Ltac consts := repeat (match goal with |- context [match parse_bigratio ?s with Some q => Val (cre (Q2R (this q))) | None => Panic end] =>
    change (match parse_bigratio s with Some q => Val (cre (Q2R (this q))) | None => Panic end) with (trig_sem (TConst s) []) end;
    rewrite ?sem_0, ?sem_1, ?sem_2, ?sem_m1, ?sem_half, ?sem_m2; cbn).
  Ltac the_rule := eexists; split; [vm_compute; reflexivity|]; split; [vm_compute; reflexivity|].
  Ltac begin := the_rule; eexists; eexists; (split; [vm_compute; reflexivity|]); (split; [vm_compute; reflexivity|]); intros genv env v; unfold pden, fold_rec; cbn; consts;
    generalize (env "a") as a, (env "b") as b; intros a b.
  Ltac two := destruct (c_dec (cadd c1 c1)) as [X|_]; [elim (c2_nz X)|]; cbn; consts.
  Ltac expand a b := rewrite ?half_sum, ?half_diff, ?half_of, ?half_opp, ?twice; rewrite ?sin_opp, ?cos_opp, ?sin_add, ?cos_add, ?sin_sub, ?cos_sub, ?sin_zero, ?cos_c0; rewrite ?sin_add, ?cos_add; generalize (pyth a) (pyth b).
  Ltac plain := begin; repeat two; let H := fresh in intros H; injection H as <-; apply (f_equal Val).
  Ltac simple := plain; match goal with a : cx, b : cx |- _ => 
    let h := fresh in destruct (halves a) as [h ->]; let k := fresh in destruct (halves b) as [k ->]; expand h k; intros Pa Pb; try ring [Pa Pb]; try (field [Pa Pb]; nz) end.
  Ltac no E := intros E; discriminate E.
  Ltac given N := match goal with |- ?P -> _ => match P with context [c_dec ?z] => destruct (c_dec z) as [?|N]; [cbn; let E := fresh in intros E; discriminate E|cbn; consts] end end.
  Ltac goal N := match goal with |- _ -> ?P => match P with context [c_dec ?z] => destruct (c_dec z) as [?|N]; [exfalso|cbn; consts] end end.
  Ltac same := let H := fresh in intros H; injection H as <-; apply (f_equal Val).
  Lemma trig_safe : Forall (fun s => tline (safe_rule L trig_sem) s \/ In s trig_lossy) herbie_trig.
  Proof.
    unfold herbie_trig. repeat apply Forall_cons; [..|apply Forall_nil].
    all: try (left; simple; fail). all: try (right; apply listed; vm_compute; reflexivity). all: left.
    - (* a quotient of tangents as the tangent of a double *)
      begin. given Na. given Nd. pose proof Nd as N. rewrite (tan_sum_one a a Na Na) in N. apply quot_nz in N; [|nz]. goal N'; [rewrite twice in *; contradiction|]. same.
      rewrite (tan_sum_one a a Na Na), !twice, (tan_sum_two a a Na Na), ctan_eq. field. auto.
    - begin. given Na. same. reflexivity.
    - begin. given Na. same. reflexivity.
    - begin. given Na. rewrite cos_opp in Na. goal Nb; [contradiction|]. same. rewrite !ctan_eq, sin_opp, cos_opp. field. exact Na.
    - begin. given Na. same. rewrite ctan_eq, sin_zero. field. rewrite cos_c0. nz.
    - begin. destruct (halves a) as [h ->]. given Na. two. rewrite half_of. rewrite one_cos in Na. apply prod_nz in Na as [_ N]. apply prod_nz in N as [N _]. goal N'; [contradiction|]. same.
      rewrite one_cos, dbl_sin, ctan_eq. field. nz.
    - begin. destruct (halves a) as [h ->]. given Na. two. rewrite half_opp. rewrite one_cos in Na. apply prod_nz in Na as [_ N]. apply prod_nz in N as [N _]. goal N'; [rewrite cos_opp in *; contradiction|]. same.
      rewrite one_cos, dbl_sin, ctan_eq, sin_opp, cos_opp. field. nz.
    - begin. destruct (halves a) as [h ->]. given Na. two. rewrite half_of. rewrite dbl_sin in Na. apply prod_nz in Na as [_ N]. apply prod_nz in N as [Ns N]. goal N'; [contradiction|]. same.
      rewrite one_less_cos, dbl_sin, ctan_eq. field. nz.
    - begin. destruct (halves a) as [h ->]. given Na. two. rewrite half_opp. apply opp_nz in Na. rewrite dbl_sin in Na. apply prod_nz in Na as [_ N]. apply prod_nz in N as [Ns N]. goal N'; [rewrite cos_opp in *; contradiction|]. same.
      rewrite one_less_cos, dbl_sin, ctan_eq, sin_opp, cos_opp. field. split; [change (copp (cmul c2 (cmul (csin h) (ccos h))) <> c0); apply nz_opp; nz|exact N].
    - begin. destruct (halves a) as [h ->]. destruct (halves b) as [k ->]. given Na. two. rewrite half_sum. rewrite sum_cos in Na. apply prod_nz in Na as [_ N]. apply prod_nz in N as [N Nd]. goal N'; [contradiction|]. same.
      rewrite sum_cos, sum_sin, ctan_eq. field. nz.
    - begin. destruct (halves a) as [h ->]. destruct (halves b) as [k ->]. given Na. two. rewrite half_diff. rewrite sum_cos in Na. apply prod_nz in Na as [_ N]. apply prod_nz in N as [N Nd]. goal N'; [contradiction|]. same.
      rewrite sum_cos, diff_sin, ctan_eq. field. nz.
  Qed.
  (* the other rules, where both sides have values *)
  Ltac open := the_rule; eexists; eexists; (split; [vm_compute; reflexivity|]); (split; [vm_compute; reflexivity|]); intros genv env v w; cbn; consts;
    generalize (env "a") as a, (env "b") as b; intros a b.
  Ltac side N := match goal with |- ?P -> _ => match P with context [c_dec ?z] => destruct (c_dec z) as [?|N]; [cbn; let E := fresh in intros E; discriminate E|cbn; consts] end end.
  Ltac took := let H := fresh in intros H; injection H as <-; consts.
  Lemma trig_agree : Forall (tline (agrees L trig_sem)) trig_lossy.
  Proof.
    unfold trig_lossy. repeat apply Forall_cons; [..|apply Forall_nil].
    - open. side Nt. took. side Na. side Nb. side Nd. took. rewrite (tan_sum_one a b Na Nb), (tan_sum_two a b Na Nb), ctan_eq. field. auto.
    - open. side Nt. took. side Na. side Nd. took. rewrite (tan_sum_one a a Na Na), !twice, (tan_sum_two a a Na Na), ctan_eq. rewrite twice in Nt. field. auto.
    - open. destruct (halves a) as [h ->]. destruct (halves b) as [k ->]. two. rewrite half_sum. side Nt. took. side Nd. took. rewrite sum_cos in Nd. apply prod_nz in Nd as [_ Nd]. apply prod_nz in Nd as [_ Nd].
      rewrite sum_cos, sum_sin, ctan_eq. field. nz.
    - open. destruct (halves a) as [h ->]. destruct (halves b) as [k ->]. two. rewrite half_diff. side Nt. took. side Nd. took. rewrite sum_cos in Nd. apply prod_nz in Nd as [_ Nd]. apply prod_nz in Nd as [Nd _].
      rewrite sum_cos, diff_sin, ctan_eq. field. nz.
  Qed.
  Ltac lossy ea eb := the_rule; split; [vm_compute; reflexivity|]; split; [vm_compute; reflexivity|]; eexists; eexists; exists (fun _ => c0), (fun x => if String.eqb x "a" then ea else eb); eexists;
    split; [vm_compute; reflexivity|]; split; [vm_compute; reflexivity|]; unfold pden, fold_rec; cbn; consts.
  Lemma c_dec_yes {A} z (x y : A) : z = c0 -> (if c_dec z then x else y) = x.
  Proof. intros E. destruct (c_dec z); [reflexivity|contradiction]. Qed.
  Lemma c_dec_no {A} z (x y : A) : z <> c0 -> (if c_dec z then x else y) = y.
  Proof. intros E. destruct (c_dec z); [contradiction|reflexivity]. Qed.
  Lemma trig_gap : Forall (tline (gap L trig_sem)) trig_lossy.
  Proof.
    unfold trig_lossy. repeat apply Forall_cons; [..|apply Forall_nil].
    - lossy right_angle right_angle. rewrite cos_straight, cos_right. rewrite (c_dec_no (copp c1)) by nz. rewrite (c_dec_yes c0) by reflexivity. cbn. split; reflexivity.
    - lossy right_angle right_angle. rewrite twice, cos_straight, cos_right. rewrite (c_dec_no (copp c1)) by nz. rewrite (c_dec_yes c0) by reflexivity. cbn. split; reflexivity.
    - lossy right_angle (copp right_angle). rewrite (c_dec_no (cadd c1 c1)) by nz. cbn. replace (cdiv (cadd right_angle (copp right_angle)) (cadd c1 c1)) with c0 by (field; nz).
      rewrite cos_opp, cos_c0, cos_right. rewrite (c_dec_no c1) by nz. replace (cadd c0 c0) with c0 by ring. rewrite (c_dec_yes c0) by reflexivity. cbn. split; reflexivity.
    - lossy right_angle right_angle. rewrite (c_dec_no (cadd c1 c1)) by nz. cbn. replace (cdiv (csub right_angle right_angle) (cadd c1 c1)) with c0 by (field; nz).
      rewrite cos_c0, cos_right. rewrite (c_dec_no c1) by nz. replace (cadd c0 c0) with c0 by ring. rewrite (c_dec_yes c0) by reflexivity. cbn. split; reflexivity.
  Qed.
End Rules.
