(* The workloads of the test about solids list exactly the solids of SolidTestSpec.v. *)
From Verif Require Import EnumSpec Filter.
From Verif Require Import Base BaseProofs Sexp SexpProofs Pattern PatternProofs Reader ReaderProofs Workload WorkloadProofs Recipe RecipeProofs GrammarProofs Recipes RecipesSpec SolidTest SolidTestSpec.
Open Scope string_scope.
Open Scope list_scope.

(* ---- before anything is plugged in ---- *)
Definition grammar : list sexp :=
  [Lst [Atom "TRANSFORMATION"; Atom "V3"; Atom "SOLID"]; Lst [Atom "Cube"; Atom "V3"; Atom "false"]; Lst [Atom "Cylinder"; Atom "V3"; Atom "params"; Atom "true"];
   Lst [Atom "Sphere"; Atom "SCALAR"; Atom "params"]; Atom "s"].
Fixpoint skel (n : nat) : list sexp :=
  match n with
  | 0 => []
  | S 0 => [Atom "s"]
  | S n => Atom "s" :: [Lst [Atom "Cube"; Atom "V3"; Atom "false"]; Lst [Atom "Cylinder"; Atom "V3"; Atom "params"; Atom "true"]; Lst [Atom "Sphere"; Atom "SCALAR"; Atom "params"]] ++
           map (fun x => Lst [Atom "TRANSFORMATION"; Atom "V3"; x]) (skel n)
  end.
Lemma grammar_proper : Forall (fun t => proper t = true) grammar.
Proof. repeat constructor. Qed.
Lemma grammar_productive : Forall (productive Depth "SOLID") grammar.
Proof. repeat constructor; intros; discriminate. Qed.
Lemma high : forall t, 1 <= height t.
Proof. intros [s|l]; cbn; lia. Qed.
Lemma height_trans : forall a b x, height (Lst [Atom a; Atom b; x]) = S (height x).
Proof. intros a b x. pose proof (high x). cbn. destruct (height x); [lia|]; cbn; try lia. Qed.
Lemma skel_s : forall n, 1 <= n -> In (Atom "s") (skel n).
Proof. intros [|[|n]] H; [lia|now left|now left]. Qed.
Lemma fill_other : forall P a s u, s <> a -> fill P a (Atom s) u -> u = Atom s.
Proof. intros P a s u N H. inversion H; subst; [congruence|reflexivity]. Qed.
Lemma skel_in : forall n t, In t (skel (S n)) <-> gen grammar "SOLID" t /\ height t <= S n.
Proof.
  intros n. induction n as [|n IH]; intros t; split.
  - intros [<-|[]]. split; [|cbn; lia]. apply (gen_fill _ _ (Atom "s")); [cbn; tauto|constructor; discriminate].
  - intros [G H]. apply gen_inv in G as (p & Ip & F). cbn in Ip.
    destruct Ip as [<-|[<-|[<-|[<-|[<-|[]]]]]]; [| | | |apply fill_other in F; [subst; now left|discriminate]]; exfalso; inversion F as [| |? l' F2]; subst; inversion F2; subst; cbn in H; match type of H with S (Nat.max (height ?x) _) <= 1 => pose proof (high x); lia end.
  - intros I. cbn [skel] in I. destruct I as [<-|I]; [split; [|cbn; lia]; apply (gen_fill _ _ (Atom "s")); [cbn; tauto|constructor; discriminate]|].
    apply in_app_or in I as [I|I].
    + assert (X : In t grammar /\ height t = 2 /\ fill (gen grammar "SOLID") "SOLID" t t).
      { cbn in I. destruct I as [<-|[<-|[<-|[]]]]; (split; [cbn; tauto|]; split; [reflexivity|]); repeat constructor; discriminate. }
      destruct X as (X1 & X2 & X3). split; [exact (gen_fill _ _ t t X1 X3)|lia].
    + apply in_map_iff in I as (x & <- & I). apply IH in I as [Gx Hx]. split; [|rewrite height_trans; lia].
      apply (gen_fill _ _ (Lst [Atom "TRANSFORMATION"; Atom "V3"; Atom "SOLID"])); [now left|]. constructor.
      constructor; [constructor; discriminate|]. constructor; [constructor; discriminate|]. constructor; [now constructor|constructor].
  - intros [G H]. apply gen_inv in G as (p & Ip & F). cbn [skel].
    assert (Fix : forall l u, Forall (fun x => exists s, x = Atom s /\ s <> "SOLID") l -> fill (gen grammar "SOLID") "SOLID" (Lst l) u -> u = Lst l).
    { intros l u Fl Fu. inversion Fu as [| |? l' F2]; subst. f_equal. clear Fu. revert l' F2. induction Fl as [|x l (s & -> & N) _ IHl]; intros l' F2; inversion F2 as [|? y ? ys Fx Fs]; subst; [reflexivity|].
      apply fill_other in Fx; [|exact N]. subst. f_equal. now apply IHl. }
    cbn in Ip. destruct Ip as [<-|Ip].
    + inversion F as [| |? l' F2]; subst. inversion F2 as [|? y1 ? l1 F3 F4]; subst. inversion F4 as [|? y2 ? l2 F5 F6]; subst. inversion F6 as [|? y3 ? l3 F7 F8]; subst. inversion F8; subst.
      apply fill_other in F3; [|discriminate]. apply fill_other in F5; [|discriminate]. subst. inversion F7 as [? Gy|? N|]; subst; [|congruence].
      right. apply in_or_app. right. apply in_map_iff. exists y3. split; [reflexivity|]. apply IH. split; [exact Gy|]. rewrite height_trans in H. lia.
    + destruct Ip as [<-|[<-|[<-|[<-|[]]]]]; [| | |apply fill_other in F; [subst; now left|discriminate]];
        (apply Fix in F; [subst; right; apply in_or_app; left; cbn; tauto|repeat constructor; eexists; split; try reflexivity; discriminate]).
Qed.

(* ---- one plug after the other ---- *)
Lemma plug_terms : forall w ts l ps name, wproper w -> force w = Val ts -> wnew l = Val (WSet ps) -> ps <> [] -> Forall (fun t => proper t = true) ps ->
  exists w', plug_new w name l = Val w' /\ wproper w' /\ force w' = Val (flat_map (plug name ps) ts).
Proof.
  intros w ts l ps name Hw Hf El Np Fp. unfold plug_new. rewrite El. cbn [rbind]. destruct ps as [|p ps]; [congruence|]. cbn [wplug].
  exists (WPlug w name (WSet (p :: ps))). split; [reflexivity|]. split; [split; [exact Hw|exact Fp]|].
  apply (wplug_exact w name (WSet (p :: ps)) _ ts (p :: ps) Hw Fp Hf eq_refl); [discriminate|reflexivity].
Qed.
Definition vpegs : list sexp :=
  [vec3 (lit "0") (lit "0") (lit "0"); vec3 (lit "1") (lit "1") (lit "1"); vec3 (Atom "a") (Atom "a") (Atom "a"); vec3 (Atom "a") (Atom "b") (Atom "c"); vec3 (Atom "d") (Atom "e") (Atom "f");
   vec3 (Lst [Atom "op"; Atom "BOP"; Atom "a"; Atom "d"]) (Lst [Atom "op"; Atom "BOP"; Atom "b"; Atom "e"]) (Lst [Atom "op"; Atom "BOP"; Atom "c"; Atom "f"])].
Definition tpegs : list sexp := [Atom "Scale"; Atom "Trans"].
Definition spegs : list sexp := [Atom "a"; lit "1"].
Definition bpegs : list sexp := [Atom "+"; Atom "*"; Atom "/"].
Definition run (ts : list sexp) : list sexp :=
  flat_map (plug "BOP" bpegs) (flat_map (plug "SCALAR" spegs) (flat_map (plug "TRANSFORMATION" tpegs) (flat_map (plug "V3" vpegs) ts))).
Definition filled (t u : sexp) : Prop :=
  exists t1 t2 t3, fill (fun p => In p vpegs) "V3" t t1 /\ fill (fun p => In p tpegs) "TRANSFORMATION" t1 t2 /\
    fill (fun p => In p spegs) "SCALAR" t2 t3 /\ fill (fun p => In p bpegs) "BOP" t3 u.
Lemma run_filled : forall ts u, Forall (fun t => proper t = true) ts -> (In u (run ts) <-> exists t, In t ts /\ filled t u).
Proof.
  intros ts u F. rewrite Forall_forall in F. 
  assert (Pv : forall p, In p vpegs -> proper p = true) by (apply forallb_forall; reflexivity).
  assert (Pt : forall p, In p tpegs -> proper p = true) by (apply forallb_forall; reflexivity).
  assert (Ps : forall p, In p spegs -> proper p = true) by (apply forallb_forall; reflexivity).
  unfold run. rewrite in_flat_map. split.
  - intros (t3 & I3 & H4). apply in_flat_map in I3 as (t2 & I2 & H3). apply in_flat_map in I2 as (t1 & I1 & H2). apply in_flat_map in I1 as (t & It & H1).
    exists t. split; [exact It|]. exists t1, t2, t3. repeat split; now apply plug_sound.
  - intros (t & It & t1 & t2 & t3 & H1 & H2 & H3 & H4).
    pose proof (fill_proper _ _ _ _ Pv (F t It) H1) as P1. pose proof (fill_proper _ _ _ _ Pt P1 H2) as P2. pose proof (fill_proper _ _ _ _ Ps P2 H3) as P3.
    exists t3. split; [|now apply plug_complete]. apply in_flat_map. exists t2. split; [|now apply plug_complete]. apply in_flat_map. exists t1. split; [|now apply plug_complete].
    apply in_flat_map. exists t. split; [exact It|]. apply plug_complete; auto.
Qed.
Lemma filled_list : forall l u, filled (Lst l) u <-> exists l', u = Lst l' /\ Forall2 filled l l'.
Proof.
  intros l u. split.
  - intros (t1 & t2 & t3 & H1 & H2 & H3 & H4). inversion H1 as [| |? l1 F1]; subst. inversion H2 as [| |? l2 F2]; subst. inversion H3 as [| |? l3 F3]; subst. inversion H4 as [| |? l4 F4]; subst.
    exists l4. split; [reflexivity|]. clear H1 H2 H3 H4. revert l1 l2 l3 l4 F1 F2 F3 F4. induction l as [|x l IH]; intros l1 l2 l3 l4 F1 F2 F3 F4.
    + inversion F1; subst. inversion F2; subst. inversion F3; subst. inversion F4; subst. constructor.
    + inversion F1; subst. inversion F2; subst. inversion F3; subst. inversion F4; subst. constructor; [unfold filled; eauto 10|]. eapply IH; eassumption.
  - intros (l' & -> & F). assert (X : exists l1 l2 l3, Forall2 (fill (fun p => In p vpegs) "V3") l l1 /\ Forall2 (fill (fun p => In p tpegs) "TRANSFORMATION") l1 l2 /\
      Forall2 (fill (fun p => In p spegs) "SCALAR") l2 l3 /\ Forall2 (fill (fun p => In p bpegs) "BOP") l3 l').
    { induction F as [|x y l l' (t1 & t2 & t3 & H1 & H2 & H3 & H4) _ (l1 & l2 & l3 & F1 & F2 & F3 & F4)]; [exists [], [], []; repeat constructor|].
      exists (t1 :: l1), (t2 :: l2), (t3 :: l3). repeat split; now constructor. }
    destruct X as (l1 & l2 & l3 & F1 & F2 & F3 & F4). exists (Lst l1), (Lst l2), (Lst l3). repeat split; now constructor.
Qed.
Definition same (l1 l2 : list sexp) : bool := forallb (fun x => existsb (sexp_eqb x) l2) l1 && forallb (fun x => existsb (sexp_eqb x) l1) l2.
Lemma same_ok : forall l1 l2, same l1 l2 = true -> forall u, In u l1 <-> In u l2.
Proof.
  intros l1 l2 H u. unfold same in H. apply andb_prop in H as [A B]. rewrite forallb_forall in A, B. split; intros I.
  - specialize (A u I). apply existsb_exists in A as (v & Iv & E). apply sexp_eqb_eq in E. now subst.
  - specialize (B u I). apply existsb_exists in B as (v & Iv & E). apply sexp_eqb_eq in E. now subst.
Qed.
Lemma filled_known : forall s l, same (run [Atom s]) l = true -> forall u, filled (Atom s) u <-> In u l.
Proof.
  intros s l H u. rewrite <- (same_ok _ _ H u), run_filled by (repeat constructor). split; [intros F; exists (Atom s); split; [now left|exact F]|intros (t & [<-|[]] & F); exact F].
Qed.
Lemma filled_v3 : forall u, filled (Atom "V3") u <-> In u vectors.
Proof. apply filled_known. vm_compute. reflexivity. Qed.
Lemma filled_tr : forall u, filled (Atom "TRANSFORMATION") u <-> In u tpegs.
Proof. apply filled_known. vm_compute. reflexivity. Qed.
Lemma filled_scalar : forall u, filled (Atom "SCALAR") u <-> In u spegs.
Proof. apply filled_known. vm_compute. reflexivity. Qed.
Lemma filled_word : forall s, same (run [Atom s]) [Atom s] = true -> forall u, filled (Atom s) u <-> u = Atom s.
Proof. intros s H u. rewrite (filled_known s _ H u). split; [intros [<-|[]]; reflexivity|intros ->; now left]. Qed.
Lemma forall2_3 : forall (P : sexp -> sexp -> Prop) x y z l', Forall2 P [x; y; z] l' <-> exists x' y' z', l' = [x'; y'; z'] /\ P x x' /\ P y y' /\ P z z'.
Proof.
  intros P x y z l'. split; [|intros (x' & y' & z' & -> & A & B & C); repeat constructor; assumption].
  intros H. inversion H as [|? x' ? l1 A H1]; subst. inversion H1 as [|? y' ? l2 B H2]; subst. inversion H2 as [|? z' ? l3 C H3]; subst. inversion H3; subst. eauto 10.
Qed.
Lemma forall2_4 : forall (P : sexp -> sexp -> Prop) x y z w l', Forall2 P [x; y; z; w] l' <-> exists x' y' z' w', l' = [x'; y'; z'; w'] /\ P x x' /\ P y y' /\ P z z' /\ P w w'.
Proof.
  intros P x y z w l'. split; [|intros (x' & y' & z' & w' & -> & A & B & C & D); repeat constructor; assumption].
  intros H. inversion H as [|? x' ? l1 A H1]; subst. apply forall2_3 in H1 as (y' & z' & w' & -> & B & C & D). eauto 12.
Qed.
Ltac word_ H s := rewrite (filled_word s) in H by (vm_compute; reflexivity); subst.
Ltac fixed s := apply (filled_word s); [vm_compute; reflexivity|reflexivity].
Lemma skel_filled : forall n u, (exists t, In t (skel n) /\ filled t u) <-> In u (solids n).
Proof.
  intros [|n]; [intros u; split; [intros (t & [] & _)|intros []]|]. induction n as [|n IH]; intros u.
  - split; [intros (t & [<-|[]] & F); word_ F "s"; now left|]. intros [<-|[]]. exists (Atom "s"). split; [now left|]. fixed "s".
  - change (skel (S (S n))) with (Atom "s" :: [Lst [Atom "Cube"; Atom "V3"; Atom "false"]; Lst [Atom "Cylinder"; Atom "V3"; Atom "params"; Atom "true"]; Lst [Atom "Sphere"; Atom "SCALAR"; Atom "params"]] ++
      map (fun x => Lst [Atom "TRANSFORMATION"; Atom "V3"; x]) (skel (S n))).
    change (solids (S (S n))) with (Atom "s" :: primitives ++ transformed (solids (S n))). split.
    + intros (t & It & F). destruct It as [<-|It]; [word_ F "s"; now left|]. right. apply in_or_app. apply in_app_or in It as [It|It].
      * left. unfold primitives. rewrite !in_app_iff, !in_map_iff. destruct It as [<-|[<-|[<-|[]]]]; apply filled_list in F as (l' & -> & F).
        -- apply forall2_3 in F as (x & y & z & -> & A & B & C). word_ A "Cube". word_ C "false". apply filled_v3 in B. left. eauto.
        -- apply forall2_4 in F as (x & y & z & w & -> & A & B & C & D). word_ A "Cylinder". word_ C "params". word_ D "true". apply filled_v3 in B. right. left. eauto.
        -- apply forall2_3 in F as (x & y & z & -> & A & B & C). word_ A "Sphere". word_ C "params". apply filled_scalar in B. right. right. eauto.
      * right. apply in_map_iff in It as (x0 & <- & I0). apply filled_list in F as (l' & -> & F). apply forall2_3 in F as (x & y & z & -> & A & B & C). apply filled_tr in A. apply filled_v3 in B.
        assert (Iz : In z (solids (S n))) by (apply IH; eauto). unfold transformed. apply in_flat_map.
        destruct A as [<-|[<-|[]]]; [exists "Scale"|exists "Trans"]; (split; [cbn; tauto|]); apply in_flat_map; exists y; (split; [exact B|]); apply in_map_iff; exists z; split; auto.
    + intros [<-|I]; [exists (Atom "s"); split; [now left|fixed "s"]|]. apply in_app_or in I as [I|I].
      * unfold primitives in I. rewrite !in_app_iff, !in_map_iff in I. destruct I as [(v & <- & Iv)|[(v & <- & Iv)|(v & <- & Iv)]].
        -- eexists. split; [right; apply in_or_app; left; left; reflexivity|]. apply filled_list. eexists. split; [reflexivity|]. apply forall2_3. do 3 eexists. split; [reflexivity|]. split; [fixed "Cube"|]. split; [now apply filled_v3|fixed "false"].
        -- eexists. split; [right; apply in_or_app; left; right; left; reflexivity|]. apply filled_list. eexists. split; [reflexivity|]. apply forall2_4. do 4 eexists. split; [reflexivity|]. split; [fixed "Cylinder"|]. split; [now apply filled_v3|]. split; [fixed "params"|fixed "true"].
        -- eexists. split; [right; apply in_or_app; left; right; right; left; reflexivity|]. apply filled_list. eexists. split; [reflexivity|]. apply forall2_3. do 3 eexists. split; [reflexivity|]. split; [fixed "Sphere"|]. split; [now apply filled_scalar|fixed "params"].
      * unfold transformed in I. apply in_flat_map in I as (tr & Itr & I). apply in_flat_map in I as (v & Iv & I). apply in_map_iff in I as (x & <- & Ix). apply IH in Ix as (x0 & I0 & Fx).
        exists (Lst [Atom "TRANSFORMATION"; Atom "V3"; x0]). split; [right; apply in_or_app; right; apply in_map_iff; eauto|]. apply filled_list. eexists. split; [reflexivity|]. apply forall2_3. do 3 eexists. split; [reflexivity|].
        split; [apply filled_tr; cbn in Itr |- *; destruct Itr as [<-|[<-|[]]]; tauto|]. split; [now apply filled_v3|exact Fx].
Qed.
Theorem solid_terms : forall n, 1 <= n -> exactly (iter_szalinski n) (fun u => In u (solids n)).
Proof.
  intros [|n] Hn; [lia|]. unfold iter_szalinski.
  assert (E : wnew ["(TRANSFORMATION V3 SOLID)"; "(Cube V3 false)"; "(Cylinder V3 params true)"; "(Sphere SCALAR params)"; "s"] = Val (WSet grammar)) by (vm_compute; reflexivity).
  rewrite E. cbn [rbind]. destruct (iter_metric_stage (WSet grammar) "SOLID" Depth (S n) grammar_proper) as (w0 & E0 & Hw0 & Hf0); [discriminate|]. rewrite E0. cbn [rbind].
  destruct (force_proper w0 Hw0) as [F0 P0]. 
  edestruct (plug_terms w0 (pforce w0)) as (w1 & E1 & Hw1 & F1); [exact Hw0|exact F0| | | |rewrite E1]; [vm_compute; reflexivity|discriminate|repeat constructor|]. cbn [rbind].
  edestruct (plug_terms w1) as (w2 & E2 & Hw2 & F2); [exact Hw1|exact F1| | | |rewrite E2]; [vm_compute; reflexivity|discriminate|repeat constructor|]. cbn [rbind].
  edestruct (plug_terms w2) as (w3 & E3 & Hw3 & F3); [exact Hw2|exact F2| | | |rewrite E3]; [vm_compute; reflexivity|discriminate|repeat constructor|]. cbn [rbind].
  edestruct (plug_terms w3) as (w4 & E4 & Hw4 & F4); [exact Hw3|exact F3| | | |rewrite E4]; [vm_compute; reflexivity|discriminate|repeat constructor|].
  exists w4. eexists. split; [reflexivity|]. split; [exact F4|]. intros u. change (In u (run (pforce w0)) <-> In u (solids (S n))). rewrite run_filled by exact P0. rewrite <- skel_filled.
  assert (S0 : forall t, In t (pforce w0) <-> In t (skel (S n))). { intros t. rewrite Hf0. cbn [pforce]. rewrite (stage_spec grammar "SOLID" Depth n t grammar_proper grammar_productive). symmetry. apply skel_in. }
  split; intros (t & I & F); exists t; (split; [now apply S0|exact F]).
Qed.
