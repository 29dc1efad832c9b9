(* The terms of the second layer of the rational recipes. *)
From Verif Require Import Base BaseProofs Sexp Reader Pattern Filter Workload Recipe EnumSpec Infer InferSpec.
From Verif Require Import SexpProofs CanonProofs PatternProofs FilterProofs WorkloadProofs ReaderProofs RecipeProofs GrammarProofs.
From Verif Require Import Recipes RecipesSpec RecipesProofs RecipesExact.
Open Scope string_scope.
Open Scope list_scope.

Lemma force_plug : forall w a p ts ps, wproper w -> force w = Val ts -> force p = Val ps ->
  exists us, force (WPlug w a p) = Val us /\ forall u, In u us <-> exists t, In t ts /\ fill (fun x => In x ps) a t u.
Proof.
  intros w a p ts ps Hw Ht Hp. exists (flat_map (plug a ps) ts). split; [cbn [force]; rewrite Hp, Ht; reflexivity|].
  intros u. rewrite in_flat_map. apply force_pforce in Ht. subst ts. destruct (force_proper w Hw) as [_ F]. rewrite Forall_forall in F. split; intros (t & I & H); exists t; (split; [exact I|]).
  - now apply plug_sound.
  - apply plug_complete; [now apply F|exact H].
Qed.
Lemma sat_occurs : forall a t, sat (Contains (PLit a)) t <-> occurs a t.
Proof. intros a t. rewrite <- contains_lit. rewrite contains_iff. reflexivity. Qed.
Lemma in_un : forall ops l u, In u (un ops l) <-> exists o x, u = Lst [Atom o; x] /\ In o ops /\ In x l.
Proof.
  intros ops l u. unfold un. rewrite in_flat_map. split.
  - intros (o & Io & I). apply in_map_iff in I as (x & <- & I). eauto.
  - intros (o & x & -> & Io & I). exists o. split; [exact Io|]. apply in_map_iff. eauto.
Qed.
Lemma in_bin : forall ops l u, In u (bin ops l) <-> exists o x y, u = Lst [Atom o; x; y] /\ In o ops /\ In x l /\ In y l.
Proof.
  intros ops l u. unfold bin. rewrite in_flat_map. split.
  - intros (o & Io & I). apply in_flat_map in I as (x & Ix & I). apply in_map_iff in I as (y & <- & I). eauto 8.
  - intros (o & x & y & -> & Io & Ix & Iy). exists o. split; [exact Io|]. apply in_flat_map. exists x. split; [exact Ix|]. apply in_map_iff. eauto.
Qed.

Definition six : list string := ["a"; "b"; "c"; "0"; "-1"; "1"].
Theorem rat_layer2_terms : exactly rat_layer2 (fun u => In u (over_layer ["~"; "fabs"] ["+"; "-"; "*"; "/"] (shallow ["~"; "fabs"] ["+"; "-"; "*"; "/"] six)) /\ (occurs "a" u \/ occurs "b" u \/ occurs "c" u)).
Proof.
  assert (L1 : exists w1 ps, rat_layer1 = Val w1 /\ wproper w1 /\ force w1 = Val ps /\ (forall u, In u ps <-> In u (shallow ["~"; "fabs"] ["+"; "-"; "*"; "/"] six)) /\
    Forall (fun u => ~ occurs "VAL" u /\ ~ occurs "VAR" u) ps /\ forall q, rbind (Val w1) (fun p => wplug q "EXPR" p) = Val (WPlug q "EXPR" w1)).
  { assert (E : exactly rat_layer1 (fun u => In u (shallow ["~"; "fabs"] ["+"; "-"; "*"; "/"] six))) by (apply same_set_ok; vm_compute; reflexivity).
    destruct E as (w1 & ps & E1 & E2 & E3). exists w1, ps. split; [exact E1|]. split; [vm_compute in E1; injection E1 as <-; cbn; repeat (split || constructor)|]. split; [exact E2|]. split; [exact E3|]. split.
    - apply Forall_forall. intros u I. apply E3 in I.
      assert (X : forallb (fun u => negb (existsb (String.eqb "VAL") (leaves u)) && negb (existsb (String.eqb "VAR") (leaves u))) (shallow ["~"; "fabs"] ["+"; "-"; "*"; "/"] six) = true) by (vm_compute; reflexivity).
      rewrite forallb_forall in X. specialize (X u I). apply andb_prop in X as [X1 X2]. apply negb_true_iff in X1, X2.
      split; intros O; [assert (Y : existsb (String.eqb "VAL") (leaves u) = true) by (apply existsb_exists; exists "VAL"; split; [exact O|reflexivity])|assert (Y : existsb (String.eqb "VAR") (leaves u) = true) by (apply existsb_exists; exists "VAR"; split; [exact O|reflexivity])]; congruence.
    - intros q. vm_compute in E1. injection E1 as <-. reflexivity. }
  destruct L1 as (w1 & ps & E1 & P1 & F1 & S1 & N1 & Wp). rewrite Forall_forall in N1.
  assert (L0 : exists w0 ts, rat_ops = Val w0 /\ wproper w0 /\ force w0 = Val ts /\
    forall t, In t ts <-> t = Atom "VAR" \/ t = Atom "VAL" \/ (exists o, In o ["~"; "fabs"] /\ t = Lst [Atom o; Atom "EXPR"]) \/ (exists o, In o ["+"; "-"; "*"; "/"] /\ t = Lst [Atom o; Atom "EXPR"; Atom "EXPR"])).
  { destruct rat_ops as [w0|] eqn:E; [|discriminate E]. vm_compute in E. injection E as <-. eexists _, _. split; [reflexivity|]. split; [cbn; repeat (split || constructor)|]. split; [vm_compute; reflexivity|].
    intros t. cbn [In]. split.
    - intros H. repeat (destruct H as [<-|H]); try contradiction; eauto 12 using in_eq, in_cons.
    - intros [->|[->|[(o & I & ->)|(o & I & ->)]]]; [tauto|tauto| |]; cbn [In] in I; repeat (destruct I as [<-|I]; [tauto|]); contradiction. }
  destruct L0 as (w0 & ts & E0 & P0 & F0 & S0).
  assert (Pw : wproper (WPlug w0 "EXPR" w1)) by (cbn; auto). destruct (force_plug w0 "EXPR" w1 ts ps P0 F0 F1) as (us & Fu & Su).
  set (fl := Filter.FOr [Contains (PLit "a"); Contains (PLit "b"); Contains (PLit "c")]).
  set (W1 := wfilter (WPlug w0 "EXPR" w1) fl). assert (Q1 : wproper W1) by now apply wproper_wfilter.
  set (W2 := wfilter W1 (Excludes (PLit "VAL"))). assert (Q2 : wproper W2) by now apply wproper_wfilter.
  set (W3 := wfilter W2 (Excludes (PLit "VAR"))).
  assert (E : rat_layer2 = Val W3). { unfold rat_layer2. rewrite E0, E1. unfold has_pat. change (pattern_from_str "a") with (Val (PLit "a")). change (pattern_from_str "b") with (Val (PLit "b")). change (pattern_from_str "c") with (Val (PLit "c")). cbn [rbind]. specialize (Wp w0). cbn [rbind] in Wp. rewrite Wp. reflexivity. }
  destruct (wfilter_keeps (WPlug w0 "EXPR" w1) fl Pw) as (t1 & u1 & T1 & U1 & K1); [cbn; tauto|]. rewrite Fu in T1. injection T1 as <-.
  destruct (wfilter_keeps W1 (Excludes (PLit "VAL")) Q1) as (t2 & u2 & T2 & U2 & K2); [cbn; tauto|]. fold W1 in U1. rewrite U1 in T2. injection T2 as <-.
  destruct (wfilter_keeps W2 (Excludes (PLit "VAR")) Q2) as (t3 & u3 & T3 & U3 & K3); [cbn; tauto|]. fold W2 in U2. rewrite U2 in T3. injection T3 as <-.
  exists W3, u3. split; [exact E|]. split; [exact U3|]. intros u. rewrite (keeps_in _ _ _ _ K3), (keeps_in _ _ _ _ K2), (keeps_in _ _ _ _ K1), Su.
  assert (Sf : sat fl u <-> occurs "a" u \/ occurs "b" u \/ occurs "c" u). { unfold fl. cbn [sat fold_right]. pose proof (sat_occurs "a" u) as A. pose proof (sat_occurs "b" u) as B. pose proof (sat_occurs "c" u) as C. cbn [sat] in A, B, C. rewrite A, B, C. tauto. }
  assert (Sx : forall s, sat (Excludes (PLit s)) u <-> ~ occurs s u). { intros s. pose proof (sat_occurs s u) as A. cbn [sat] in A |- *. rewrite A. reflexivity. }
  rewrite Sf, !Sx. unfold over_layer. rewrite in_app_iff, in_un, in_bin. split.
  - intros [[[(t & It & Fi) Oc] _] _]. split; [|exact Oc]. apply S0 in It as [->|[->|[(o & Io & ->)|(o & Io & ->)]]].
    + inversion Fi; subst; cbn in Oc; intuition discriminate.
    + inversion Fi; subst; cbn in Oc; intuition discriminate.
    + left. inversion Fi as [| |? l' F]; subst. inversion F as [|? x1 ? r1 A1 F']; subst. inversion F' as [|? x2 ? r2 A2 F'']; subst. inversion F''; subst.
      assert (x1 = Atom o) as -> by (inversion A1; subst; [cbn in Io; intuition discriminate|reflexivity]). inversion A2 as [? Px| |]; subst; [|congruence]. exists o, x2. split; [reflexivity|]. split; [exact Io|now apply S1].
    + right. inversion Fi as [| |? l' F]; subst. inversion F as [|? x1 ? r1 A1 F']; subst. inversion F' as [|? x2 ? r2 A2 F'']; subst. inversion F'' as [|? x3 ? r3 A3 F3]; subst. inversion F3; subst.
      assert (x1 = Atom o) as -> by (inversion A1; subst; [cbn in Io; intuition discriminate|reflexivity]). inversion A2 as [? Px| |]; subst; [|congruence]. inversion A3 as [? Py| |]; subst; [|congruence].
      exists o, x2, x3. split; [reflexivity|]. split; [exact Io|]. split; now apply S1.
  - intros ([(o & x & -> & Io & Ix)|(o & x & y & -> & Io & Ix & Iy)] & Oc).
    + apply S1 in Ix. destruct (N1 x Ix) as [Na Nb]. split; [split; [split; [|exact Oc]|]|].
      * exists (Lst [Atom o; Atom "EXPR"]). split; [apply S0; eauto 8|]. constructor. constructor; [constructor; intros ->; cbn in Io; intuition discriminate|]. constructor; [now constructor|constructor].
      * unfold occurs in *. cbn [leaves flat_map]. rewrite !in_app_iff. cbn. intros [[->|[]]|[H|[]]]; [cbn in Io; intuition discriminate|auto].
      * unfold occurs in *. cbn [leaves flat_map]. rewrite !in_app_iff. cbn. intros [[->|[]]|[H|[]]]; [cbn in Io; intuition discriminate|auto].
    + apply S1 in Ix, Iy. destruct (N1 x Ix) as [Na Nb]. destruct (N1 y Iy) as [Nc Nd]. split; [split; [split; [|exact Oc]|]|].
      * exists (Lst [Atom o; Atom "EXPR"; Atom "EXPR"]). split; [apply S0; eauto 9|]. constructor. constructor; [constructor; intros ->; cbn in Io; intuition discriminate|]. constructor; [now constructor|]. constructor; [now constructor|constructor].
      * unfold occurs in *. cbn [leaves flat_map]. rewrite !in_app_iff. cbn. intros [[->|[]]|[H|[H|[]]]]; [cbn in Io; intuition discriminate|auto|auto].
      * unfold occurs in *. cbn [leaves flat_map]. rewrite !in_app_iff. cbn. intros [[->|[]]|[H|[H|[]]]]; [cbn in Io; intuition discriminate|auto|auto].
Qed.
