(* Properties C48 and later: schedulers and application of rules.  Reference
   notions: EgraphSpec.v (classes, represented terms), SynthSpec.v and CalmSpec.v
   (e-graphs a user can get at, languages that know literals only). *)
From Coq Require Import NArith ZArith Permutation.
From Verif Require Import Base BaseProofs Sexp Workload Lang LangProofs Syntax Rule Ruleset RuleSpec.
From Verif Require Import BV BVProofs BoolDom NatDom PosDom Rational Halide.
From Verif Require Import Analysis Egraph EgraphSpec EgraphProofs EgraphSound Synth Apply Sched SynthSpec SynthProofs DeriveProofs.
From Verif Require Import Domains DomainAlg DomainSound CalmSpec Cover Calm CalmRun CalmDomains CompressProofs PropertiesDomains PropertiesSat.
From Verif Require Import MinimizeSpec MatchSpec ApplySpec ApplyProofs PlainSpec PlainProofs PlainDomains Util Reader.
Open Scope string_scope.
Open Scope list_scope.

(* ---------------- C48 ---------------- *)

(* Compress runs the Simple scheduler on a copy [out] and returns [g'].  What Simple
   merged is merged, nothing that was represented is lost, and the result is
   congruence closed. *)
Theorem C48_merges : forall O C (L : lang O C), (forall a b, l_eqb L a b = true <-> a = b) ->
  forall keep fuel order rs (g out g' : eg O C), (forall l, Permutation l (order l)) -> Forall (fun e => readable (snd e)) rs -> wf g ->
  simple L keep fuel rs g out -> compress_with L keep fuel order g out = Val g' ->
  (forall i j, i < size g -> j < size g -> eqv out i j -> eqv g' i j) /\
  (forall t c, repr g t c -> repr g' t c) /\ congruent g'.
Proof.
  intros O C L E keep fuel order rs g out g' Po Hr W S H.
  assert (Hu : all_hold L unit_alg rs) by (eapply Forall_impl; [|exact Hr]; intros e; apply unit_holds).
  destruct (simple_moves L E keep fuel unit_alg (unit_interprets L) rs g out Hu W S) as [(Wo & Eo & _) _].
  destruct (compress_with_merges L E keep fuel order g out g' Po W Wo Eo H) as (_ & X & Cg & _ & M).
  split; [exact M|]. split; [intros t c; exact (repr_ext g g' X t c)|exact Cg].
Qed.
Print Assumptions C48_merges.

(* In bitvectors, Halide and Pos nothing else is merged. *)
Theorem C48_exact : forall O C (L : lang O C) ar, literal_only L ar ->
  forall keep fuel order rs (g out g' : eg O C), (forall l, Permutation l (order l)) ->
  Forall (fun e => readable (snd e)) rs -> Forall (fun e => typed_rule ar (snd e)) rs -> built L ar keep rs g ->
  simple L keep fuel rs g out -> compress_with L keep fuel order g out = Val g' ->
  forall i j, i < size g -> j < size g -> (eqv g' i j <-> eqv out i j).
Proof.
  intros O C L ar Lo keep fuel order rs g out g' Po Hr Ht B S H.
  pose proof (built_calm L ar Lo keep rs g Ht B) as Cm.
  assert (Hu : all_hold L unit_alg rs) by (eapply Forall_impl; [|exact Hr]; intros e; apply unit_holds).
  destruct (simple_moves L (lo_eqb L ar Lo) keep fuel unit_alg (unit_interprets L) rs g out Hu (cm_wf _ _ g Cm) S) as [(Wo & Eo & _) [Co No]].
  exact (compress_with_only L ar Lo keep fuel order g out g' Po Cm Wo Co No Eo H).
Qed.
Print Assumptions C48_exact.
Theorem C48_literal_domains : (forall w check, literal_only (bv_lang w check) bv_arity) /\
  (forall check, literal_only (hal_lang check) hal_arity) /\ (forall depth, literal_only (pos_lang depth) pos_arity).
Proof. exact (conj bv_literal_only (conj hal_literal_only pos_literal_only)). Qed.
Print Assumptions C48_literal_domains.

(* Compress does not add classes where a constant is a single node *)
Theorem C48_no_growth : forall O C (L : lang O C), (forall a b, l_eqb L a b = true <-> a = b) ->
  (forall g i, l_custom L g i = Val []) -> (forall c, exists o, l_const L c = [Node o []]) ->
  forall keep fuel order rs (g g' : eg O C), wf g -> compress L keep fuel order rs g g' -> number_of_classes g' <= number_of_classes g.
Proof.
  intros O C L E Cu Lf keep fuel order rs g g' W (out & _ & H). exact (compress_with_count L E keep Cu Lf fuel order g out g' W H).
Qed.
Print Assumptions C48_no_growth.
Theorem C48_single_node_domains : forall fuel order,
  (forall w check keep rs g g', wf g -> compress (bv_lang w check) keep fuel order rs g g' -> number_of_classes g' <= number_of_classes g) /\
  (forall keep rs g g', wf g -> compress bool_lang keep fuel order rs g g' -> number_of_classes g' <= number_of_classes g) /\
  (forall check keep rs g g', wf g -> compress (hal_lang check) keep fuel order rs g g' -> number_of_classes g' <= number_of_classes g).
Proof.
  intros fuel order. split; [|split].
  - intros w check keep rs. apply C48_no_growth; [exact bv_eqb_eq|reflexivity|intros c; eexists; reflexivity].
  - intros keep rs. apply C48_no_growth; [exact bool_op_eqb_eq|reflexivity|intros c; eexists; reflexivity].
  - intros check keep rs. apply C48_no_growth; [exact hal_eqb_eq|reflexivity|intros c; eexists; reflexivity].
Qed.
Print Assumptions C48_single_node_domains.
Theorem C48_rational_no_growth : forall ov check keep fuel order rs g g', wf g ->
  compress (math_lang ov check) keep fuel order rs g g' -> number_of_classes g' <= number_of_classes g.
Proof. intros ov check. apply C48_no_growth; [exact math_eqb_eq|reflexivity|intros c; eexists; reflexivity]. Qed.
Print Assumptions C48_rational_no_growth.

(* every e-graph a user can get at is well formed *)
Theorem C48_made_wf : forall O C (L : lang O C), (forall a b, l_eqb L a b = true <-> a = b) ->
  forall keep rs g, Forall (fun e => readable (snd e)) rs -> made L keep rs g -> wf g.
Proof.
  intros O C L E keep rs g Hr M.
  assert (Hu : all_hold L unit_alg rs) by (eapply Forall_impl; [|exact Hr]; intros e; apply unit_holds).
  exact (proj1 (made_moves L E keep unit unit_alg (unit_interprets L) rs Hu g M)).
Qed.
Print Assumptions C48_made_wf.

(* Natural numbers spell a constant as S (... Z): with the rule x * 0 = 0, Compress
   turns 7 classes into 11: it now knows the value of 3 + x0 squared, and spells it out. *)
Definition ex_ncheck (a b : zint) : sat_result := Unsat.
Definition ex_nat : lang nat_op Z := nat_lang 12 (fun _ => 0%Z) ex_ncheck.
Definition ex_three : sexp := Lst [Atom "S"; Lst [Atom "S"; Lst [Atom "S"; Lst [Atom "*"; Atom "x"; Atom "Z"]]]].
Theorem C48_growth_refuted : exists rs g0 g1,
  rs_new nat_from_op nat_name ["(* ?a Z) ==> Z"] = Val rs /\
  to_egraph ex_nat ex_keep 12 (WSet [Lst [Atom "*"; ex_three; ex_three]]) = Val g0 /\
  compress ex_nat ex_keep 12 (fun l => l) rs g0 g1 /\ number_of_classes g0 = 7 /\ number_of_classes g1 = 11.
Proof.
  eexists. eexists. eexists. split; [vm_compute; reflexivity|]. split; [vm_compute; reflexivity|]. split; [|split; [vm_compute; reflexivity|]].
  - eexists. split.
    + eexists. split.
      * eexists. eapply RS_step.
        { eapply (RSearch _ _ _ _ _ _ _ 2 [("a", 0)]); [left; reflexivity|]. split.
          - eexists. split; [reflexivity|]. apply PM_node with [0; 1].
            + constructor; [eapply PM_var; [reflexivity|eqv_tac]|]. constructor; [|constructor]. apply PM_node with []; [constructor|].
              exists (Node NZ []), 1. split; [cbn; tauto|]. split; [reflexivity|]. split; [constructor|eqv_tac].
            + exists (Node NMul [0; 1]), 2. split; [cbn; tauto|]. split; [reflexivity|]. split; [repeat constructor; eqv_tac|eqv_tac].
          - repeat constructor. }
        { eapply RS_step; [|apply RS_refl]. eapply RApply; [left; reflexivity|]. vm_compute. reflexivity. }
      * vm_compute. reflexivity.
    + vm_compute. reflexivity.
  - vm_compute. reflexivity.
Qed.
Print Assumptions C48_growth_refuted.

(* the sums of C46_hyp, compressed: one class less *)
Example C48_hyp : exists rs g0 out g1,
  rs_new (bv_from_op 4) bv_name ["(+ ?a ?b) ==> (+ ?b ?a)"] = Val rs /\
  to_egraph (bv_lang 4 ex_check) ex_keep 5 ex_w = Val g0 /\
  simple (bv_lang 4 ex_check) ex_keep 5 rs g0 out /\
  compress_with (bv_lang 4 ex_check) ex_keep 5 (fun l => l) g0 out = Val g1 /\
  Forall (fun e => readable (snd e)) rs /\ Forall (fun e => typed_rule bv_arity (snd e)) rs /\
  number_of_classes g0 = 4 /\ number_of_classes g1 = 3.
Proof.
  eexists. eexists. eexists. eexists. split; [vm_compute; reflexivity|]. split; [vm_compute; reflexivity|]. split.
  - eexists. split.
    + eexists. eapply RS_step.
      * eapply (RSearch _ _ _ _ _ _ _ 2 [("a", 0); ("b", 1)]); [left; reflexivity|]. split.
        { eexists. split; [reflexivity|]. apply PM_node with [0; 1].
          - repeat constructor; (eapply PM_var; [reflexivity|eqv_tac]).
          - exists (Node VAdd [0; 1]), 2. split; [cbn; tauto|]. split; [reflexivity|]. split; [repeat constructor; eqv_tac|eqv_tac]. }
        { repeat constructor. }
      * eapply RS_step; [|apply RS_refl]. eapply RApply; [left; reflexivity|]. vm_compute. reflexivity.
    + vm_compute. reflexivity.
  - split; [vm_compute; reflexivity|]. split; [repeat constructor; do 2 eexists; split; reflexivity|]. split; [repeat constructor|]. split; vm_compute; reflexivity.
Qed.

(* ---------------- C50 ---------------- *)

(* a class counts as undefined when it has samples and no value at any of them *)
Theorem C50_defined : forall O C (d : sig O C), is_defined d = true <-> sg_cvec d = [] \/ somewhere (sg_cvec d).
Proof. exact is_defined_spec. Qed.
Print Assumptions C50_defined.

(* Bitvectors, Halide and Pos, at any time in a run ([g]), for the rules read from
   text: nothing happens if the matched class is undefined; otherwise the missing
   parts of the right-hand side are added, each in a class of its own ([g1]), and
   then, if the class [i] of the right-hand side is defined, [i] and the matched
   class become one and nothing else changes. *)
Theorem C50_exact : forall O C (L : lang O C) ar, literal_only L ar ->
  forall keep fuel rs g0 g r c s g' ids t d, Forall (fun e => typed_rule ar (snd e)) rs -> built L ar keep rs g0 ->
  runs L keep fuel (map snd rs) g0 g -> In r (map snd rs) -> rkind r = KRhs ->
  Forall (fun e => snd e < size g) s -> tree (rrhs r) = Val t -> class_data g c = Val d ->
  apply_one L keep fuel r g c s = Val (g', ids) ->
  (is_defined d = false -> g' = g /\ ids = []) /\
  (is_defined d = true -> exists g1 i di, only_adds g g1 /\ new_are_parts (rrhs r) s g g1 /\ pmatch g1 s t i /\ class_data g1 i = Val di /\
     (i = c \/ is_defined di = false -> g' = g1 /\ ids = []) /\
     (i <> c -> is_defined di = true -> ids = [i] /\ (eqv g1 i c /\ g' = g1 \/ ~ eqv g1 i c /\ only_merges g1 i c g'))).
Proof.
  intros O C L ar Lo keep fuel rs g0 g r c s g' ids t d Ht B R I K Fs Tr Ed H. unfold apply_one in H. rewrite K in H.
  assert (Tm : Forall (typed_rule ar) (map snd rs)) by now apply typed_map.
  pose proof (runs_calm L ar Lo keep fuel _ _ _ Tm (built_calm L ar Lo keep rs g0 Ht B) R) as Cm.
  rewrite Forall_forall in Tm. exact (apply_rhs_exact L ar Lo keep fuel _ t g c s g' ids d Cm (proj2 (Tm r I)) Fs Tr H Ed).
Qed.
Print Assumptions C50_exact.

(* the same for the other two appliers, which do not look at samples; a guarded rule
   does nothing unless its guard holds *)
Theorem C50_plain : forall O C (L : lang O C) ar, literal_only L ar ->
  forall keep fuel rs g0 g r c s g' ids t, Forall (fun e => typed_rule ar (snd e)) rs -> built L ar keep rs g0 ->
  runs L keep fuel (map snd rs) g0 g -> In r (map snd rs) -> rkind r <> KRhs ->
  Forall (fun e => snd e < size g) s -> tree (rrhs r) = Val t ->
  apply_one L keep fuel r g c s = Val (g', ids) ->
  (exists v, rkind r = KGuard v /\ guard L v g s = Val false /\ g' = g /\ ids = []) \/
  (forall v, rkind r = KGuard v -> guard L v g s = Val true) /\
  exists g1 i, only_adds g g1 /\ new_are_parts (rrhs r) s g g1 /\ pmatch g1 s t i /\
    (eqv g1 i c /\ g' = g1 /\ ids = [] \/ ~ eqv g1 i c /\ only_merges g1 i c g' /\ ids = [i]).
Proof.
  intros O C L ar Lo keep fuel rs g0 g r c s g' ids t Ht B R I K Fs Tr H. unfold apply_one in H.
  assert (Tm : Forall (typed_rule ar) (map snd rs)) by now apply typed_map.
  pose proof (runs_calm L ar Lo keep fuel _ _ _ Tm (built_calm L ar Lo keep rs g0 Ht B) R) as Cm.
  rewrite Forall_forall in Tm. destruct (rkind r) as [| |v] eqn:Ek; [now destruct K| |].
  - right. split; [discriminate|]. exact (apply_plain_exact L ar Lo keep fuel _ t g c s g' ids Cm (proj2 (Tm r I)) Fs Tr H).
  - destruct (guard L v g s) as [[|]|] eqn:G; [| |discriminate H]; cbn in H.
    + right. split; [intros v' Ev; inversion Ev; now subst|]. exact (apply_plain_exact L ar Lo keep fuel _ t g c s g' ids Cm (proj2 (Tm r I)) Fs Tr H).
    + left. exists v. inversion H; subst. auto.
Qed.
Print Assumptions C50_plain.

(* every language: nothing is lost; the right-hand side is there if the matched
   class is defined; what is reported as changed is in the matched class *)
Theorem C50_every_language : forall O C (L : lang O C), (forall a b, l_eqb L a b = true <-> a = b) ->
  forall keep fuel r t (g : eg O C) c s g' ids, wf g -> Forall (fun e => snd e < size g) s -> rkind r = KRhs -> tree (rrhs r) = Val t ->
  apply_one L keep fuel r g c s = Val (g', ids) ->
  (forall u i, repr g u i -> repr g' u i) /\ (forall i j, eqv g i j -> eqv g' i j) /\
  (forall d, class_data g c = Val d -> is_defined d = false -> g' = g /\ ids = []) /\
  (forall d, class_data g c = Val d -> is_defined d = true -> exists i, pmatch g' s t i) /\
  (ids = [] \/ exists i, ids = [i] /\ eqv g' i c /\ pmatch g' s t c).
Proof.
  intros O C L E keep fuel r t g c s g' ids W Fs K Tr H. unfold apply_one in H. rewrite K in H.
  destruct (apply_rhs_general L E keep fuel _ t g c s g' ids W Fs Tr H) as (_ & X & H1 & H2 & H3).
  split; [intros u i; exact (repr_ext g g' X u i)|]. split; [apply X|]. split; [exact H1|]. split; [|exact H3].
  intros d Ed Df. destruct (H2 d Ed Df) as (i & M & _). eauto.
Qed.
Print Assumptions C50_every_language.

(* (+ a b), alone, matched by the rule of commutativity: one class is added and
   merged with the first *)
Example C50_hyp : exists rs r g0 g1 ids d,
  rs_new (bv_from_op 4) bv_name ["(+ ?a ?b) ==> (+ ?b ?a)"] = Val rs /\ map snd rs = [r] /\ rkind r = KRhs /\
  Forall (fun e => typed_rule bv_arity (snd e)) rs /\
  to_egraph (bv_lang 4 ex_check) ex_keep 5 (WSet [Lst [Atom "+"; Atom "a"; Atom "b"]]) = Val g0 /\
  matches g0 r 2 [("a", 0); ("b", 1)] /\ class_data g0 2 = Val d /\ is_defined d = true /\
  apply_one (bv_lang 4 ex_check) ex_keep 5 r g0 2 [("a", 0); ("b", 1)] = Val (g1, ids) /\ ids = [3] /\ size g0 = 3 /\ size g1 = 4 /\ eqv g1 2 3.
Proof.
  do 6 eexists. split; [vm_compute; reflexivity|]. split; [reflexivity|]. split; [reflexivity|]. split; [repeat constructor|]. split; [vm_compute; reflexivity|]. split.
  { split.
    - eexists. split; [reflexivity|]. apply PM_node with [0; 1].
      + repeat constructor; (eapply PM_var; [reflexivity|eqv_tac]).
      + exists (Node VAdd [0; 1]), 2. split; [cbn; tauto|]. split; [reflexivity|]. split; [repeat constructor; eqv_tac|eqv_tac].
    - repeat constructor. }
  split; [vm_compute; reflexivity|]. split; [vm_compute; reflexivity|]. split; [vm_compute; reflexivity|]. split; [reflexivity|]. split; [reflexivity|]. split; [reflexivity|]. eqv_tac.
Qed.

(* ---------------- C51 ---------------- *)

(* every language: each line of the workload denotes a term, and it is there *)
Theorem C51_workload_present : forall O C (L : lang O C), (forall a b, l_eqb L a b = true <-> a = b) ->
  forall keep fuel w g, to_egraph L keep fuel w = Val g -> exists ss rs, force w = Val ss /\
  Forall2 (fun s r => parse_rec (l_from_op L) (display s) = Some r) ss rs /\
  Forall (fun r => exists t c, tree r = Val t /\ repr g t c) rs.
Proof. exact (@to_egraph_present). Qed.
Print Assumptions C51_workload_present.

(* Bitvectors, Halide and Pos: the e-graph represents the subterms of the workload
   and nothing else; there is one class for each; its vector is the value of the term
   on the samples, which initialize_vars made for the variables in order of first
   occurrence. *)
Theorem C51_exact : forall O C (L : lang O C) ar, literal_only L ar -> plain_vars L ->
  forall keep fuel w g, to_egraph L keep fuel w = Val g -> exists ss ts n vs,
  force w = Val ss /\ Forall2 (fun s t => parse_rec (l_from_op L) (display s) = Some (to_rec t)) ss ts /\
  l_init L (first_seen (flat_map (tvars (l_to_var L)) ts)) = Val (n, vs) /\
  (forall t, (exists c, repr g t c) <-> exists u, In u ts /\ In t (subterms u)) /\
  (forall t c d, repr g t c -> repr g t d -> c = d) /\ (forall t u c, repr g t c -> repr g u c -> t = u) /\
  (forall c, c < size g -> exists t, repr g t c) /\
  (forall us, NoDup us -> (forall t, In t us <-> exists u, In u ts /\ In t (subterms u)) -> number_of_classes g = length us) /\
  (forall t c, repr g t c -> exists v, vec g c v /\ cvec_term (l_eval L) (l_to_var L) n (var_cvec (map fst vs)) t = Val v).
Proof.
  intros O C L ar Lo Vr keep fuel w g H. destruct (to_egraph_plain L ar Lo Vr keep fuel w g H) as (ss & ts & n & vs & H1 & H2 & H3 & Td & _ & H4).
  exists ss, ts, n, vs. split; [exact H1|]. split; [exact H2|]. split; [exact H3|]. split; [exact H4|].
  split. { intros t c d Rc Rd. exact (tidy_one_class L ar _ _ g Td t c Rc d Rd). }
  split. { intros t u c Rt Ru. exact (tidy_one_term L ar _ _ g Td t c Rt u Ru). }
  split. { intros c. apply wf_represents. exact (cm_wf _ _ g (td_calm _ _ _ _ g Td)). }
  split. { intros us Nd Hu. apply (to_egraph_count L ar _ _ g us Td Nd). intros t. rewrite Hu. symmetry. apply H4. }
  intros t c Rc. exact (tidy_cvec L ar _ _ g Td t c Rc).
Qed.
Print Assumptions C51_exact.
Theorem C51_domains : (forall w check, literal_only (bv_lang w check) bv_arity /\ plain_vars (bv_lang w check)) /\
  (forall check, literal_only (hal_lang check) hal_arity /\ plain_vars (hal_lang check)) /\
  (forall depth, literal_only (pos_lang depth) pos_arity /\ plain_vars (pos_lang depth)).
Proof.
  split; [|split]; intros; split; [apply bv_literal_only|apply bv_plain_vars|apply hal_literal_only|apply hal_plain_vars|apply pos_literal_only|apply pos_plain_vars].
Qed.
Print Assumptions C51_domains.

(* languages that fold constants put different terms of the workload in one class *)
Theorem C51_folded_refuted : exists g c,
  to_egraph bool_lang ex_keep 5 (WSet [Lst [Atom "|"; Atom "x"; Atom "true"]; Lst [Atom "&"; Atom "true"; Atom "true"]]) = Val g /\
  repr g (T (BLit true) []) c /\ repr g (T BAnd [T (BLit true) []; T (BLit true) []]) c.
Proof.
  eexists. exists 3. split; [vm_compute; reflexivity|]. split.
  - apply Rp with []; [constructor|]. exists (Node (BLit true) []), 1. split; [cbn; tauto|]. split; [reflexivity|]. split; [constructor|eqv_tac].
  - apply Rp with [2; 2].
    + constructor; [|constructor; [|constructor]]; (apply Rp with []; [constructor|]; exists (Node (BLit true) []), 1; split; [cbn; tauto|]; split; [reflexivity|]; split; [constructor|eqv_tac]).
    + exists (Node BAnd [2; 2]), 3. split; [cbn; tauto|]. split; [reflexivity|]. split; [repeat constructor; eqv_tac|eqv_tac].
Qed.
Print Assumptions C51_folded_refuted.

(* two sums and a product share subterms: 2 variables and 3 operations *)
Example C51_hyp : exists g, to_egraph (bv_lang 4 ex_check) ex_keep 5
    (WSet [Lst [Atom "*"; Lst [Atom "+"; Atom "b"; Atom "a"]; Atom "a"]; Lst [Atom "+"; Atom "a"; Atom "b"]; Lst [Atom "+"; Atom "b"; Atom "a"]]) = Val g /\
  number_of_classes g = 5.
Proof. eexists. split; vm_compute; reflexivity. Qed.
