(* The large workloads of the recipes: which terms they have, exactly. *)
From Verif Require Import Base BaseProofs Sexp Reader Pattern Filter Workload Recipe EnumSpec Infer InferSpec.
From Verif Require Import SexpProofs CanonProofs PatternProofs FilterProofs WorkloadProofs ReaderProofs RecipeProofs GrammarProofs.
From Verif Require Import Recipes RecipesSpec RecipesProofs.
Open Scope string_scope.
Open Scope list_scope.

Fixpoint plug_list (w : workload) (pegs : list (string * list string)) : res workload :=
  match pegs with [] => Val w | (a, l) :: r => let* w1 := plug_new w a l in plug_list w1 r end.
Fixpoint plug_ready (pegs : list (string * list string)) : bool :=
  match pegs with
  | [] => true
  | (a, l) :: r => wordb a && negb (String.eqb a "*") && negb (starts_q a) && forallb (fun x => wordb x && match lookup r x with None => true | Some _ => false end) l && plug_ready r
  end.
Lemma plug_list_spec : forall pegs w ts, plug_ready pegs = true -> wproper w -> force w = Val ts ->
  exists w' us, plug_list w pegs = Val w' /\ wproper w' /\ force w' = Val us /\ forall u, In u us <-> exists t, In t ts /\ expand pegs t u.
Proof.
  induction pegs as [|[a l] r IH]; intros w ts Rd Hw Hf; cbn [plug_list].
  - exists w, ts. split; [reflexivity|]. split; [exact Hw|]. split; [exact Hf|]. intros u. split; [intros I; exists u; split; [exact I|now apply expand_nil]|]. intros (t & I & E). apply expand_nil in E. now subst.
  - cbn [plug_ready] in Rd. apply andb_prop in Rd as [Rd R1]. apply andb_prop in Rd as [Rd R2]. apply andb_prop in Rd as [Rd R3']. apply andb_prop in Rd as [Rd R4'].
    rewrite forallb_forall in R2. assert (Fl : Forall word l) by (apply Forall_forall; intros x I; specialize (R2 x I); apply andb_prop in R2 as [R2 _]; exact (wordb_word _ R2)).
    unfold plug_new. rewrite (wnew_words l Fl). cbn [rbind].
    destruct (plug_step w ts l a Hw Hf Fl (wordb_word _ Rd)) as (w1 & us1 & E1 & Hw1 & Hf1 & S1); [apply negb_true_iff, String.eqb_neq in R4'; exact R4'|apply negb_true_iff in R3'; exact R3'|].
    rewrite E1. cbn [rbind]. destruct (IH w1 us1 R1 Hw1 Hf1) as (w' & us & E & Hw' & Hf' & Sp). exists w', us. split; [exact E|]. split; [exact Hw'|]. split; [exact Hf'|].
    assert (Nl : forall x, In x l -> lookup r x = None) by (intros x I; specialize (R2 x I); apply andb_prop in R2 as [_ R2]; now destruct (lookup r x)).
    intros u. rewrite Sp. split.
    + intros (t' & I & X). apply S1 in I as (t & It & F). exists t. split; [exact It|]. apply (expand_cons _ _ _ Nl). eauto.
    + intros (t & It & X). apply (expand_cons _ _ _ Nl) in X as (t' & F & X). exists t'. split; [apply S1; eauto|exact X].
Qed.
Lemma expand_ext : forall p q, (forall s, lookup p s = lookup q s) -> forall t u, expand p t u -> expand q t u.
Proof.
  intros p q E. induction t as [s|l IH] using sexp_ind'; intros u H; inversion H as [? l' x El Ix|? El|? l' F]; subst.
  - apply EX_hole with l'; [now rewrite <- E|exact Ix].
  - apply EX_atom. now rewrite <- E.
  - constructor. clear H. revert l' F. induction IH as [|t l Ht _ IHl]; intros l' F; inversion F; subst; constructor; auto.
Qed.
Lemma built_lterm : forall vars a b, forall u, built vars (each 1 a ++ each 2 b) u -> exists c, lterm (WLang [] vars [a; b]) c u.
Proof.
  intros vars a b. induction u as [s|l IH] using sexp_ind'; intros B; inversion B as [? I|o args I F]; subst; [exists true; now constructor|].
  inversion IH as [|? ? _ IH']; subst.
  assert (X : exists bs, Forall2 (lterm (WLang [] vars [a; b])) bs args).
  { clear - F IH'. induction F as [|x r Bx _ IHf]; [exists []; constructor|]. inversion IH' as [|? ? Hx Hr]; subst. destruct (Hx Bx) as [c Hc]. destruct (IHf Hr) as [bs Hbs]. exists (c :: bs). now constructor. }
  destruct X as [bs X]. exists (existsb (fun b => b) bs). apply in_app_or in I as [I|I]; apply in_map_iff in I as (o' & E & I); injection E as -> E.
  - apply (LT_app _ 0 a); auto.
  - apply (LT_app _ 1 b); auto.
Qed.
Lemma keeps_in : forall A (P : A -> Prop) l l', keeps P l l' -> forall x, In x l' <-> In x l /\ P x.
Proof.
  intros A P l l' K. induction K as [|y l l' Py _ IH|y l l' Ny _ IH]; intros x; cbn; [tauto| |]; rewrite IH.
  - split; [intros [<-|[I H]]; auto|]. intros [[<-|I] H]; auto.
  - split; [intros [I H]; auto|]. intros [[<-|I] H]; [contradiction|auto].
Qed.
(* all terms over variables, unary and binary operators, up to the size, that are canonical *)
Theorem canonical_terms : forall met n vars a b pegs, plain_namesb (WLang [] vars [a; b]) = true -> plug_ready pegs = true -> (forall s, lookup pegs s = lookup (all_pegs (WLang [] vars [a; b])) s) -> NoDup vars ->
  exists w us, (let* base := base_lang 2 in let* w := iter_metric base "EXPR" met (S n) in let* w := plug_list w pegs in Val (wfilter w (Canon vars))) = Val w /\ wproper w /\ force w = Val us /\
    forall u, In u us <-> built vars (each 1 a ++ each 2 b) u /\ size met u <= S n /\ canonical vars u.
Proof.
  intros met n vars a b pegs Pn Rd Lk Nd. set (l := WLang [] vars [a; b]) in *. rewrite (base_lang_val 2). cbn [rbind].
  destruct (iter_metric_stage (WSet (base_grammar 2)) "EXPR" met (S n) (base_grammar_proper 2)) as (w0 & E0 & Hw0 & Hf0); [discriminate|].
  rewrite E0. cbn [rbind]. destruct (plug_list_spec pegs w0 (pforce w0) Rd Hw0 (proj1 (force_proper w0 Hw0))) as (w1 & us1 & E1 & Hw1 & Hf1 & S1).
  rewrite E1. cbn [rbind]. destruct (wfilter_keeps w1 (Canon vars) Hw1 Nd) as (ts & us & Ht & Hu & Hk). rewrite Hf1 in Ht. injection Ht as <-.
  exists (wfilter w1 (Canon vars)), us. split; [reflexivity|]. split; [now apply wproper_wfilter|]. split; [exact Hu|].
  intros u. rewrite (keeps_in _ _ _ _ Hk), S1.
  assert (G : (exists t, In t (pforce w0) /\ expand pegs t u) <-> built vars (each 1 a ++ each 2 b) u /\ size met u <= S n).
  { rewrite Hf0. cbn [pforce]. split.
    - intros (t & It & X). apply stage_spec in It as [Gt Sz]; [|apply base_grammar_proper|apply base_grammar_productive]. split; [|now rewrite (expand_size _ _ _ _ X)].
      apply (expand_ext _ _ Lk) in X.
      assert (exists c, c = true <-> occurs "VAR" t) as (c & Hc). { destruct (in_dec string_dec "VAR" (leaves t)) as [I|N]; [exists true; split; auto|exists false; split; [discriminate|intros I; destruct (N I)]]. }
      assert (Lt : lterm l c u) by (apply (skel_lterm l); [cbn; lia|]; exists t; split; [now apply gen_skel|]; auto).
      apply (lterm_built l) in Lt; [|now left]. cbn in Lt. rewrite app_nil_r in Lt. exact Lt.
    - intros [B Sz]. destruct (built_lterm _ _ _ _ B) as [c Lt]. apply (skel_lterm l) in Lt as (t & Sk & X & _); [|cbn; lia]. exists t. split.
      + apply stage_spec; [apply base_grammar_proper|apply base_grammar_productive|]. split; [now apply gen_skel|]. now rewrite <- (expand_size _ _ _ _ X).
      + apply (expand_ext (all_pegs l) pegs); [auto|exact X]. }
  rewrite G. cbn [sat]. tauto.
Qed.

Theorem bool_a7_terms : exists w us, bool_a7 = Val w /\ force w = Val us /\
  forall u, In u us <-> built abc (each 1 ["~"] ++ each 2 ["&"; "|"; "^"]) u /\ size Atoms u <= 7 /\ canonical abc u.
Proof.
  destruct (canonical_terms Atoms 6 abc ["~"] ["&"; "|"; "^"] [("VAL", []); ("VAR", abc); ("OP1", ["~"]); ("OP2", ["&"; "|"; "^"])]) as (w & us & E & _ & H); [reflexivity|reflexivity| | |].
  - intros s. unfold all_pegs. cbn -[String.eqb]. destruct (String.eqb_spec s "VAL") as [->|N]; [reflexivity|]. reflexivity.
  - repeat constructor; cbn; intuition discriminate.
  - exists w, us. split; [|exact H]. rewrite <- E. unfold bool_a7, plug_list, plug_new. destruct (base_lang 2) as [b|]; [|reflexivity]. cbn [rbind]. destruct (iter_metric b "EXPR" Atoms 7) as [w0|]; [|reflexivity]. cbn [rbind].
    change (wnew []) with (Val wempty). cbn [rbind]. destruct (wplug w0 "VAL" wempty) as [w1|]; [|reflexivity]. cbn [rbind]. destruct (wnew abc) as [p1|]; [|reflexivity]. cbn [rbind].
    destruct (wplug w1 "VAR" p1) as [w2|]; [|reflexivity]. cbn [rbind]. destruct (wnew ["~"]) as [p2|]; [|reflexivity]. cbn [rbind]. destruct (wplug w2 "OP1" p2) as [w3|]; [|reflexivity]. cbn [rbind].
    destruct (wnew ["&"; "|"; "^"]) as [p3|]; [|reflexivity]. cbn [rbind]. destruct (wplug w3 "OP2" p3) as [w4|]; reflexivity.
Qed.
Theorem bv_a6_terms : exists w us, bv_a6 = Val w /\ force w = Val us /\
  forall u, In u us <-> (built abc (each 1 ["~"; "-"] ++ each 2 ["&"; "|"; "*"; "--"; "+"; "<<"; ">>"]) u /\ size Atoms u <= 6 /\ canonical abc u) \/ u = Atom "0" \/ u = Atom "1".
Proof.
  destruct (canonical_terms Atoms 5 abc ["~"; "-"] ["&"; "|"; "*"; "--"; "+"; "<<"; ">>"] [("VAR", abc); ("VAL", []); ("OP1", ["~"; "-"]); ("OP2", ["&"; "|"; "*"; "--"; "+"; "<<"; ">>"])]) as (w & us & E & Hw & Hf & H); [reflexivity|reflexivity| | |].
  - reflexivity.
  - repeat constructor; cbn; intuition discriminate.
  - exists (WAppend [w; WSet [Atom "0"; Atom "1"]]), (us ++ [Atom "0"; Atom "1"]). split; [|split].
    + unfold bv_a6. unfold plug_list, plug_new in E. destruct (base_lang 2) as [b|]; [|discriminate E]. cbn [rbind] in *. destruct (iter_metric b "EXPR" Atoms 6) as [w0|]; [|discriminate E]. cbn [rbind] in *.
      change (wnew []) with (Val wempty) in E. unfold plug_new. destruct (wnew abc) as [p1|]; [|discriminate E]. cbn [rbind] in *. destruct (wplug w0 "VAR" p1) as [w1|]; [|discriminate E]. cbn [rbind] in *.
      destruct (wplug w1 "VAL" wempty) as [w2|]; [|discriminate E]. cbn [rbind] in *. destruct (wnew ["~"; "-"]) as [p2|]; [|discriminate E]. cbn [rbind] in *. destruct (wplug w2 "OP1" p2) as [w3|]; [|discriminate E]. cbn [rbind] in *.
      destruct (wnew ["&"; "|"; "*"; "--"; "+"; "<<"; ">>"]) as [p3|]; [|discriminate E]. cbn [rbind] in *. destruct (wplug w3 "OP2" p3) as [w4|]; [|discriminate E]. cbn [rbind] in *. injection E as <-. reflexivity.
    + cbn [force rmapM]. rewrite Hf. reflexivity.
    + intros u. rewrite in_app_iff, H. cbn. intuition.
Qed.

(* ---- by enumeration ---- *)
Inductive trie : Type := Tr (here : bool) (kids : list (ascii * trie)).
Fixpoint upd (c : ascii) (f : trie -> trie) (k : list (ascii * trie)) : list (ascii * trie) :=
  match k with
  | [] => [(c, f (Tr false []))]
  | (d, t) :: r => if Ascii.eqb c d then (d, f t) :: r else (d, t) :: upd c f r
  end.
Fixpoint tget (c : ascii) (k : list (ascii * trie)) : option trie :=
  match k with [] => None | (d, t) :: r => if Ascii.eqb c d then Some t else tget c r end.
Fixpoint tins (s : string) (t : trie) : trie :=
  match t with
  | Tr b k => match s with EmptyString => Tr true k | String c r => Tr b (upd c (tins r) k) end
  end.
Fixpoint tmem (s : string) (t : trie) : bool :=
  match t with
  | Tr b k => match s with EmptyString => b | String c r => match tget c k with Some t' => tmem r t' | None => false end end
  end.
Lemma tmem_none : forall s, tmem s (Tr false []) = false.
Proof. destruct s; reflexivity. Qed.
Lemma tget_upd : forall c d f k, tget c (upd d f k) = if Ascii.eqb c d then Some (f (match tget d k with Some t => t | None => Tr false [] end)) else tget c k.
Proof.
  intros c d f. induction k as [|[e t] r IH]; cbn.
  - destruct (Ascii.eqb c d); reflexivity.
  - destruct (Ascii.eqb_spec d e) as [->|N].
    + cbn. destruct (Ascii.eqb c e); reflexivity.
    + cbn. rewrite IH. destruct (Ascii.eqb_spec c e) as [->|M]; [|reflexivity]. destruct (Ascii.eqb_spec e d) as [->|_]; [now elim N|reflexivity].
Qed.
Lemma tmem_tins : forall s' s t, tmem s (tins s' t) = true -> s = s' \/ tmem s t = true.
Proof.
  induction s' as [|d r' IH]; intros [|c r] [b k]; cbn; auto. rewrite tget_upd. destruct (Ascii.eqb_spec c d) as [->|N]; [|auto].
  intros H. apply IH in H as [->|H]; [now left|]. right. destruct (tget d k); [exact H|]. now rewrite tmem_none in H.
Qed.
Definition tbuild (l : list sexp) : trie := fold_left (fun t u => tins (display u) t) l (Tr false []).
Lemma tmem_build : forall l s, tmem s (tbuild l) = true -> In s (map display l).
Proof.
  intros l s. unfold tbuild. assert (G : forall l t, tmem s (fold_left (fun t u => tins (display u) t) l t) = true -> In s (map display l) \/ tmem s t = true).
  { induction l0 as [|u l0 IH]; intros t H; [now right|]. cbn in *. apply IH in H as [H|H]; [auto|]. apply tmem_tins in H as [->|H]; auto. }
  intros H. apply G in H as [H|H]; [exact H|]. now rewrite tmem_none in H.
Qed.
Fixpoint wordsb (t : sexp) : bool := match t with Atom s => wordb s | Lst l => forallb wordsb l end.
Lemma wordsb_ok : forall t, wordsb t = true -> words t.
Proof.
  induction t as [s|l IH] using sexp_ind'; intros E; [exact (wordb_word _ E)|]. apply words_list. intros t I. cbn in E. rewrite forallb_forall in E. rewrite Forall_forall in IH. auto.
Qed.
Definition same_set (wl : res workload) (l : list sexp) : bool :=
  match wl with
  | Val w => match force w with
             | Val us => forallb wordsb us && forallb wordsb l && (let t := tbuild l in forallb (fun u => tmem (display u) t) us) && (let t := tbuild us in forallb (fun u => tmem (display u) t) l)
             | Panic => false
             end
  | Panic => false
  end.
Lemma tmem_in : forall l u, forallb wordsb l = true -> wordsb u = true -> tmem (display u) (tbuild l) = true -> In u l.
Proof.
  intros l u Wl Wu H. apply tmem_build in H. apply in_map_iff in H as (v & E & I). rewrite forallb_forall in Wl. apply display_inj in E; [now subst|exact (wordsb_ok _ (Wl v I))|exact (wordsb_ok _ Wu)].
Qed.
Lemma same_set_ok : forall wl l, same_set wl l = true -> exactly wl (fun u => In u l).
Proof.
  intros wl l E. unfold same_set in E. destruct wl as [w|]; [|discriminate E]. destruct (force w) as [us|] eqn:Ef; [|discriminate E]. exists w, us. split; [reflexivity|]. split; [exact Ef|].
  apply andb_prop in E as [E E2]. apply andb_prop in E as [E E1]. apply andb_prop in E as [Wu Wl]. cbv zeta in E1, E2. rewrite forallb_forall in E1, E2.
  intros u. split; intros I; apply tmem_in; auto.
  - rewrite forallb_forall in Wu. auto.
  - rewrite forallb_forall in Wl. auto.
Qed.
Lemma same_set_canonical : forall wl vars l, NoDup vars -> same_set wl (List.filter (ptest (Canon vars)) l) = true -> exactly wl (fun u => In u l /\ canonical vars u).
Proof.
  intros wl vars l N E. destruct (same_set_ok _ _ E) as (w & us & Ew & Ef & H). exists w, us. split; [exact Ew|]. split; [exact Ef|]. intros u. rewrite H, filter_In. rewrite (ptest_sat (Canon vars) u N). reflexivity.
Qed.
