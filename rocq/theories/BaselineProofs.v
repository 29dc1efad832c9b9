(* Reading a file of rules, each on a line of its own. *)
From Verif Require Import Base BaseProofs Lines Sexp Reader ReaderProofs EnumSpec Lang Syntax Rule Ruleset LearntSpec BaselineSpec.
Open Scope string_scope.
Open Scope list_scope.

Section Lines.
  Context {O : Type}.
  Variable from_op : string -> nat -> option O.
  Variable name : O -> string.
  (* the line is the name of one rule, for which P holds *)
  Definition line (P : rule O -> Prop) (s : string) : Prop :=
    exists r, rule_from_string from_op name s = Val (Some (r, None)) /\ rname r = s /\ P r.

  Lemma line_fun P Q s : line P s -> line Q s -> line (fun r => P r /\ Q r) s.
  Proof. intros (r & E & N & H) (r' & E' & _ & H'). rewrite E in E'. injection E' as <-. exists r. auto. Qed.
  Lemma line_impl (P Q : rule O -> Prop) s : (forall r, rname r = s -> P r -> Q r) -> line P s -> line Q s.
  Proof. intros G (r & E & N & H). exists r. auto. Qed.

  Lemma insert_keys {V} (m : imap V) k v x : In x (map fst (insert m k v)) <-> x = k \/ In x (map fst m).
  Proof.
    induction m as [|[k' v'] m IH]; cbn; [intuition|]. destruct (String.eqb_spec k k') as [->|]; cbn; [|rewrite IH]; intuition.
  Qed.
  Lemma insert_Forall {V} (P : string * V -> Prop) (m : imap V) k v : P (k, v) -> Forall P m -> Forall P (insert m k v).
  Proof.
    intros H. induction m as [|[k' v'] m IH]; cbn; intros F; [repeat constructor; exact H|]. inversion F as [|? ? F1 F2]; subst.
    destruct (String.eqb_spec k k') as [->|]; constructor; auto.
  Qed.
  Lemma insert_new {V} (m : imap V) k v : ~ In k (map fst m) -> insert m k v = m ++ [(k, v)].
  Proof.
    induction m as [|[k' v'] m IH]; cbn; intros H; [reflexivity|]. destruct (String.eqb_spec k k') as [->|]; [elim H; now left|]. rewrite IH; [reflexivity|tauto].
  Qed.
  Definition entry (P : rule O -> Prop) (e : string * rule O) : Prop := rname (snd e) = fst e /\ P (snd e).
  Lemma add_lines_ok P ls : Forall (line P) ls -> forall m, Forall (entry P) m -> NoDup (map fst m ++ ls) ->
    exists m', add_lines from_op name m ls = Val m' /\ map fst m' = map fst m ++ ls /\ Forall (entry P) m'.
  Proof.
    induction ls as [|s ls IH]; intros F m Fm N.
    - exists m. rewrite app_nil_r. auto.
    - inversion F as [|? ? (r & E & Nm & H) F']; subst. cbn [add_lines]. unfold add_line. rewrite E. cbn [rbind]. unfold rs_add.
      assert (X : ~ In (rname r) (map fst m)) by (apply NoDup_remove_2 in N; rewrite in_app_iff in N; tauto).
      rewrite (insert_new _ _ _ X). destruct (IH F' (m ++ [(rname r, r)])) as (m' & A & K & Fm').
      + apply Forall_app. split; [exact Fm|]. repeat constructor. exact H.
      + rewrite map_app, <- app_assoc. exact N.
      + exists m'. split; [exact A|]. split; [|exact Fm']. rewrite K, map_app, <- app_assoc. reflexivity.
  Qed.
  (* nothing in the text but one rule in each line *)
  Lemma file_ok P ls : Forall (line P) ls -> NoDup ls -> forallb (fun l => all_chars (fun c => negb (Ascii.eqb c newline)) l && all_chars (fun c => negb (Ascii.eqb c carriage)) l) ls = true ->
    exists rs, rs_from_file from_op name (unlines ls) = Val rs /\ map fst rs = ls /\ forall k r, In (k, r) rs -> rname r = k /\ P r.
  Proof.
    intros F N C. destruct (add_lines_ok P ls F [] (Forall_nil _) N) as (rs & A & K & Fr). exists rs. split; [|split; [exact K|]].
    - unfold rs_from_file. rewrite lines_unlines; [exact A|]. intros l I. rewrite forallb_forall in C. now apply andb_prop, C.
    - intros k r I. rewrite Forall_forall in Fr. exact (Fr _ I).
  Qed.
  (* P holds of exactly the lines that are not listed as exceptions *)
  Lemma split_ok (P : rule O -> Prop) ls wrong : Forall (fun s => line P s \/ In s wrong) ls -> Forall (line (fun r => ~ P r)) wrong ->
    Forall (line (fun r => P r <-> ~ In (rname r) wrong)) ls.
  Proof.
    intros F W. rewrite Forall_forall in *. intros s I. destruct (F s I) as [H|H].
    - eapply line_impl; [|exact H]. intros r Nm Hp. split; [|auto]. intros _ Iw. rewrite Nm in Iw.
      destruct (line_fun _ _ _ H (W s Iw)) as (r' & _ & _ & A & B). tauto.
    - eapply line_impl; [|exact (W s H)]. intros r Nm Hp. cbv beta in Hp. rewrite Nm. tauto.
  Qed.
End Lines.
Lemma differs_not {O A} (mk_var : string -> O) (in_range : A -> Prop) den r : differs mk_var in_range den r -> ~ identity mk_var in_range den r.
Proof.
  intros (tl & tr & env & v & v' & T1 & T2 & R & D1 & D2 & N) (tl' & tr' & T1' & T2' & H). rewrite T1 in T1'. rewrite T2 in T2'. injection T1' as <-. injection T2' as <-.
  destruct (H env R) as (u & E1 & E2). congruence.
Qed.
