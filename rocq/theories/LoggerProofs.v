(* Proofs about Logger.v. *)
From Verif Require Import Base Logger LoggerSpec.
Open Scope list_scope.

Section Logger.
  Context {J : Type}.
  Variable print : list J -> list ascii.
  Variable parse : list ascii -> option (list J).
  Hypothesis right : json_right print parse.
  Local Notation step := (step print parse).
  Local Notation steps := (steps print parse).
  Local Notation holds := (holds_rows print).

  Lemma rows_of_holds : forall f rows, holds f rows -> rows_of parse (bytes f) = Some rows.
  Proof.
    intros f rows H. destruct H as [| |rows]; try reflexivity. cbn. unfold rows_of. destruct (print rows) eqn:E; [destruct (proj2 right rows E)|]. rewrite <- E. apply right.
  Qed.
  Lemma holds_inj : forall f r1 r2, holds f r1 -> holds f r2 -> r1 = r2.
  Proof. intros f r1 r2 H1 H2. apply rows_of_holds in H1, H2. congruence. Qed.

  (* what is known while one call runs alone on a log that holds [rows] *)
  Definition good (rows : list J) (r : J) (f : file) (p : call J) : Prop :=
    match p with
    | Start r' => r' = r /\ holds f rows
    | Reading r' got => r' = r /\ holds f rows /\ exists rest, bytes f = got ++ rest
    | Read r' text => r' = r /\ holds f rows /\ text = bytes f
    | Writing todo off => exists pre, f = Some pre /\ length pre = off /\ pre ++ todo = print (rows ++ [r])
    | Done => f = Some (print (rows ++ [r]))
    | Panicked => False
    end.
  Lemma skipn_app_exact : forall A (l r : list A), skipn (length l) (l ++ r) = r.
  Proof. intros A l r. rewrite skipn_app, skipn_all, Nat.sub_diag. reflexivity. Qed.
  Lemma write_at_end : forall c chunk, write_at c (length c) chunk = c ++ chunk.
  Proof.
    intros c chunk. unfold write_at. rewrite firstn_all, Nat.sub_diag. cbn. rewrite skipn_all2 by lia. now rewrite app_nil_r.
  Qed.
  Lemma good_step : forall rows r f p f' p', step f p f' p' -> good rows r f p -> good rows r f' p'.
  Proof.
    intros rows r f p f' p' S G. destruct S as [f r'|f r' got n N|f r' got E|f r' text rs E|f r' text E|f todo off n N|f off]; cbn [good] in G |- *.
    - destruct G as [-> H]. split; [reflexivity|]. split; [destruct H; constructor|]. exists (bytes f). reflexivity.
    - destruct G as (-> & H & rest & E). split; [reflexivity|]. split; [exact H|]. exists (skipn n rest).
      rewrite E, skipn_app_exact, <- app_assoc, firstn_skipn. reflexivity.
    - destruct G as (-> & H & rest & E'). split; [reflexivity|]. split; [exact H|]. rewrite E', skipn_app_exact in E. subst rest. now rewrite app_nil_r in E'.
    - destruct G as (-> & H & ->). rewrite (rows_of_holds f rows H) in E. injection E as <-. exists []. auto.
    - destruct G as (-> & H & ->). rewrite (rows_of_holds f rows H) in E. discriminate E.
    - destruct G as (pre & -> & <- & E). cbn [bytes]. rewrite write_at_end. exists (pre ++ firstn n todo). split; [reflexivity|]. split; [apply app_length|].
      rewrite <- app_assoc, firstn_skipn. exact E.
    - destruct G as (pre & -> & _ & E). rewrite app_nil_r in E. now subst.
  Qed.
  Lemma good_steps : forall rows r f p f' p', steps f p f' p' -> good rows r f p -> good rows r f' p'.
  Proof. intros rows r f p f' p' S. induction S as [|f p f1 p1 f2 p2 S1 _ IH]; intros G; [exact G|]. eauto using good_step. Qed.
  Lemma steps_trans : forall f p f1 p1 f2 p2, steps f p f1 p1 -> steps f1 p1 f2 p2 -> steps f p f2 p2.
  Proof. intros f p f1 p1 f2 p2 H. induction H; intros K; [exact K|]. econstructor; eauto. Qed.

  (* a call on a readable log can be completed from wherever it is *)
  Lemma finish_write : forall f todo off, exists f', steps f (Writing todo off) f' Done.
  Proof.
    intros f todo off. destruct todo as [|a todo]; [exists f; econstructor; [apply S_done|constructor]|].
    eexists. eapply Steps_more; [apply (S_write print parse f (a :: todo) off (length (a :: todo))); cbn; discriminate|].
    rewrite skipn_all. eapply Steps_more; [apply S_done|constructor].
  Qed.
  Lemma finish_read : forall f r text rows, rows_of parse text = Some rows -> exists f', steps f (Read r text) f' Done.
  Proof.
    intros f r text rows E. destruct (finish_write (Some []) (print (rows ++ [r])) 0) as (f' & S). exists f'. eapply Steps_more; [apply (S_truncate print parse f r text rows E)|exact S].
  Qed.
  Lemma read_all : forall f r got rest, bytes f = got ++ rest -> steps f (Reading r got) f (Read r (bytes f)).
  Proof.
    intros f r got rest E. destruct rest as [|a rest].
    - rewrite app_nil_r in E. rewrite E. eapply Steps_more; [apply S_eof; rewrite E; apply skipn_all|constructor].
    - assert (Hs : skipn (length got) (bytes f) = a :: rest) by (rewrite E; apply skipn_app_exact).
      eapply Steps_more; [apply (S_read print parse f r got (length (a :: rest))); rewrite Hs, firstn_all; discriminate|]. rewrite Hs, firstn_all, <- E.
      eapply Steps_more; [apply S_eof, skipn_all|constructor].
  Qed.
  Lemma finish : forall rows r f p, good rows r f p -> exists f', steps f p f' Done.
  Proof.
    intros rows r f p G. destruct p as [r'|r' got|r' text|todo off| |]; cbn [good] in G.
    - destruct G as [-> H]. destruct (finish_read (Some (bytes f)) r (bytes f) rows) as (f' & S); [now apply rows_of_holds|]. exists f'.
      eapply Steps_more; [apply S_open|]. eapply steps_trans; [apply (read_all (Some (bytes f)) r [] (bytes f) eq_refl)|exact S].
    - destruct G as (-> & H & rest & E). destruct (finish_read f r (bytes f) rows) as (f' & S); [now apply rows_of_holds|]. exists f'.
      eapply steps_trans; [exact (read_all f r got rest E)|exact S].
    - destruct G as (-> & H & ->). exact (finish_read f r (bytes f) rows (rows_of_holds f rows H)).
    - apply finish_write.
    - exists f. constructor.
    - destruct G.
  Qed.
  Lemma calls_rows : forall f rs f' rows, calls print parse f rs f' -> holds f rows -> holds f' (rows ++ rs).
  Proof.
    intros f rs f' rows C. revert rows. induction C as [f|f r f1 rs f2 S C IH]; intros rows H; [now rewrite app_nil_r|].
    replace (rows ++ r :: rs) with ((rows ++ [r]) ++ rs) by now rewrite <- app_assoc. apply IH.
    pose proof (good_steps rows r _ _ _ _ S (conj eq_refl H)) as G. cbn in G. subst f1. constructor.
  Qed.
  Lemma calls_total : forall rs f rows, holds f rows -> exists f', calls print parse f rs f'.
  Proof.
    induction rs as [|r rs IH]; intros f rows H; [exists f; constructor|]. destruct (finish rows r f (Start r) (conj eq_refl H)) as (f1 & S1).
    pose proof (good_steps rows r _ _ _ _ S1 (conj eq_refl H)) as G. cbn in G. destruct (IH f1 (rows ++ [r])) as (f2 & C); [subst f1; constructor|]. exists f2. econstructor; eauto.
  Qed.

  (* a file that cannot be read as rows *)
  Lemma torn_step : forall text (r : J) f p f' p', rows_of parse text = None -> step f p f' p' ->
    f = Some text /\ match p with Start _ => True | Reading _ got => exists rest, text = got ++ rest | Read _ t => t = text | Panicked => True | _ => False end ->
    f' = Some text /\ match p' with Start _ => True | Reading _ got => exists rest, text = got ++ rest | Read _ t => t = text | Panicked => True | _ => False end.
  Proof.
    intros text _ f p f' p' N S [-> G]. inversion S as [? r'|? r' got n Nn|? r' got E|? r' t rs E|? r' t E|? todo off n Nn|? off]; subst; cbn [bytes] in *; try tauto.
    - split; [reflexivity|]. exists text. reflexivity.
    - split; [reflexivity|]. destruct G as (rest & ->). exists (skipn n rest). rewrite skipn_app_exact, <- app_assoc, firstn_skipn. reflexivity.
    - split; [reflexivity|]. destruct G as (rest & ->). rewrite skipn_app_exact in E. subst rest. now rewrite app_nil_r.
    - congruence.
  Qed.
  Lemma torn_steps : forall text r f' p', rows_of parse text = None -> steps (Some text) (Start r) f' p' -> f' = Some text /\ p' <> Done.
  Proof.
    intros text r f' p' N S.
    assert (K : forall f p f' p', steps f p f' p' ->
      f = Some text /\ match p with Start _ => True | Reading _ got => exists rest, text = got ++ rest | Read _ t => t = text | Panicked => True | _ => False end ->
      f' = Some text /\ match p' with Start _ => True | Reading _ got => exists rest, text = got ++ rest | Read _ t => t = text | Panicked => True | _ => False end).
    { intros g p g' q R. induction R as [|? ? ? ? ? ? R1 _ IH]; intros G; [exact G|]. apply IH. exact (torn_step text r _ _ _ _ N R1 G). }
    destruct (K _ _ _ _ S (conj eq_refl I)) as [-> G]. split; [reflexivity|]. intros ->. exact G.
  Qed.

  Lemma write_all : forall f text, text <> [] -> step (Some []) (Writing text 0) (Some text) (Writing [] (length text)) /\ step f (Writing [] (length text)) f Done.
  Proof.
    intros f text N. split; [|apply S_done].
    pose proof (S_write print parse (Some []) text 0 (length text)) as S. rewrite firstn_all, skipn_all in S. unfold write_at in S. cbn [bytes firstn length Nat.sub repeat app Nat.add] in S.
    rewrite skipn_nil, app_nil_r in S. exact (S N).
  Qed.
  (* crash after the truncation *)
  Lemma crash_loses : forall rows r, exists p, steps (Some (print rows)) (Start r) (Some []) p /\ p <> Done.
  Proof.
    intros rows r. exists (Writing (print (rows ++ [r])) 0). split; [|discriminate]. eapply Steps_more; [apply S_open|]. eapply steps_trans; [apply (read_all (Some (print rows)) r [] _ eq_refl)|].
    eapply Steps_more; [|constructor]. apply S_truncate. apply (rows_of_holds (Some (print rows))). constructor.
  Qed.

  Local Notation steps2 := (steps2 print parse).
  Lemma left_steps : forall f p f1 p1 q f2 p2 q2, steps f p f1 p1 -> steps2 f1 p1 q f2 p2 q2 -> steps2 f p q f2 p2 q2.
  Proof. intros f p f1 p1 q f2 p2 q2 H. induction H; intros K; [exact K|]. eapply Steps2_left; eauto. Qed.
  Lemma right_steps : forall f q f1 q1 p f2 p2 q2, steps f q f1 q1 -> steps2 f1 p q1 f2 p2 q2 -> steps2 f p q f2 p2 q2.
  Proof. intros f q f1 q1 p f2 p2 q2 H. induction H; intros K; [exact K|]. eapply Steps2_right; eauto. Qed.
  Lemma to_write : forall rows r, steps (Some (print rows)) (Start r) (Some []) (Writing (print (rows ++ [r])) 0).
  Proof.
    intros rows r. eapply Steps_more; [apply S_open|]. eapply steps_trans; [apply (read_all (Some (print rows)) r [] _ eq_refl)|].
    eapply Steps_more; [|constructor]. apply S_truncate. apply (rows_of_holds (Some (print rows))). constructor.
  Qed.
  Lemma to_read : forall c r, steps (Some c) (Start r) (Some c) (Read r c).
  Proof. intros c r. eapply Steps_more; [apply S_open|]. exact (read_all (Some c) r [] c eq_refl). Qed.
  Lemma write_done : forall text, text <> [] -> steps (Some []) (Writing text 0) (Some text) Done.
  Proof. intros text N. destruct (write_all (Some text) text N) as [A B]. eapply Steps_more; [exact A|]. eapply Steps_more; [exact B|constructor]. Qed.
  (* the second call reads the file the first has just truncated *)
  Lemma race_all : forall rows r1 r2, steps2 (Some (print rows)) (Start r1) (Start r2) (Some (print [r2])) Done Done.
  Proof.
    intros rows r1 r2. eapply left_steps; [apply to_write|]. eapply right_steps; [apply to_read|]. eapply left_steps; [apply write_done, right|].
    eapply right_steps; [|constructor]. eapply Steps_more; [apply (S_truncate print parse _ r2 [] []); reflexivity|]. apply write_done, right.
  Qed.
  (* both calls read before either writes *)
  Lemma race_new : forall rows r1 r2, steps2 (Some (print rows)) (Start r1) (Start r2) (Some (print (rows ++ [r2]))) Done Done.
  Proof.
    intros rows r1 r2. eapply right_steps; [apply to_read|]. eapply left_steps; [eapply steps_trans; [apply to_write|apply write_done, right]|].
    eapply right_steps; [|constructor]. eapply Steps_more; [apply S_truncate, (rows_of_holds (Some (print rows))); constructor|]. apply write_done, right.
  Qed.
  (* one after the other, also as a run of two calls *)
  Lemma serial_two : forall f f1 f2 r1 r2, steps f (Start r1) f1 Done -> steps f1 (Start r2) f2 Done -> steps2 f (Start r1) (Start r2) f2 Done Done.
  Proof. intros f f1 f2 r1 r2 A B. eapply left_steps; [exact A|]. eapply right_steps; [exact B|constructor]. Qed.
End Logger.
