(* Theorems about the text of operators, literals and terms (C55) and about the
   sample inputs of each domain (C18). *)
From Coq Require Import NArith ZArith QArith Qcanon.
From Verif Require Import Base EnumSpec Lang Util BV BVText BoolDom NatDom PosDom BvBoolDom Number Rational Halide
  Syntax Rule Ruleset RuleSpec LangProofs SyntaxProofs Domains TextSpec TextProofs SampleSpec SampleProofs.
Open Scope string_scope.
Open Scope list_scope.

(* ---------------- C55 ---------------- *)

(* the printed form of a term reads back as that term, in every domain *)
Theorem C55_terms_bv : forall w t, (w <= 128)%N -> wf_term bv_arity t -> tall (bv_plain w) t ->
  parse_rec (bv_from_op w) (show_term bv_name t) = Some (to_rec t).
Proof. intros w t Hw. apply term_reads. intros o. now apply bv_reads. Qed.
Print Assumptions C55_terms_bv.

Theorem C55_terms_bool : forall t, wf_term bool_arity t -> tall bool_plain t ->
  parse_rec bool_from_op (show_term bool_name t) = Some (to_rec t).
Proof. exact (term_reads _ _ _ _ bool_reads). Qed.
Print Assumptions C55_terms_bool.

Theorem C55_terms_nat : forall t, wf_term nat_arity t -> tall nat_plain t ->
  parse_rec nat_from_op (show_term nat_name t) = Some (to_rec t).
Proof. exact (term_reads _ _ _ _ nat_reads). Qed.
Print Assumptions C55_terms_nat.

Theorem C55_terms_pos : forall t, wf_term pos_arity t -> tall pos_plain t ->
  parse_rec pos_from_op (show_term pos_name t) = Some (to_rec t).
Proof. exact (term_reads _ _ _ _ pos_reads). Qed.
Print Assumptions C55_terms_pos.

Theorem C55_terms_bv_bool : forall t, wf_term bb_arity t -> tall bb_plain t ->
  parse_rec bb_from_op (show_term bb_name t) = Some (to_rec t).
Proof. exact (term_reads _ _ _ _ bb_reads). Qed.
Print Assumptions C55_terms_bv_bool.

Theorem C55_terms_halide : forall t, wf_term hal_arity t -> tall hal_plain t ->
  parse_rec hal_from_op (show_term hal_name t) = Some (to_rec t).
Proof. exact (term_reads _ _ _ _ hal_reads). Qed.
Print Assumptions C55_terms_halide.

Theorem C55_terms_rational : forall t, wf_term math_arity t -> tall math_plain t ->
  parse_rec math_from_op (show_term math_name t) = Some (to_rec t).
Proof. exact (term_reads _ _ _ _ math_reads). Qed.
Print Assumptions C55_terms_rational.

(* two different terms never have the same text *)
Theorem C55_distinct :
  (forall w t u, (w <= 128)%N -> wf_term bv_arity t -> tall (bv_plain w) t -> wf_term bv_arity u -> tall (bv_plain w) u ->
    show_term bv_name t = show_term bv_name u -> t = u) /\
  (forall t u, wf_term bool_arity t -> tall bool_plain t -> wf_term bool_arity u -> tall bool_plain u ->
    show_term bool_name t = show_term bool_name u -> t = u) /\
  (forall t u, wf_term nat_arity t -> tall nat_plain t -> wf_term nat_arity u -> tall nat_plain u ->
    show_term nat_name t = show_term nat_name u -> t = u) /\
  (forall t u, wf_term pos_arity t -> tall pos_plain t -> wf_term pos_arity u -> tall pos_plain u ->
    show_term pos_name t = show_term pos_name u -> t = u) /\
  (forall t u, wf_term bb_arity t -> tall bb_plain t -> wf_term bb_arity u -> tall bb_plain u ->
    show_term bb_name t = show_term bb_name u -> t = u) /\
  (forall t u, wf_term hal_arity t -> tall hal_plain t -> wf_term hal_arity u -> tall hal_plain u ->
    show_term hal_name t = show_term hal_name u -> t = u) /\
  (forall t u, wf_term math_arity t -> tall math_plain t -> wf_term math_arity u -> tall math_plain u ->
    show_term math_name t = show_term math_name u -> t = u).
Proof.
  split; [intros w t u Hw; apply (term_distinct (bv_from_op w)); intros o; now apply bv_reads|].
  split; [exact (term_distinct _ _ _ _ bool_reads)|]. split; [exact (term_distinct _ _ _ _ nat_reads)|].
  split; [exact (term_distinct _ _ _ _ pos_reads)|]. split; [exact (term_distinct _ _ _ _ bb_reads)|].
  split; [exact (term_distinct _ _ _ _ hal_reads)|exact (term_distinct _ _ _ _ math_reads)].
Qed.
Print Assumptions C55_distinct.

(* plain operators can stand in the text of a rule: the assumption of C33-C35 *)
Theorem C55_in_rules :
  (forall w o, (w <= 128)%N -> bv_plain w o -> eov_ok (bv_from_op w) bv_name bv_arity (EN o)) /\
  (forall o, bool_plain o -> eov_ok bool_from_op bool_name bool_arity (EN o)) /\
  (forall o, nat_plain o -> eov_ok nat_from_op nat_name nat_arity (EN o)) /\
  (forall o, pos_plain o -> eov_ok pos_from_op pos_name pos_arity (EN o)) /\
  (forall o, bb_plain o -> eov_ok bb_from_op bb_name bb_arity (EN o)) /\
  (forall o, hal_plain o -> eov_ok hal_from_op hal_name hal_arity (EN o)) /\
  (forall o, math_plain o -> eov_ok math_from_op math_name math_arity (EN o)).
Proof.
  split; [exact bv_reads|]. split; [exact bool_reads|]. split; [exact nat_reads|]. split; [exact pos_reads|].
  split; [exact bb_reads|]. split; [exact hal_reads|exact math_reads].
Qed.
Print Assumptions C55_in_rules.

(* bitvector literals: decimal and binary texts are taken modulo 2^w *)
Theorem C55_bv_literals : forall w, (w <= 128)%N ->
  (forall n, (n < 2 ^ 128)%N -> parse_bv w (show_bv n) = Some (n mod 2 ^ w)%N) /\
  (forall l, l <> [] -> length l <= 128 ->
    parse_bv w (String "#" (String "b" (bin_text l))) = Some (bin_value l mod 2 ^ w)%N).
Proof. intros w Hw. split; intros; [now apply parse_bv_decimal|now apply parse_bv_binary]. Qed.
Print Assumptions C55_bv_literals.

(* machine integers: every value reads back, also with a plus sign, and nothing
   out of range is ever read *)
Theorem C55_integers :
  (forall z, fits z -> parse_i64 (show_i64 z) = Some z) /\
  (forall z, (0 <= z)%Z -> fits z -> parse_i64 (String "+" (show_i64 z)) = Some z) /\
  (forall s z, parse_i64 s = Some z -> fits z).
Proof. split; [exact parse_i64_show|]. split; [exact parse_i64_plus|exact parse_i64_range]. Qed.
Print Assumptions C55_integers.

(* fractions: "n/d" is the number q with q * d = n, whatever the signs and common
   factors *)
Theorem C55_fractions :
  (forall n d, fits n -> fits d -> d <> 0%Z -> (d < 0 -> - 2 ^ 63 < n)%Z ->
    exists q, parse_ratio (show_i64 n ++ String "/" (show_i64 d)) = Some q /\
      (q * Q2Qc (inject_Z d) = Q2Qc (inject_Z n))%Qc) /\
  (forall z, fits z -> parse_ratio (show_i64 z) = Some (Q2Qc (inject_Z z))) /\
  (forall q, fits (Qnum (this q)) -> fits (Zpos (Qden (this q))) -> parse_ratio (show_ratio q) = Some q).
Proof.
  split; [|split; [exact parse_ratio_int|exact parse_ratio_show]].
  intros n d Hn Hd H0 _. rewrite parse_ratio_frac by assumption. now apply mk_ratio_value.
Qed.
Print Assumptions C55_fractions.

(* Some names are read differently from how they were written: a variable spelled
   like a literal, a number that does not fit and a fraction with denominator zero
   become variables, and a variable spelled like a constant becomes the constant. *)
Theorem C55_names_refuted :
  parse_rec hal_from_op (show_term hal_name (T (HVar "7") [])) = Some [Node (HLit 7) []] /\
  parse_rec hal_from_op "9223372036854775808" = Some [Node (HVar "9223372036854775808") []] /\
  parse_rec math_from_op "1/0" = Some [Node (MVar "1/0") []] /\
  parse_rec bool_from_op (show_term bool_name (T (BVar "true") [])) = Some [Node (BLit true) []] /\
  parse_rec nat_from_op (show_term nat_name (T (NVar "Z") [])) = Some [Node NZ []] /\
  parse_rec (bv_from_op 4) "17" = Some [Node (VLit 1) []].
Proof. repeat split; vm_compute; reflexivity. Qed.
Print Assumptions C55_names_refuted.

Definition ex_half : Qc := Q2Qc (-1 # 2).
Example C55_hyp :
  (let t := T MAdd [T (MVar "x") []; T (MLit ex_half) []] in
   wf_term math_arity t /\ tall math_plain t /\ show_term math_name t = "(+ x -1/2)") /\
  (let t := T VSub [T (VVar "x1") []; T (VLit 15) []] in
   wf_term bv_arity t /\ tall (bv_plain 4) t /\ show_term bv_name t = "(-- x1 15)") /\
  (let t := T HSelect [T (HVar "c") []; T HNeg [T (HLit (-5)) []]; T (HLit 9223372036854775807) []] in
   wf_term hal_arity t /\ tall hal_plain t /\ show_term hal_name t = "(select c (- -5) 9223372036854775807)").
Proof.
  assert (forall c s, letter_char c = true -> all_chars ident_char s = true -> identifier (String c s)) as I.
  { intros c s H1 H2. exists c, s. auto. }
  split; [|split]; cbv zeta.
  - split; [repeat constructor|]. split; [|vm_compute; reflexivity].
    constructor; [exact Logic.I|]. apply Forall_cons; [|apply Forall_cons; [|constructor]]; (constructor; [|constructor]).
    + apply I; reflexivity.
    + cbn [math_plain]. change (this ex_half) with (-1 # 2)%Q. cbn [Qnum Qden]. unfold fits. lia.
  - split; [repeat constructor|]. split; [|vm_compute; reflexivity].
    constructor; [exact Logic.I|]. apply Forall_cons; [|apply Forall_cons; [|constructor]]; (constructor; [|constructor]).
    + apply I; reflexivity.
    + cbn. lia.
  - split; [repeat constructor|]. split; [|vm_compute; reflexivity].
    constructor; [exact Logic.I|]. apply Forall_cons; [|apply Forall_cons; [|apply Forall_cons; [|constructor]]].
    + constructor; [apply I; reflexivity|constructor].
    + constructor; [exact Logic.I|]. apply Forall_cons; [|constructor]. constructor; [|constructor]. cbn [hal_plain]. unfold fits. lia.
    + constructor; [|constructor]. cbn [hal_plain]. unfold fits. lia.
Qed.

(* ---------------- C18, per domain ---------------- *)

(* the vectors given to the variables enumerate every assignment of the domain's
   sample values exactly once *)
Theorem C18_bool : forall vars, vars <> [] -> exists n vcs, bool_init vars = Val (n, vcs) /\ covers [true; false] vars n vcs.
Proof. exact bool_good. Qed.
Print Assumptions C18_bool.

Theorem C18_bv : forall w vars, (1 <= w <= 128)%N -> vars <> [] ->
  exists vals n vcs, init_product (map Some (bv_samples w)) vars = Val (n, vcs) /\ covers vals vars n vcs /\ NoDup vals /\
    forall a, In a vals <-> exists z, In z (bv_sample_values w) /\ Z.of_N a = (z mod 2 ^ Z.of_N w)%Z.
Proof. exact bv_good. Qed.
Print Assumptions C18_bv.

Theorem C18_halide : forall vars, vars <> [] ->
  exists n vcs, hal_init vars = Val (n, vcs) /\ covers [-10; -1; 0; 1; 2; 5; 100]%Z vars n vcs.
Proof. exact hal_good. Qed.
Print Assumptions C18_halide.

Theorem C18_rational : forall vars, vars <> [] -> exists n vcs, math_init vars = Val (n, vcs) /\
  covers (map (fun z => Q2Qc (inject_Z z)) [-1; 0; 1; 2; -3]%Z) vars n vcs.
Proof. exact math_good. Qed.
Print Assumptions C18_rational.

Example C18_domains_hyp : ["a"; "b"] <> [] /\ (1 <= 4 <= 128)%N /\ bool_init ["a"; "b"] =
  Val (4, [("a", [Some true; Some false; Some true; Some false]); ("b", [Some true; Some true; Some false; Some false])]).
Proof. split; [discriminate|]. split; [lia|reflexivity]. Qed.
