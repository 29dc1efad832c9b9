(* Which operators have a text that can be read back: the conditions a user can
   check by looking at a literal or a variable name. *)
From Coq Require Import NArith ZArith QArith Qcanon.
From Verif Require Import Base EnumSpec Lang BV BoolDom NatDom PosDom BvBoolDom Number Rational Halide.
Open Scope string_scope.
Open Scope list_scope.

Definition in_range (a b : N) (c : ascii) : bool := (N.leb a (N_of_ascii c) && N.leb (N_of_ascii c) b)%N.
(* a-z, A-Z, _ *)
Definition letter_char (c : ascii) : bool := in_range 97 122 c || in_range 65 90 c || in_range 95 95 c.
Definition ident_char (c : ascii) : bool := letter_char c || in_range 48 57 c.
(* a letter, then letters and digits *)
Definition identifier (s : string) : Prop :=
  exists c r, s = String c r /\ letter_char c = true /\ all_chars ident_char r = true.

(* the operators of each domain whose text is unambiguous: every proper
   operator, literals in range, variables that are identifiers and are not the
   name of a constant *)
Definition bv_plain (w : N) (o : bv_op) : Prop :=
  match o with VLit c => (c < 2 ^ w)%N | VVar s => identifier s | _ => True end.
Definition bool_plain (o : bool_op) : Prop :=
  match o with BVar s => identifier s /\ s <> "true" /\ s <> "false" | _ => True end.
Definition nat_plain (o : nat_op) : Prop :=
  match o with NVar s => identifier s /\ s <> "Z" | _ => True end.
Definition pos_plain (o : pos_op) : Prop :=
  match o with PVar s => identifier s /\ s <> "Z" /\ s <> "XH" | _ => True end.
Definition bb_plain (o : bb_op) : Prop :=
  match o with
  | XNum v => (v < 4)%N | XVar s => identifier s /\ s <> "true" /\ s <> "false" | _ => True
  end.
Definition fits (z : Z) : Prop := (- 2 ^ 63 <= z <= 2 ^ 63 - 1)%Z.
Definition hal_plain (o : hal_op) : Prop :=
  match o with HLit z => fits z | HVar s => identifier s | _ => True end.
Definition math_plain (o : math_op) : Prop :=
  match o with
  | MLit q => fits (Qnum (this q)) /\ fits (Zpos (Qden (this q))) | MVar s => identifier s | _ => True
  end.

(* binary digits, most significant first *)
Fixpoint bin_text (l : list bool) : string :=
  match l with
  | [] => ""
  | b :: r => String (if b then "1" else "0")%char (bin_text r)
  end.
Definition bin_value (l : list bool) : N :=
  fold_left (fun a (b : bool) => 2 * a + (if b then 1 else 0))%N l 0%N.
