(* Text of signed machine integers and of fractions (core::num and num-rational,
   external crates): i64::from_str, Display, Ratio<i64>::from_str, Display. *)
From Coq Require Import NArith ZArith QArith Qcanon.
From Verif Require Import Base BVText.
Open Scope string_scope.

Definition i64_min : Z := (- 2 ^ 63)%Z.
Definition i64_max : Z := (2 ^ 63 - 1)%Z.
Definition in_i64 (z : Z) : bool := (i64_min <=? z)%Z && (z <=? i64_max)%Z.
Definition in_i32 (z : Z) : bool := (- 2 ^ 31 <=? z)%Z && (z <=? 2 ^ 31 - 1)%Z.

(* digits, at least one *)
Definition parse_nat (s : string) : option N :=
  match s with "" => None | _ => digits 10 s 0 end.
(* an optional sign and at least one digit; out of range is an error *)
Definition parse_i64 (s : string) : option Z :=
  let z := match s with
           | String "-" r => option_map (fun n => (- Z.of_N n)%Z) (parse_nat r)
           | String "+" r => option_map Z.of_N (parse_nat r)
           | _ => option_map Z.of_N (parse_nat s)
           end in
  match z with Some z => if in_i64 z then Some z else None | None => None end.
(* an i64 has at most 19 digits *)
Definition show_N (n : N) : string := show_digits 20 n "".
Definition show_i64 (z : Z) : string :=
  if (z <? 0)%Z then String "-" (show_N (Z.to_N (- z))) else show_N (Z.to_N z).

(* splitn(2, '/'): the text before and after the first slash *)
Fixpoint split_slash (s : string) : string * option string :=
  match s with
  | "" => ("", None)
  | String c r =>
      if Ascii.eqb c "/" then ("", Some r)
      else let '(a, b) := split_slash r in (String c a, b)
  end.
(* num/den in lowest terms with a positive denominator.  Simplified: with a
   negative denominator the code negates the numerator, which overflows on
   i64::MIN; here the exact value is returned. *)
Definition mk_ratio (n d : Z) : option Qc :=
  match d with
  | Z0 => None
  | Zpos p => Some (Q2Qc (n # p))
  | Zneg p => Some (Q2Qc ((- n) # p))
  end.
Definition parse_ratio (s : string) : option Qc :=
  let '(a, b) := split_slash s in
  match parse_i64 a, parse_i64 (match b with Some d => d | None => "1" end) with
  | Some n, Some d => mk_ratio n d
  | _, _ => None
  end.
Definition show_ratio (q : Qc) : string :=
  let n := Qnum (this q) in
  let d := Zpos (Qden (this q)) in
  if (d =? 1)%Z then show_i64 n else (show_i64 n ++ String "/" (show_i64 d))%string.
