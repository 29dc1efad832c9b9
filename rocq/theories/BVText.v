(* Reading and printing of bitvector literals, src/bv.rs:99-121. *)
From Coq Require Import NArith.
From Verif Require Import Base BV.
Open Scope string_scope.
Local Open Scope N_scope.

(* a digit of the given radix (2 or 10) *)
Definition digit (radix : N) (c : ascii) : option N :=
  let n := N_of_ascii c in
  if (48 <=? n) && (n <? 48 + radix) then Some (n - 48) else None.
Fixpoint digits (radix : N) (s : string) (acc : N) : option N :=
  match s with
  | "" => Some acc
  | String c r =>
      match digit radix c with Some d => digits radix r (acc * radix + d) | None => None end
  end.
(* u128::from_str_radix: an optional + and at least one digit; overflow is an
   error *)
Definition parse_u128 (radix : N) (s : string) : option N :=
  let s := match s with String "+" r => r | _ => s end in
  match s with
  | "" => None
  | _ =>
      match digits radix s 0 with
      | Some n => if n <=? u128_max then Some n else None
      | None => None
      end
  end.
(* src/bv.rs:112-121.  None is Err, and also the panic of the unwrap on line 116
   (every caller unwraps the Err). *)
Definition parse_bv (w : N) (s : string) : option N :=
  match s with
  | String "#" (String "b" r) => option_map (bv_new w) (parse_u128 2 r)
  | _ => option_map (bv_new w) (parse_u128 10 s)
  end.

(* Display of a u128: decimal digits without leading zeros.  [fuel] bounds the
   number of digits. *)
Fixpoint show_digits (fuel : nat) (n : N) (acc : string) : string :=
  match fuel with
  | O => acc
  | S k =>
      let acc := String (ascii_of_N (48 + n mod 10)) acc in
      if n / 10 =? 0 then acc else show_digits k (n / 10) acc
  end.
(* src/bv.rs:99-103; a u128 has at most 39 digits *)
Definition show_bv (n : N) : string := show_digits 39 n "".
