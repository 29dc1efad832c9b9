(* What the terms of the trigonometric domain mean: complex numbers, as pairs of real
   numbers, and the functions on them that tests/trig.rs is about. *)
From Coq Require Import Reals QArith Qcanon Qreals.
From Verif Require Import Base Lang Rule Ruleset Number Trig.
Open Scope list_scope.

Definition cx : Type := (R * R)%type.
Definition cre (x : R) : cx := (x, 0%R).
Definition c0 : cx := cre 0.
Definition c1 : cx := cre 1.
Definition ci : cx := (0, 1)%R.
Definition cpi : cx := cre PI.
Definition cadd (z w : cx) : cx := (fst z + fst w, snd z + snd w)%R.
Definition copp (z : cx) : cx := (- fst z, - snd z)%R.
Definition csub (z w : cx) : cx := (fst z - fst w, snd z - snd w)%R.
Definition cmul (z w : cx) : cx := (fst z * fst w - snd z * snd w, fst z * snd w + snd z * fst w)%R.
Definition cinv (z : cx) : cx :=
  let n := (fst z * fst z + snd z * snd z)%R in (fst z / n, - snd z / n)%R.
Definition cdiv (z w : cx) : cx := cmul z (cinv w).
(* exp(i z) = exp(i x - y) for z = x + i y *)
Definition ccis (z : cx) : cx := (exp (- snd z) * cos (fst z), exp (- snd z) * sin (fst z))%R.
(* Euler's formulas *)
Definition csin (z : cx) : cx := cdiv (csub (ccis z) (ccis (copp z))) (cmul (cre 2) ci).
Definition ccos (z : cx) : cx := cdiv (cadd (ccis z) (ccis (copp z))) (cre 2).
Definition ctan (z : cx) : cx := cdiv (csin z) (ccos z).
Definition c_dec (z : cx) : {z = c0} + {z <> c0}.
Proof.
  destruct z as [x y]. destruct (Req_EM_T x 0) as [->|N]; [|right; intros E; injection E as E _; exact (N E)].
  destruct (Req_EM_T y 0) as [->|N]; [left; reflexivity|right; intros E; injection E as E; exact (N E)].
Defined.

(* no value: division by zero, the tangent where the cosine is zero, a constant whose
   text is not a number *)
Definition trig_sem (o : trig_op) (args : list cx) : res cx :=
  match o, args with
  | TSin, [z] => Val (csin z)
  | TCos, [z] => Val (ccos z)
  | TTan, [z] => if c_dec (ccos z) then Panic else Val (ctan z)
  | TCis, [z] => Val (ccis z)
  | TNeg, [z] => Val (copp z)
  | TSqr, [z] => Val (cmul z z)
  | TAdd, [z; w] => Val (cadd z w)
  | TSub, [z; w] => Val (csub z w)
  | TMul, [z; w] => Val (cmul z w)
  | TDiv, [z; w] => if c_dec w then Panic else Val (cdiv z w)
  | TI, [] => Val ci
  | TPi, [] => Val cpi
  | TConst s, [] => match parse_bigratio s with Some q => Val (cre (Q2R (this q))) | None => Panic end
  | _, _ => Panic
  end.
