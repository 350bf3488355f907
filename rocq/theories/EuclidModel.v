(** Model of starks/euclidean.py (whole file). *)
From Coq Require Import ZArith List.
From Verif Require Import Base.
Local Open Scope Z_scope.

Section Generic.
(** The "number type with a divmod and a valuation abs()" of
    starks/euclidean.py:7-13.  [zero] and [one] stand for the int literals 0
    and 1 of line 38; for non-int types Python casts them on first use through
    the reflected operators of starks/numbertype.py:58-65 (simplification: the
    model casts them at once). *)
Variables (A : Type) (absv : A -> Z) (divm : A -> A -> result (A * A)).
Variables (sub mul : A -> A -> A) (zero one : A).

(** starks/euclidean.py:17-21, the while loop of [gcd]; [fuel] bounds the
    number of iterations. *)
Fixpoint gcd_loop (fuel : nat) (a b : A) : result A :=
  match fuel with
  | O => Err Diverges
  | S f =>
    if 0 <? absv b then
      let* (_, r) := divm a b in gcd_loop f b r
    else Ok a
  end.

(** starks/euclidean.py:7-21 [gcd].  The recursive call of line 15 finds its
    arguments ordered, hence goes straight to the loop. *)
Definition gcd_gen (fuel : nat) (a b : A) : result A :=
  if absv a <? absv b then gcd_loop fuel b a else gcd_loop fuel a b.

(** starks/euclidean.py:39-43, the while loop of
    [extended_euclidean_algorithm]; state (a, b, x2, x1, y2, y1). *)
Fixpoint eea_loop (fuel : nat) (a b x2 x1 y2 y1 : A) : result (A * A * A) :=
  match fuel with
  | O => Err Diverges
  | S f =>
    if 0 <? absv b then
      let* (q, r) := divm a b in
      let x := sub x2 (mul q x1) in
      let y := sub y2 (mul q y1) in
      eea_loop f b r x1 x y1 y
    else Ok (x2, y2, a)
  end.

(** starks/euclidean.py:35-45, the part after the swap test. *)
Definition eea_ordered (fuel : nat) (a b : A) : result (A * A * A) :=
  if absv b =? 0 then Ok (one, zero, a)
  else eea_loop fuel a b one zero zero one.

(** starks/euclidean.py:24-45 [extended_euclidean_algorithm].  As for [gcd],
    the recursive call finds ordered arguments. *)
Definition eea_gen (fuel : nat) (a b : A) : result (A * A * A) :=
  if absv a <? absv b then
    let* (xy, d) := eea_ordered fuel b a in
    Ok (snd xy, fst xy, d)
  else eea_ordered fuel a b.
End Generic.

(** Python int instance: [divmod] is floor division and raises on 0. *)
Definition int_divmod (a b : Z) : result (Z * Z) :=
  if b =? 0 then Err ZeroDivisionError else Ok (a / b, a mod b).

(** Loop budget for ints: logarithmic; proved sufficient in EuclidProofs.v. *)
Definition int_fuel (a b : Z) : nat :=
  2 * Z.to_nat (Z.log2 (Z.abs a + Z.abs b)) + 5.

(** starks/euclidean.py:7-21 at type int *)
Definition gcd_int (a b : Z) : result Z :=
  gcd_gen Z Z.abs int_divmod (int_fuel a b) a b.

(** starks/euclidean.py:24-45 at type int *)
Definition eea_int (a b : Z) : result (Z * Z * Z) :=
  eea_gen Z Z.abs int_divmod Z.sub Z.mul 0 1 (int_fuel a b) a b.
