(** Model of starks/numbertype.py:68-103 ([DomainElement.__pow__], [powmod]). *)
From Coq Require Import ZArith List.
From Verif Require Import Base.
Local Open Scope Z_scope.

Section Pow.
Variables (A : Type) (one : A).
(** one squaring/multiplication step; may raise for [powmod] *)
Variable mulr : A -> A -> result A.

(** starks/numbertype.py:75-84 (and 94-103): the while loop,
    state (Q, R, i). *)
Fixpoint pow_loop (fuel : nat) (n : Z) (Q R : A) (i : Z) : result A :=
  match fuel with
  | O => Err Diverges
  | S f =>
    if i <=? n then
      let* Q' := mulr Q Q in
      let* R' := (if Z.land n i =? i then mulr Q' R else Ok R) in
      pow_loop f n Q' R' (Z.shiftl i 1)
    else Ok R
  end.

(** starks/numbertype.py:68-84 [__pow__] / 86-103 [powmod] for an int
    exponent [n]; [self.__class__(1)] is [one].  Budget: one iteration per
    binary digit of [n] (proved sufficient). *)
Definition pow_gen (self : A) (n : Z) : result A :=
  pow_loop (Z.to_nat (Z.log2 n) + 2) n self
           (if Z.odd n then self else one) 2.
End Pow.

(** starks/numbertype.py:68-84 [__pow__]: multiplication never raises. *)
Definition dom_pow {A} (one : A) (mul : A -> A -> A) (self : A) (n : Z) : result A :=
  pow_gen A one (fun x y => Ok (mul x y)) self n.

(** starks/numbertype.py:86-103 [powmod]: every product is followed by
    [% modulus], which may raise. *)
Definition dom_powmod {A} (one : A) (mul : A -> A -> A)
    (modr : A -> A -> result A) (self : A) (n : Z) (modulus : A) : result A :=
  pow_gen A one (fun x y => modr (mul x y) modulus) self n.
