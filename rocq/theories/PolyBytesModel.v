(** Model of the bytes branch of the Polynomial constructor,
    starks/polynomial.py:39-47 and 58, over IntegersModP.  Coefficients are the
    raw attributes [n] (the bytes constructor of starks/modp.py:34 does not
    reduce). *)
From Coq Require Import ZArith List.
From Verif Require Import Base ModpModel.
Import ListNotations.
Local Open Scope Z_scope.

(** starks/polynomial.py:44-46: [c[32*i:32*(i+1)]] for i in range(n) *)
Fixpoint chunks32 (n : nat) (c : bytes) : list bytes :=
  match n with
  | O => []
  | S k => firstn 32 c :: chunks32 k (skipn 32 c)
  end.

(** starks/polynomial.py:13-21 [strip(L, ring(0))] on raw coefficients *)
Fixpoint strip_zeros (l : list Z) : list Z :=
  match l with
  | [] => []
  | x :: l' => match strip_zeros l' with
               | [] => if modp_eq x 0 then [] else [x]
               | t => x :: t
               end
  end.

(** starks/polynomial.py:39-47,58 *)
Definition poly_of_bytes (c : bytes) : result (list Z) :=
  if (Nat.modulo (length c) 32 =? 0)%nat then
    Ok (strip_zeros (map modp_of_bytes (chunks32 (Nat.div (length c) 32) c)))
  else Err ValueError.

(** starks/polynomial.py:166-167 [to_bytes] on the raw coefficients of a
    polynomial over IntegersModP.  [IntegerModP.to_bytes] takes no argument
    (starks/modp.py:94), so calling it with [(32, 'big')] raises TypeError as
    soon as there is a coefficient; with none the method falls off its end and
    returns None ([Ok None]). *)
Definition poly_to_bytes (l : list Z) : result (option bytes) :=
  match l with [] => Ok None | _ => Err TypeError end.
