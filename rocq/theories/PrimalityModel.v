(** Model of misc/primality.py and misc/blum_blum_shub.py.

    Random draws are inputs of the model: [probablyPrime] receives the list of
    values that the successive calls of [random.randint(2, p - 2)] return, and
    [find_good_prime] the successive values of [random.getrandbits].  Python's
    three-argument [pow(a, e, m)] (for [e >= 0] and [m <> 0]) is [(a ^ e) mod m]
    on [Z]; [%] and [//] are [Z.modulo] and [Z.div], which round as Python's do. *)
From Coq Require Import Bool ZArith List.
From Verif Require Import Base.
Import ListNotations.
Local Open Scope Z_scope.

(** misc/primality.py:7-9, the loop of [decompose]; [fuel] bounds the number of
    iterations.  A run that exhausts the budget is [Diverges]. *)
Fixpoint decompose_loop (fuel : nat) (exponentOfTwo n : Z) : result (Z * Z) :=
  match fuel with
  | O => Err Diverges
  | S fuel' =>
      if n mod 2 =? 0 then decompose_loop fuel' (exponentOfTwo + 1) (n / 2)
      else Ok (exponentOfTwo, n)
  end.

(** misc/primality.py:4-11.  The budget is one more than the bit length of [n];
    for [n = 0] the Python loop never ends and the model says [Diverges]. *)
Definition decompose (n : Z) : result (Z * Z) :=
  decompose_loop (S (S (Z.to_nat (Z.log2 (Z.abs n))))) 0 n.

(** misc/primality.py:14-23.  Called with [exponent >= 0], [remainder > 0] and
    [p > 0] only, so the built-in [pow] does not raise. *)
Definition isWitness (a p exponent remainder : Z) : bool :=
  if (a ^ remainder) mod p =? 1 then false
  else if existsb (fun i => (a ^ (2 ^ Z.of_nat i * remainder)) mod p =? p - 1)
                  (seq 0 (Z.to_nat exponent))
  then false
  else true.

(** misc/primality.py:34-39, the loop over the random draws. *)
Fixpoint witness_loop (p exponent remainder : Z) (draws : list Z) : bool :=
  match draws with
  | [] => true
  | a :: draws' =>
      if isWitness a p exponent remainder then false
      else witness_loop p exponent remainder draws'
  end.

(** misc/primality.py:26-39.  [draws] are the [accuracy] values returned by
    [random.randint(2, p - 2)]. *)
Definition probablyPrime (p : Z) (draws : list Z) : result bool :=
  if (p =? 2) || (p =? 3) then Ok true
  else if (p <? 2) || (p mod 2 =? 0) then Ok false
  else
    let* (exponent, remainder) := decompose (p - 1) in
    Ok (witness_loop p exponent remainder draws).

(** misc/blum_blum_shub.py:15-21. *)
Definition good_prime (p : Z) (draws : list Z) : result bool :=
  if p mod 4 =? 3 then probablyPrime p draws else Ok false.

(** misc/blum_blum_shub.py:24-31.  [candidates] lists, for each iteration, the
    value of [random.getrandbits] and the draws used to test it; running out of
    supplied randomness is [Diverges].  The initial candidate 1 is never good
    ([1 % 4 = 1]), so the loop always enters with the first random value. *)
Fixpoint find_good_prime (candidates : list (Z * list Z)) : result Z :=
  match candidates with
  | [] => Err Diverges
  | (c, draws) :: rest =>
      let* ok := good_prime c draws in
      if ok then Ok c else find_good_prime rest
  end.

(** misc/blum_blum_shub.py:34-36. *)
Definition make_modulus (c1 c2 : list (Z * list Z)) : result Z :=
  let* p := find_good_prime c1 in
  let* q := find_good_prime c2 in
  Ok (p * q).

(** The characters of Python's [bin(n)[2:]] for [n > 0], most significant bit
    first, as 0/1 integers. *)
Fixpoint bin_pos (p : positive) : list Z :=
  match p with
  | xH => [1]
  | xO p' => bin_pos p' ++ [0]
  | xI p' => bin_pos p' ++ [1]
  end.

(** [[int(x) for x in bin(n)[2:]]].  [bin(0)] is ['0b0']; for a negative number
    [bin(n)] is ['-0b...'], so [bin(n)[2:]] starts with the letter b and [int]
    raises ValueError. *)
Definition bin_bits (n : Z) : result (list Z) :=
  match n with
  | Z0 => Ok [0]
  | Zpos p => Ok (bin_pos p)
  | Zneg _ => Err ValueError
  end.

(** misc/blum_blum_shub.py:39-43. *)
Definition parity (n : Z) : result Z :=
  let* bits := bin_bits n in
  Ok (fold_left Z.add bits 0 mod 2).

(** misc/blum_blum_shub.py:46-56: the function returned for a given modulus. *)
Definition bbs (modulus x : Z) : Z := (x ^ 2) mod modulus.
