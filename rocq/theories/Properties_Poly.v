(** Property theorems C10-C15: starks/polynomial.py.  Specification side:
    MathComp's [{poly F}]; [Poly a] is the polynomial with coefficient list
    [a], [normal a] says that the last coefficient (if any) is non-zero. *)
From Coq Require Import Lia List.
From Verif Require Import Prelude PowModel PowProofs ModpModel ModpField PolyModel PolyProofs
  PolyBytesModel PolyBytesProofs.
Import GRing.Theory.
Local Open Scope ring_scope.

(** C10: results are in normal form ... *)
Theorem C10_normal_form : forall (F : fieldType) (a b c : seq F),
  [/\ normal (pmk c), (forall i, nth 0 (pmk c) i = nth 0 c i),
      normal (padd a b), normal (psub a b) & normal (pneg a) /\ normal (pmul a b)].
Proof. exact normal_ops. Qed.
Print Assumptions C10_normal_form.

(** ... [==] and [!=] decide equality of all coefficients ... *)
Theorem C10_equality : forall (F : fieldType) (a b : seq F), normal a -> normal b ->
  (peq a b <-> forall i, nth 0 a i = nth 0 b i) /\ pne a b = ~~ peq a b.
Proof. exact peq_coefs. Qed.
Print Assumptions C10_equality.

(** ... and [degree] is the mathematical degree. *)
Theorem C10_degree : forall (F : fieldType) (a : seq F), normal a ->
  pdegree a = (Z.of_nat (size (Poly a)) - 1)%Z /\
  (pdegree a = (-1)%Z <-> Poly a = 0).
Proof. exact pdegree_spec. Qed.
Print Assumptions C10_degree.

Example C10_example :
  let e := [seq in_modp P7 z | z <- [:: 3; 7; 5; 0; 14]%Z] in
  [seq mval x | x <- pmk e] = [:: 3; 0; 5]%Z /\ normal (pmk e) /\ ~~ normal e.
Proof. by vm_compute. Qed.

(** C11: ring operations return exactly the canonical coefficient lists. *)
Theorem C11_ring_operations : forall (F : fieldType) (a b : seq F),
  [/\ padd a b = (Poly a + Poly b)%R :> seq F,
      psub a b = (Poly a - Poly b)%R :> seq F,
      pneg a = (- Poly a)%R :> seq F &
      pmul a b = (Poly a * Poly b)%R :> seq F].
Proof. exact pring_ops. Qed.
Print Assumptions C11_ring_operations.

(** The same for multiplication, spelled out on coefficients. *)
Theorem C11_product_coefficients : forall (F : fieldType) (a b : seq F) (k : nat),
  nth 0 (pmul a b) k = \sum_(i < k.+1) nth 0 a i * nth 0 b (k - i).
Proof. exact pmul_coef. Qed.
Print Assumptions C11_product_coefficients.

Example C11_example :
  let e := [seq in_modp P7 z | z <- [:: 1; 2; 3]%Z] in
  let f := [seq in_modp P7 z | z <- [:: 6; 5; 4]%Z] in
  [seq mval x | x <- pmul e f] = [:: 6; 3; 4; 2; 5]%Z /\ padd e f = [::].
Proof. by vm_compute. Qed.

(** C12: division with remainder, every non-zero divisor. *)
Theorem C12_divmod : forall (F : fieldType) (a d : seq F), normal a -> normal d -> d != [::] ->
  exists q r : seq F,
    [/\ pdivmod a d = Ok (q, r), pdiv a d = Ok q, pmod a d = Ok r, normal q /\ normal r &
        Poly a = Poly q * Poly d + Poly r /\ (size r < size d)%N].
Proof. exact pdivmod_full. Qed.
Print Assumptions C12_divmod.

Theorem C12_divmod_unique : forall (F : fieldType) (a d q r : seq F),
  normal a -> normal d -> d != [::] -> normal q -> normal r ->
  Poly a = Poly q * Poly d + Poly r -> (size r < size d)%N -> pdivmod a d = Ok (q, r).
Proof. exact pdivmod_unique. Qed.
Print Assumptions C12_divmod_unique.

Theorem C12_zero_divisor : forall (F : fieldType) (a : seq F),
  [/\ pdivmod a [::] = Err IndexError, pdiv a [::] = Err ZeroDivisionError &
      pmod a [::] = Err ZeroDivisionError].
Proof. exact pdiv_by_zero. Qed.
Print Assumptions C12_zero_divisor.

Example C12_example :
  let e := [seq in_modp P7 z | z <- [:: 1; 2; 3; 4]%Z] in
  let f := [seq in_modp P7 z | z <- [:: 2; 3]%Z] in
  [/\ normal e, normal f, f != [::] &
      rmap (fun qr => ([seq mval x | x <- qr.1], [seq mval x | x <- qr.2])) (pdivmod e f)
      = Ok ([:: 5; 4; 6]%Z, [:: 5]%Z)].
Proof. by split; vm_compute. Qed.

(** C13: evaluation. *)
Theorem C13_evaluation : forall (F : fieldType) (a : seq F) (x : F),
  pcall a x = \sum_(i < size a) nth 0 a i * x ^+ i.
Proof. exact pcall_sum. Qed.
Print Assumptions C13_evaluation.

Theorem C13_evaluation_homomorphism : forall (F : fieldType) (a b : seq F) (x : F),
  [/\ pcall (padd a b) x = pcall a x + pcall b x, pcall (pmul a b) x = pcall a x * pcall b x,
      pcall (psub a b) x = pcall a x - pcall b x & pcall (pneg a) x = - pcall a x].
Proof. exact pcall_morph. Qed.
Print Assumptions C13_evaluation_homomorphism.

Example C13_example : mval (pcall [seq in_modp P31 z | z <- [:: 1; 2; 3]%Z] (in_modp P31 5)) = 24%Z.
Proof. by vm_compute. Qed.

(** C14: [powmod]. *)
Theorem C14_powmod : forall (F : fieldType) (a m : seq F) (n : nat),
  normal a -> normal m -> m != [::] -> (2 <= n)%N ->
  exists r : seq F, [/\ ppowmod a (Z.of_nat n) m = Ok r, normal r, (size r < size m)%N &
     exists q : {poly F}, Poly a ^+ n = q * Poly m + Poly r].
Proof. exact ppowmod_spec. Qed.
Print Assumptions C14_powmod.

Theorem C14_powmod_small_exponents : forall (F : fieldType) (a m : seq F),
  ppowmod a 0 m = Ok (pconst 1) /\ ppowmod a 1 m = Ok a.
Proof. exact ppowmod_01. Qed.
Print Assumptions C14_powmod_small_exponents.

Theorem C14_powmod_zero_modulus : forall (F : fieldType) (a : seq F) (n : Z), (2 <= n)%Z ->
  ppowmod a n [::] = Err ZeroDivisionError.
Proof. exact ppowmod_zero. Qed.
Print Assumptions C14_powmod_zero_modulus.

(** Deviation: "the result is always reduced" fails for exponents 0 and 1. *)
Theorem C14_powmod_always_reduced_refuted :
  ~ (forall (F : fieldType) (a m : seq F) (n : nat) (r : seq F), normal a -> normal m -> m != [::] ->
       ppowmod a (Z.of_nat n) m = Ok r -> (size r < size m)%N).
Proof.
by move=> /(_ (modp_fieldType P7) [:: in_modp P7 1; in_modp P7 2] [:: in_modp P7 3; in_modp P7 1] 1%N _
   isT isT isT (Logic.eq_refl _)).
Qed.
Print Assumptions C14_powmod_always_reduced_refuted.

Example C14_example :
  rmap (map (@mval P7)) (ppowmod [seq in_modp P7 z | z <- [:: 0; 1]%Z] 49
      [seq in_modp P7 z | z <- [:: 3; 1; 1]%Z]) = Ok [:: 0; 1]%Z.
Proof. by vm_compute. Qed.

(** C15: construction from bytes.  [stripped l m]: [l] is [m] without its
    trailing zeros. *)
Theorem C15_from_bytes : forall bs : list bytes, Forall (fun b => length b = 32%nat) bs ->
  exists l, poly_of_bytes (concat bs) = Ok l /\ stripped l (List.map modp_of_bytes bs).
Proof. exact poly_of_bytes_concat. Qed.
Print Assumptions C15_from_bytes.

Theorem C15_bad_length : forall c : bytes, Nat.modulo (length c) 32 <> 0%nat ->
  poly_of_bytes c = Err ValueError.
Proof. exact poly_of_bytes_bad. Qed.
Print Assumptions C15_bad_length.

Theorem C15_roundtrip : forall l : list Z, Forall (fun a => 0 <= a < 2 ^ 256)%Z l -> List.last l 1%Z <> 0%Z ->
  exists bs, mapM modp_to_bytes l = Ok bs /\ poly_of_bytes (concat bs) = Ok l.
Proof. exact poly_bytes_roundtrip. Qed.
Print Assumptions C15_roundtrip.

(** Deviation: [Polynomial.to_bytes] raises TypeError for every non-zero
    polynomial, and returns None for zero. *)
Theorem C15_to_bytes_broken : forall l : list Z, l <> nil -> poly_to_bytes l = Err TypeError.
Proof. by case. Qed.
Print Assumptions C15_to_bytes_broken.

Example C15_example : rmap (fun bs => poly_of_bytes (concat bs)) (mapM modp_to_bytes (1 :: 0 :: 3 :: nil)%Z)
  = Ok (Ok (1 :: 0 :: 3 :: nil)%Z).
Proof. by vm_compute. Qed.
