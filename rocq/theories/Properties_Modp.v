(** Property theorems C04, C05, C07: starks/modp.py. *)
From Coq Require Import ZArith List Lia Znumtheory.
From Verif Require Import Base BaseProofs ModpModel ModpProofs.
Local Open Scope Z_scope.

(** Specification: [r] is the canonical representative of the integer [z]
    modulo [p] ([canonical_of p r z := 0 <= r < p /\ (p | z - r)], and such an
    [r] is unique). *)
Theorem C04_operations_agree_with_integers : forall p a b : Z, 0 < p ->
  canonical_of p (modp_mk p a) a /\
  canonical_of p (modp_add p a b) (a + b) /\
  canonical_of p (modp_sub p a b) (a - b) /\
  canonical_of p (modp_mul p a b) (a * b) /\
  canonical_of p (modp_neg p a) (- a).
Proof.
  exact (fun p a b H => conj (modp_mk_spec p a H) (conj (modp_add_spec p a b H)
    (conj (modp_sub_spec p a b H) (conj (modp_mul_spec p a b H) (modp_neg_spec p a H))))).
Qed.
Print Assumptions C04_operations_agree_with_integers.

Theorem C04_canonical_unique : forall p r1 r2 z : Z,
  canonical_of p r1 z -> canonical_of p r2 z -> r1 = r2.
Proof. exact canonical_of_unique. Qed.
Print Assumptions C04_canonical_unique.

Theorem C04_equality_is_congruence : forall p a b : Z, canonical p a -> canonical p b ->
  (modp_eq a b = true <-> (p | a - b)) /\ (modp_ne a b = true <-> ~ (p | a - b)).
Proof. exact modp_eq_spec. Qed.
Print Assumptions C04_equality_is_congruence.

(** Commutative ring for every p > 1 ... *)
Theorem C04_commutative_ring : forall p : Z, 1 < p ->
  (forall a b, canonical p (modp_add p a b) /\ canonical p (modp_mul p a b) /\ canonical p (modp_neg p a)) /\
  (forall a b c, modp_add p a (modp_add p b c) = modp_add p (modp_add p a b) c) /\
  (forall a b, modp_add p a b = modp_add p b a) /\
  (forall a, canonical p a -> modp_add p a (modp_mk p 0) = a) /\
  (forall a, modp_add p a (modp_neg p a) = modp_mk p 0) /\
  (forall a b, modp_sub p a b = modp_add p a (modp_neg p b)) /\
  (forall a b c, modp_mul p a (modp_mul p b c) = modp_mul p (modp_mul p a b) c) /\
  (forall a b, modp_mul p a b = modp_mul p b a) /\
  (forall a, canonical p a -> modp_mul p a (modp_mk p 1) = a) /\
  (forall a b c, modp_mul p a (modp_add p b c) = modp_add p (modp_mul p a b) (modp_mul p a c)) /\
  modp_mk p 1 <> modp_mk p 0.
Proof. exact modp_ring_laws. Qed.
Print Assumptions C04_commutative_ring.

(** ... and a field for prime p: division is exact. *)
Theorem C04_field_division : forall p a b : Z, prime p -> canonical p a -> canonical p b -> b <> 0 ->
  exists c, modp_div p a b = Ok c /\ canonical p c /\ modp_mul p c b = a.
Proof. exact modp_div_spec. Qed.
Print Assumptions C04_field_division.

(** Iterating over the class enumerates every element exactly once. *)
Theorem C04_iteration : forall p : Z, 0 < p ->
  NoDup (modp_iter p) /\ forall x, In x (modp_iter p) <-> canonical p x.
Proof. exact modp_iter_spec. Qed.
Print Assumptions C04_iteration.

(** [divmod] is the division with remainder of the representatives. *)
Theorem C04_divmod : forall p a b : Z, canonical p a -> canonical p b ->
  (b <> 0 -> exists q r, modp_divmod p a b = Ok (q, r) /\ canonical p q /\
     a = q * b + r /\ 0 <= r < b) /\
  (b = 0 -> modp_divmod p a b = Err ZeroDivisionError).
Proof.
  exact (fun p a b Ha Hb => conj (modp_divmod_spec p a b Ha Hb)
    (fun E => eq_trans (f_equal (modp_divmod p a) E) (modp_divmod_zero p a))).
Qed.
Print Assumptions C04_divmod.

Example C04_divmod_example : modp_divmod 17 16 5 = Ok (3, 1) /\ modp_divmod 17 4 0 = Err ZeroDivisionError.
Proof. now vm_compute. Qed.

Example C04_example : canonical 7 5 /\ modp_add 7 5 4 = 2 /\ modp_sub 7 2 5 = 4 /\
  modp_mul 7 5 4 = 6 /\ modp_neg 7 5 = 2 /\ modp_div 7 5 4 = Ok 3 /\ modp_mk 7 (-1) = 6.
Proof. unfold canonical. repeat split; lia. Qed.

(** C05: the inverse exists exactly for elements coprime to the modulus. *)
Theorem C05_inverse : forall p a : Z, 1 < p -> canonical p a ->
  (Z.gcd a p = 1 -> exists y, modp_inverse p a = Ok y /\ canonical p y /\
                              modp_mul p a y = modp_mk p 1) /\
  (Z.gcd a p <> 1 -> modp_inverse p a = Err InverseError).
Proof. exact modp_inverse_iff. Qed.
Print Assumptions C05_inverse.

Theorem C05_inverse_prime : forall p a : Z, prime p -> canonical p a ->
  (a <> 0 -> exists y, modp_inverse p a = Ok y /\ canonical p y /\
                       modp_mul p a y = modp_mk p 1) /\
  (a = 0 -> modp_inverse p a = Err InverseError).
Proof. exact modp_inverse_prime. Qed.
Print Assumptions C05_inverse_prime.

Example C05_example : modp_inverse 31 3 = Ok 21 /\ modp_inverse 6 4 = Err InverseError
  /\ modp_inverse (2^256 - 351 * 2^32 + 1) 7 = Ok 16541727033902313631938712144098272550467140666520080577065369143772228017006.
Proof. repeat split. Qed.

(** C07: byte encodings. *)
Theorem C07_bytes_roundtrip : forall p a : Z, 0 < p <= 2 ^ 256 -> canonical p a ->
  exists b, modp_to_bytes a = Ok b /\ length b = 32%nat /\ modp_of_bytes b = a.
Proof. exact (fun p a H C => modp_bytes_roundtrip a (conj (proj1 C) (Z.lt_le_trans _ _ _ (proj2 C) (proj2 H)))). Qed.
Print Assumptions C07_bytes_roundtrip.

(** decoding is big-endian and injective on byte strings of equal length *)
Theorem C07_decoding : forall b : bytes,
  0 <= modp_of_bytes b < 256 ^ Z.of_nat (length b) /\
  (forall b', length b' = length b -> modp_of_bytes b' = modp_of_bytes b -> b' = b) /\
  (forall x, modp_of_bytes (b ++ (x :: nil)) = modp_of_bytes b * 256 + byte_val x).
Proof.
  exact (fun b => conj (from_bytes_be_range b)
    (conj (fun b' L E => from_bytes_be_inj b' b L E) (from_bytes_be_snoc b))).
Qed.
Print Assumptions C07_decoding.

Theorem C07_overflow : forall a : Z, 2 ^ 256 <= a -> modp_to_bytes a = Err OverflowError.
Proof. exact modp_to_bytes_overflow. Qed.
Print Assumptions C07_overflow.

(** Deviation: elements built from bytes need not be canonical, and [==] then
    separates congruent elements. *)
Theorem C07_bytes_constructor_canonical_refuted :
  ~ (forall p b, 1 < p -> canonical p (modp_of_bytes b)).
Proof. intros H. specialize (H 2 (Byte.x05 :: nil)). unfold canonical in H. cbn in H. lia. Qed.
Print Assumptions C07_bytes_constructor_canonical_refuted.

Theorem C07_bytes_equality_refuted : forall p : Z, 1 < p < 256 -> exists b : bytes,
  (p | modp_of_bytes b - modp_mk p 0) /\ modp_eq (modp_of_bytes b) (modp_mk p 0) = false.
Proof. exact modp_bytes_eq_bad. Qed.
Print Assumptions C07_bytes_equality_refuted.

Example C07_example : modp_to_bytes 258 = Ok (List.repeat Byte.x00 30 ++ Byte.x01 :: Byte.x02 :: nil)%list.
Proof. reflexivity. Qed.
