(** Property theorems C01-C03, C06: starks/euclidean.py and
    starks/numbertype.py exponentiation. *)
From Coq Require Import Znumtheory Lia.
From Verif Require Import Prelude EuclidModel EuclidProofs PowModel PowProofs
  ModpModel ModpProofs ModpField PolyModel PolyProofs.
Import GRing.Theory.

(** C01: [gcd] on ints terminates normally for every pair and returns a
    common divisor divisible by every common divisor. *)
Theorem C01_gcd_int : forall a b : Z, exists g : Z,
  gcd_int a b = Ok g /\ (g | a)%Z /\ (g | b)%Z /\
  (forall d : Z, (d | a)%Z -> (d | b)%Z -> (d | g)%Z) /\ Z.abs g = Z.gcd a b.
Proof.
  intros a b. destruct (gcd_int_spec a b) as (g & E & S). exists g.
  destruct (proj1 (S g) (Z.divide_refl g)) as [H1 H2].
  split; [exact E|]. split; [exact H1|]. split; [exact H2|]. split.
  - intros d Ha Hb. apply S. split; assumption.
  - exact (gcd_int_abs a b g E).
Qed.
Print Assumptions C01_gcd_int.

(** The sign is that of the last non-zero remainder. *)
Example C01_example : gcd_int (-12) 24 = Ok (-12)%Z /\ gcd_int 84 36 = Ok 12%Z
  /\ gcd_int 0 0 = Ok 0%Z /\ gcd_int 5 0 = Ok 5%Z.
Proof. repeat split. Qed.

(** C02: Bezout coefficients, for every pair of ints. *)
Theorem C02_extended_euclid_int : forall a b : Z, exists x y g : Z,
  eea_int a b = Ok (x, y, g) /\ (a * x + b * y = g)%Z /\
  (g | a)%Z /\ (g | b)%Z /\ (forall d : Z, (d | a)%Z -> (d | b)%Z -> (d | g)%Z) /\
  gcd_int a b = Ok g.
Proof.
  intros a b. destruct (eea_int_spec a b) as (x & y & g & E & G & B & S).
  exists x, y, g. destruct (proj1 (S g) (Z.divide_refl g)) as [H1 H2].
  split; [exact E|]. split; [exact B|]. split; [exact H1|]. split; [exact H2|]. split.
  - intros d Ha Hb. apply S. split; assumption.
  - exact G.
Qed.
Print Assumptions C02_extended_euclid_int.

Example C02_example : eea_int 240 46 = Ok (-9, 47, 2)%Z /\ eea_int 7 1200 = Ok (343, -2, 1)%Z.
Proof. split; reflexivity. Qed.

(** C03: Euclid and extended Euclid on polynomials over every field. *)
Theorem C03_euclid_poly : forall (F : fieldType) (a b : seq F),
  normal a -> normal b ->
  exists x y g : seq F,
    pgcd a b = Ok g /\ peea a b = Ok (x, y, g) /\
    normal x /\ normal y /\ normal g /\
    (Poly a * Poly x + Poly b * Poly y = Poly g)%R /\
    (forall e : {poly F}, (e %| Poly g)%R = (e %| Poly a)%R && (e %| Poly b)%R).
Proof.
  intros F a b Ha Hb.
  destruct (peea_pgcd Ha Hb) as (x & y & g & E1 & E2 & (N1 & N2 & N3) & B & S).
  exists x, y, g. repeat (split; [assumption|]). exact S.
Qed.
Print Assumptions C03_euclid_poly.

Example C03_example :
  let e := [seq in_modp P7 z | z <- [:: 6; 0; 1]%Z] in
  let f := [seq in_modp P7 z | z <- [:: 1; 2; 1]%Z] in
  normal e /\ normal f /\
  rmap (map (@mval P7)) (pgcd e f) = Ok [:: 5; 5]%Z.
Proof. repeat split; vm_compute; reflexivity. Qed.

(** C06: square-and-multiply is the n-fold product, in every monoid. *)
Theorem C06_pow : forall (A : Type) (one : A) (mul : A -> A -> A),
  (forall x y z, mul x (mul y z) = mul (mul x y) z) ->
  (forall x, mul one x = x) -> (forall x, mul x one = x) ->
  forall (x : A) (n : nat),
    dom_pow one mul x (Z.of_nat n) = Ok (Nat.iter n (mul x) one).
Proof. exact dom_pow_iter. Qed.
Print Assumptions C06_pow.

(** C06 at Z/p: the canonical representative of the integer power. *)
Theorem C06_pow_modp : forall p a n : Z, (1 < p)%Z -> (0 <= a < p)%Z -> (0 <= n)%Z ->
  exists r, modp_pow p a n = Ok r /\ (0 <= r < p)%Z /\ (p | a ^ n - r)%Z.
Proof. exact modp_pow_spec. Qed.
Print Assumptions C06_pow_modp.

(** C06 at polynomials. *)
Theorem C06_pow_poly : forall (F : fieldType) (a : seq F) (n : nat), normal a ->
  ppow a (Z.of_nat n) = Ok (polyseq (Poly a ^+ n)%R).
Proof. exact ppow_nat. Qed.
Print Assumptions C06_pow_poly.

Example C06_example : modp_pow 31 3 1000 = Ok 25%Z /\ modp_pow 31 3 0 = Ok 1%Z.
Proof. split; reflexivity. Qed.

(** C06, deviation: a negative exponent silently gives [x] or [1]... *)
Theorem C06_pow_negative : forall (A : Type) (one : A) (mul : A -> A -> A) (x : A) (n : Z),
  (n < 0)%Z -> dom_pow one mul x n = Ok (if Z.odd n then x else one).
Proof. intros A one mul. exact (pow_gen_neg A one (fun x y => Ok (mul x y))). Qed.
Print Assumptions C06_pow_negative.

(** ...so "x**(-1) is the inverse" is false of the code. *)
Theorem C06_pow_negative_is_inverse_refuted :
  ~ (forall p a : Z, (1 < p)%Z -> (0 <= a < p)%Z -> Z.gcd a p = 1%Z ->
       modp_pow p a (-1) = modp_inverse p a).
Proof. intros H. specialize (H 7%Z 3%Z ltac:(lia) ltac:(lia) Logic.eq_refl). discriminate H. Qed.
Print Assumptions C06_pow_negative_is_inverse_refuted.
