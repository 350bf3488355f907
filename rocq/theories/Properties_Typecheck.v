(** Property theorems C90: arithmetic between operands of different types
    (starks/numbertype.py:25-65, 112-116).

    Vocabulary.  [in_modp P z] is the element of Z/p with representative z mod p,
    [mval x] the representative of x in [0, p); [pz P] the prime.  Polynomials are
    compared through their polynomials [Poly c : {poly F}]; [normal c]
    (PolyProofs.v) says that c has no trailing zero, as after Polynomial(c). *)
From mathcomp Require Import zify ssrZ.
From Verif Require Import Prelude PolyModel PolyProofs ModpField TypecheckModel TypecheckProofs.
Set Implicit Arguments.
Unset Strict Implicit.
Unset Printing Implicit Defensive.
Import GRing.Theory.
Local Open Scope ring_scope.

(** An int and an element of Z/p, in either order: the operation on the residues. *)
Theorem C90_int_operand : forall (P : primeZ) (z : Z) (x : modp P),
  (py_add (VInt z) (VMod x) = Ok (VMod (in_modp P (z + mval x))) /\
   py_add (VMod x) (VInt z) = Ok (VMod (in_modp P (z + mval x)))) /\
  (py_sub (VInt z) (VMod x) = Ok (VMod (in_modp P (z - mval x))) /\
   py_sub (VMod x) (VInt z) = Ok (VMod (in_modp P (mval x - z)))) /\
  (py_mul (VInt z) (VMod x) = Ok (VMod (in_modp P (z * mval x))) /\
   py_mul (VMod x) (VInt z) = Ok (VMod (in_modp P (z * mval x)))) /\
  exists b, py_eq (VInt z) (VMod x) = Ok b /\ py_eq (VMod x) (VInt z) = Ok b /\
            (b = true <-> (pz P | z - mval x)%Z).
Proof.
move=> P z x; split; first exact: int_add.
split; first exact: int_sub.
by split; [exact: int_mul|exact: int_eq].
Qed.
Print Assumptions C90_int_operand.

(** An element and a polynomial over the same field, in either order: the element
    acts as the constant polynomial. *)
Theorem C90_poly_operand : forall (P : primeZ) (c : seq (modp P)) (x : modp P),
  let F := modp_fieldType P in let f := Poly (c : seq F) in let k := (x : F)%:P in
  @normal F c ->
  py_add (VPoly c) (VMod x) = Ok (@VPoly P (f + k)) /\
  py_add (VMod x) (VPoly c) = Ok (@VPoly P (f + k)) /\
  py_sub (VPoly c) (VMod x) = Ok (@VPoly P (f - k)) /\
  py_sub (VMod x) (VPoly c) = Ok (@VPoly P (k - f)) /\
  py_mul (VPoly c) (VMod x) = Ok (@VPoly P (f * k)) /\
  py_mul (VMod x) (VPoly c) = Ok (@VPoly P (f * k)) /\
  py_eq (VPoly c) (VMod x) = Ok (f == k) /\
  py_eq (VMod x) (VPoly c) = Ok (f == k).
Proof. by move=> P c x F f k nc; exact: poly_elt_ops. Qed.
Print Assumptions C90_poly_operand.

(** Two elements of different fields are not rejected: the right one is silently
    reinterpreted in the field of the left one. *)
Theorem C90_left_class : forall (P Q : primeZ) (x : modp P) (y : modp Q),
  py_add (VMod x) (VMod y) = Ok (VMod (in_modp P (mval x + mval y))) /\
  py_sub (VMod x) (VMod y) = Ok (VMod (in_modp P (mval x - mval y))) /\
  py_mul (VMod x) (VMod y) = Ok (VMod (in_modp P (mval x * mval y))) /\
  exists b, py_eq (VMod x) (VMod y) = Ok b /\ (b = true <-> (pz P | mval x - mval y)%Z).
Proof. by move=> P Q x y; exact: left_class. Qed.
Print Assumptions C90_left_class.

Definition val_of (r : result pyval) : option (Z * Z) :=
  if r is Ok (@VMod P x) then Some (pz P, mval x) else None.

(** Hence addition of elements is not commutative ... *)
Theorem C90_commutative_refuted :
  ~ (forall (P Q : primeZ) (x : modp P) (y : modp Q),
       py_add (VMod x) (VMod y) = py_add (VMod y) (VMod x)).
Proof.
move=> H; have := congr1 val_of (H P7 P17 (in_modp P7 3) (in_modp P17 10)).
by vm_compute.
Qed.
Print Assumptions C90_commutative_refuted.

(** ... and [==] is not symmetric. *)
Theorem C90_eq_symmetric_refuted :
  ~ (forall (P Q : primeZ) (x : modp P) (y : modp Q),
       py_eq (VMod x) (VMod y) = py_eq (VMod y) (VMod x)).
Proof.
move=> H; have := H P7 P17 (in_modp P7 3) (in_modp P17 10).
by vm_compute.
Qed.
Print Assumptions C90_eq_symmetric_refuted.

(** An object that [int] rejects: every operation raises, [==] included. *)
Theorem C90_uncastable : forall (P : primeZ) (x : modp P) (c : seq (modp P)) e,
  let o := VOther (Err e) in
  [/\ py_add (VMod x) o = Err TypeError, py_add o (VMod x) = Err TypeError,
      py_mul (VMod x) o = Err TypeError, py_mul o (VMod x) = Err TypeError &
      py_sub (VMod x) o = Err TypeError /\ py_sub o (VMod x) = Err TypeError] /\
  [/\ py_eq (VMod x) o = Err TypeError, py_eq o (VMod x) = Err TypeError,
      py_eq (VPoly c) o = Err TypeError & py_eq o (VPoly c) = Err TypeError].
Proof. exact: uncastable. Qed.
Print Assumptions C90_uncastable.

(** An object that [int] accepts (a float, say) acts as that int: 3.9 is 3. *)
Theorem C90_truncated : forall (P : primeZ) (x : modp P) z,
  let o := VOther (Ok z) in
  py_add (VMod x) o = Ok (VMod (in_modp P (mval x + z))) /\
  py_mul o (VMod x) = Ok (VMod (in_modp P (mval x * z))) /\
  exists b, py_eq (VMod x) o = Ok b /\ (b = true <-> (pz P | mval x - z)%Z).
Proof. by move=> P x z; exact: truncated. Qed.
Print Assumptions C90_truncated.

(** A polynomial and an element of another field: always a TypeError. *)
Theorem C90_foreign_element : forall (P Q : primeZ) (c : seq (modp P)) (y : modp Q),
  pz P <> pz Q ->
  py_add (VPoly c) (VMod y) = Err TypeError /\ py_add (VMod y) (VPoly c) = Err TypeError /\
  py_sub (VPoly c) (VMod y) = Err TypeError /\ py_sub (VMod y) (VPoly c) = Err TypeError /\
  py_mul (VPoly c) (VMod y) = Err TypeError /\ py_mul (VMod y) (VPoly c) = Err TypeError /\
  py_eq (VPoly c) (VMod y) = Err TypeError /\ py_eq (VMod y) (VPoly c) = Err TypeError.
Proof. by move=> P Q c y; exact: foreign_elt. Qed.
Print Assumptions C90_foreign_element.

(** ... but two polynomials over different fields are combined, coefficients of the
    right one being reinterpreted. *)
Theorem C90_foreign_polynomial : forall (P Q : primeZ) (c : seq (modp P)) (d : seq (modp Q)),
  let F := modp_fieldType P in
  let d' := [seq in_modp P (mval y) | y <- d] : seq F in
  py_add (VPoly c) (VPoly d) = Ok (@VPoly P (Poly (c : seq F) + Poly d')) /\
  py_mul (VPoly c) (VPoly d) = Ok (@VPoly P (Poly (c : seq F) * Poly d')).
Proof. by move=> P Q c d; exact: foreign_poly. Qed.
Print Assumptions C90_foreign_polynomial.

(** Division is not decorated: element / int is an AttributeError, int / element works. *)
Theorem C90_division : forall (P : primeZ) (z : Z) (x : modp P),
  py_div (VMod x) (VInt z) = Err AttributeError /\
  (mval x <> 0%Z -> exists r : modp P, py_div (VInt z) (VMod x) = Ok (VMod r) /\
     (pz P | mval r * mval x - z)%Z) /\
  (mval x = 0%Z -> py_div (VInt z) (VMod x) = Err InverseError).
Proof.
move=> P z x; have [H1 [H2 H3]] := int_div z x; split=> //; split=> [nx|x0].
  by apply: H2; apply/eqP => E; apply: nx; rewrite E.
by apply: H3; apply: mval_inj.
Qed.
Print Assumptions C90_division.

(** Two ints are combined as ints; otherwise, if neither operand is an element or a
    polynomial, the operators raise TypeError and [==] is False.  A polynomial minus an
    object without [__neg__], and an int or such an object divided by a polynomial, raise
    TypeError as well. *)
Theorem C90_no_method : forall (x y : Z) (r r' : result Z) (P : primeZ) (c : seq (modp P)),
  [/\ py_add (VInt x) (VInt y) = Ok (VInt (x + y)), py_sub (VInt x) (VInt y) = Ok (VInt (x - y)),
      py_mul (VInt x) (VInt y) = Ok (VInt (x * y)) & py_eq (VInt x) (VInt y) = Ok (x =? y)%Z] /\
  (forall a b, (a, b) = (VInt x, VOther r) \/ (a, b) = (VOther r, VInt x) \/ (a, b) = (VOther r, VOther r') ->
     [/\ py_add a b = Err TypeError, py_sub a b = Err TypeError, py_mul a b = Err TypeError,
         py_div a b = Err TypeError & py_eq a b = Ok false]) /\
  [/\ py_sub (VPoly c) (VOther r) = Err TypeError, py_div (VInt x) (VPoly c) = Err TypeError &
      py_div (VOther r) (VPoly c) = Err TypeError].
Proof. by move=> x y r r' P c; split=> //; split=> // a b [[-> ->]|[[-> ->]|[-> ->]]]. Qed.
Print Assumptions C90_no_method.

Example C90_example :
  val_of (py_sub (VInt 3) (VMod (in_modp P7 5))) = Some (7, 5)%Z /\
  val_of (py_add (VMod (in_modp P7 3)) (VMod (in_modp P17 10))) = Some (7, 6)%Z /\
  val_of (py_add (VMod (in_modp P17 10)) (VMod (in_modp P7 3))) = Some (17, 13)%Z /\
  py_eq (VMod (in_modp P7 3)) (VMod (in_modp P17 10)) = Ok true /\
  py_eq (VMod (in_modp P17 10)) (VMod (in_modp P7 3)) = Ok false /\
  val_of (py_div (VInt 3) (VMod (in_modp P7 5))) = Some (7, 2)%Z /\
  rmap (fun v => if v is @VPoly P c then map (@mval P) c else [::])
    (py_sub (VMod (in_modp P7 5)) (VPoly [:: in_modp P7 1; in_modp P7 2])) = Ok [:: 4; 5]%Z.
Proof. by vm_compute. Qed.
