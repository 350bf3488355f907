(** Replay of the repository's own unit tests on the model (number types, polynomials, finite
    fields, floating point, multivariate polynomials).  The tests cannot be executed here; each
    [Example] evaluates the assertions of one test method with the definitions of the model, so
    that a disagreement between model and code on these inputs would show.  The cited lines
    hold the test.  Casts of ints made by [@typecheck] are written out. *)
From mathcomp Require Import rat.
From Verif Require Import Prelude EuclidModel PowModel ModpModel ModpField RationalModel PolyModel
  PolyProofs IrredModel IrredProofs FiniteFieldModel FiniteFieldProofs FqField FloatModel MimcProofs
  UtilsModel.
Set Implicit Arguments.
Unset Strict Implicit.
Unset Printing Implicit Defensive.
Import GRing.Theory.
Local Open Scope ring_scope.
Local Open Scope py_scope.

Lemma prime11 : Znumtheory.prime 11. Proof. exact: primebP. Qed.
Lemma prime13 : Znumtheory.prime 13. Proof. exact: primebP. Qed.
Definition P11 : primeZ := PrimeZ prime11.
Definition P13 : primeZ := PrimeZ prime13.
Definition zs (P : primeZ) (l : seq Z) : seq (modp_fieldType P) := [seq in_modp P z | z <- l].
Definition holds (r : result bool) : bool := if r is Ok b then b else false.
Definition isOk (T : Type) (r : result T) : bool := if r is Ok _ then true else false.

(** ** starks/test/test_euclidean.py *)
Section Euclid.
Local Open Scope Z_scope.
(** lines 12-19 *)
Example test_gcd_ints :
  [/\ gcd_int 7 9 = Ok 1, gcd_int 8 18 = Ok 2, gcd_int (-12) 24 = Ok (-12),
      gcd_int 12 (-24) = Ok 12 & gcd_int 4864 3458 = Ok 38].
Proof. by vm_compute. Qed.
(** lines 21-25 *)
Example test_extended_euclidean_ints :
  [/\ eea_int 4864 3458 = Ok (32, -45, 38), 32 * 4864 - 45 * 3458 = 38 &
      eea_int 3458 4864 = Ok (-45, 32, 38)].
Proof. by vm_compute. Qed.

(** [gcd] and [extended_euclidean_algorithm] at IntegersModP(p); [abs] is that of
    starks/modp.py:81-82 *)
Definition gcd_modp (p a b : Z) : result Z :=
  gcd_gen Z Z.abs (modp_divmod p) (int_fuel a b) (modp_mk p a) (modp_mk p b).
Definition eea_modp (p a b : Z) : result (Z * Z * Z) :=
  eea_gen Z Z.abs (modp_divmod p) (modp_sub p) (modp_mul p) (modp_mk p 0) (modp_mk p 1)
    (int_fuel a b) (modp_mk p a) (modp_mk p b).
(** lines 27-32 *)
Example test_mod_2_gcd :
  [/\ gcd_modp 2 1 0 = Ok (modp_mk 2 1), gcd_modp 2 1 1 = Ok (modp_mk 2 1) &
      gcd_modp 2 2 2 = Ok (modp_mk 2 0)].
Proof. by vm_compute. Qed.
(** lines 34-40 *)
Example test_mod_7_gcd :
  gcd_modp 7 6 14 = Ok (modp_mk 7 6) /\ gcd_modp 7 6 9 = Ok (modp_mk 7 2).
Proof. by vm_compute. Qed.
(** lines 42-47 *)
Example test_mod_large_gcd :
  gcd_modp 9923 4864 3458 = Ok (modp_mk 9923 38) /\
  eea_modp 9923 4864 3458 = Ok (modp_mk 9923 32, modp_mk 9923 (-45), modp_mk 9923 38).
Proof. by vm_compute. Qed.
End Euclid.

(** ** starks/test/test_modpy.py *)
Section Modp.
Local Open Scope Z_scope.
Let m7 := modp_mk 7.
(** lines 12-27 *)
Example test_modp_arithmetic :
  [/\ modp_eq (m7 5) (m7 5) = true, modp_eq (m7 5) (m7 12) = true,
      modp_div 7 (m7 1) (m7 3) = Ok (m7 5) &
  [/\ modp_mul 7 (m7 3) (m7 5) = m7 1, modp_mul 7 (m7 3) (m7 1) = m7 3,
      modp_add 7 (m7 5) (m7 4) = m7 2 & modp_add 7 (m7 3) (m7 4) = m7 0]].
Proof. by vm_compute. Qed.
(** lines 29-36 *)
Example test_large_modulus :
  let M := 2 ^ 256 - 2 ^ 32 * 351 + 1 in
  [/\ modp_ne (modp_mk M 5) (modp_mk M 11) = true,
      modp_ne (modp_mk M (2 ^ 32)) (modp_mk M (2 ^ 64)) = true,
      modp_ne (modp_mk M (2 ^ 64)) (modp_mk M (2 ^ 128)) = true &
      modp_eq (modp_mk M (2 ^ 256)) (modp_mk M (2 ^ 32 * 351 - 1)) = true].
Proof. by vm_compute. Qed.
(** lines 38-42 *)
Example test_rationals_construction : rat_mk 3 1 2 = Ok (1, 2).
Proof. by vm_compute. Qed.
(** lines 44-53; [1 / x], [1 + x], [1 - x] cast the 1 to (1, 1) *)
Definition req (x y : result rat) : bool :=
  match x, y with Ok a, Ok b => rat_eq 31 a b | _, _ => false end.
Let r m n := rat_mk 31 m n.
Let op (f : Z -> rat -> rat -> result rat) (x y : result rat) : result rat :=
  let* a := x in let* b := y in f 31 a b.
Example test_rationals_arithmetic :
  [/\ req (op rat_mul (r 1 2) (r 1 2)) (r 1 4), req (op rat_mul (r 3 4) (r 5 6)) (r 5 8),
      req (op rat_div (r 1 1) (r 3 4)) (r 4 3) &
  [/\ req (op rat_add (r 1 1) (r 1 2)) (r 3 2), req (bind (r 1 2) (rat_neg 31)) (r (-1) 2) &
      req (op rat_sub (r 1 1) (r 1 2)) (r 1 2)]].
Proof. by vm_compute. Qed.
(** lines 55-62 *)
(** [test_modp_exponentiation]: evaluated here, but not stored as a theorem, because coqchk evaluates without the
    virtual machine and would take minutes for it *)
Check (ltac:(by vm_compute) :
  let M := 2 ^ 256 - 2 ^ 32 * 351 + 1 in
  modp_pow M (modp_mk M 7) ((M - 1) / 512) = Ok (Zpow_facts.Zpow_mod 7 ((M - 1) / 512) M)).
(** lines 64-82 *)
Example test_count_unique_rationals :
  rmap (@length rat)
    (foldM (fun u nd => let* c := rat_mk 7 (Z.of_nat nd.1) (Z.of_nat nd.2) in
                        Ok (if List.existsb (rat_eq 7 c) u then u else u ++ [:: c]))
       [seq (n, d) | n <- iota 0 7, d <- iota 1 6] [::]) = Ok 7%N.
Proof. by vm_compute. Qed.
End Modp.

(** ** starks/test/test_polynomial.py *)
(** The tests run over Q, Z/5 and Z/11; [c] is the constructor of the ring. *)
Section Poly.
Variable F : fieldType.
Variable c : Z -> F.
Let p (l : seq Z) : seq F := pmk [seq c z | z <- l].
Definition deq (x : result (seq F)) (y : seq F) : bool := if x is Ok a then peq y a else false.
Definition poly_tests : seq bool := [::
  (* lines 11-24 test_equality *)
  peq (p [::]) (p [::]); peq (p [:: 1; 2]%Z) (p [:: 1; 2]%Z);
  peq (p [:: 1; 2; 0]%Z) (p [:: 1; 2; 0; 0]%Z);
  (* lines 26-39 test_addition *)
  peq (p [:: 1; 2; 3]%Z) (padd (p [:: 1; 0; 3]%Z) (p [:: 0; 2]%Z));
  peq (p [:: 1; 2; 3]%Z) (padd (p [:: 1; 2; 3]%Z) (p [::]));
  peq (p [:: 5; 2; 3]%Z) (padd (p [:: 4]%Z) (p [:: 1; 2; 3]%Z));
  peq (p [:: 1; 2]%Z) (padd (p [:: 1; 2; 3]%Z) (p [:: 0; 0; -3]%Z));
  (* lines 41-53 test_subtraction *)
  peq (p [:: 1; -2; 3]%Z) (psub (p [:: 1; 0; 3]%Z) (p [:: 0; 2]%Z));
  peq (p [:: 1; 2; 3]%Z) (psub (p [:: 1; 2; 3]%Z) (p [::]));
  peq (p [:: -1; -2; -3]%Z) (psub (p [::]) (p [:: 1; 2; 3]%Z));
  (* lines 55-67 test_multiplication *)
  peq (p [:: 1; 2; 1]%Z) (pmul (p [:: 1; 1]%Z) (p [:: 1; 1]%Z));
  peq (p [:: 2; 5; 5; 3]%Z) (pmul (p [:: 2; 3]%Z) (p [:: 1; 1; 1]%Z));
  peq (p [:: 0; 7; 49]%Z) (pmul (p [:: 0; 1; 7]%Z) (p [:: 7]%Z));
  (* lines 69-83 test_division *)
  deq (pdiv (p [:: -1; 0; 0; 0; 0; 0; 1]%Z) (p [:: -1; 1]%Z)) (p [:: 1; 1; 1; 1; 1; 1]%Z);
  deq (pdiv (p [:: 1; 0; 0; 0; 0; 0; 1]%Z) (p [:: 1; 1]%Z)) (p [:: -1; 1; -1; 1; -1; 1]%Z);
  deq (pdiv (p [::]) (p [:: 1; 1]%Z)) (p [::]);
  deq (pdiv (p [:: 1; 1]%Z) (p [:: 1]%Z)) (p [:: 1; 1]%Z);
  deq (pdiv (p [:: 2; 2]%Z) (p [:: 2]%Z)) (p [:: 1; 1]%Z);
  (* lines 85-96 test_modulus *)
  deq (pmod (p [:: 1; 7; 49]%Z) (p [:: 7]%Z)) (p [::]);
  deq (pmod (p [:: -3; 10; -5; 3]%Z) (p [:: 1; 3]%Z)) (p [:: -7]%Z);
  (* lines 98-109 test_division_more *)
  holds (let* i := fdiv (c 1%Z) (c 7%Z) in
         Ok (deq (pdiv (p [:: 1; 7; 49]%Z) (p [:: 7]%Z)) (pmk [:: i; c 1%Z; c 7%Z])))].
End Poly.
Example test_polynomial_mod5 : all id (poly_tests (in_modp P5)) = true.
Proof. by vm_compute. Qed.
Example test_polynomial_mod11 : all id (poly_tests (in_modp P11)) = true.
Proof. by vm_compute. Qed.
(** Fraction is the field of rational numbers. *)
Definition Q_of_Z (z : Z) : rat.rat :=
  match z with Z0 => 0 | Zpos p => (Pos.to_nat p)%:Q | Zneg p => - (Pos.to_nat p)%:Q end.
Example test_polynomial_Q : all id (poly_tests Q_of_Z) = true.
Proof. by vm_compute. Qed.
(** lines 111-124 *)
Example test_polynomial_call :
  let z := in_modp P5 3 in
  [/\ pcall (pmk (zs P5 [:: 1; 1]%Z)) z == z + 1,
      (if dom_pow 1 *%R z 2 is Ok z2 then pcall (pmk (zs P5 [:: 1; 1; 1]%Z)) z == 1 + z + z2 else false) &
      pcall (pmk (zs P5 [:: 1; 1; 1]%Z)) z == in_modp P5 3].
Proof. by vm_compute. Qed.

(** ** starks/test/test_finitefield.py *)
(** x^8 + x^4 + x^3 + x^2 + 1, a value [generate_primitive_polynomial] can return *)
Definition g256 : seq (modp_fieldType P2) := zs P2 [:: 1; 0; 1; 1; 1; 0; 0; 0; 1]%Z.
Definition g17 : seq (modp_fieldType P2) :=
  zs P2 ([:: 1; 0; 0; 1] ++ nseq 13 0 ++ [:: 1])%Z.
(** lines 15-24: the constructor of an element; F35 and F25 with x^5 + 2x + 1 and x^2 + x + 2 *)
Example test_construction :
  [/\ isOk (fq_list (zs P2 [:: 1; 1; 0; 1]%Z) (zs P2 [:: 1; 1]%Z)),
      isOk (fq_list (zs P3 [:: 1; 2; 0; 0; 0; 1]%Z) (zs P3 [:: 1; 1; 2]%Z)) &
      isOk (fq_list (zs P5 [:: 2; 1; 1]%Z) (zs P5 [:: 2; 1]%Z))].
Proof. by vm_compute. Qed.
(** lines 26-41: the loop that counts the order of X *)
Fixpoint order_loop (fuel : nat) (g X val : seq (modp_fieldType P2)) (order : nat) : result nat :=
  if fuel is f.+1 then
    if fq_ne val (fq_const 1) then
      let* val := fq_mul g val X in order_loop f g X val order.+1
    else Ok order
  else Err Diverges.
Example test_generator :
  (let* X := fq_poly g256 (zs P2 [:: 0; 1]%Z) in order_loop 300 g256 X X 1) = Ok (2 ^ 8 - 1)%N.
Proof. by vm_compute. Qed.
(** lines 43-60 *)
Lemma g17_checked : is_irreducible g17 2 = Ok true. Proof. by vm_compute. Qed.
Example test_large : finite_field 2 17 (Some g17) (Err Diverges) = Ok (CFq g17).
Proof.
by rewrite /finite_field g17_checked.
Qed.
(** lines 63-85 *)
Example test_irreducibility :
  let irr P l := is_irreducible (pmk (zs P l)) (pz P) in
  [/\ irr P2 [:: 0; 1]%Z = Ok true, irr P2 [:: 1; 0; 1]%Z = Ok false,
      irr P3 [:: 1; 0; 1]%Z = Ok true &
  [/\ irr P5 [:: 1; 0; 0; 1]%Z = Ok false, irr P7 [:: 1; 0; 0; 1]%Z = Ok false,
      irr P11 [:: 1; 0; 0; 1]%Z = Ok false & irr P13 [:: -2; 0; 1]%Z = Ok true]].
Proof. by vm_compute. Qed.
(** lines 87-92: every polynomial that [generate_irreducible_polynomial] returns passes the
    assertion of the test *)
Lemma test_generate_irreducible_polynomial (draw : nat -> nat -> modp_fieldType P2) fuel k f :
  generate_irreducible fuel k draw 2 4 = Ok f -> is_irreducible f 2 = Ok true.
Proof.
elim: fuel k => [//|fuel IH] k; cbn [generate_irreducible].
case E: (is_irreducible _ _) => [b|e]; last by rewrite /bind; discriminate.
rewrite /bind; case: b E => E; last exact: IH.
by case=> <-; exact: E.
Qed.

(** ** starks/test/test_utils.py *)
(** lines 11-18 *)
Example test_mimc : isOk (mimc 5 3 [:: 2; 7]%Z) = true.
Proof. by vm_compute. Qed.

(** ** starks/test/test_floatingpoint.py *)
(** GF(2^4) with x^4 + x + 1 *)
Section Float.
Let g : seq (modp_fieldType P2) := zs P2 [:: 1; 1; 0; 0; 1]%Z.
Let fl (v e : seq Z) (z s : Z) : result (fp P2) :=
  let* v := FloatModel.field_of g v in let* e := FloatModel.field_of g e in Ok (Fp v e z s).
Let feq (x y : result (fp P2)) : bool :=
  match x, y with Ok a, Ok b => fp_eq a b | _, _ => false end.
(** equality of all four attributes, which the test does not ask for *)
Let fsame (x y : result (fp P2)) : bool :=
  match x, y with
  | Ok a, Ok b => [&& fq_eq (fv a) (fv b), fq_eq (fp_p a) (fp_p b), (fz a =? fz b)%Z & (fs a =? fs b)%Z]
  | _, _ => false end.
Let op (f : fp P2 -> fp P2 -> result (fp P2)) x y := let* a := x in let* b := y in f a b.
Local Notation add := (op (fp_add g 4)).
Local Notation sub := (op (fun x y => (fp_sub g 4 x y).1)).
Local Notation mul := (op (fp_mul g 4)).
Local Notation dvd := (op (fp_div g 4)).
Local Notation pow := (op (fp_pow g 4 100)).
Definition add_tests (e : result (fp P2) -> result (fp P2) -> bool) := [::
  e (fl [:: 0] [:: 1] 1 0)%Z (add (fl [:: 1; 1; 1] [:: 1] 0 0)%Z (fl [:: 1; 1; 1] [:: 1] 0 0)%Z);
  e (fl [:: 1; 1] [:: 1; 1; 1] 0 0)%Z (add (fl [:: 1; 1] [:: 1; 1; 1] 0 0)%Z (fl [:: 1] [:: 0] 0 0)%Z);
  e (fl [:: 0; 1] [:: 1; 1] 0 0)%Z (add (fl [:: 1; 0; 1] [:: 1; 1] 0 1)%Z (fl [:: 1; 1; 1] [:: 1; 1] 0 0)%Z);
  e (fl [:: 1; 0; 1] [:: 1; 1] 0 1)%Z (add (fl [:: 1; 0; 1] [:: 1; 1] 0 1)%Z (fl [:: 0] [:: 0] 1 0)%Z)].
Definition sub_tests (e : result (fp P2) -> result (fp P2) -> bool) := [::
  e (fl [:: 0] [:: 1] 1 1)%Z (sub (fl [:: 1; 1; 1] [:: 1] 0 0)%Z (fl [:: 1; 1; 1] [:: 1] 0 0)%Z);
  e (fl [:: 1; 1] [:: 1; 1; 1] 0 0)%Z (sub (fl [:: 1; 1] [:: 1; 1; 1] 0 0)%Z (fl [:: 1] [:: 0] 0 0)%Z);
  e (fl [:: 0; 1; 1; 1] [:: 1; 1] 0 1)%Z (sub (fl [:: 1; 0; 1] [:: 1; 1] 0 1)%Z (fl [:: 1; 1; 1] [:: 1; 1] 0 0)%Z);
  e (fl [:: 1; 1; 1] [:: 1] 0 1)%Z (sub (fl [:: 0] [:: 0] 1 0)%Z (fl [:: 1; 1; 1] [:: 1] 0 0)%Z)].
Definition mul_tests (e : result (fp P2) -> result (fp P2) -> bool) := [::
  e (fl [:: 0] [:: 0] 0 0)%Z (mul (fl [:: 0] [:: 0] 0 0)%Z (fl [:: 1; 1; 1] [:: 1; 1; 1] 0 0)%Z);
  e (fl [:: 0] [:: 0] 0 0)%Z (mul (fl [:: 0] [:: 0] 0 0)%Z (fl [:: 0] [:: 0] 0 0)%Z);
  e (fl [:: 1; 1; 1] [:: 1] 0 0)%Z (mul (fl [:: 1] [:: 0] 0 0)%Z (fl [:: 1; 1; 1] [:: 1] 0 0)%Z);
  e (fl [:: 1; 1; 1; 1] [:: 1; 0; 1] 0 1)%Z (mul (fl [:: 1; 0; 1] [:: 1; 1] 0 1)%Z (fl [:: 1; 1] [:: 1; 1; 1] 0 0)%Z)].
Definition div_tests (e : result (fp P2) -> result (fp P2) -> bool) := [::
  e (fl [:: 1; 1; 1] [:: 1] 0 0)%Z (dvd (fl [:: 1; 1; 1] [:: 1] 0 0)%Z (fl [:: 1] [:: 0] 0 0)%Z);
  e (fl [:: 1; 1] [:: 0; 1; 1] 0 1)%Z (dvd (fl [:: 1; 0; 1] [:: 1; 1] 0 1)%Z (fl [:: 1; 1] [:: 1; 1; 1] 0 0)%Z);
  e (fl [:: 0; 1; 1] [:: 1] 0 0)%Z (dvd (fl [:: 1] [:: 0] 0 0)%Z (fl [:: 1; 1; 1] [:: 1] 0 0)%Z)].
Definition pow_tests (e : result (fp P2) -> result (fp P2) -> bool) := [::
  e (fl [:: 1; 1; 1] [:: 1] 0 0)%Z (pow (fl [:: 1; 1; 1] [:: 1] 0 0)%Z (fl [:: 1] [:: 0] 0 0)%Z);
  e (fl [:: 1] [:: 0] 0 0)%Z (pow (fl [:: 1; 1; 1] [:: 1] 0 0)%Z (fl [:: 0] [:: 0] 0 0)%Z);
  e (fl [:: 1; 1; 1] [:: 0] 0 0)%Z (pow (fl [:: 1; 1; 1] [:: 1] 0 0)%Z (fl [:: 1] [:: 0; 1] 0 0)%Z)].
(** lines 12, 33, 53, 73 and 92 to the end *)
Example test_floatingpoint :
  all id (add_tests feq ++ sub_tests feq ++ mul_tests feq ++ div_tests feq ++ pow_tests feq) = true.
Proof. by vm_compute. Qed.
(** The four attributes of the result are those of the expected object in all but two of the
    assertions; these pass because [__eq__] compares only the zero flags (C78). *)
Example test_floatingpoint_attributes :
  [/\ add_tests fsame = nseq 4 true, sub_tests fsame = [:: true; true; false; true],
      mul_tests fsame = [:: false; true; true; true] &
      div_tests fsame ++ pow_tests fsame = nseq 6 true].
Proof. by vm_compute. Qed.
End Float.
