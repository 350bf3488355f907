(** Property theorems C08, C09, C77 (starks/rationals_modp.py) and C69, C70,
    C78-C81 (starks/floatingpoint.py).
    [rat_ok P x]: 0 <= numerator < p, 0 < denominator < p, coprime;
    [frac P x]: the residue numerator / denominator in Z/p;
    [fp_ok g x]: significand and exponent are elements of the field. *)
From mathcomp Require Import zify ssrZ.
From Verif Require Import Prelude BaseProofs PolyModel PolyProofs ModpModel ModpField
  FiniteFieldModel FiniteFieldProofs RationalModel RationalProofs FloatModel FloatProofs Properties_FiniteField.
Import GRing.Theory.
Local Open Scope ring_scope.
Local Open Scope py_scope.

(** C08 *)
Theorem C08_arithmetic : forall (P : primeZ) (x y : rat), rat_ok P x -> rat_ok P y ->
  exists za zs zm zn,
  [/\ [/\ rat_add (pz P) x y = Ok za, rat_ok P za & frac P za = frac P x + frac P y],
      [/\ rat_sub (pz P) x y = Ok zs, rat_ok P zs & frac P zs = frac P x - frac P y],
      [/\ rat_mul (pz P) x y = Ok zm, rat_ok P zm & frac P zm = frac P x * frac P y],
      [/\ rat_neg (pz P) x = Ok zn, rat_ok P zn & frac P zn = - frac P x] &
      rat_eq (pz P) x y = (frac P x == frac P y)].
Proof.
move=> P x y Hx Hy.
have [za Ha] := rat_add_ok Hx Hy; have [zs Hs] := rat_sub_ok Hx Hy.
have [zm Hm] := rat_mul_ok Hx Hy; have [zn Hn] := rat_neg_ok Hx.
by exists za, zs, zm, zn; split=> //; exact: rat_eqE.
Qed.
Print Assumptions C08_arithmetic.

Theorem C08_inverse : forall (P : primeZ) (x : rat), rat_ok P x ->
  (frac P x <> 0 -> exists z, [/\ rat_inverse (pz P) x = Ok z, rat_ok P z & frac P z = (frac P x)^-1]) /\
  (frac P x = 0 -> rat_inverse (pz P) x = Err GenericException).
Proof.
move=> P x Hx; split=> [/eqP H|H]; [exact: rat_inverse_ok | exact: rat_inverse_zero H].
Qed.
Print Assumptions C08_inverse.

Theorem C08_division_and_power : forall (P : primeZ) (x y : rat) n, rat_ok P x -> rat_ok P y ->
  (frac P y <> 0 -> exists z, [/\ rat_div (pz P) x y = Ok z, rat_ok P z & frac P z = frac P x / frac P y]) /\
  ((0 <= n)%Z -> exists z, [/\ rat_pow (pz P) x n = Ok z, rat_ok P z & frac P z = frac P x ^+ Z.to_nat n]).
Proof. by move=> P x y n Hx Hy; split=> [/eqP H|H]; [exact: rat_div_ok | exact: rat_pow_ok]. Qed.
Print Assumptions C08_division_and_power.

Theorem C08_constructor : forall (P : primeZ) m n, (n mod pz P <> 0)%Z ->
  exists z, [/\ rat_mk (pz P) m n = Ok z, rat_ok P z & frac P z = in_modp P m / in_modp P n].
Proof. by move=> P m n; exact: rat_mk_ok. Qed.
Print Assumptions C08_constructor.

(** 3/4 + 5/6 = 19/12 = 38/24; mod 7: 5/5 = 1/1; (3/4)^-1 = 4/3 *)
Example C08_example : rat_mk 31 3 4 = Ok (3, 4)%Z /\ rat_add 31 (3, 4)%Z (5, 6)%Z = Ok (7, 24)%Z /\
  rat_mul 31 (3, 4)%Z (5, 6)%Z = Ok (5, 8)%Z /\ rat_inverse 31 (3, 4)%Z = Ok (4, 3)%Z /\
  rat_pow 31 (3, 4)%Z 5 = Ok (26, 1)%Z /\ rat_ok P31 (3, 4)%Z.
Proof. by rewrite /rat_ok /=; repeat split; vm_compute. Qed.

(** C09 *)
Theorem C09_zero_denominators_accepted : forall p m n, (1 < p)%Z -> (n mod p = 0)%Z ->
  rat_mk p m n = Ok (if (m mod p =? 0)%Z then 0 else 1, 0)%Z.
Proof. exact rat_mk_zero_den. Qed.
Print Assumptions C09_zero_denominators_accepted.

Theorem C09_zero_over_zero_equals_everything : forall p x,
  rat_eq p x (0, 0)%Z /\ rat_eq p (0, 0)%Z x.
Proof. exact rat_eq_00. Qed.
Print Assumptions C09_zero_over_zero_equals_everything.

Theorem C09_eq_not_transitive : forall p, (1 < p)%Z ->
  exists x y z, [/\ rat_mk p 0 1 = Ok x, rat_mk p 0 0 = Ok y, rat_mk p 1 1 = Ok z &
                    rat_eq p x y /\ rat_eq p y z /\ rat_eq p x z = false].
Proof.
move=> p Hp; exists (0, 1)%Z, (0, 0)%Z, (1, 1)%Z.
have Hm : rat_mk p 0 1 = Ok (0, 1)%Z /\ rat_mk p 1 1 = Ok (1, 1)%Z.
  rewrite /rat_mk (_ : (p =? 0)%Z = false); last by lia.
  by rewrite !Z.mod_small //; lia.
case: Hm => H1 H2; split=> //; first by rewrite rat_mk_zero_den.
split; first exact: (rat_eq_00 p (0, 1)%Z).1.
split; first exact: (rat_eq_00 p (1, 1)%Z).2.
by rewrite /rat_eq /= !Z.mod_small //; lia.
Qed.
Print Assumptions C09_eq_not_transitive.

Theorem C09_add_raises : forall p x y, (1 < p)%Z -> (x.2 = 0)%Z -> (y.2 = 0)%Z ->
  rat_add p x y = Err ZeroDivisionError /\ rat_sub p x y = Err ZeroDivisionError.
Proof. exact rat_add_zero_den. Qed.
Print Assumptions C09_add_raises.

Theorem C09_ne_raises : forall p x y, rat_ne p x y = Err NameError.
Proof. by []. Qed.
Print Assumptions C09_ne_raises.

(** The modulus 0 *)
Theorem C09_modulus_zero : forall m n, rat_mk 0 m n = Err TypeError.
Proof. by []. Qed.
Print Assumptions C09_modulus_zero.

Example C09_example : rat_mk 7 3 14 = Ok (1, 0)%Z /\ rat_eq 7 (1, 0)%Z (2, 0)%Z = true /\
  rat_add 7 (1, 0)%Z (1, 0)%Z = Err ZeroDivisionError.
Proof. by vm_compute. Qed.

(** C77 *)
Theorem C77_rational_bytes_roundtrip : forall (P : primeZ) x, (pz P <= 2 ^ 256)%Z -> rat_ok P x ->
  exists b, [/\ rat_to_bytes x = Ok b, length b = 64%nat & rat_of_bytes b = Ok x].
Proof. by move=> P x Hp [H1 [H2 H3]]; apply: rat_bytes => //; lia. Qed.
Print Assumptions C77_rational_bytes_roundtrip.

(** Every byte string is accepted, without a reduction modulo p: the result is the fraction
    of the two halves in lowest terms. *)
Theorem C77_any_bytes : forall b : bytes,
  let num := from_bytes_be (List.firstn 32 b) in
  let den := from_bytes_be (List.skipn 32 b) in
  exists a c, rat_of_bytes b = Ok (a, c) /\ exists g, (num = a * g)%Z /\ (den = c * g)%Z /\
    (num = 0 -> den = 0 -> a = 0 /\ c = 0)%Z /\ (num <> 0 \/ den <> 0 -> Z.gcd a c = 1)%Z.
Proof. exact rat_of_bytes_any. Qed.
Print Assumptions C77_any_bytes.

Example C77_example : rat_ok P31 (7, 24)%Z /\
  (let* b := rat_to_bytes (7, 24)%Z in rat_of_bytes b) = Ok (7, 24)%Z.
Proof. by rewrite /rat_ok /=; repeat split; vm_compute. Qed.

(** C69: the significand, exponent and sign are irrelevant *)
Theorem C69_fp_eq_only_z : forall (P : primeZ) (a b : fp P), fp_eq a b = (fz a =? fz b)%Z.
Proof. exact fp_eqE. Qed.
Print Assumptions C69_fp_eq_only_z.

(** Full statement (false of the code): equal values have equal sums.  Any two values with the
    same exponent and different significands are equal, but after adding the first one they
    are not. *)
Theorem C69_sum_congruence_refuted : forall (P : primeZ) (g : seq (modp_finFieldType P)) m x y,
  pz P = 2%Z -> normal g -> irreducible_poly (Poly g) -> fp_ok g x -> fp_ok g y ->
  fz x = 0%Z -> fz y = 0%Z -> fp_p x = fp_p y -> fv x <> fv y ->
  fp_eq x y = true /\
  exists u v, [/\ fp_add g m x x = Ok u, fp_add g m y x = Ok v & fp_eq u v = false].
Proof.
move=> P g m x y H2 Ng Hirr Hx Hy zx zy Epq Nv; split; first by rewrite fp_eqE zx zy.
have nx : fz x <> 1%Z by rewrite zx.
have ny : fz y <> 1%Z by rewrite zy.
have [u [Eu Vu _ Zu _]] := fp_add_same_exp H2 m Ng Hirr Hx Hx nx nx erefl.
have [v [Ev Vv _ Zv _]] := fp_add_same_exp H2 m Ng Hirr Hy Hx ny nx (esym Epq).
have C2 := poly_char2 (modp_char2 H2).
exists u, v; split=> //; rewrite fp_eqE Zu Zv Vu Vv (addrr_char2 C2) eqxx addr_eq0 (oppr_char2 C2).
case: eqP => // E; case: Nv; case: Hx Hy => [/andP [Nx _] _] [/andP [Ny _] _].
by apply: Poly_inj.
Qed.
Print Assumptions C69_sum_congruence_refuted.

Local Notation z2 l := [seq in_modp P2 z | z <- l].
Definition fp_show (x : fp P2) := ([seq mval c | c <- fv x], [seq mval c | c <- fp_p x], fz x, fs x).
Definition one_fp : fp P2 := Fp (z2 [:: 1]%Z) [::] 0%Z 0%Z.

Example C69_example : fp_eq one_fp (Fp (z2 [:: 0; 1]%Z) (z2 [:: 1]%Z) 0%Z 1%Z) = true.
Proof. by vm_compute. Qed.

(** C70: the right operand changes; the second evaluation of [a - b] is [a + b] *)
Theorem C70_sub_mutates : forall (P : primeZ) (g : seq (modp_fieldType P)) m x y,
  let '(r, y') := fp_sub g m x y in
  [/\ y' <> y, fv y' = fv y, fp_p y' = fp_p y, fz y' = fz y & fs y' = Z.lxor (fs y) 1] /\
  fst (fp_sub g m x y') = fp_add g m x y.
Proof.
move=> P g m x y /=; split; last exact: fp_sub_twice.
by split=> // E; have := flip_neq (y := y); rewrite E.
Qed.
Print Assumptions C70_sub_mutates.

(** [x - x] flips the sign of both operands (one object): it is [x' + x'] for the
    flipped x'; with p = 2 it has the zero flag only because x' + x' = 0 there. *)
Theorem C70_sub_self : forall (P : primeZ) (g : seq (modp_fieldType P)) m x,
  let '(r, x') := fp_sub_self g m x in
  [/\ x' <> x, fv x' = fv x, fp_p x' = fp_p x, fz x' = fz x & fs x' = Z.lxor (fs x) 1] /\
  r = fp_add g m x' x'.
Proof.
move=> P g m x /=; split=> //.
by split=> // E; have := flip_neq (y := x); rewrite E.
Qed.
Print Assumptions C70_sub_self.

Example C70_sub_self_example :
  rmap fp_show (fst (fp_sub_self g16 4 one_fp)) = Ok ([::], [::], 1, 1)%Z.
Proof. by vm_compute. Qed.

Example C70_example :
  let '(r1, y1) := fp_sub g16 4 one_fp (Fp (z2 [:: 0; 1]%Z) [::] 0%Z 0%Z) in
  let '(r2, y2) := fp_sub g16 4 one_fp y1 in
  rmap fp_show r1 = Ok ([:: 1; 1], [::], 0, 1)%Z /\ rmap fp_show r2 = Ok ([:: 1; 1], [::], 0, 0)%Z /\
  fs y1 = 1%Z /\ fs y2 = 0%Z.
Proof. by vm_compute. Qed.

(** C78 *)
Theorem C78_fp_add_total : forall (P : primeZ) (g : seq (modp_finFieldType P)) m x y,
  pz P = 2%Z -> normal g -> irreducible_poly (Poly g) -> fp_ok g x -> fp_ok g y ->
  exists z, fp_add g m x y = Ok z /\ fp_ok g z.
Proof. by move=> P g m x y H2 Ng Hirr; exact: fp_add_ok. Qed.
Print Assumptions C78_fp_add_total.

Theorem C78_fp_add_equal_exponents : forall (P : primeZ) (g : seq (modp_finFieldType P)) m x y,
  pz P = 2%Z -> normal g -> irreducible_poly (Poly g) -> fp_ok g x -> fp_ok g y ->
  fz x <> 1%Z -> fz y <> 1%Z -> fp_p x = fp_p y ->
  exists z, [/\ fp_add g m x y = Ok z, Poly (fv z) = Poly (fv x) + Poly (fv y), fp_p z = fp_p x,
     fz z = (if Poly (fv z) == 0 then 1%Z else 0%Z) &
     fs z = if (bits_val (fv x) <=? bits_val (fv y))%Z then fs y else fs x].
Proof. by move=> P g m x y H2 Ng Hirr; exact: fp_add_same_exp. Qed.
Print Assumptions C78_fp_add_equal_exponents.

(** significand, exponent and zero flag of a sum do not depend on the signs, so
    [a - b] and [a + b] differ at most in the sign *)
Theorem C78_fp_sub_is_add_up_to_sign : forall (P : primeZ) (g : seq (modp_fieldType P)) m x y,
  rmap (fun r => (fv r, fp_p r, fz r)) (fst (fp_sub g m x y)) =
  rmap (fun r => (fv r, fp_p r, fz r)) (fp_add g m x y).
Proof. by move=> P g m x y; apply: fp_add_sign_free. Qed.
Print Assumptions C78_fp_sub_is_add_up_to_sign.

(** Full statement (false of the code): the value v * X^p of [x + y] is the sum
    of the values.  It fails already for exponents 1 and 2.  [fp_value] is
    v * X^(integer value of p), by the operations of C19 and C21. *)
Definition fp_value (P : primeZ) (g : seq (modp_finFieldType P)) (x : fp P) : result (seq (modp_finFieldType P)) :=
  let* t := fq_pow g 100 [:: 0; 1] (bits_val (fp_p x)) in fq_mul g (fv x) t.

Theorem C78_fp_add_value_refuted :
  exists x y z : fp P2, [/\ fp_ok g16 x, fp_ok g16 y, fp_add g16 4 x y = Ok z &
    fp_value P2 g16 z <> (let* a := fp_value P2 g16 x in let* b := fp_value P2 g16 y in fq_add g16 a b)].
Proof.
pose x := Fp (z2 [:: 1]%Z) (z2 [:: 1]%Z) 0%Z 0%Z; pose y := Fp (z2 [:: 1]%Z) (z2 [:: 0; 1]%Z) 0%Z 0%Z.
have [Ng Hirr] := g16_irr.
have Hx : fp_ok g16 x by split; vm_compute.
have Hy : fp_ok g16 y by split; vm_compute.
have [z [E Hz]] := C78_fp_add_total P2 g16 4 x y erefl Ng Hirr Hx Hy.
exists x, y, z; split; [exact: Hx | exact: Hy | exact: E |] => /(congr1 (rmap (map (@mval P2)))).
have : (let* z := fp_add g16 4 x y in rmap (map (@mval P2)) (fp_value P2 g16 z)) = Ok [:: 1]%Z by vm_compute.
rewrite E /= => -> ; by vm_compute.
Qed.
Print Assumptions C78_fp_add_value_refuted.

Example C78_example :
  rmap fp_show (fp_add g16 4 (Fp (z2 [:: 1; 1]%Z) (z2 [:: 1]%Z) 0%Z 0%Z) (Fp (z2 [:: 0; 0; 1]%Z) (z2 [:: 1]%Z) 0%Z 1%Z))
    = Ok ([:: 1; 1; 1], [:: 1], 0, 1)%Z.
Proof. by vm_compute. Qed.

(** C79.  [num_to_binary_list] is the binary expansion, least significant bit first, without
    leading zeros; it is empty for negative numbers. *)
Theorem C79_binary_list : forall n : Z,
  [/\ forall b, b \in num_to_binary_list n -> b = 0%Z \/ b = 1%Z,
      foldr (fun b acc => (b + 2 * acc)%Z) 0%Z (num_to_binary_list n) = Z.max 0 n &
      (0 < n)%Z -> last 0%Z (num_to_binary_list n) = 1%Z].
Proof.
move=> n; rewrite /num_to_binary_list; case: (Z_lt_le_dec 0 n) => Hn; last first.
  have -> : ntb_loop (Z.to_nat (Z.log2 n)).+1 n = [::] by rewrite /=; case: Z.ltb_spec => //; lia.
  by split=> //=; lia.
have [||A V L] := @ntb_loop_spec (Z.to_nat (Z.log2 n)).+1 n; first lia.
  rewrite Nat2Z.inj_succ Z2Nat.id; last exact: Z.log2_nonneg.
  by have [] := Z.log2_spec n Hn.
split=> //; last by rewrite V; lia.
by move=> b /(allP A) /orP [/Z.eqb_eq|/Z.eqb_eq]; [left|right].
Qed.
Print Assumptions C79_binary_list.

Example C79_binary_list_example : num_to_binary_list 22 = [:: 0; 1; 1; 0; 1]%Z /\ num_to_binary_list (-3) = [::].
Proof. by vm_compute. Qed.

(** C79 *)
Theorem C79_fp_mul : forall (P : primeZ) (g : seq (modp_finFieldType P)) m x y,
  normal g -> irreducible_poly (Poly g) -> fp_ok g x -> fp_ok g y ->
  exists z, [/\ fp_mul g m x y = Ok z, fp_ok g z, fz z = Z.lor (fz x) (fz y), fs z = Z.lxor (fs x) (fs y) &
   (Z.lor (fz x) (fz y) = 1%Z -> fv z = [::] /\ fp_p z = [::]) /\
   (Z.lor (fz x) (fz y) <> 1%Z -> Poly (fv z) = (Poly (fv x) * Poly (fv y)) %% Poly g /\
      Poly (fp_p z) = Poly (fp_p x) + Poly (fp_p y) +
        Poly ([seq in_modp P c | c <- num_to_binary_list (2 * (Z.of_nat (size (fv x)) - 1) - (m - 1))]
                : seq (modp_finFieldType P)) %% Poly g)].
Proof. by move=> P g m x y Ng Hirr; exact: fp_mul_ok. Qed.
Print Assumptions C79_fp_mul.

(** Full statement (false of the code): multiplication is commutative.  The
    exponent correction uses the degree of the left significand twice. *)
Theorem C79_fp_mul_commutative_refuted :
  exists x y : fp P2, [/\ fp_ok g16 x, fp_ok g16 y &
    rmap fp_show (fp_mul g16 4 x y) <> rmap fp_show (fp_mul g16 4 y x)].
Proof.
exists one_fp, (Fp (z2 [:: 0; 0; 0; 1]%Z) [::] 0%Z 0%Z); split; [by split; vm_compute | by split; vm_compute |].
by vm_compute.
Qed.
Print Assumptions C79_fp_mul_commutative_refuted.

Example C79_example :
  rmap fp_show (fp_mul g16 4 (Fp (z2 [:: 1; 1]%Z) (z2 [:: 1]%Z) 0%Z 0%Z) (Fp (z2 [:: 0; 0; 1]%Z) (z2 [:: 0; 1]%Z) 0%Z 1%Z))
    = Ok ([:: 0; 0; 1; 1], [:: 1; 1], 0, 1)%Z.
Proof. by vm_compute. Qed.

(** C80: [fp_nfold n x acc] multiplies [acc] n times by [x] *)
Theorem C80_fp_pow : forall (P : primeZ) (g : seq (modp_finFieldType P)) m fuel x y,
  pz P = 2%Z -> normal g -> irreducible_poly (Poly g) -> fp_ok g x -> fp_ok g y ->
  exists fixed s, [/\ float_to_fix g y = Ok (fixed, s), fq_valid g fixed &
   (Z.to_nat (bits_val fixed) < fuel)%N ->
   fp_pow g m fuel x y =
     let* r := fp_nfold g m (Z.to_nat (bits_val fixed)) x (Fp [:: 1] [::] 0%Z 0%Z) in
     if (fs y =? 1)%Z then fp_div g m (Fp [:: 1] [::] 0%Z 0%Z) r else Ok r].
Proof. by move=> P g m fuel x y H2 Ng Hirr; exact: fp_pow_spec. Qed.
Print Assumptions C80_fp_pow.

(** The integer exponent: the significand times [two_pow] of the exponent, with
    the sign; 0 if the zero flag is set. *)
Theorem C80_float_to_fix : forall (P : primeZ) (g : seq (modp_finFieldType P)) y,
  pz P = 2%Z -> normal g -> irreducible_poly (Poly g) ->
  (fz y = 1%Z -> float_to_fix g y = Ok ([::], 0%Z)) /\
  (fz y <> 1%Z -> exists o, [/\ float_to_fix g y = Ok (o, fs y), fq_valid g o &
     Poly o = (Poly (fv y) * 'X^(\sum_(0 <= i < size (fp_p y) | nth 0 (fp_p y) i == 1) i.+1)) %% Poly g]).
Proof. by move=> P g y H2 Ng Hirr; exact: float_to_fix_spec. Qed.
Print Assumptions C80_float_to_fix.

Example C80_float_to_fix_example :
  rmap (fun '(o, s) => (map (@mval P2) o, s))
    (float_to_fix g16 (Fp (z2 [:: 1; 1]%Z) (z2 [:: 0; 1]%Z) 0%Z 1%Z)) = Ok ([:: 0; 0; 1; 1]%Z, 1%Z).
Proof. by vm_compute. Qed.

Example C80_example :
  rmap fp_show (fp_pow g16 4 9 (Fp (z2 [:: 0; 1]%Z) [::] 0%Z 0%Z) (Fp (z2 [:: 1; 1]%Z) [::] 0%Z 0%Z))
    = Ok ([:: 0; 0; 0; 1], [:: 1], 0, 0)%Z.
Proof. by vm_compute. Qed.

(** C81 *)
Theorem C81_fp_div : forall (P : primeZ) (g : seq (modp_finFieldType P)) m x y,
  normal g -> irreducible_poly (Poly g) -> fp_ok g x -> fp_ok g y ->
  (fz y = 1%Z \/ fv y = [::] -> fp_div g m x y = Err ZeroDivisionError) /\
  (fz y <> 1%Z -> fv y <> [::] ->
   exists z, [/\ fp_div g m x y = Ok z, fp_ok g z, fz z = Z.lor (fz x) (fz y), fs z = Z.lxor (fs x) (fs y) &
   (Z.lor (fz x) (fz y) <> 1%Z -> (Poly (fv z) * Poly (fv y)) %% Poly g = Poly (fv x))]).
Proof.
by move=> P g m x y Ng Hirr Hx Hy; split=> [|H1 H2]; [exact: fp_div_zero | exact: fp_div_ok].
Qed.
Print Assumptions C81_fp_div.

Example C81_example :
  rmap fp_show (fp_div g16 4 one_fp (Fp (z2 [:: 0; 1]%Z) (z2 [:: 1]%Z) 0%Z 1%Z)) = Ok ([:: 1; 0; 0; 1], [:: 1], 0, 1)%Z /\
  fp_div g16 4 one_fp (Fp [::] [::] 1%Z 0%Z) = Err ZeroDivisionError.
Proof. by vm_compute. Qed.
