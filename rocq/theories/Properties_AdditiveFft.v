(** Property theorems C91 and C92: the additive FFT over fields of characteristic 2
    (starks/fft.py:9-254).  [g] is the irreducible modulus of the field, an element is
    the list of its coefficients over Z/2; [fq_valid g x]: [x] has no trailing zero and
    is shorter than [g].  [Poly x \Po Poly b] is the composition, so that
    [(Poly x \Po Poly b) %% Poly g] is the value of the polynomial x at the field element
    b.  [adfft g m' f beta] models [adfft(f, m' + 1, beta)], likewise [adfft_inverse]. *)
From mathcomp Require Import zify ssrZ.
From Verif Require Import Prelude BaseProofs PolyModel PolyProofs FftProofs QField Pocklington ModpModel ModpField
  IrredModel IrredProofs FiniteFieldModel FiniteFieldProofs AdditiveFftModel AdditiveFftProofs
  Properties_FiniteField.
Set Implicit Arguments.
Unset Strict Implicit.
Unset Printing Implicit Defensive.
Import GRing.Theory.
Local Open Scope ring_scope.
Local Open Scope py_scope.

Local Notation z2 l := [seq in_modp P2 z | z <- l].

(** C91: the digit string is the binary representation, most significant digit first
    and without leading zero. *)
Theorem C91_bin_string : forall i : nat,
  foldl (fun v (b : bool) => 2 * v + b)%N 0%N (int_to_bin_string i) = i /\
  ((0 < i)%N -> exists s, int_to_bin_string i = true :: s) /\
  int_to_bin_string 0 = [:: false].
Proof.
move=> i; have [H1 H2] := bin_stringE i; split=> //; split=> // Hi.
by move: H2; case: eqP Hi => // ->.
Qed.
Print Assumptions C91_bin_string.

Example C91_bin_string_example : int_to_bin_string 6 = [:: true; true; false].
Proof. by []. Qed.

(** Up to two coefficients nothing is expanded. *)
Theorem C91_taylor_base : forall (P : primeZ) (g x : seq (modp P)) (n : Z),
  (n <= 2)%Z -> taylor g x n = Ok (Single x).
Proof. by move=> P g x n /Z.leb_le H; rewrite /taylor H. Qed.
Print Assumptions C91_taylor_base.

(** [n = 3] or [4]: the Taylor expansion at x^2 + x of the first four coefficients. *)
Theorem C91_taylor_expansion_four : forall (P : primeZ) (g : seq (modp_finFieldType P)),
  pz P = 2%Z -> normal g -> irreducible_poly (Poly g) -> (2 < size g)%N ->
  forall (x : seq (modp_finFieldType P)) (n : Z), (n = 3 \/ n = 4)%Z ->
  exists g0 g1, taylor g x n = Ok (Pair (Single g0) (Single g1)) /\
    (size g0 <= 2)%N /\ (size g1 <= 2)%N /\
    Poly (take 4 x) = Poly g0 + ('X^2 + 'X) * Poly g1.
Proof.
move=> P g HP Ng Hirr Sg x n Hn.
by have [g0 [g1 [E _ _ [S0 S1] H]]] := taylor_small HP Ng Hirr x Sg Hn; exists g0, g1.
Qed.
Print Assumptions C91_taylor_expansion_four.

(** Longer polynomials are not covered by the code: the recursion passes the float [n/2], on
    which [range] fails, so that no polynomial is ever expanded for [n > 4]. *)
Theorem C91_taylor_expansion_large_refuted : forall (P : primeZ) (g : seq (modp_finFieldType P)),
  normal g -> irreducible_poly (Poly g) ->
  forall (x : seq (modp_finFieldType P)) (n : Z), (4 < n)%Z -> taylor g x n = Err TypeError.
Proof. by move=> P g Ng Hirr x n Hn; exact: taylor_large. Qed.
Print Assumptions C91_taylor_expansion_large_refuted.

Definition taylor_val (r : result (taylor_out P2)) : option (seq Z * seq Z) :=
  if r is Ok (Pair (Single a) (Single b)) then Some (map (@mval P2) a, map (@mval P2) b) else None.
Definition vals (r : result (seq (seq (modp P2)))) : result (seq (seq Z)) :=
  rmap (map (map (@mval P2))) r.

(** 1 + x + x^3 = 1 + (x^2 + x)(1 + x) *)
Example C91_example :
  normal g16 /\ irreducible_poly (Poly g16) /\ (2 < size g16)%N /\
  taylor_val (taylor g16 (z2 [:: 1; 1; 0; 1]%Z) 3) = Some ([:: 1]%Z, [:: 1; 1]%Z) /\
  taylor g16 (z2 [:: 1; 1; 0; 1]%Z) 8 = Err TypeError.
Proof.
have [N I] := g16_irr; split=> //; split=> //; split=> //.
Qed.

(** C92.  [adfft] should return the values at the 2^m points spanned by [beta].  For
    [m = 1] it returns the value at [beta[0]], then the zero element in the place of the
    value at 0. *)
Theorem C92_adfft_one : forall (P : primeZ) (g : seq (modp_finFieldType P)),
  pz P = 2%Z -> normal g -> irreducible_poly (Poly g) ->
  forall f b bs, fq_valid g b ->
  exists z, adfft g 0 f (b :: bs) = Ok [:: z; [::]] /\ fq_valid g z /\
            Poly z = (Poly f \Po Poly b) %% Poly g.
Proof.
move=> P g HP Ng Hirr f b bs Vb.
by have [z [E V H]] := adfft1 HP Ng Hirr f bs Vb; exists z.
Qed.
Print Assumptions C92_adfft_one.

(** [m = 2]: with c = beta0/beta1 and f(beta1 x) mod g = g0 + (x^2 + x) g1 (its first four
    coefficients), the result is g0(c^2 - c), 0, g0(c^2 - c) + g1(c^2 - c), 0. *)
Theorem C92_adfft_two : forall (P : primeZ) (g : seq (modp_finFieldType P)),
  pz P = 2%Z -> normal g -> irreducible_poly (Poly g) -> (2 < size g)%N ->
  forall f b0 b1 bs, fq_valid g b0 -> fq_valid g b1 -> b1 != [::] ->
  exists gx g0 g1 c d a e,
    adfft g 1 f [:: b0, b1 & bs] = Ok [:: a; [::]; e; [::]] /\
    Poly gx = (Poly f \Po ('X * Poly b1)) %% Poly g /\
    Poly (take 4 gx) = Poly g0 + ('X^2 + 'X) * Poly g1 /\ (size g0 <= 2)%N /\ (size g1 <= 2)%N /\
    (Poly c * Poly b1) %% Poly g = Poly b0 /\ Poly d = (Poly c ^+ 2 - Poly c) %% Poly g /\
    Poly a = (Poly g0 \Po Poly d) %% Poly g /\
    Poly e = ((Poly g0 \Po Poly d) + (Poly g1 \Po Poly d)) %% Poly g.
Proof.
move=> P g HP Ng Hirr Sg f b0 b1 bs V0 V1 N1.
have [gx [g0 [g1 [c [d [a [e [E [H1 [H2 S0 S1]] [H3 H4] H5 H6]]]]]]]] := adfft2 HP Ng Hirr f bs Sg V0 V1 N1.
by exists gx, g0, g1, c, d, a, e.
Qed.
Print Assumptions C92_adfft_two.

(** Hence the evaluation claim is false: for the constant polynomial 1, whose value is 1
    everywhere, one of the results is 0 whatever the basis, for m = 1 and m = 2. *)
Theorem C92_adfft_evaluates_refuted : forall (P : primeZ) (g : seq (modp_finFieldType P)),
  pz P = 2%Z -> normal g -> irreducible_poly (Poly g) -> (2 < size g)%N ->
  forall b0 b1 bs, fq_valid g b0 -> fq_valid g b1 -> b1 != [::] ->
  (forall b, (Poly ([:: 1] : seq (modp_finFieldType P)) \Po Poly b) %% Poly g = 1) /\
  (exists ws, adfft g 0 [:: 1] [:: b0, b1 & bs] = Ok ws /\ size ws = 2%N /\ nth [:: 1] ws 1 = [::]) /\
  (exists ws, adfft g 1 [:: 1] [:: b0, b1 & bs] = Ok ws /\ size ws = 4%N /\
     nth [:: 1] ws 1 = [::] /\ nth [:: 1] ws 3 = [::]).
Proof.
move=> P g HP Ng Hirr Sg b0 b1 bs V0 V1 N1; split.
  move=> b; have -> : Poly ([:: 1] : seq (modp_finFieldType P)) = 1.
    by rewrite /= cons_poly_def mul0r add0r polyC1.
  by rewrite comp_polyC -polyC1 modp_small // size_polyC oner_eq0 -size_normal // (g_gt1 Ng Hirr).
split.
  by have [z [-> _ _]] := adfft1 HP Ng Hirr [:: 1] (b1 :: bs) V0; exists [:: z; [::]].
have [gx [g0 [g1 [c [d [a [e [-> _ _ _ _]]]]]]]] := adfft2 HP Ng Hirr [:: 1] bs Sg V0 V1 N1.
by exists [:: a; [::]; e; [::]].
Qed.
Print Assumptions C92_adfft_evaluates_refuted.

(** [m >= 3] fails for every polynomial. *)
Theorem C92_adfft_large : forall (P : primeZ) (g : seq (modp_finFieldType P)),
  pz P = 2%Z -> normal g -> irreducible_poly (Poly g) ->
  forall m f beta, (1 < m)%N -> (m < size beta)%N -> all (fq_valid g) beta ->
  adfft g m f beta = Err TypeError.
Proof. by move=> P g HP Ng Hirr m f beta; exact: adfft_large. Qed.
Print Assumptions C92_adfft_large.

(** The inverse on two points: the common point, not the value there, when the two points
    agree; otherwise always an exception. *)
Theorem C92_inverse_two_points : forall (P : primeZ) (g : seq (modp_finFieldType P)),
  normal g -> irreducible_poly (Poly g) ->
  forall x0 x1 xs y0 y1 ys,
  fq_valid g x0 -> fq_valid g x1 -> fq_valid g y0 -> fq_valid g y1 ->
  adfft_inverse g 0 [:: x0, x1 & xs] [:: y0, y1 & ys]
    = if x0 == x1 then Ok x0 else Err UnboundLocalError.
Proof. by move=> P g Ng Hirr x0 x1 xs y0 y1 ys; exact: inverse1. Qed.
Print Assumptions C92_inverse_two_points.

(** The "interpolation" on 4, 8, 16, ... points does not depend on the values. *)
Theorem C92_inverse_ignores_values : forall (P : primeZ) (g : seq (modp_finFieldType P)),
  normal g -> irreducible_poly (Poly g) ->
  forall m x y y', (0 < m)%N -> (2 ^ m.+1 <= size y)%N -> (2 ^ m.+1 <= size y')%N ->
  all (fq_valid g) y -> all (fq_valid g) y' ->
  adfft_inverse g m x y = adfft_inverse g m x y'.
Proof. by move=> P g Ng Hirr [|m] x y y' // _; exact: inverse_ignores. Qed.
Print Assumptions C92_inverse_ignores_values.

(** What it computes on four points x0..x3: with c = x1/x2, d = c^2 - c and s = X/x2, the
    element (s + d_0) + (s + d_1)(s^2 - s), where d_0 and d_1 are the two lowest
    coefficients of d. *)
Theorem C92_inverse_four_points : forall (P : primeZ) (g : seq (modp_finFieldType P)),
  pz P = 2%Z -> normal g -> irreducible_poly (Poly g) ->
  forall x0 x1 x2 xs y, fq_valid g x1 -> fq_valid g x2 -> x2 != [::] ->
  (4 <= size y)%N -> all (fq_valid g) y ->
  exists c d s r, adfft_inverse g 1 [:: x0, x1, x2 & xs] y = Ok r /\ fq_valid g r /\
    (Poly c * Poly x2) %% Poly g = Poly x1 /\ Poly d = (Poly c ^+ 2 - Poly c) %% Poly g /\
    (Poly s * Poly x2) %% Poly g = 'X %% Poly g /\
    Poly r = ((Poly s + (d`_0)%:P) + (Poly s + (d`_1)%:P) * (Poly s ^+ 2 - Poly s)) %% Poly g.
Proof.
move=> P g HP Ng Hirr x0 x1 x2 xs y V1 V2 N2 Sy Vy.
by have [c [d [s [r [E V [H1 H2] H3 H4]]]]] := inverse4 HP Ng Hirr x0 xs V1 V2 N2 Sy Vy; exists c, d, s, r.
Qed.
Print Assumptions C92_inverse_four_points.

(** The polynomial of the test suite, and two interpolations on the same points. *)
Example C92_example :
  vals (adfft g16 0 (z2 [:: 1; 1; 0; 1]%Z) [:: z2 [:: 1; 0; 1]%Z; z2 [:: 0; 1; 1]%Z]) = Ok [:: [:: 0; 1; 1; 1]; [::]]%Z /\
  vals (adfft g16 1 (z2 [:: 1; 1; 0; 1]%Z) [:: z2 [:: 1; 0; 1]%Z; z2 [:: 0; 1; 1]%Z])
    = Ok [:: [:: 1; 0; 1]; [::]; [:: 0; 0; 1]; [::]]%Z /\
  adfft g16 2 (z2 [:: 1; 1]%Z) [:: z2 [:: 1]%Z; z2 [:: 0; 1]%Z; z2 [:: 0; 0; 1]%Z] = Err TypeError /\
  all (fq_valid g16) [:: z2 [:: 1; 0; 1]%Z; z2 [:: 0; 1; 1]%Z; z2 [:: 0; 1]%Z] /\
  let x := [:: [::]; z2 [:: 1]%Z; z2 [:: 0; 1]%Z; z2 [:: 1; 1]%Z] in
  rmap (map (@mval P2)) (adfft_inverse g16 1 x [:: z2 [:: 1]%Z; z2 [:: 1]%Z; z2 [:: 1]%Z; z2 [:: 1]%Z])
    = rmap (map (@mval P2)) (adfft_inverse g16 1 x [:: [::]; z2 [:: 1]%Z; z2 [:: 0; 1]%Z; [::]]) /\
  rmap (map (@mval P2)) (adfft_inverse g16 1 x [:: [::]; z2 [:: 1]%Z; z2 [:: 0; 1]%Z; [::]]) = Ok [:: 1%Z] /\
  let x' := [:: [::]; z2 [:: 1; 1]%Z; z2 [:: 0; 0; 1]%Z; z2 [:: 1; 1]%Z] in
  rmap (map (@mval P2)) (adfft_inverse g16 1 x' [:: [::]; z2 [:: 1]%Z; z2 [:: 0; 1]%Z; [::]]) = Ok [:: 0; 1; 1; 1]%Z.
Proof. by vm_compute. Qed.
