(** C124: [gcd] and [extended_euclidean_algorithm] (starks/euclidean.py) called with
    elements of IntegersModP(p), of FiniteField(p, m) and with polynomials, and with a
    mixture of ints and elements. *)
From mathcomp Require Import zify ssrZ.
From Verif Require Import Prelude EuclidModel EuclidMixModel EuclidMixProofs EuclidMixInst EuclidMixInstProofs
  ModpModel ModpProofs ModpField PolyModel PolyProofs FinFld FiniteFieldModel FiniteFieldProofs.
From Verif Require Import Properties_FiniteField.
Set Implicit Arguments.
Unset Strict Implicit.
Unset Printing Implicit Defensive.
Import GRing.Theory.
Local Open Scope ring_scope.
Local Open Scope py_scope.

(** In Z/p the gcd of two elements is the gcd of their representatives (so not 1, although
    nonzero elements of a field divide each other); p need not be prime. *)
Theorem C124_modp_gcd : forall p a b, (0 <= a < p)%Z -> (0 <= b < p)%Z ->
  zp_gcd p (PObj a) (PObj b) = Ok (PObj (Z.gcd a b)).
Proof. exact: zp_gcdE. Qed.
Print Assumptions C124_modp_gcd.

(** The value of a coefficient as a number: an int, or the representative of an element. *)
Definition zvalue (v : pynum Z) : Z := match v with PInt z => z | PObj n => n end.

(** The coefficients satisfy Bezout's identity modulo p.  They are elements exactly if
    neither representative divides the other; otherwise they are the ints 0 and 1. *)
Theorem C124_modp_eea : forall p a b, (0 <= a < p)%Z -> (0 <= b < p)%Z ->
  exists x y, zp_eea p (PObj a) (PObj b) = Ok (x, y, PObj (Z.gcd a b)) /\
    ((a * zvalue x + b * zvalue y) mod p = Z.gcd a b mod p)%Z /\
    (((a | b) \/ (b | a))%Z ->
       (x = PInt 1 /\ y = PInt 0) \/ (x = PInt 0 /\ y = PInt 1)) /\
    (~ (a | b)%Z -> ~ (b | a)%Z ->
       exists i j, x = PObj i /\ y = PObj j /\ (0 <= i < p)%Z /\ (0 <= j < p)%Z).
Proof.
move=> p a b Ha Hb.
have [x [y [xi [yi [E -> [Ex Ey] T0 T1]]]]] := zp_eeaE Ha Hb.
have B : (a * xi + b * yi = Z.gcd a b)%Z.
  have [xi' [yi' [d [E' [_ [B _]]]]]] := EuclidProofs.eea_int_spec a b.
  by rewrite E in E'; case: E' B => <- <- <-.
have V v z : (erase (modp_mk p) v = z mod p)%Z -> (zvalue v mod p = z mod p)%Z.
  by case: v => [k|k] //= ->; rewrite Z.mod_mod //; lia.
have p0 : p <> 0%Z by lia.
exists x, y; split=> //; split; last split=> //.
  rewrite -B Z.add_mod // -[(a * _ mod p)%Z]Z.mul_mod_idemp_r // -[(b * _ mod p)%Z]Z.mul_mod_idemp_r //.
  rewrite (V _ _ Ex) (V _ _ Ey) !Z.mul_mod_idemp_r // -Z.add_mod //.
move=> N1 N2; have [[i Ei] [j Ej]] := T1 N1 N2; exists i, j; do 2!split=> //.
move: Ex Ey; rewrite Ei Ej /= => -> ->; split; apply: Z.mod_pos_bound; lia.
Qed.
Print Assumptions C124_modp_eea.

(** An element and an int: an answer exactly if one of them is 0, or the int is not larger and
    its residue divides the representative; otherwise an int would have to be divided by an
    element, which raises TypeError. *)
Theorem C124_modp_mixed : forall p a k, (0 <= a < p)%Z ->
  zp_gcd p (PObj a) (PInt 0) = Ok (PObj a) /\
  (a = 0%Z -> k <> 0%Z -> zp_gcd p (PObj a) (PInt k) = Ok (PInt k)) /\
  ((0 < a < Z.abs k)%Z -> zp_gcd p (PObj a) (PInt k) = Err TypeError) /\
  ((k <> 0)%Z -> (Z.abs k <= a)%Z ->
     ((k mod p | a)%Z -> zp_gcd p (PObj a) (PInt k) = Ok (PInt k)) /\
     (~ (k mod p | a)%Z -> zp_gcd p (PObj a) (PInt k) = Err TypeError)) /\
  (a = 0%Z -> zp_gcd p (PInt k) (PObj a) = Ok (PInt k)) /\
  ((0 < a <= Z.abs k)%Z -> zp_gcd p (PInt k) (PObj a) = Err TypeError) /\
  ((Z.abs k < a)%Z -> zp_gcd p (PInt k) (PObj a) = zp_gcd p (PObj a) (PInt k)).
Proof.
move=> p a k Ha.
have fuel v w : exists f, num_fuel v w = f.+3.
  by rewrite /num_fuel /int_fuel; eexists; rewrite plusE !addnS.
have Ea : Z.abs a = a by lia.
rewrite /zp_gcd /mix_gcd /gcd_gen.
have [f1 ->] := fuel (PObj a) (PInt 0); have [f2 E2] := fuel (PObj a) (PInt k); have [f3 E3] := fuel (PInt k) (PObj a).
split; first by rewrite /= Ea; case: Z.ltb_spec => //; lia.
split.
  move=> a0 k0; rewrite E2 /= Ea; case: Z.ltb_spec => [_|]; last by lia.
  by rewrite a0.
split.
  move=> H; rewrite E2 /= Ea; case: Z.ltb_spec => [_|]; last by lia.
  by case: Z.ltb_spec => //; lia.
split.
  move=> k0 Hk.
  have K : (0 < k mod p < p)%Z.
    have := Z.mod_pos_bound k p; have := Z.div_mod k p.
    have [/Z.mod_divide D|] : (k mod p = 0 \/ k mod p <> 0)%Z by lia.
      case: D => [|q Eq]; first by lia.
      by have : k = 0%Z by apply: (@mult_small p k q) => //; lia.
    by lia.
  have C : canonical p (k mod p) by rewrite /canonical; lia.
  have [|D _] := @zdiv p a (k mod p) Ha C; first by lia.
  have Hm := Z.mod_pos_bound a (k mod p).
  rewrite E2; cbn [gcd_loop py_abs]; rewrite Ea; case: Z.ltb_spec => [|_]; first by lia.
  case: Z.ltb_spec => [_|]; last by lia.
  rewrite /py_divmod D; cbn [bind py_abs].
  split=> [/Z.mod_divide R|R]; first by rewrite R //; lia.
  have : (a mod (k mod p) <> 0)%Z by move=> /Z.mod_divide R'; apply: R; apply: R'; lia.
  by case: Z.ltb_spec => //; lia.
split.
  move=> a0; rewrite E3 /= Ea; case: Z.ltb_spec => [|_]; first by lia.
  by rewrite a0.
split.
  move=> H; rewrite E3 /= Ea; case: Z.ltb_spec => [|_]; first by lia.
  by case: Z.ltb_spec => //; lia.
move=> H; have -> : num_fuel (PInt k) (PObj a) = num_fuel (PObj a) (PInt k).
  by rewrite /num_fuel /int_fuel /= Z.add_comm.
by cbn [py_abs]; rewrite Ea; case: Z.ltb_spec => [_|]; [case: Z.ltb_spec => //; lia|lia].
Qed.
Print Assumptions C124_modp_mixed.

(** Whatever mixture is given, the extended algorithm returns the gcd that [gcd] returns,
    or raises what it raises; on ints both are the int algorithms (C01, C02). *)
Theorem C124_modp_agree : forall p v w,
  match zp_gcd p v w with
  | Ok d => exists x y, zp_eea p v w = Ok (x, y, d)
  | Err e => zp_eea p v w = Err e
  end.
Proof. exact: zp_follows. Qed.
Print Assumptions C124_modp_agree.

Theorem C124_ints : forall p a b, exists x y d,
  [/\ zp_gcd p (PInt a) (PInt b) = Ok (PInt d), zp_eea p (PInt a) (PInt b) = Ok (PInt x, PInt y, PInt d),
      (a * x + b * y = d)%Z & Z.abs d = Z.gcd a b].
Proof.
move=> p a b; have [-> ->] := zp_ints p a b.
have [x [y [d [Ee [Eg [B _]]]]]] := EuclidProofs.eea_int_spec a b.
by exists x, y, d; rewrite Ee Eg; split=> //; exact: EuclidProofs.gcd_int_abs Eg.
Qed.
Print Assumptions C124_ints.

(** For polynomials over any field the int literals of the loop make no difference: after
    casting its coefficients the outcome is that of the model that starts with the
    polynomials 0 and 1 (C03 proves Bezout's identity for that one).  The literals come out
    as ints exactly if one polynomial divides the other. *)
Theorem C124_poly_eea : forall (F : fieldType) (ofZ : Z -> F) (a b : seq F),
  ofZ 0%Z = 0 -> ofZ 1%Z = 1 -> normal a -> normal b ->
  exists x y d, [/\ poly_gcd ofZ a b = Ok (PObj d), poly_eea ofZ a b = Ok (x, y, PObj d),
    peea a b = Ok (erase (fun k => pconst (ofZ k)) x, erase (fun k => pconst (ofZ k)) y, d),
    (Poly a %| Poly b) || (Poly b %| Poly a) ->
      (x = PInt 1 /\ y = PInt 0) \/ (x = PInt 0 /\ y = PInt 1) &
    ~~ ((Poly a %| Poly b) || (Poly b %| Poly a)) -> exists i j, x = PObj i /\ y = PObj j].
Proof.
move=> F ofZ a b Z0 Z1 Na Nb; have [x [y [d [E E' T0 T1]]]] := poly_eeaE Z0 Z1 Na Nb.
exists x, y, d; split=> // [|/T1 [[i ->] [j ->]]]; last by exists i, j.
have [x' [y' [d' [Eg [Ee _]]]]] := peea_pgcd Na Nb.
by rewrite poly_gcdE Eg; rewrite E' in Ee; case: Ee => _ _ ->.
Qed.
Print Assumptions C124_poly_eea.

(** In FiniteField(p, m) the gcd of two elements is that of the polynomials that represent
    them, and the coefficients satisfy a*x + b*y = gcd with the operations of the class. *)
Theorem C124_fq : forall (F : finFieldType) (ofZ : Z -> F) (g a b : seq F),
  ofZ 0%Z = 0 -> ofZ 1%Z = 1 -> normal g -> irreducible_poly (Poly g) ->
  normal a -> (size a < size g)%N -> normal b -> (size b < size g)%N ->
  let elt v := match v with PObj c => c | PInt k => fq_const (ofZ k) end in
  exists x y d, [/\ fq_gcd ofZ g a b = Ok (PObj d), fq_eea ofZ g a b = Ok (x, y, PObj d),
    forall e, (e %| Poly d) = (e %| Poly a) && (e %| Poly b),
    (exists u v, [/\ fq_mul g a (elt x) = Ok u, fq_mul g b (elt y) = Ok v & fq_add g u v = Ok d]) &
    if (Poly a %| Poly b) || (Poly b %| Poly a)
    then (x = PInt 1 /\ y = PInt 0) \/ (x = PInt 0 /\ y = PInt 1)
    else exists i j, x = PObj i /\ y = PObj j].
Proof.
move=> F ofZ g a b Z0 Z1 Ng Hirr Na Sa Nb Sb elt.
have [Va Vb] : fq_valid g a /\ fq_valid g b by rewrite /fq_valid Na Sa Nb Sb.
have [x [y [d [E Eg _ [u [v [Eu Ev Ew]]] [T0 T1]]]]] := fq_eeaE Z0 Z1 Ng Hirr Va Vb.
have Elt w : elt w = erase (fun k => fq_const (ofZ k)) w by case: w.
exists x, y, d; rewrite (fq_gcdE ofZ Ng Hirr Va Vb) Eg E; split=> //.
- by have [d' [E' _ S]] := pgcd_spec Na Nb; rewrite Eg in E'; case: E' => ->.
- by exists u, v; rewrite !Elt.
- by case: ifP => [/T0//|/negbT /T1 [[i ->] [j ->]]]; exists i, j.
Qed.
Print Assumptions C124_fq.

(** 4864 and 3458 in Z/9923: gcd 38 and the coefficients of the int algorithm; 12 and 4: the
    literals; 12 and the int 5: TypeError, 12 and the int 4: the int 4; 12 and the int -11 in
    Z/17: the residue 6 of -11 divides 12. *)
Example C124_example :
  [/\ zp_eea 9923 (PObj 4864%Z) (PObj 3458%Z) = Ok (PObj 32%Z, PObj 9878%Z, PObj 38%Z),
      zp_eea 17 (PObj 4%Z) (PObj 12%Z) = Ok (PInt 1, PInt 0, PObj 4%Z),
      zp_gcd 17 (PObj 12%Z) (PInt 5) = Err TypeError,
      zp_gcd 17 (PObj 12%Z) (PInt 4) = Ok (PInt 4) &
      zp_gcd 17 (PObj 12%Z) (PInt (-11)) = Ok (PInt (-11))].
Proof. by vm_compute. Qed.
(** x^3+x and x^2+1 in FiniteField(2, 4): the gcd is x^2+1 and not a constant; x^3+1 and x^2+1:
    (x^3+1)*1 + (x^2+1)*x = x+1. *)
Example C124_fq_example :
  let z2 l := [seq in_modp P2 z | z <- l] in
  let ints v := match v with PObj c => PObj (map (@mval P2) c) | PInt k => PInt k end in
  rmap ints (fq_gcd (in_modp P2) g16 (z2 [:: 0; 1; 0; 1]%Z) (z2 [:: 1; 0; 1]%Z)) = Ok (PObj [:: 1; 0; 1]%Z) /\
  rmap (fun '(x, y, d) => (ints x, ints y, ints d))
    (fq_eea (in_modp P2) g16 (z2 [:: 1; 0; 0; 1]%Z) (z2 [:: 1; 0; 1]%Z)) =
    Ok (PObj [:: 1]%Z, PObj [:: 0; 1]%Z, PObj [:: 1; 1]%Z).
Proof. by vm_compute. Qed.
