(** Properties of the class FiniteField(p, m) that follow from its being a field (C121): the
    powers of elements, and the generic algorithms of the library on its elements. *)
From Coq Require Import Lia.
From Verif Require Import Prelude ModpModel ModpField QField FinFld PolyModel PolyProofs InterpModel
  InterpProofs FftProofs GaussProofs FiniteFieldModel FiniteFieldProofs IrredProofs FqField.
Set Implicit Arguments.
Unset Strict Implicit.
Unset Printing Implicit Defensive.
Import GRing.Theory.
Local Open Scope ring_scope.
Local Open Scope py_scope.

Section Powers.
Variables (P : primeZ) (g : seq (modp_finFieldType P)).
Hypotheses (Ng : normal g) (Hirr : irreducible_poly (Poly g)).
Local Notation F := (modp_finFieldType P).
(** [p ** m], the number of elements (C19) *)
Local Notation q := (pz P ^ Z.of_nat (size g).-1)%Z.
(** enough recursion depth for exponents up to [q] *)
Variables k fuel : nat.
Hypotheses (Hk : (q < 2 ^ Z.of_nat k)%Z) (Hf : (2 * k < fuel)%N).

Lemma cardQ : #|{: qp (IrrP Hirr)}| = Z.to_nat q.
Proof.
have H2 := Znumtheory.prime_ge_2 _ (pz_prime P).
rewrite card_qp -[ip _]/(Poly g) -(g_size Ng) card_modp; elim: (_.-1) => [//|n IH].
rewrite expnS IH Nat2Z.inj_succ Z.pow_succ_r; last exact: Nat2Z.is_nonneg.
rewrite Z2Nat.inj_mul //; first by move: H2; clear; lia.
by apply: Z.pow_nonneg; move: H2; clear; lia.
Qed.

Lemma q_gt1 : (1 < q)%Z.
Proof.
have H2 := Znumtheory.prime_ge_2 _ (pz_prime P).
have H1 : (1 < size g)%N by rewrite (g_size Ng); case: Hirr.
apply: (proj1 (Z.pow_gt_1 (pz P) _ _)); first by move: H2; clear; lia.
by move: H1; case: (size g) => [|[|n]] //= _; lia.
Qed.

(** [x ** n] for [0 <= n <= q] *)
Lemma powE x n : fq_valid g x -> (0 <= n <= q)%Z ->
  exists z, [/\ fq_pow g fuel x n = Ok z, fq_valid g z & toQ Hirr z = toQ Hirr x ^+ Z.to_nat n].
Proof. by move=> V [H0 Hn]; apply: (@fq_pow_ok _ _ Ng Hirr k) => //; lia. Qed.

Lemma toQ_unit x : fq_valid g x -> x != [::] -> toQ Hirr x != 0.
Proof. by move=> V; rewrite toQ_eq0. Qed.

(** C121: [x ** (p ** m) = x] *)
Theorem C121_power_of_size x : fq_valid g x -> fq_pow g fuel x q = Ok x.
Proof.
move=> V; have H1 := q_gt1; have [|z [E Vz T]] := powE (n := q) V; first lia.
rewrite E; congr Ok; apply: (toQ_inj Ng Vz V); rewrite T -cardQ.
exact: (@expf_card (qp_finFieldType (IrrP Hirr))).
Qed.

(** [x ** (p ** m - 1) = 1] for x other than 0 *)
Theorem C121_fermat x : fq_valid g x -> x != [::] -> fq_pow g fuel x (q - 1) = Ok [:: 1].
Proof.
move=> V N; have H1 := q_gt1; have [|z [E Vz T]] := powE (n := (q - 1)%Z) V; first lia.
have [V1 _] := fq_const_ok Ng Hirr 1.
have C1 : fq_const 1 = [:: 1] :> seq F by rewrite /fq_const pmk_normal // /normal /= oner_neq0.
rewrite E -C1; congr Ok; apply: (toQ_inj Ng Vz V1); rewrite T.
rewrite (_ : Z.to_nat (q - 1) = #|{: qp (IrrP Hirr)}|.-1); last by rewrite cardQ; lia.
rewrite (@fermat (qp_finFieldType (IrrP Hirr))); last exact: toQ_unit.
by rewrite /toQ (proj2 (fq_const_ok Ng Hirr 1)) -in_q1.
Qed.

(** the inverse is the power [p ** m - 2] *)
Theorem C121_inverse_is_power x : fq_valid g x -> x != [::] ->
  fq_pow g fuel x (q - 2) = fq_inverse g x.
Proof.
move=> V N; have H1 := q_gt1; have [|z [E Vz T]] := powE (n := (q - 2)%Z) V; first lia.
have [y [Ey Vy Ty]] := fq_inverse_ok Ng Hirr V N.
rewrite E Ey; congr Ok; apply: (toQ_inj Ng Vz Vy); rewrite T Ty.
have U := toQ_unit V N; apply: (mulIf U); rewrite mulVf // -exprSr.
rewrite (_ : (Z.to_nat (q - 2)).+1 = #|{: qp (IrrP Hirr)}|.-1); last by rewrite cardQ; lia.
exact: (@fermat (qp_finFieldType (IrrP Hirr))).
Qed.

(** the p-th power is additive *)
Theorem C121_frobenius x y : fq_valid g x -> fq_valid g y ->
  exists s xp yp, [/\ fq_add g x y = Ok s, fq_pow g fuel x (pz P) = Ok xp, fq_pow g fuel y (pz P) = Ok yp &
    fq_pow g fuel s (pz P) = fq_add g xp yp].
Proof.
move=> Vx Vy; have H2 := Znumtheory.prime_ge_2 _ (pz_prime P).
have Hq : (0 <= pz P <= q)%Z.
  split; first by move: H2; clear; lia.
  have H1 : (1 < size g)%N by rewrite (g_size Ng); case: Hirr.
  rewrite -{1}(Z.pow_1_r (pz P)); apply: Z.pow_le_mono_r; first by move: H2; clear; lia.
  by move: H1; case: (size g) => [|[|n]] //= _; lia.
have [s [Es Vs _ Ts]] := fq_add_ok Ng Hirr Vx Vy.
have [xp [Ex Vxp Tx]] := powE Vx Hq; have [yp [Ey Vyp Ty]] := powE Vy Hq.
have [sp [Ep Vsp Tp]] := powE Vs Hq.
have [a [Ea Va _ Ta]] := fq_add_ok Ng Hirr Vxp Vyp.
exists s, xp, yp; split=> //; rewrite Ep Ea; congr Ok; apply: (toQ_inj Ng Vsp Va).
rewrite Tp Ts Ta Tx Ty.
have C := in_q_charP (modp_char P) (IrrP Hirr); rewrite card_modp in C.
by have := Frobenius_autD_comm C (mulrC (toQ Hirr x) (toQ Hirr y)); rewrite !Frobenius_autE.
Qed.
End Powers.

(** ** The generic algorithms at FiniteField(p, m) *)
(** The elements of FiniteField(p, m) with the operations of the code form a field: for every
    modulus there is a field [K] whose elements are the element objects ([fqval] gives the
    coefficient list) and whose operations are computed by the code, so that the theorems about
    the algorithms over an arbitrary field apply to it. *)
Theorem C121_elements_form_field : forall (P : primeZ) (g : seq (modp_finFieldType P)),
  normal g -> irreducible_poly (Poly g) ->
  exists (K : finFieldType) (val : K -> seq (modp_finFieldType P)),
  [/\ injective val, forall l, (exists x, val x = l) <-> normal l && (size l < size g)%N,
      val 0 = [::] /\ val 1 = [:: 1],
      forall x y, [/\ fq_add g (val x) (val y) = Ok (val (x + y)), fq_sub g (val x) (val y) = Ok (val (x - y)),
        fq_mul g (val x) (val y) = Ok (val (x * y)) &
        fq_div g (val x) (val y) = if y == 0 then Err ZeroDivisionError else Ok (val (x / y))] &
      forall x y, fq_eq (val x) (val y) = (x == y)].
Proof.
move=> P g Ng Hirr; pose m := Modulus Ng Hirr.
exists (fq_finFieldType m), (@fqval _ m); split.
- exact: val_inj.
- by move=> l; split=> [[x <-]|V]; [exact: fqvalP | exists (Fq (g := m) V)].
- by split; rewrite /= ?fq_const0 // /fq_const pmk_normal // /normal /= oner_neq0.
- by move=> x y; rewrite (q_addE (g := m)) (q_subE (g := m)) (q_mulE (g := m)) (q_divE (g := m)).
- by move=> x y; rewrite (q_eqE (g := m)).
Qed.

(** [sum(c * x**i)] in the order of Horner's rule, with the operations of the class *)
Definition fq_horner (P : primeZ) (g : seq (modp_finFieldType P)) (cs : seq (seq (modp_finFieldType P)))
    (x : seq (modp_finFieldType P)) : result (seq (modp_finFieldType P)) :=
  foldM (fun acc c => let* t := fq_mul g acc x in fq_add g t c) (rev cs) [::].

(** lagrange_interp at element objects: for distinct elements the coefficients are elements,
    there are at most as many as points, and the polynomial takes the given values *)
Theorem C121_interpolation : forall (P : primeZ) (g : seq (modp_finFieldType P)) (Ng : normal g)
    (Hirr : irreducible_poly (Poly g)) (xs ys : seq (fq_fieldType (Modulus Ng Hirr))),
  uniq [seq fqval x | x <- xs] -> size xs = size ys ->
  exists cs, [/\ lagrange_interp xs ys = Ok cs, (size cs <= size xs)%N &
    forall i, (i < size xs)%N ->
      fq_horner g [seq fqval c | c <- cs] (nth [::] [seq fqval x | x <- xs] i) =
      Ok (nth [::] [seq fqval y | y <- ys] i)].
Proof.
move=> P g Ng Hirr xs ys U Es; have U' : uniq xs by rewrite (map_inj_uniq val_inj) in U.
have [cs [E N S V]] := lagrange_spec U' Es; exists cs; split=> // i Hi.
rewrite (nth_map 0) // (nth_map 0) -?Es // -V // pcallE.
set x := nth 0 xs i; rewrite /fq_horner.
rewrite horner_Poly; elim: cs {E N S V} => [|c l IH]; first by rewrite /= fq_const0.
rewrite map_cons rev_cons -cats1 foldM_catE IH [horner_rec _ _]/= bind_ok.
rewrite -[foldM _ _ _]/(bind _ _) (q_mulE (g := Modulus Ng Hirr)) bind_ok.
by rewrite (q_addE (g := Modulus Ng Hirr)) bind_ok.
Qed.

(** GF(9) = Z/3[x]/(x^2 + 1): the element 1 + x has order 8, its inverse is 2 + x, cubing is
    additive; the interpolant through (0, x) and (x, 1) is x + (2 + 2x) t since 1/x = 2x *)
Local Notation z3 l := [seq in_modp P3 z | z <- l%Z].
Definition g9 : seq (modp_finFieldType P3) := z3 [:: 1; 0; 1].
Example C121_example :
  let v r := rmap (map (@mval P3)) r in
  [/\ v (fq_pow g9 20 (z3 [:: 1; 1]) 9) = Ok [:: 1; 1]%Z, v (fq_pow g9 20 (z3 [:: 1; 1]) 8) = Ok [:: 1]%Z,
      v (fq_pow g9 20 (z3 [:: 1; 1]) 4) = Ok [:: 2]%Z &
      [/\ v (fq_pow g9 20 (z3 [:: 1; 1]) 7) = Ok [:: 2; 1]%Z, v (fq_inverse g9 (z3 [:: 1; 1])) = Ok [:: 2; 1]%Z,
          v (fq_pow g9 20 (z3 [:: 1; 1]) 3) = Ok [:: 1; 2]%Z, v (fq_pow g9 20 (z3 [:: 0; 1]) 3) = Ok [:: 0; 2]%Z &
          v (fq_pow g9 20 (z3 [:: 1; 2]) 3) = Ok [:: 1; 1]%Z]].
Proof. by vm_compute. Qed.

Lemma g9_normal : normal g9. Proof. by vm_compute. Qed.
Lemma g9_irr : irreducible_poly (Poly g9).
Proof.
have [b [Eb Hb]] := @zp_is_irreducible P3 g9 g9_normal isT.
by apply/Hb; move: Eb; vm_compute; case=> <-.
Qed.
Example C121_example_interpolation :
  let e l := q_poly (Modulus g9_normal g9_irr) (z3 l) in
  rmap (map (fun c => map (@mval P3) (fqval c))) (lagrange_interp [:: e [::]; e [:: 0; 1]%Z] [:: e [:: 0; 1]%Z; e [:: 1]%Z])
  = Ok [:: [:: 0; 1]; [:: 2; 2]]%Z.
Proof. by vm_compute. Qed.

Print Assumptions C121_power_of_size.
Print Assumptions C121_fermat.
Print Assumptions C121_inverse_is_power.
Print Assumptions C121_frobenius.
Print Assumptions C121_elements_form_field.
Print Assumptions C121_interpolation.
