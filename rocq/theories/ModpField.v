(** IntegersModP(p) for prime p as a MathComp field whose operations are,
    definitionally, the model operations of ModpModel.v. *)
From Coq Require Import Znumtheory.
From mathcomp Require Import zify ssrZ.
From Verif Require Import Prelude EuclidProofs ModpModel ModpProofs PolyModel.
Set Implicit Arguments.
Unset Strict Implicit.
Unset Printing Implicit Defensive.
Import GRing.Theory.
Local Open Scope ring_scope.

(** A prime modulus. *)
Record primeZ := PrimeZ { pz :> Z; pz_prime : Znumtheory.prime pz }.

Section ModpField.
Variable P : primeZ.
Let p : Z := pz P.

(** An element object of class IntegersModP(p) built from ints: its attribute
    [n] together with the invariant maintained by the constructor
    (starks/modp.py:36). *)
Record modp := Modp { mval : Z; _ : ((0 <=? mval) && (mval <? pz P))%Z }.

Canonical modp_subType := [subType for mval].
Definition modp_eqMixin := [eqMixin of modp by <:].
Canonical modp_eqType := EqType modp modp_eqMixin.
Definition modp_choiceMixin := [choiceMixin of modp by <:].
Canonical modp_choiceType := ChoiceType modp modp_choiceMixin.
Definition modp_countMixin := [countMixin of modp by <:].
Canonical modp_countType := CountType modp modp_countMixin.

Lemma p_gt1 : (1 < pz P)%Z.
Proof. by have := prime_ge_2 _ (pz_prime P); lia. Qed.

Lemma mod_bound (z : Z) : ((0 <=? z mod pz P) && (z mod pz P <? pz P))%Z.
Proof. have := p_gt1 => H; have := Z.mod_pos_bound z (pz P). lia. Qed.

Lemma mvalP (x : modp) : (0 <= mval x < pz P)%Z.
Proof. by case: x => z /= H; lia. Qed.

Definition in_modp (z : Z) : modp := Modp (mod_bound z).

Lemma mval_inj (x y : modp) : mval x = mval y -> x = y.
Proof. exact: val_inj. Qed.

Lemma mval_small (x : modp) : (mval x mod pz P)%Z = mval x.
Proof. by rewrite Z.mod_small //; exact: mvalP. Qed.

Definition m_zero := in_modp 0.
Definition m_one := in_modp 1.
Definition m_add x y := in_modp (mval x + mval y).
Definition m_opp x := in_modp (- mval x).
Definition m_mul x y := in_modp (mval x * mval y).

Let p0 : (pz P <> 0)%Z. Proof. by have := p_gt1; lia. Qed.

Lemma m_addA : associative m_add.
Proof.
move=> x y z; apply: mval_inj; rewrite /= Zplus_mod_idemp_r Zplus_mod_idemp_l.
by rewrite Z.add_assoc.
Qed.
Lemma m_addC : commutative m_add.
Proof. by move=> x y; apply: mval_inj; rewrite /= Z.add_comm. Qed.
Lemma m_add0 : left_id m_zero m_add.
Proof. by move=> x; apply: mval_inj; rewrite /= ?Zmod_0_l ?Z.add_0_l mval_small. Qed.
Lemma m_addN : left_inverse m_zero m_opp m_add.
Proof.
by move=> x; apply: mval_inj; rewrite /= Zplus_mod_idemp_l Z.add_opp_diag_l.
Qed.

Definition modp_zmodMixin := ZmodMixin m_addA m_addC m_add0 m_addN.
Canonical modp_zmodType := ZmodType modp modp_zmodMixin.

Lemma m_mulA : associative m_mul.
Proof.
move=> x y z; apply: mval_inj; rewrite /= Zmult_mod_idemp_r Zmult_mod_idemp_l.
by rewrite Z.mul_assoc.
Qed.
Lemma m_mulC : commutative m_mul.
Proof. by move=> x y; apply: mval_inj; rewrite /= Z.mul_comm. Qed.
Lemma m_mul1 : left_id m_one m_mul.
Proof.
by move=> x; apply: mval_inj; rewrite /= Zmult_mod_idemp_l Z.mul_1_l mval_small.
Qed.
Lemma m_mulD : left_distributive m_mul m_add.
Proof.
move=> x y z; apply: mval_inj.
by rewrite /= Zmult_mod_idemp_l -Zplus_mod Z.mul_add_distr_r.
Qed.
Lemma m_one_neq0 : m_one != 0.
Proof.
apply/eqP => /(congr1 mval); rewrite /= ?Zmod_0_l Z.mod_small //.
have := p_gt1; lia.
Qed.

Definition modp_ringMixin := ComRingMixin m_mulA m_mulC m_mul1 m_mulD m_one_neq0.
Canonical modp_ringType := RingType modp modp_ringMixin.
Canonical modp_comRingType := ComRingType modp m_mulC.

(** the model's [inverse], totalised with 0 only where it raises *)
Definition m_inv (x : modp) : modp :=
  if modp_inverse (pz P) (mval x) is Ok y then in_modp y else m_zero.

Lemma m_inverse_ok (x : modp) : x != 0 ->
  exists y, [/\ modp_inverse (pz P) (mval x) = Ok (mval y), y = m_inv x & y * x = 1].
Proof.
move=> Hx; have Hp := p_gt1; have Bx := mvalP x.
have Hx0 : mval x <> 0%Z.
  by move=> E; case/eqP: Hx; apply: mval_inj; rewrite /= ?Zmod_0_l.
have G : Z.gcd (mval x) (pz P) = 1%Z by apply: prime_gcd (pz_prime P) _; lia.
have [] := @modp_inverse_coprime (pz P) (mval x) _ _ G; try lia.
move=> y [E [C D]].
have Ey : mval (in_modp y) = y by rewrite /= Z.mod_small.
exists (in_modp y); split; rewrite ?Ey //; first by rewrite /m_inv E.
apply: mval_inj; rewrite /= Zmult_mod_idemp_l.
case: D => k Ek.
have -> : (y * mval x = 1 + k * pz P)%Z by lia.
by rewrite Z_mod_plus_full.
Qed.

Lemma m_inverse_zero : modp_inverse (pz P) (mval (0 : modp)) = Err InverseError.
Proof.
have Hp := p_gt1; apply: modp_inverse_noncoprime; rewrite /= ?Zmod_0_l; try lia.
Qed.

Lemma m_mulV (x : modp) : x != 0 -> m_inv x * x = 1.
Proof. by move=> Hx; have [y [_ <-]] := m_inverse_ok Hx. Qed.
Lemma m_inv0 : m_inv 0 = 0.
Proof. by rewrite /m_inv m_inverse_zero. Qed.

Definition modp_unitRingMixin := FieldUnitMixin m_mulV m_inv0.
Canonical modp_unitRingType := UnitRingType modp modp_unitRingMixin.
Canonical modp_comUnitRingType := [comUnitRingType of modp].
Definition modp_fieldMixin := @FieldMixin _ _ m_mulV m_inv0.
Definition modp_idomainMixin := FieldIdomainMixin modp_fieldMixin.
Canonical modp_idomainType := IdomainType modp modp_idomainMixin.
Canonical modp_fieldType := FieldType modp modp_fieldMixin.

(** finiteness *)
Lemma to_nat_bound (x : modp) : (Z.to_nat (mval x) < Z.to_nat (pz P))%N.
Proof. by have := mvalP x; lia. Qed.
Definition m_to_ord (x : modp) : 'I_(Z.to_nat (pz P)) := Ordinal (to_nat_bound x).
Definition m_of_ord (i : 'I_(Z.to_nat (pz P))) : modp := in_modp (Z.of_nat i).
Lemma m_to_ordK : cancel m_to_ord m_of_ord.
Proof.
by move=> x; apply: mval_inj; have := mvalP x => B; rewrite /= Z2Nat.id ?mval_small; lia.
Qed.
Lemma m_of_ordK : cancel m_of_ord m_to_ord.
Proof.
move=> i; apply: val_inj => /=; rewrite Z.mod_small ?Nat2Z.id //.
have := ltn_ord i; lia.
Qed.
Definition modp_finMixin := CanFinMixin m_to_ordK.
Canonical modp_finType := FinType modp modp_finMixin.
Canonical modp_finFieldType := [finFieldType of modp].

Lemma card_modp : #|{: modp}| = Z.to_nat (pz P).
Proof.
rewrite -[RHS]card_ord; apply: (@bij_eq_card _ _ m_to_ord).
exact: Bijective m_to_ordK m_of_ordK.
Qed.
End ModpField.

(** Computable prime check for closed examples. *)
Lemma prime2 : Znumtheory.prime 2. Proof. exact: prime_2. Qed.
Lemma prime3 : Znumtheory.prime 3. Proof. exact: prime_3. Qed.
Definition primeb (n : Z) : bool :=
  (1 <? n)%Z && List.forallb (fun d => negb (n mod Z.of_nat d =? 0)%Z) (List.seq 2 (Z.to_nat n - 2)).
Lemma primebP n : primeb n -> Znumtheory.prime n.
Proof.
rewrite /primeb => /andP [H1 H2].
apply/prime_alt; split; first by lia.
move=> d Hd Hdiv.
move: H2 => /List.forallb_forall /(_ (Z.to_nat d)) H.
have : negb (n mod Z.of_nat (Z.to_nat d) =? 0)%Z.
  apply: H; apply/List.in_seq; lia.
rewrite Z2Nat.id; last by lia.
by rewrite (Zdivide_mod _ _ Hdiv).
Qed.
Definition P2 : primeZ := PrimeZ prime_2.
Definition P3 : primeZ := PrimeZ prime_3.
Lemma prime5 : Znumtheory.prime 5. Proof. exact: primebP. Qed.
Lemma prime7 : Znumtheory.prime 7. Proof. exact: primebP. Qed.
Lemma prime17 : Znumtheory.prime 17. Proof. exact: primebP. Qed.
Lemma prime31 : Znumtheory.prime 31. Proof. exact: primebP. Qed.
Definition P5 : primeZ := PrimeZ prime5.
Definition P7 : primeZ := PrimeZ prime7.
Definition P17 : primeZ := PrimeZ prime17.
Definition P31 : primeZ := PrimeZ prime31.
