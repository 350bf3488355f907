(** FiniteField(p, m) (starks/finitefield.py:57-150) for an irreducible modulus as a MathComp
    field whose operations are the model operations of FiniteFieldModel.v: the theorems and
    definitions of the model that are stated over an arbitrary field can be used, and computed,
    at the extension fields of the code. *)
From mathcomp Require Import zify ssrZ.
From Verif Require Import Prelude BaseProofs PolyModel PolyProofs QField ModpModel ModpField
  FiniteFieldModel FiniteFieldProofs.
Set Implicit Arguments.
Unset Strict Implicit.
Unset Printing Implicit Defensive.
Import GRing.Theory.
Local Open Scope ring_scope.

(** An irreducible modulus over the field [F]. *)
Record modulus (F : finFieldType) := Modulus {
  mgen :> seq F; mgen_normal : normal mgen; mgen_irr : irreducible_poly (Poly mgen) }.

Section FqField.
Variable F : finFieldType.
Variable g : modulus F.
Let Ng := mgen_normal g.
Let Hi := mgen_irr g.
Local Notation valid := (fq_valid (mgen g)).

(** An element object of class FiniteField(p, m): its attribute [poly] with the invariant
    maintained by the constructor (starks/finitefield.py:77-90). *)
Record fq := Fq { fqval : seq F; _ : valid fqval }.

Canonical fq_subType := [subType for fqval].
Definition fq_eqMixin := [eqMixin of fq by <:].
Canonical fq_eqType := EqType fq fq_eqMixin.
Definition fq_choiceMixin := [choiceMixin of fq by <:].
Canonical fq_choiceType := ChoiceType fq fq_choiceMixin.
Definition fq_countMixin := [countMixin of fq by <:].
Canonical fq_countType := CountType fq fq_countMixin.

Lemma fqvalP (x : fq) : valid (fqval x). Proof. by case: x. Qed.

(** The value of an operation that does not raise. *)
Definition ok (r : result (seq F)) : seq F := if r is Ok z then z else [::].

Lemma valid_nil : valid [::].
Proof. by have [V _] := fq_const_ok Ng Hi 0; rewrite fq_const0 in V. Qed.
Lemma valid_add x y : valid x -> valid y -> valid (ok (fq_add g x y)).
Proof. by move=> Vx Vy; have [z [-> V _ _]] := fq_add_ok Ng Hi Vx Vy. Qed.
Lemma valid_neg x : valid x -> valid (ok (fq_neg g x)).
Proof. by move=> Vx; have [z [-> V _ _]] := fq_neg_ok Ng Hi Vx. Qed.
Lemma valid_mul x y : valid (ok (fq_mul g x y)).
Proof. by have [z [-> V _ _]] := fq_mul_ok Ng Hi x y. Qed.
Lemma valid_inv x : valid x -> valid (ok (fq_inverse g x)).
Proof.
move=> Vx; have [->|N] := eqVneq x [::]; first by rewrite fq_inverse_zero valid_nil.
by have [z [-> V _]] := fq_inverse_ok Ng Hi Vx N.
Qed.
Lemma valid_const c : valid (fq_const c).
Proof. by have [] := fq_const_ok Ng Hi c. Qed.
Lemma valid_poly a : valid (ok (fq_poly g (pmk a))).
Proof. by have [z [-> V _]] := fq_poly_valid Ng Hi (normal_pmk a). Qed.

Definition q_zero := Fq (valid_const 0).
Definition q_one := Fq (valid_const 1).
Definition q_add x y := Fq (valid_add (fqvalP x) (fqvalP y)).
Definition q_opp x := Fq (valid_neg (fqvalP x)).
Definition q_mul x y := Fq (valid_mul (fqval x) (fqval y)).
Definition q_inv x := Fq (valid_inv (fqvalP x)).
(** [field(polysOver(l))] *)
Definition q_poly (l : seq F) := Fq (valid_poly l).

Let phi (x : fq) : qp (IrrP Hi) := toQ Hi (fqval x).

Lemma phi_inj x y : phi x = phi y -> x = y.
Proof. by move=> E; apply: val_inj; apply: (toQ_inj Ng _ _ E); exact: fqvalP. Qed.
Lemma phiD x y : phi (q_add x y) = phi x + phi y.
Proof. by rewrite /phi /=; have [z [-> _ _ H]] := fq_add_ok Ng Hi (fqvalP x) (fqvalP y). Qed.
Lemma phiN x : phi (q_opp x) = - phi x.
Proof. by rewrite /phi /=; have [z [-> _ _ H]] := fq_neg_ok Ng Hi (fqvalP x). Qed.
Lemma phiM x y : phi (q_mul x y) = phi x * phi y.
Proof. by rewrite /phi /=; have [z [-> _ _ H]] := fq_mul_ok Ng Hi (fqval x) (fqval y). Qed.
Lemma phi0 : phi q_zero = 0.
Proof. by rewrite /phi /= fq_const0 toQ_nil. Qed.
Lemma phi1 : phi q_one = 1.
Proof. by rewrite /phi /toQ /= (proj2 (fq_const_ok Ng Hi 1)) -in_q1. Qed.

Lemma q_addA : associative q_add.
Proof. by move=> x y z; apply: phi_inj; rewrite !phiD addrA. Qed.
Lemma q_addC : commutative q_add.
Proof. by move=> x y; apply: phi_inj; rewrite !phiD addrC. Qed.
Lemma q_add0 : left_id q_zero q_add.
Proof. by move=> x; apply: phi_inj; rewrite !phiD phi0 add0r. Qed.
Lemma q_addN : left_inverse q_zero q_opp q_add.
Proof. by move=> x; apply: phi_inj; rewrite !phiD phiN phi0 addNr. Qed.
Definition fq_zmodMixin := ZmodMixin q_addA q_addC q_add0 q_addN.
Canonical fq_zmodType := ZmodType fq fq_zmodMixin.

Lemma q_mulA : associative q_mul.
Proof. by move=> x y z; apply: phi_inj; rewrite !phiM mulrA. Qed.
Lemma q_mulC : commutative q_mul.
Proof. by move=> x y; apply: phi_inj; rewrite !phiM mulrC. Qed.
Lemma q_mul1 : left_id q_one q_mul.
Proof. by move=> x; apply: phi_inj; rewrite !phiM phi1 mul1r. Qed.
Lemma q_mulD : left_distributive q_mul q_add.
Proof. by move=> x y z; apply: phi_inj; rewrite !(phiM, phiD) mulrDl. Qed.
Lemma q_one_neq0 : q_one != q_zero.
Proof. by apply/eqP => /(congr1 phi); rewrite phi1 phi0 => /eqP; rewrite oner_eq0. Qed.
Definition fq_comRingMixin := ComRingMixin q_mulA q_mulC q_mul1 q_mulD q_one_neq0.
Canonical fq_ringType := RingType fq fq_comRingMixin.
Canonical fq_comRingType := ComRingType fq q_mulC.

Lemma q_zeroE (x : fq) : (x == 0) = (fqval x == [::]).
Proof. by rewrite -(inj_eq val_inj) /= fq_const0. Qed.
Lemma q_mulV (x : fq) : x != 0 -> q_inv x * x = 1.
Proof.
rewrite q_zeroE => N; apply: phi_inj; rewrite phiM phi1 /phi /=.
have [z [-> _ H]] := fq_inverse_ok Ng Hi (fqvalP x) N; rewrite H mulVf //.
by rewrite toQ_eq0 //; exact: fqvalP.
Qed.
Lemma q_inv0 : q_inv 0 = 0.
Proof. by apply: val_inj; rewrite /= fq_const0 fq_inverse_zero. Qed.
Definition fq_unitRingMixin := FieldUnitMixin q_mulV q_inv0.
Canonical fq_unitRingType := UnitRingType fq fq_unitRingMixin.
Canonical fq_comUnitRingType := [comUnitRingType of fq].
Definition fq_fieldMixin := @FieldMixin _ _ q_mulV q_inv0.
Definition fq_idomainMixin := FieldIdomainMixin fq_fieldMixin.
Canonical fq_idomainType := IdomainType fq fq_idomainMixin.
Canonical fq_fieldType := FieldType fq fq_fieldMixin.

(** finiteness *)
Lemma phiK : cancel phi (fun y => insubd q_zero (polyseq (qval y))).
Proof.
move=> x; have [V E] := toQ_onto Ng (phi x).
by apply: phi_inj; rewrite -[RHS]E /phi insubdK.
Qed.
Definition fq_finMixin := CanFinMixin phiK.
Canonical fq_finType := FinType fq fq_finMixin.
Canonical fq_finFieldType := [finFieldType of fq].
Lemma card_fq : #|{: fq}| = (#|F| ^ (size (mgen g)).-1)%N.
Proof.
have -> : #|{: fq}| = #|{: qp (IrrP Hi)}|.
  apply: (@bij_eq_card _ _ phi); exists (fun y => insubd q_zero (polyseq (qval y))); first exact: phiK.
  by move=> y; have [V E] := toQ_onto Ng y; rewrite /phi insubdK.
by rewrite card_qp -[ip _]/(Poly g) -(g_size Ng).
Qed.

(** The operations of the field are those of the code. *)
Lemma q_addE (x y : fq) : fq_add g (fqval x) (fqval y) = Ok (fqval (x + y)).
Proof. by rewrite /=; have [z [-> _ _ _]] := fq_add_ok Ng Hi (fqvalP x) (fqvalP y). Qed.
Lemma q_oppE (x : fq) : fq_neg g (fqval x) = Ok (fqval (- x)).
Proof. by rewrite /=; have [z [-> _ _ _]] := fq_neg_ok Ng Hi (fqvalP x). Qed.
Lemma q_subE (x y : fq) : fq_sub g (fqval x) (fqval y) = Ok (fqval (x - y)).
Proof.
have [z [E V _ T]] := fq_sub_ok Ng Hi (fqvalP x) (fqvalP y); rewrite E; congr Ok.
rewrite -[z]/(fqval (Fq V)); congr fqval; apply: phi_inj.
by rewrite phiD phiN /phi.
Qed.
Lemma q_mulE (x y : fq) : fq_mul g (fqval x) (fqval y) = Ok (fqval (x * y)).
Proof. by rewrite /=; have [z [-> _ _ _]] := fq_mul_ok Ng Hi (fqval x) (fqval y). Qed.
Lemma q_invE (x : fq) : fq_inverse g (fqval x) = if x == 0 then Err ZeroDivisionError else Ok (fqval x^-1).
Proof.
rewrite q_zeroE; case: eqVneq => [->|N]; first exact: fq_inverse_zero.
by rewrite /=; have [z [-> _ _]] := fq_inverse_ok Ng Hi (fqvalP x) N.
Qed.
Lemma q_divE (x y : fq) : fq_div g (fqval x) (fqval y) =
  if y == 0 then Err ZeroDivisionError else Ok (fqval (x / y)).
Proof. by rewrite /fq_div q_invE; case: ifP => // _; exact: q_mulE. Qed.
Lemma q_eqE (x y : fq) : fq_eq (fqval x) (fqval y) = (x == y).
Proof. by rewrite /fq_eq peqE. Qed.
End FqField.
