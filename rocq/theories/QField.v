(** The quotient F[x]/(h) by an irreducible polynomial over a finite field, as
    a MathComp finite field.  Reference structure for starks/finitefield.py. *)
From mathcomp Require Import zify.
From Verif Require Import Prelude FinFld.
Set Implicit Arguments.
Unset Strict Implicit.
Unset Printing Implicit Defensive.
Import GRing.Theory.
Local Open Scope ring_scope.

Section QField.
Variable F : finFieldType.
Record irrP := IrrP { ip :> {poly F}; ip_irr : irreducible_poly ip }.

Section Quotient.
Variable h : irrP.

Lemma ip_gt1 : (1 < size h)%N. Proof. by case: (ip_irr h). Qed.
Lemma ip_neq0 : (h : {poly F}) != 0. Proof. by rewrite -size_poly_gt0 (ltn_trans _ ip_gt1). Qed.

Record qp := QP { qval : {poly F}; _ : (size qval < size h)%N }.
Canonical qp_subType := [subType for qval].
Definition qp_eqMixin := [eqMixin of qp by <:].
Canonical qp_eqType := EqType qp qp_eqMixin.
Definition qp_choiceMixin := [choiceMixin of qp by <:].
Canonical qp_choiceType := ChoiceType qp qp_choiceMixin.
Definition qp_countMixin := [countMixin of qp by <:].
Canonical qp_countType := CountType qp qp_countMixin.

Lemma qmod_bound (a : {poly F}) : (size (a %% h)%R < size h)%N.
Proof. by rewrite ltn_modp ip_neq0. Qed.
Definition in_q (a : {poly F}) : qp := QP (qmod_bound a).
Lemma qval_inj (x y : qp) : qval x = qval y -> x = y. Proof. exact: val_inj. Qed.
Lemma qvalP (x : qp) : (size (qval x) < size h)%N. Proof. by case: x. Qed.
Lemma qval_small (x : qp) : (qval x %% h)%R = qval x.
Proof. by rewrite modp_small ?qvalP. Qed.
Lemma qvalK (x : qp) : in_q (qval x) = x. Proof. by apply: qval_inj; exact: qval_small. Qed.
Lemma in_q_eq a b : in_q a = in_q b <-> (a %% h = b %% h)%R.
Proof. by split=> [/(congr1 qval)|E]; [|apply: qval_inj]. Qed.

Definition q_zero := in_q 0.
Definition q_one := in_q 1.
Definition q_add x y := in_q (qval x + qval y).
Definition q_opp x := in_q (- qval x).
Definition q_mul x y := in_q (qval x * qval y).

Lemma q_modl (a b : {poly F}) : ((a %% h) * b %% h = a * b %% h)%R.
Proof. by rewrite mulrC modp_mul mulrC. Qed.

Lemma q_addA : associative q_add.
Proof. by move=> x y z; apply: qval_inj; rewrite /= !modpD !modp_mod addrA. Qed.
Lemma q_addC : commutative q_add.
Proof. by move=> x y; apply: qval_inj; rewrite /= addrC. Qed.
Lemma q_add0 : left_id q_zero q_add.
Proof. by move=> x; apply: qval_inj; rewrite /= mod0p add0r qval_small. Qed.
Lemma q_addN : left_inverse q_zero q_opp q_add.
Proof. by move=> x; apply: qval_inj; rewrite /= modpD modp_mod -modpD addNr. Qed.
Definition qp_zmodMixin := ZmodMixin q_addA q_addC q_add0 q_addN.
Canonical qp_zmodType := ZmodType qp qp_zmodMixin.

Lemma q_mulA : associative q_mul.
Proof. by move=> x y z; apply: qval_inj; rewrite /= modp_mul q_modl mulrA. Qed.
Lemma q_mulC : commutative q_mul.
Proof. by move=> x y; apply: qval_inj; rewrite /= mulrC. Qed.
Lemma q_mul1 : left_id q_one q_mul.
Proof. by move=> x; apply: qval_inj; rewrite /= q_modl mul1r qval_small. Qed.
Lemma q_mulD : left_distributive q_mul q_add.
Proof. by move=> x y z; apply: qval_inj; rewrite /= q_modl mulrDl !modpD !modp_mod. Qed.
Lemma q_one_neq0 : q_one != 0.
Proof.
apply/eqP => /(congr1 qval) /=; rewrite mod0p modp_small ?size_poly1 ?ip_gt1 //.
by move/eqP; rewrite oner_eq0.
Qed.
Definition qp_ringMixin := ComRingMixin q_mulA q_mulC q_mul1 q_mulD q_one_neq0.
Canonical qp_ringType := RingType qp qp_ringMixin.
Canonical qp_comRingType := ComRingType qp q_mulC.

Definition q_inv (x : qp) : qp :=
  if x == 0 then 0 else
  let e := egcdp (qval x) h in
  in_q ((e.1 * qval x + e.2 * h)`_0^-1 *: e.1).

Lemma q_mulV (x : qp) : x != 0 -> q_inv x * x = 1.
Proof.
move=> Hx; rewrite /q_inv (negbTE Hx).
have Hv : qval x != 0.
  by apply: contra Hx => /eqP E; apply/eqP/qval_inj; rewrite /= mod0p.
set e := egcdp _ _; set g := e.1 * _ + _.
have Hc : coprimep (qval x) h.
  rewrite coprimep_sym; have [_ Hi] := ip_irr h.
  rewrite /coprimep; apply/negPn/negP => Hs.
  have := Hi _ Hs (dvdp_gcdl _ _) => Heq.
  have : (h : {poly F}) %| qval x by rewrite -(eqp_dvdl _ Heq) dvdp_gcdr.
  by move=> /(dvdp_leq Hv); rewrite leqNgt qvalP.
have Hg : size g == 1%N.
  have := egcdpE (qval x) h; rewrite -/e -/g => /eqp_size <-.
  by move: Hc; rewrite /coprimep.
have [c Hc0 Eg] : exists2 c, c != 0 & g = c%:P by apply/size_poly1P.
rewrite Eg coefC /=; apply: qval_inj; rewrite /= q_modl.
have -> : (c^-1 *: e.1) * qval x = 1 + (- c^-1 *: e.2) * h.
  apply/eqP; rewrite -subr_eq -!scalerAl scaleNr opprK -scalerDr -/g Eg.
  by rewrite -mul_polyC -polyCM mulVf.
by rewrite modpD modp_mull addr0.
Qed.
Lemma q_inv0 : q_inv 0 = 0. Proof. by rewrite /q_inv eqxx. Qed.

Definition qp_unitRingMixin := FieldUnitMixin q_mulV q_inv0.
Canonical qp_unitRingType := UnitRingType qp qp_unitRingMixin.
Canonical qp_comUnitRingType := [comUnitRingType of qp].
Definition qp_fieldMixin := @FieldMixin _ _ q_mulV q_inv0.
Definition qp_idomainMixin := FieldIdomainMixin qp_fieldMixin.
Canonical qp_idomainType := IdomainType qp qp_idomainMixin.
Canonical qp_fieldType := FieldType qp qp_fieldMixin.

(** finiteness *)
Definition q_to_rV (x : qp) : 'rV[F]_(size h).-1 := poly_rV (qval x).
Lemma rVpoly_bound (v : 'rV[F]_(size h).-1) : (size (rVpoly v) < size h)%N.
Proof. by apply: leq_ltn_trans (size_poly _ _) _; have := ip_gt1; case: (size h). Qed.
Definition q_of_rV v : qp := QP (rVpoly_bound v).
Lemma q_to_rVK : cancel q_to_rV q_of_rV.
Proof.
move=> x; apply: qval_inj; rewrite /= poly_rV_K //.
by have := qvalP x; move: (size (qval x)) ip_gt1 => n; case: (size h).
Qed.
Lemma q_of_rVK : cancel q_of_rV q_to_rV.
Proof. by move=> v; rewrite /q_to_rV rVpolyK. Qed.
Definition qp_finMixin := CanFinMixin q_to_rVK.
Canonical qp_finType := FinType qp qp_finMixin.
Canonical qp_finFieldType := [finFieldType of qp].

Lemma card_qp : #|{: qp}| = (#|F| ^ (size h).-1)%N.
Proof.
rewrite -[(size h).-1]mul1n -card_matrix; apply: (@bij_eq_card _ _ q_to_rV).
exact: Bijective q_to_rVK q_of_rVK.
Qed.

(** [in_q] is a ring morphism with kernel (h) *)
Lemma in_qD a b : in_q (a + b) = in_q a + in_q b.
Proof. by apply: qval_inj; rewrite /= !modpD !modp_mod. Qed.
Lemma in_qN a : in_q (- a) = - in_q a.
Proof. by apply: qval_inj; rewrite /= !modpN modp_mod. Qed.
Lemma in_qB a b : in_q (a - b) = in_q a - in_q b.
Proof. by rewrite in_qD in_qN. Qed.
Lemma in_qM a b : in_q (a * b) = in_q a * in_q b.
Proof. by apply: qval_inj; rewrite /= q_modl modp_mul. Qed.
Lemma in_q1 : in_q 1 = 1. Proof. by []. Qed.
Lemma in_q0 : in_q 0 = 0. Proof. by []. Qed.
Lemma in_qX a n : in_q (a ^+ n) = in_q a ^+ n.
Proof. by elim: n => [|n IH]; rewrite ?expr0 ?in_q1 // !exprS in_qM IH. Qed.
Lemma in_q_eq0 a : (in_q a == 0) = ((h : {poly F}) %| a).
Proof.
apply/eqP/idP => [/(congr1 qval)|]; first by rewrite /= mod0p => H; apply/modp_eq0P.
by move=> /modp_eq0P H; apply: qval_inj; rewrite /= mod0p.
Qed.
Lemma in_q_sum I (r : seq I) (P : pred I) (f : I -> {poly F}) :
  in_q (\sum_(i <- r | P i) f i) = \sum_(i <- r | P i) in_q (f i).
Proof. by apply: (big_morph in_q in_qD in_q0). Qed.
End Quotient.
End QField.
