(** Proofs about TypecheckModel.v. *)
From Coq Require Import Znumtheory.
From mathcomp Require Import zify ssrZ.
From Verif Require Import Prelude PolyModel PolyProofs ModpField TypecheckModel.
Set Implicit Arguments.
Unset Strict Implicit.
Unset Printing Implicit Defensive.
Import GRing.Theory.
Local Open Scope ring_scope.

Lemma in_modp_mval (P : primeZ) (x : modp P) : in_modp P (mval x) = x.
Proof. by apply: mval_inj; rewrite /= mval_small. Qed.

Lemma in_modpD (P : primeZ) a b : in_modp P (a + b) = in_modp P a + in_modp P b.
Proof. by apply: mval_inj; rewrite /= -Zplus_mod. Qed.
Lemma in_modpM (P : primeZ) a b : in_modp P (a * b) = in_modp P a * in_modp P b.
Proof. by apply: mval_inj; rewrite /= -Zmult_mod. Qed.
Lemma in_modpN (P : primeZ) a : in_modp P (- a) = - in_modp P a.
Proof.
apply: mval_inj; rewrite /=.
by rewrite -[in LHS]Z.sub_0_l -[in RHS]Z.sub_0_l Zminus_mod_idemp_r.
Qed.
Lemma in_modpB (P : primeZ) a b : in_modp P (a - b) = in_modp P a - in_modp P b.
Proof. by rewrite -in_modpN -in_modpD Z.add_opp_r. Qed.

Lemma in_modp_eq (P : primeZ) a b : in_modp P a == in_modp P b <-> (pz P | a - b)%Z.
Proof.
have Hp := p_gt1 P; split.
  move=> /eqP /(congr1 (@mval P)) /= E; apply: Zmod_divide; first by lia.
  by rewrite Zminus_mod E Z.sub_diag.
case=> k E; apply/eqP/mval_inj => /=.
have -> : a = (b + k * pz P)%Z by lia.
by rewrite Z_mod_plus_full.
Qed.

Section Int.
Variables (P : primeZ) (z : Z) (x : modp P).
Local Notation F := (modp_fieldType P).

Lemma int_add : py_add (VInt z) (VMod x) = Ok (VMod (in_modp P (z + mval x))) /\
  py_add (VMod x) (VInt z) = Ok (VMod (in_modp P (z + mval x))).
Proof.
rewrite /py_add /dispatch /= /mod_method /=.
by rewrite in_modpD in_modp_mval addrC.
Qed.
Lemma int_mul : py_mul (VInt z) (VMod x) = Ok (VMod (in_modp P (z * mval x))) /\
  py_mul (VMod x) (VInt z) = Ok (VMod (in_modp P (z * mval x))).
Proof.
rewrite /py_mul /dispatch /= /mod_method /=.
by rewrite in_modpM in_modp_mval mulrC.
Qed.
Lemma int_sub : py_sub (VInt z) (VMod x) = Ok (VMod (in_modp P (z - mval x))) /\
  py_sub (VMod x) (VInt z) = Ok (VMod (in_modp P (mval x - z))).
Proof.
rewrite /py_sub /= /mod_method /= /py_add /dispatch /= /mod_method /=.
by rewrite !in_modpB !in_modp_mval [- x + _]addrC.
Qed.
Lemma int_eq : exists b, py_eq (VInt z) (VMod x) = Ok b /\ py_eq (VMod x) (VInt z) = Ok b /\
  (b = true <-> (pz P | z - mval x)%Z).
Proof.
exists (in_modp P z == x); rewrite /py_eq /dispatch /= /mod_method /=; split; first by rewrite eq_sym.
split; first by rewrite eq_sym.
by rewrite -{1}(in_modp_mval x); exact: in_modp_eq.
Qed.
Lemma int_div : py_div (VMod x) (VInt z) = Err AttributeError /\
  (x != 0 -> exists r : modp P, py_div (VInt z) (VMod x) = Ok (VMod r) /\
     (pz P | mval r * mval x - z)%Z) /\
  (x = 0 -> py_div (VInt z) (VMod x) = Err InverseError).
Proof.
split=> //; split=> [nx|x0]; rewrite /py_div /py_inverse /finv.
- rewrite ifN //=; exists ((x : F)^-1 * in_modp P z); split.
    by rewrite /py_mul /dispatch /= /mod_method.
  rewrite -in_modp_eq in_modpM !in_modp_mval mulrAC mulVf // mul1r.
  by [].
- by rewrite x0 (@eqxx F).
Qed.
End Int.

Section PolyOps.
Variables (P : primeZ) (c : seq (modp P)) (x : modp P).
Local Notation F := (modp_fieldType P).
Hypothesis nc : @normal F c.

Lemma cast_poly_mod : cast_poly P (VMod x) = Ok (@pconst F x).
Proof. by rewrite /cast_poly Z.eqb_refl in_modp_mval. Qed.

Lemma poly_elt_ops :
  py_add (VPoly c) (VMod x) = Ok (@VPoly P (Poly (c : seq F) + (x : F)%:P)) /\
  py_add (VMod x) (VPoly c) = Ok (@VPoly P (Poly (c : seq F) + (x : F)%:P)) /\
  py_sub (VPoly c) (VMod x) = Ok (@VPoly P (Poly (c : seq F) - (x : F)%:P)) /\
  py_sub (VMod x) (VPoly c) = Ok (@VPoly P ((x : F)%:P - Poly (c : seq F))) /\
  py_mul (VPoly c) (VMod x) = Ok (@VPoly P (Poly (c : seq F) * (x : F)%:P)) /\
  py_mul (VMod x) (VPoly c) = Ok (@VPoly P (Poly (c : seq F) * (x : F)%:P)) /\
  py_eq (VPoly c) (VMod x) = Ok (Poly (c : seq F) == (x : F)%:P) /\
  py_eq (VMod x) (VPoly c) = Ok (Poly (c : seq F) == (x : F)%:P).
Proof.
have E (y : F) : Poly (@pconst F y) = y%:P by rewrite /pconst pmkE polyseqK /= cons_poly_def mul0r add0r.
have A (a : seq F) (y : F) : py_add (@VPoly P a) (@VMod P y) = Ok (@VPoly P (Poly a + y%:P)).
  rewrite /py_add /dispatch /= /poly_method /= Z.eqb_refl in_modp_mval -/(@pconst F y) /=.
  by rewrite paddE E.
split; first exact: A.
split.
  rewrite /py_add /dispatch /= /mod_method /= /poly_method /= Z.eqb_refl in_modp_mval -/(@pconst F x) /=.
  by rewrite paddE E.
split; first by rewrite /py_sub /= A polyCN.
split.
  rewrite /py_sub /= /mod_method /= A pnegE polyseqK.
  by rewrite addrC.
split.
  rewrite /py_mul /dispatch /= /poly_method /= Z.eqb_refl in_modp_mval -/(@pconst F x) /=.
  by rewrite pmulE E.
split.
  rewrite /py_mul /dispatch /= /mod_method /= /poly_method /= Z.eqb_refl in_modp_mval -/(@pconst F x) /=.
  by rewrite pmulE E.
split.
  rewrite /py_eq /dispatch /= /poly_method /= Z.eqb_refl in_modp_mval -/(@pconst F x) /=.
  by rewrite peqP ?normal_pconst // E.
rewrite /py_eq /dispatch /= /mod_method /= /poly_method /= Z.eqb_refl in_modp_mval -/(@pconst F x) /=.
by rewrite peqP ?normal_pconst // E.
Qed.
End PolyOps.

Section TwoModuli.
Variables (P Q : primeZ).

Lemma left_class (x : modp P) (y : modp Q) :
  py_add (VMod x) (VMod y) = Ok (VMod (in_modp P (mval x + mval y))) /\
  py_sub (VMod x) (VMod y) = Ok (VMod (in_modp P (mval x - mval y))) /\
  py_mul (VMod x) (VMod y) = Ok (VMod (in_modp P (mval x * mval y))) /\
  exists b, py_eq (VMod x) (VMod y) = Ok b /\ (b = true <-> (pz P | mval x - mval y)%Z).
Proof.
rewrite /py_add /py_sub /py_mul /py_eq /dispatch /= /mod_method /=.
rewrite in_modpD in_modpM in_modpB !in_modp_mval; do 3!split=> //.
exists (x == in_modp P (mval y)); split=> //.
by rewrite -{1}(in_modp_mval x); exact: in_modp_eq.
Qed.

Lemma foreign_elt (c : seq (modp P)) (y : modp Q) : pz P <> pz Q ->
  py_add (VPoly c) (VMod y) = Err TypeError /\ py_add (VMod y) (VPoly c) = Err TypeError /\
  py_sub (VPoly c) (VMod y) = Err TypeError /\ py_sub (VMod y) (VPoly c) = Err TypeError /\
  py_mul (VPoly c) (VMod y) = Err TypeError /\ py_mul (VMod y) (VPoly c) = Err TypeError /\
  py_eq (VPoly c) (VMod y) = Err TypeError /\ py_eq (VMod y) (VPoly c) = Err TypeError.
Proof.
move=> H; have E : (pz Q =? pz P)%Z = false by apply/Z.eqb_neq => E; exact: H.
rewrite /py_add /py_sub /py_mul /py_eq /dispatch /= /mod_method /poly_method /=.
by rewrite /py_add /dispatch /= /poly_method /= E.
Qed.

Lemma foreign_poly (c : seq (modp P)) (d : seq (modp Q)) :
  py_add (VPoly c) (VPoly d) =
    Ok (@VPoly P (Poly (c : seq (modp_fieldType P)) +
                  Poly ([seq in_modp P (mval y) | y <- d] : seq (modp_fieldType P)))) /\
  py_mul (VPoly c) (VPoly d) =
    Ok (@VPoly P (Poly (c : seq (modp_fieldType P)) *
                  Poly ([seq in_modp P (mval y) | y <- d] : seq (modp_fieldType P)))).
Proof.
rewrite /py_add /py_mul /dispatch /= /poly_method /=.
by rewrite paddE pmulE !pmkE !polyseqK.
Qed.
End TwoModuli.

Lemma uncastable (P : primeZ) (x : modp P) (c : seq (modp P)) e :
  let o := VOther (Err e) in
  [/\ py_add (VMod x) o = Err TypeError, py_add o (VMod x) = Err TypeError,
      py_mul (VMod x) o = Err TypeError, py_mul o (VMod x) = Err TypeError &
      py_sub (VMod x) o = Err TypeError /\ py_sub o (VMod x) = Err TypeError] /\
  [/\ py_eq (VMod x) o = Err TypeError, py_eq o (VMod x) = Err TypeError,
      py_eq (VPoly c) o = Err TypeError & py_eq o (VPoly c) = Err TypeError].
Proof. by []. Qed.

Lemma truncated (P : primeZ) (x : modp P) z : let o := VOther (Ok z) in
  py_add (VMod x) o = Ok (VMod (in_modp P (mval x + z))) /\
  py_mul o (VMod x) = Ok (VMod (in_modp P (mval x * z))) /\
  exists b, py_eq (VMod x) o = Ok b /\ (b = true <-> (pz P | mval x - z)%Z).
Proof.
rewrite /py_add /py_mul /py_eq /dispatch /= /mod_method /=.
rewrite in_modpD in_modpM !in_modp_mval; do 2!split=> //.
exists (x == in_modp P z); split=> //.
by rewrite -{1}(in_modp_mval x); exact: in_modp_eq.
Qed.
