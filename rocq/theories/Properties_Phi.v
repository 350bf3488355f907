(** Property theorems C113 and C114: the constraint polynomials of
    starks/apr.py:165-200 and the prover of starks/ali.py.

    [sdiv] is sympy's polynomial division from text to text, [str_c] is [str] on field
    elements, both arbitrary functions unless said otherwise; [dec] is decimal notation.
    [Zb], [Eb] are the boundary polynomials, [H0] the elements of the space H0. *)
From Coq.Strings Require Import String.
From mathcomp Require Import zify ssrZ.
From Verif Require Import Prelude BaseProofs PolyModel PolyProofs FftProofs ModpField Pocklington InterpModel
  InterpProofs MultiModel MultiProofs ParserModel ParserProofs AirModel AprModel PhiModel PhiProofs.
Set Implicit Arguments.
Unset Strict Implicit.
Unset Printing Implicit Defensive.
Import GRing.Theory.
Local Open Scope ring_scope.
Local Open Scope py_scope.

(** ** C113 *)
(** Two constraints for each polynomial of the computation; the second is always zero:
    [1 / Z_H0] is a division of polynomials, with quotient 0. *)
Theorem C113_second_constraints : forall (F : fieldType) sdiv (str_c : F -> str) nb w Zb Eb zeta g H0 Polys Phi,
  construct_Phi sdiv str_c nb w Zb Eb zeta g H0 Polys = Ok Phi -> H0 <> [::] ->
  size Phi = (2 * size Polys)%N /\
  forall i, (i < size Polys)%N -> nth [:: ([::], 1)] Phi (2 * i).+1 = [::].
Proof.
move=> F sdiv str_c nb w Zb Eb zeta g H0 Polys Phi; rewrite construct_PhiE => E /eqP N.
elim: Polys Phi E => [|P l IH] Phi /=; first by case=> <-.
case E: (phi_pair _ _ _ _ _ _ _ _ _ P) => [[p0 p1]|] //=.
have E1 := phi_pair_second N E.
case: (mapM _ l) IH => //= qs IH [<-].
have [S H] := IH _ erefl.
rewrite /= S; split; first by lia.
case=> [_|i]; first by rewrite E1.
rewrite ltnS => /H Hi.
by have -> : (2 * i.+1)%N = (2 * i).+2 by lia.
Qed.
Print Assumptions C113_second_constraints.

(** When sympy finds the quotient 0 for X_loc (X_loc - 1) by Z_H0 (no monomial of the former
    contains the variable of the latter), all constraints are the zero polynomial: they hold
    at every point, for every computation and every trace. *)
Theorem C113_all_constraints : forall (F : fieldType) sdiv (str_c : F -> str) nb w Zb Eb zeta g H0 Polys Phi,
  construct_Phi sdiv str_c nb w Zb Eb zeta g H0 Polys = Ok Phi -> H0 <> [::] ->
  (forall x y z,
     check_for_div (mrepr str_c nb.+1 (mmul (X_loc F nb) (msub (X_loc F nb) (mconst nb.+1 1)))) = Ok x ->
     check_for_div (prepr [seq str_c c | c <- zpoly H0]) = Ok y ->
     sdiv x y = Ok z -> quotient_text z = cp "0") ->
  Phi = nseq (2 * size Polys) [::] /\
  forall phi pt, phi \in Phi -> size pt = nb.+1 -> mcall nb.+1 phi pt = Ok 0.
Proof.
move=> F sdiv str_c nb w Zb Eb zeta g H0 Polys Phi; rewrite construct_PhiE => E /eqP N Q.
have -> : Phi = nseq (2 * size Polys) [::].
  elim: Polys Phi E => [|P l IH] Phi /=; first by case=> <-.
  case E: (phi_pair _ _ _ _ _ _ _ _ _ P) => [[p0 p1]|] //=.
  have E1 := phi_pair_second N E; have E0 := phi_pair_first Q E.
  case: (mapM _ l) IH => //= qs IH [<-].
  rewrite (IH _ erefl) E0 E1 -[RHS]/(nseq (2 * (size l).+1) [::]).
  by have -> : (2 * (size l).+1 = (2 * size l).+2)%N by lia.
split=> // phi pt; rewrite mem_nseq => /andP [_ /eqP ->] S.
by rewrite /mcall /mcall_gen S eqxx.
Qed.
Print Assumptions C113_all_constraints.

(** The constraints are constructed, and are zero, for every computation of [w]
    registers that all have boundary polynomials, in a field whose elements print as numbers *)
Theorem C113_construction_returns : forall (F : fieldType) (val : F -> nat) sdiv nb w Zb Eb zeta g H0 Polys z,
  let str_c x := dec (val x) in
  (w <= size Zb)%N -> (w <= size Eb)%N -> (forall P, P \in Polys -> wf (2 * w) P) -> H0 <> [::] ->
  sdiv (mrepr str_c nb.+1 (mmul (X_loc F nb) (msub (X_loc F nb) (mconst nb.+1 1))))
    (prepr [seq str_c c | c <- zpoly H0]) = Ok z ->
  quotient_text z = cp "0" ->
  construct_Phi sdiv str_c nb w Zb Eb zeta g H0 Polys = Ok (nseq (2 * size Polys) [::]).
Proof.
move=> F val sdiv nb w Zb Eb zeta g H0 Polys z str_c Hz He W /eqP N Es Eq.
rewrite construct_PhiE (@mapM_ok_in _ _ _ (fun=> ([::], [::]))); last first.
  by move=> P HP; exact: (phi_pair_returns zeta g Hz He (W P HP) N Es Eq).
rewrite /=; congr Ok; elim: Polys {W} => [//|P l IH].
rewrite [LHS]/= IH -[RHS]/(nseq (2 * (size l).+1) [::]).
by have -> : (2 * (size l).+1 = (2 * size l).+2)%N by lia.
Qed.
Print Assumptions C113_construction_returns.

(** A register without boundary polynomial makes the construction raise. *)
Theorem C113_construction_fails : forall (F : fieldType) (val : F -> nat) sdiv nb w Zb Eb zeta g H0 P Polys z,
  let str_c x := dec (val x) in H0 <> [::] ->
  sdiv (mrepr str_c nb.+1 (mmul (X_loc F nb) (msub (X_loc F nb) (mconst nb.+1 1))))
    (prepr [seq str_c c | c <- zpoly H0]) = Ok z ->
  quotient_text z = cp "0" ->
  (size Zb < w)%N || (size Eb < w)%N ->
  construct_Phi sdiv str_c nb w Zb Eb zeta g H0 (P :: Polys) = Err IndexError.
Proof.
move=> F val sdiv nb w Zb Eb zeta g H0 P Polys z str_c /eqP N Es Eq H.
rewrite construct_PhiE /=.
suff -> : phi_pair sdiv str_c nb w Zb Eb zeta g (zpoly H0) P = Err IndexError by [].
exact: (@phi_pair_index F val sdiv nb w Zb Eb zeta g H0 P z N Es Eq H).
Qed.
Print Assumptions C113_construction_fails.

(** The documentation: Phi_P_0 = X_loc (X_loc - 1) / Z_H0 * P(...) and Phi_P_1 = 1 / Z_H0 * P(...).
    Refuted, multiplied by Z_H0(X_loc): one register with the constraint of value 2 at the point
    1, H0 = {0, 1}, and P = X_2 over Z/7.  The sdiv given is what sympy answers. *)
Local Notation z7 := (in_modp P7).
Local Notation n7 := (fun x : modp_fieldType P7 => dec (Z.to_nat (mval x))).
Definition sympy_quotient_0 (_ _ : str) : result str :=
  Ok (cp "(Poly(0, X_1, X_2, X_3, X_4, x, domain='ZZ'), Poly(X_1**2 + 6*X_1, X_1, X_2, X_3, X_4, x, domain='ZZ'))").

Theorem C113_documented_constraints_refuted :
  exists Zb Eb H0 P p0 p1 e_id e_0 e_1 v0 v1,
  let Z := pcall_multi 4 (zpoly H0) (X_loc (modp_fieldType P7) 3) in
  construct_Phi sympy_quotient_0 n7 3 1 Zb Eb (z7 3) (z7 2) H0 [:: P] = Ok [:: p0; p1] /\
  tilde_expansion 3 Zb Eb [:: 0%N] [:: z7 0; z7 1] = Ok e_id /\
  tilde_expansion 3 Zb Eb [:: 0%N] [:: z7 0; z7 2] = Ok e_0 /\
  tilde_expansion 3 Zb Eb [:: 0%N] [:: z7 3; z7 2] = Ok e_1 /\
  mcompose 2 4 P (e_id ++ e_0) = Ok v0 /\ mcompose 2 4 P (e_id ++ e_1) = Ok v1 /\
  ~~ meq (mmul Z p0) (mmul (X_loc_p (modp_fieldType P7) 3) v0) /\
  ~~ meq (mmul Z p1) v1.
Proof.
exists [:: [:: z7 6; z7 1]], [:: [:: z7 2]], [:: z7 0; z7 1], (mvar (modp_fieldType P7) 2 1).
do 7 eexists.
split; first by vm_compute.
split; first by vm_compute.
split; first by vm_compute.
split; first by vm_compute.
split; first by vm_compute.
split; first by vm_compute.
split; by vm_compute.
Qed.
Print Assumptions C113_documented_constraints_refuted.

(** the texts that are divided, and the composed polynomial that the zero quotient erases *)
Example C113_example :
  mrepr n7 4 (X_loc_p (modp_fieldType P7) 3) = cp "6 *X_1**1*X_2**0*X_3**0*X_4**0 + 1 *X_1**2*X_2**0*X_3**0*X_4**0" /\
  prepr [seq n7 c | c <- zpoly [:: z7 0; z7 1]] = cp "0 + 6 *x**1 + 1 *x**2" /\
  rmap (map (map (fun kc => (kc.1, mval kc.2))))
    (construct_Phi sympy_quotient_0 n7 3 1 [:: [:: z7 6; z7 1]] [:: [:: z7 2]] (z7 3) (z7 2) [:: z7 0; z7 1]
       [:: mvar (modp_fieldType P7) 2 1; mvar (modp_fieldType P7) 2 0]) = Ok [:: [::]; [::]; [::]; [::]] /\
  rmap (map (fun kc => (kc.1, mval kc.2)))
    (let* e_id := tilde_expansion 3 [:: [:: z7 6; z7 1]] [:: [:: z7 2]] [:: 0%N] [:: z7 0; z7 1] in
     let* e_1 := tilde_expansion 3 [:: [:: z7 6; z7 1]] [:: [:: z7 2]] [:: 0%N] [:: z7 3; z7 2] in
     mcompose 2 4 (mvar (modp_fieldType P7) 2 1) (e_id ++ e_1)) =
    Ok [:: ([:: 0; 0; 0; 0]%N, 2); ([:: 1; 0; 0; 0]%N, 2); ([:: 2; 0; 0; 1]%N, 2)]%Z /\
  construct_Phi sympy_quotient_0 n7 3 1 [::] [:: [:: z7 2]] (z7 3) (z7 2) [:: z7 0; z7 1]
       [:: mvar (modp_fieldType P7) 2 1] = Err IndexError.
Proof. by vm_compute. Qed.

(** ** C114 *)
(** The random linear combination of the constraints reads the undefined name [r]: it
    returns only when there is no constraint. *)
Theorem C114_random_constraint : forall (F : fieldType) n (rphi r : seq F) Phi,
  ali_generate_random_constraint n rphi r Phi = if Phi is [::] then Ok [::] else Err NameError.
Proof.
move=> F n rphi r [|p Phi]; last by [].
by rewrite /ali_generate_random_constraint /= /mconst /remove_zero_coefficients /= eqxx.
Qed.
Print Assumptions C114_random_constraint.

(** for the constraints of an APR instance: exactly when the computation has a polynomial *)
Theorem C114_after_apr : forall (F : fieldType) sdiv (str_c : F -> str) nb w Zb Eb zeta g H0 Polys Phi rphi r,
  H0 <> [::] -> construct_Phi sdiv str_c nb w Zb Eb zeta g H0 Polys = Ok Phi ->
  (ali_generate_random_constraint nb.+1 rphi r Phi = Err NameError <-> Polys <> [::]) /\
  (ali_generate_random_constraint nb.+1 rphi r Phi = Ok [::] <-> Polys = [::]).
Proof.
move=> F sdiv str_c nb w Zb Eb zeta g H0 Polys Phi rphi r N E.
have [S _] := C113_second_constraints E N.
rewrite C114_random_constraint.
case: Polys S {E} => [|P l]; case: Phi => [|p Phi] //= _; by split; split.
Qed.
Print Assumptions C114_after_apr.

(** The documented value, sum of r_phi * phi(alpha), is never returned where it is not 0 *)
Theorem C114_documented_sum_refuted : exists (Phi : seq (mpoly (modp_fieldType P7))) rphi pt,
  size rphi = size Phi /\
  (exists ys, mapM (fun phi => mcall 1 phi pt) Phi = Ok ys /\
     \sum_(ry <- zip rphi ys) ry.1 * ry.2 <> 0) /\
  forall r, ali_generate_random_constraint 1 rphi r Phi = Err NameError.
Proof.
exists [:: mvar (modp_fieldType P7) 1 0; mconst 1 (z7 3)], [:: z7 1; z7 2], [:: z7 4].
split=> //; split; last by move=> r; rewrite C114_random_constraint.
eexists; split; first by vm_compute.
rewrite !big_cons big_nil; have D (a b : modp_fieldType P7) : mval a <> mval b -> a <> b by move=> H E; rewrite E in H.
by apply: D; vm_compute.
Qed.
Print Assumptions C114_documented_sum_refuted.

(** The prover asks for the attribute rs_f, which the constructor does not set: there is
    never a proof, whatever the witness. *)
Theorem C114_no_proof : forall (F : fieldType) (witness : result (seq (seq F))),
  ali_generate_proof witness = Err AttributeError.
Proof. by []. Qed.
Print Assumptions C114_no_proof.

Example C114_example :
  ali_generate_random_constraint 1 [:: z7 1] [:: z7 1] [:: mvar (modp_fieldType P7) 1 0] = Err NameError /\
  ali_generate_random_constraint 1 [:: z7 1] [:: z7 1] [::] = Ok [::] /\
  ali_generate_proof (Ok [:: [:: z7 1]]) = Err AttributeError /\ draw_random_sample = Err NotImplementedError.
Proof. by vm_compute. Qed.
