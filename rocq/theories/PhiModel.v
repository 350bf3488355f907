(** Model of starks/apr.py:165-200 [construct_Phi_polynomials] and of
    starks/ali.py.

    As in AprModel.v and ParserModel.v: [F] is the field [self.field], [str_c] is
    [str] on its elements, [sdiv a b] is [str(div(Poly(a), Poly(b)))] of sympy,
    elements of the base polynomial ring are given by their image in [F].  A
    constraint polynomial whose call returns a bare ring element is identified
    with a constant polynomial (see MultiModel.v). *)
From Coq.Strings Require Import String.
From Verif Require Import Prelude PowModel PolyModel InterpModel MultiModel ParserModel AirModel AprModel.
Set Implicit Arguments.
Unset Strict Implicit.
Unset Printing Implicit Defensive.
Import GRing.Theory.
Local Open Scope ring_scope.
Local Open Scope py_scope.

Section PhiModel.
Variable F : fieldType.
Variable sdiv : str -> str -> result str.
Variable str_c : F -> str.

(** starks/apr.py:175, 183: X_loc * (X_loc - 1); [nb] is [len(self.Nbrs)] *)
Definition X_loc (nb : nat) : mpoly F := mmk [:: (1%N :: nseq nb 0%N, 1)].
Definition X_loc_p (nb : nat) : mpoly F :=
  mmul (X_loc nb) (msub (X_loc nb) (mconst nb.+1 1)).

(** starks/apr.py:183-198: the two constraints of one polynomial [P] in [2 * w]
    variables; [Zb], [Eb] are the boundary polynomials, [Z_H0] the vanishing
    polynomial of H0 *)
Definition phi_pair (nb w : nat) (Zb Eb : seq (seq F)) (zeta g : F) (Z_H0 : seq F) (P : mpoly F)
  : result (mpoly F * mpoly F) :=
  let n_id := pmk [:: 0; 1] in
  let n_cyc_1 := pmk [:: zeta; g] in
  let n_cyc_0 := pmk [:: 0; g] in
  let* t0 := mdivision sdiv str_c nb.+1 (X_loc_p nb) (prepr [seq str_c c | c <- Z_H0]) in
  let* q1 := pdiv (pmk [:: 1]) Z_H0 in
  let* t1 := poly_to_multi str_c nb.+1 (X_loc_p nb) (prepr [seq str_c c | c <- q1]) in
  let* e_id := tilde_expansion nb Zb Eb (iota 0 w) n_id in
  let* e_0 := tilde_expansion nb Zb Eb (iota 0 w) n_cyc_0 in
  let* v0 := mcompose (2 * w) nb.+1 P (e_id ++ e_0) in
  let* e_id' := tilde_expansion nb Zb Eb (iota 0 w) n_id in
  let* e_1 := tilde_expansion nb Zb Eb (iota 0 w) n_cyc_1 in
  let* v1 := mcompose (2 * w) nb.+1 P (e_id' ++ e_1) in
  Ok (mmul t0 v0, mmul t1 v1).

(** starks/apr.py:165-200 [construct_Phi_polynomials]; [H0] lists the elements of
    the space [self.H0] as elements of [F] (starks/poly_utils.py:62-70) *)
Definition construct_Phi (nb w : nat) (Zb Eb : seq (seq F)) (zeta g : F) (H0 : seq F)
    (Polys : seq (mpoly F)) : result (seq (mpoly F)) :=
  let Z_H0 := zpoly H0 in
  foldM (fun Phis P =>
    let* (p0, p1) := phi_pair nb w Zb Eb zeta g Z_H0 P in
    Ok (Phis ++ [:: p0; p1])) Polys [::].

(** The names an ALIProver method can see: its parameters and variables are
    looked up first, then the globals of starks/ali.py (line 5 and the classes).
    No builtin is called [r]. *)
Definition ali_globals : seq String.string := [:: "ReedSolomonCode"; "ALIProver"; "APIVerifier"]%string.
Definition ali_name (locals : seq String.string) (name : String.string) : result unit :=
  if has (String.eqb name) (locals ++ ali_globals) then Ok tt else Err NameError.

(** starks/ali.py:14-19: the attributes that the constructor sets *)
Definition ali_attrs : seq String.string := [:: "apr"; "rs_g"]%string.
Definition ali_attr (name : String.string) : result unit :=
  if has (String.eqb name) ali_attrs then Ok tt else Err AttributeError.

(** starks/reedsolomon.py:85-87 [draw_random_sample] *)
Definition draw_random_sample : result unit := Err NotImplementedError.

(** starks/ali.py:21-26 [generate_proof]; [witness] is the outcome of
    [self.apr.generate_witness()] *)
Definition ali_generate_proof (witness : result (seq (seq F))) : result (seq (seq F)) :=
  ali_attr "rs_f" ;;* draw_random_sample ;;*
  ali_attr "rs_g" ;;* draw_random_sample ;;*
  ali_attr "apr" ;;* witness.

(** starks/ali.py:28-37 [generate_random_constraint]; [r] gives the values [r[i]]
    that the unbound name would have to hold, [phi_R] starts as the int 0 *)
Definition ali_generate_random_constraint (n : nat) (rphi r : seq F) (Phi : seq (mpoly F))
  : result (mpoly F) :=
  let locals := [:: "self"; "rphi"; "Phi"; "phi_R"; "i"; "phi"]%string in
  foldM (fun phi_R (iphi : nat * mpoly F) =>
    ali_name locals "r" ;;*
    let* c := py_nth r (Z.of_nat iphi.1) in
    Ok (madd phi_R (mmul (mconst n c) iphi.2))) (enumerate Phi) (mconst n 0).
End PhiModel.
