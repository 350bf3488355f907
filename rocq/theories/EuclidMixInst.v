(** The classes at which starks/euclidean.py is used: instances of EuclidMixModel.v. *)
From Verif Require Import Prelude EuclidModel EuclidMixModel ModpModel PolyModel FiniteFieldModel.
Set Implicit Arguments.
Unset Strict Implicit.
Unset Printing Implicit Defensive.
Import GRing.Theory.
Local Open Scope ring_scope.

(** Loop budget when an operand is an int or an element of IntegersModP(p); proved
    sufficient in EuclidMixProofs.v. *)
Definition num_fuel (v w : pynum Z) : nat :=
  int_fuel (py_abs Z Z.abs v) (py_abs Z Z.abs w).

(** Elements of IntegersModP(p), starks/modp.py:42-82 *)
Definition zp_gcd (p : Z) (v w : pynum Z) : result (pynum Z) :=
  mix_gcd Z Z.abs (modp_divmod p) (modp_mk p) (num_fuel v w) v w.
Definition zp_eea (p : Z) (v w : pynum Z) : result (pynum Z * pynum Z * pynum Z) :=
  mix_eea Z Z.abs (modp_divmod p) (fun a b => Ok (modp_add p a b)) (fun a b => Ok (modp_sub p a b))
    (fun a b => Ok (modp_mul p a b)) (fun a => Ok (modp_neg p a)) (modp_mk p) (num_fuel v w) v w.

Section Poly.
Variables (F : fieldType) (ofZ : Z -> F).
(** Polynomials over a ring, starks/polynomial.py:72-143; [ofZ] is the ring's constructor
    on ints ([ring(c)], line 54) *)
Definition poly_gcd (a b : seq F) : result (pynum (seq F)) :=
  mix_gcd (seq F) (@pabs F) (@pdivmod F) (fun k => pconst (ofZ k)) (maxn (size a) (size b)).+2
    (PObj a) (PObj b).
Definition poly_eea (a b : seq F) : result (pynum (seq F) * pynum (seq F) * pynum (seq F)) :=
  mix_eea (seq F) (@pabs F) (@pdivmod F) (fun a b => Ok (padd a b)) (fun a b => Ok (psub a b))
    (fun a b => Ok (pmul a b)) (fun a => Ok (pneg a)) (fun k => pconst (ofZ k))
    (maxn (size a) (size b)).+2 (PObj a) (PObj b).

(** Elements of FiniteField(p, m) with modulus [g], starks/finitefield.py:91-134 *)
Variable g : seq F.
Definition fq_gcd (a b : seq F) : result (pynum (seq F)) :=
  mix_gcd (seq F) (@pabs F) (fq_divmod g) (fun k => fq_const (ofZ k)) (maxn (size a) (size b)).+2
    (PObj a) (PObj b).
Definition fq_eea (a b : seq F) : result (pynum (seq F) * pynum (seq F) * pynum (seq F)) :=
  mix_eea (seq F) (@pabs F) (fq_divmod g) (fq_add g) (fq_sub g) (fq_mul g) (fq_neg g)
    (fun k => fq_const (ofZ k)) (maxn (size a) (size b)).+2 (PObj a) (PObj b).
End Poly.
