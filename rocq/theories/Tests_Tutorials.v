(** Replay of the tutorials (tutorials/*.ipynb) on the model.  The notebooks contain the outputs
    of the cells as they were computed when the notebooks were written, so these are
    observations of the running code.  (They were recorded with an older [__repr__] of
    polynomials that writes x^i; the coefficients are compared.) *)
From Coq.Strings Require Import String.
From Verif Require Import Prelude ModpModel ModpField PolyModel PolyProofs IrredModel FiniteFieldModel
  ParserModel PrintModel Tests_Algebra.
Set Implicit Arguments.
Unset Strict Implicit.
Unset Printing Implicit Defensive.
Import GRing.Theory.
Local Open Scope ring_scope.
Local Open Scope py_scope.

(** ** tutorials/Introduction to Finite Fields.ipynb *)
Section Mod12.
Local Open Scope Z_scope.
Let a := modp_mk 12 3.
Example tutorial_mod12 :
  [/\ modp_str a = cp "3", modp_str (modp_add 12 a a) = cp "6", modp_add 12 (modp_add 12 a a) a = 9,
      modp_add 12 (modp_add 12 (modp_add 12 a a) a) a = 0 & modp_mul 12 a a = 9] /\
  modp_mul 12 (modp_mul 12 a a) a = 3 /\
  [seq modp_mul 12 (modp_mk 12 2) (modp_mk 12 i) | i <- modp_iter 12] = [:: 0; 2; 4; 6; 8; 10; 0; 2; 4; 6; 8; 10] /\
  [seq modp_mul 12 (modp_mk 12 7) (modp_mk 12 i) | i <- modp_iter 12] = [:: 0; 7; 2; 9; 4; 11; 6; 1; 8; 3; 10; 5] /\
  [seq modp_mul 3 i j | i <- modp_iter 3, j <- modp_iter 3] = [:: 0; 0; 0; 0; 1; 2; 0; 2; 1].
Proof. by vm_compute. Qed.

(** ** tutorials/Binary Finite Fields Pt 1.ipynb, first part *)
Let AND (x y : Z) := modp_mul 2 x y.
Let OR (x y : Z) := modp_sub 2 (modp_add 2 x y) (modp_mul 2 x y).
Let NOT (x : Z) := modp_sub 2 (modp_mk 2 1) x.
Example tutorial_mod2 :
  modp_repr 2 (modp_add 2 1 1) = cp "0 (mod 2)" /\
  [seq AND x y | x <- [:: 0; 1], y <- [:: 0; 1]] = [:: 0; 0; 0; 1] /\
  [seq OR x y | x <- [:: 0; 1], y <- [:: 0; 1]] = [:: 0; 1; 1; 1] /\
  [seq NOT x | x <- [:: 0; 1]] = [:: 1; 0].
Proof. by vm_compute. Qed.
End Mod12.

(** ** tutorials/Polynomials.ipynb *)
Section Mod7.
Local Notation z7 := (zs P7).
Let x := pmk (z7 [:: 0; 1]%Z).
Let vals (f : seq (modp_fieldType P7)) := map (@mval P7) f.
Example tutorial_polynomials :
  [/\ vals x = [:: 0; 1]%Z, vals (pmk (z7 [:: 100; 100]%Z)) = [:: 2; 2]%Z, vals (padd x x) = [:: 0; 2]%Z,
      vals (padd x (pmk (z7 [:: 1]%Z))) = [:: 1; 1]%Z &
      let g := padd (padd (pmul x x) x) (pmk (z7 [:: 2]%Z)) in
      modp_repr 7 (mval (pcall g (in_modp P7 1))) = cp "4 (mod 7)"].
Proof. by vm_compute. Qed.
End Mod7.

(** ** tutorials/Binary Finite Fields Pt 1.ipynb, second part: GF(2^64) *)
Section GF2_64.
Local Notation z2 := (zs P2).
Let vals (f : seq (modp_fieldType P2)) := map (@mval P2) f.
Let g64 := z2 ([:: 1; 1; 0; 1; 1]%Z ++ nseq 59 0%Z ++ [:: 1]%Z).
Let A := z2 [:: 1; 1; 1]%Z.
Let B := z2 [:: 1; 0; 1; 1]%Z.
Example tutorial_gf2_64 :
  [/\ rmap vals (fq_poly g64 A) = Ok [:: 1; 1; 1]%Z, rmap vals (fq_poly g64 B) = Ok [:: 1; 0; 1; 1]%Z,
      rmap vals (fq_add g64 A B) = Ok [:: 0; 1; 0; 1]%Z,
      rmap vals (fq_sub g64 A B) = Ok [:: 0; 1; 0; 1]%Z &
      rmap vals (fq_mul g64 A B) = Ok [:: 1; 1; 0; 0; 0; 1]%Z].
Proof. by vm_compute. Qed.
Example tutorial_gf2_64_quotient : rmap vals (fq_div g64 A B) = Ok
  [:: 1; 0; 0; 0; 1; 0; 0; 1; 0; 1; 1; 1; 0; 0; 1; 0; 1; 1; 1; 0; 0; 1; 0; 1; 1; 1; 0; 0; 1; 0; 1; 1; 1; 0; 0; 1; 0; 1;
      1; 1; 0; 0; 1; 0; 1; 1; 1; 0; 0; 1; 0; 1; 1; 1; 0; 0; 1; 0; 1; 1; 1; 0; 0; 1]%Z.
Proof. by vm_compute. Qed.
(** the constructor accepts the modulus *)
(** [tutorial_gf2_64_field]: evaluated here, but not stored as a theorem, because coqchk evaluates without the
    virtual machine and would take minutes for it *)
Check (ltac:(by vm_compute) : is_irreducible g64 2 = Ok true).
End GF2_64.

(** ** tutorials/Binary Finite Fields Pt 2.ipynb has the same calls in GF(2^4), without outputs *)
