(** Model of starks/poly_utils.py:156-240 (irreducible and primitive
    polynomials) over an arbitrary field [F]; [p] is the int argument.  The code
    requires the coefficients to lie in IntegersModP(p) (line 164: TypeError
    otherwise, not modelled); the theorems take [F] with [p] elements. *)
From Verif Require Import Prelude PolyModel.
Set Implicit Arguments.
Unset Strict Implicit.
Unset Printing Implicit Defensive.
Import GRing.Theory.
Local Open Scope ring_scope.
Local Open Scope py_scope.

Section IrredModel.
Variable F : fieldType.

(** [poly([0, 1])], starks/poly_utils.py:169 *)
Definition poly_x : seq F := pmk [:: 0; 1].

(** starks/poly_utils.py:173-177: the loop; [n] iterations remain *)
Fixpoint irred_loop (n : nat) (f : seq F) (p : Z) (power_term : seq F) : result bool :=
  if n is n'.+1 then
    let* power_term := ppowmod power_term p f in
    let* g := pgcd f (psub power_term poly_x) in
    if (pdegree g =? 0)%Z then irred_loop n' f p power_term else Ok false
  else Ok true.

(** starks/poly_utils.py:156-179 [is_irreducible]; [int(degree/2)] truncates
    (the float division is exact for degrees below 2^53) *)
Definition is_irreducible (f : seq F) (p : Z) : result bool :=
  irred_loop (Z.to_nat (Z.quot (pdegree f) 2)) f p poly_x.

(** starks/poly_utils.py:213-215 [is_monic] *)
Definition is_monic (f : seq F) : result bool :=
  let* c := plead f in Ok (c == 1).

(** starks/poly_utils.py:235-239: the loop over the prime factors *)
Fixpoint primitive_loop (factors : seq Z) (N : Z) (f : seq F) : result bool :=
  if factors is q :: qs then
    if (q =? 0)%Z then Err ZeroDivisionError else
    let* xp := ppow poly_x (N / q) in
    let* l_x := pmod xp f in
    if peq l_x (pmk [:: 1]) then Ok false else primitive_loop qs N f
  else Ok true.

(** starks/poly_utils.py:217-240 [is_primitive]; [factorint n] is the list of
    keys of the dict returned by sympy's function (a parameter).  [modulus] and
    [degree] are used as non-negative ints. *)
Definition is_primitive (factorint : Z -> seq Z) (f : seq F) (modulus degree : Z) : result bool :=
  let* b := is_irreducible f modulus in
  if ~~ b then Ok false else
  let N := (modulus ^ degree - 1)%Z in
  primitive_loop (factorint N) N f.

(** starks/poly_utils.py:181-196 [generate_irreducible_polynomial].  [draw k i]
    is the [i]-th coefficient drawn in round [k] (already cast to Z/p);
    [fuel] bounds the rounds, [k] is the current round. *)
Fixpoint generate_irreducible (fuel k : nat) (draw : nat -> nat -> F) (modulus : Z) (degree : nat)
  : result (seq F) :=
  if fuel is fuel'.+1 then
    let f := pmk (mkseq (draw k) degree ++ [:: 1]) in
    let* b := is_irreducible f modulus in
    if b then Ok f else generate_irreducible fuel' k.+1 draw modulus degree
  else Err Diverges.

(** starks/poly_utils.py:198-211 [generate_primitive_polynomial]; round [j] of
    the outer loop uses the draws [draw j] *)
Fixpoint generate_primitive (fuel j : nat) (factorint : Z -> seq Z) (draw : nat -> nat -> nat -> F)
    (modulus : Z) (degree : nat) : result (seq F) :=
  if fuel is fuel'.+1 then
    let* f := generate_irreducible fuel 0 (draw j) modulus degree in
    let* b := is_primitive factorint f modulus (Z.of_nat degree) in
    if b then Ok f else generate_primitive fuel' j.+1 factorint draw modulus degree
  else Err Diverges.
End IrredModel.
