(** Model of starks/euclidean.py called with objects (elements of IntegersModP(p), of
    FiniteField(p, m), polynomials) and ints, mixed as in Python.  EuclidModel.v casts
    the int literals of line 38 at once; here they stay ints until an operator meets an
    object, as the code does. *)
From Coq Require Import ZArith List.
From Verif Require Import Base EuclidModel.
Local Open Scope Z_scope.

Section Mixed.
(** A class of objects: its abs(), divmod and operators, and the constructor on an int.
    Both operands of [edivm], [eadd], [esub] and [emul] are objects. *)
Variables (A : Type) (eabs : A -> Z) (edivm : A -> A -> result (A * A)).
Variables (eadd esub emul : A -> A -> result A) (eneg : A -> result A) (cast : Z -> A).

(** A Python value that is an int or an object of the class. *)
Inductive pynum := PInt (z : Z) | PObj (a : A).

(** abs(): of an int, or the class's [__abs__] (starks/modp.py:81-82,
    starks/finitefield.py:124-125, starks/polynomial.py:72-75) *)
Definition py_abs (v : pynum) : Z :=
  match v with PInt z => Z.abs z | PObj a => eabs a end.

(** divmod(): [@typecheck] (starks/numbertype.py:26-46) casts an int divisor; no class
    defines [__rdivmod__], so an int cannot be divided by an object. *)
Definition py_divmod (v w : pynum) : result (pynum * pynum) :=
  match v, w with
  | PInt a, PInt b => let* (q, r) := int_divmod a b in Ok (PInt q, PInt r)
  | PInt _, PObj _ => Err TypeError
  | PObj a, PInt b => let* (q, r) := edivm a (cast b) in Ok (PObj q, PObj r)
  | PObj a, PObj b => let* (q, r) := edivm a b in Ok (PObj q, PObj r)
  end.

(** v - w: an int minus an object is [__rsub__] (starks/numbertype.py:61-62),
    [-self + other] with the int cast by [__add__]. *)
Definition py_sub (v w : pynum) : result pynum :=
  match v, w with
  | PInt a, PInt b => Ok (PInt (a - b))
  | PInt a, PObj b => let* n := eneg b in rmap PObj (eadd n (cast a))
  | PObj a, PInt b => rmap PObj (esub a (cast b))
  | PObj a, PObj b => rmap PObj (esub a b)
  end.

(** v * w: an int times an object is [__rmul__] (starks/numbertype.py:64-65),
    [self * other]. *)
Definition py_mul (v w : pynum) : result pynum :=
  match v, w with
  | PInt a, PInt b => Ok (PInt (a * b))
  | PInt a, PObj b => rmap PObj (emul b (cast a))
  | PObj a, PInt b => rmap PObj (emul a (cast b))
  | PObj a, PObj b => rmap PObj (emul a b)
  end.

(** starks/euclidean.py:7-21 [gcd] *)
Definition mix_gcd (fuel : nat) (v w : pynum) : result pynum :=
  gcd_gen pynum py_abs py_divmod fuel v w.

(** starks/euclidean.py:39-43, the while loop; state (a, b, x2, x1, y2, y1). *)
Fixpoint mix_eea_loop (fuel : nat) (a b x2 x1 y2 y1 : pynum) : result (pynum * pynum * pynum) :=
  match fuel with
  | O => Err Diverges
  | S f =>
    if 0 <? py_abs b then
      let* (q, r) := py_divmod a b in
      let* qx := py_mul q x1 in
      let* x := py_sub x2 qx in
      let* qy := py_mul q y1 in
      let* y := py_sub y2 qy in
      mix_eea_loop f b r x1 x y1 y
    else Ok (x2, y2, a)
  end.

(** starks/euclidean.py:35-45, the part after the swap test *)
Definition mix_eea_ordered (fuel : nat) (a b : pynum) : result (pynum * pynum * pynum) :=
  if py_abs b =? 0 then Ok (PInt 1, PInt 0, a)
  else mix_eea_loop fuel a b (PInt 1) (PInt 0) (PInt 0) (PInt 1).

(** starks/euclidean.py:24-45 [extended_euclidean_algorithm] *)
Definition mix_eea (fuel : nat) (a b : pynum) : result (pynum * pynum * pynum) :=
  if py_abs a <? py_abs b then
    let* (xy, d) := mix_eea_ordered fuel b a in
    Ok (snd xy, fst xy, d)
  else mix_eea_ordered fuel a b.
End Mixed.
Arguments PInt {A} z.
Arguments PObj {A} a.
