(** Model of starks/polynomial.py (Polynomial over a ring), over an arbitrary
    field [F].  A polynomial object is represented by its attribute
    [coefficients : seq F] (increasing degree).  [ring(0)], [ring(1)] are 0, 1
    of [F].  [@typecheck] casts are not modelled: operands are polynomials over
    the same ring. *)
From Verif Require Import Prelude PowModel EuclidModel.
Set Implicit Arguments.
Unset Strict Implicit.
Unset Printing Implicit Defensive.
Import GRing.Theory.
Local Open Scope ring_scope.
Local Open Scope py_scope.

Section PolyModel.
Variable F : fieldType.
Implicit Types (a b : seq F) (x y : F).

(** The field's [inverse()]: raises on zero (starks/modp.py:71-79,
    starks/finitefield.py inverse). *)
Definition finv (x : F) : result F :=
  if x == 0 then Err InverseError else Ok x^-1.

(** starks/numbertype.py:112-113 [__truediv__] *)
Definition fdiv (x y : F) : result F :=
  let* i := finv y in Ok (x * i).

(** starks/polynomial.py:17-19, the while loop of [strip]; [k] is [i + 1]. *)
Fixpoint strip_from (L : seq F) (elt : F) (k : nat) : nat :=
  if k is k'.+1 then
    if nth 0 L k' == elt then strip_from L elt k' else k
  else 0%N.

(** starks/polynomial.py:13-21 [strip] *)
Definition strip (L : seq F) (elt : F) : seq F :=
  take (strip_from L elt (size L)) L.

(** starks/polynomial.py:38-58 constructor from a list of coefficients *)
Definition pmk (c : seq F) : seq F := strip c 0.

(** starks/polynomial.py:51-52 constructor from one ring element *)
Definition pconst (x : F) : seq F := pmk [:: x].

(** starks/polynomial.py:60-61 *)
Definition pis_zero (a : seq F) : bool := size a == 0%N.

(** starks/polynomial.py:72-75 [__abs__] *)
Definition pabs (a : seq F) : Z := Z.of_nat (size a).

(** starks/polynomial.py:95-96 [degree] *)
Definition pdegree (a : seq F) : Z := (pabs a - 1)%Z.

(** starks/polynomial.py:92-93 [leading_coefficient]: [coefficients[-1]] *)
Definition plead (a : seq F) : result F :=
  if a is x :: a' then Ok (last x a') else Err IndexError.

(** starks/polynomial.py:98-101 [__eq__] *)
Definition peq (a b : seq F) : bool :=
  (size a == size b) && all (fun xy => xy.1 == xy.2) (zip a b).

(** starks/polynomial.py:103-106 [__ne__] *)
Definition pne (a b : seq F) : bool :=
  (size a != size b) || has (fun xy => xy.1 != xy.2) (zip a b).

(** starks/polynomial.py:110-112 the list comprehension over [zip_longest];
    [sum(x)] starts from 0. *)
Fixpoint zip_longest_sum (a b : seq F) : seq F :=
  match a, b with
  | [::], [::] => [::]
  | x :: a', [::] => (0 + x + 0) :: zip_longest_sum a' [::]
  | [::], y :: b' => (0 + 0 + y) :: (fix go b := if b is z :: b' then (0 + 0 + z) :: go b' else [::]) b'
  | x :: a', y :: b' => (0 + x + y) :: zip_longest_sum a' b'
  end.

(** starks/polynomial.py:108-113 [__add__] *)
Definition padd (a b : seq F) : seq F := pmk (zip_longest_sum a b).

(** starks/polynomial.py:86-87 [__neg__] *)
Definition pneg (a : seq F) : seq F := pmk [seq - x | x <- a].

(** starks/polynomial.py:80-81 [__sub__] *)
Definition psub (a b : seq F) : seq F := padd a (pneg b).

(** [enumerate(l)] *)
Definition enumerate (T : Type) (l : seq T) : seq (nat * T) := zip (iota 0 (size l)) l.

(** starks/polynomial.py:122-124: the two nested loops
    [newCoeffs[i + j] += a * b].  An index out of range, which would raise IndexError,
    leaves the list unchanged. *)
Definition conv_loop (a b nc : seq F) : seq F :=
  foldl (fun nc (ix : nat * F) =>
    foldl (fun nc (jy : nat * F) =>
      if (ix.1 + jy.1 < size nc)%N then
        set_nth 0 nc (ix.1 + jy.1) (nth 0 nc (ix.1 + jy.1) + ix.2 * jy.2)
      else nc) nc (enumerate b))
    nc (enumerate a).

(** starks/polynomial.py:115-126 [__mul__] *)
Definition pmul (a b : seq F) : seq F :=
  if pis_zero a || pis_zero b then pmk [::]
  else pmk (conv_loop a b (nseq (size a + size b - 1) 0)).

(** starks/polynomial.py:134-141: the while loop of [__divmod__]. *)
Fixpoint pdivmod_loop (fuel : nat) (d : seq F) (lc : F) (q r : seq F)
  : result (seq F * seq F) :=
  if fuel is f.+1 then
    if (pdegree d <=? pdegree r)%Z then
      let e := (size r - size d)%N in
      let* lr := plead r in
      let* k := fdiv lr lc in
      let m := pmk (nseq e 0 ++ [:: k]) in
      pdivmod_loop f d lc (padd q m) (psub r (pmul m d))
    else Ok (q, r)
  else Err Diverges.

(** starks/polynomial.py:128-143 [__divmod__]; line 132 raises IndexError for a
    zero divisor. Budget: one iteration per coefficient. *)
Definition pdivmod (a d : seq F) : result (seq F * seq F) :=
  let* lc := plead d in
  pdivmod_loop (size a).+1 d lc (pmk [::]) a.

(** starks/polynomial.py:145-149 [__truediv__] *)
Definition pdiv (a d : seq F) : result (seq F) :=
  if pis_zero d then Err ZeroDivisionError
  else let* (q, _) := pdivmod a d in Ok q.

(** starks/polynomial.py:151-155 [__mod__] *)
Definition pmod (a d : seq F) : result (seq F) :=
  if pis_zero d then Err ZeroDivisionError
  else let* (_, r) := pdivmod a d in Ok r.

(** starks/polynomial.py:158-164 [__call__] at a point of the coefficient ring *)
Definition pcall (a : seq F) (x : F) : F :=
  (foldl (fun (st : F * F) c => (st.1 + st.2 * c, st.2 * x)) (0, 1) a).1.

(** [p ** n] and [p.powmod(n, m)], inherited from starks/numbertype.py:68-103 *)
Definition ppow (a : seq F) (n : Z) : result (seq F) :=
  dom_pow (pconst 1) pmul a n.
Definition ppowmod (a : seq F) (n : Z) (m : seq F) : result (seq F) :=
  dom_powmod (pconst 1) pmul pmod a n m.

(** starks/euclidean.py at Polynomial; budget: size of the smaller operand *)
Definition pgcd (a b : seq F) : result (seq F) :=
  gcd_gen (seq F) pabs pdivmod (maxn (size a) (size b)).+2 a b.
Definition peea (a b : seq F) : result (seq F * seq F * seq F) :=
  eea_gen (seq F) pabs pdivmod psub pmul (pmk [::]) (pconst 1)
          (maxn (size a) (size b)).+2 a b.
End PolyModel.
