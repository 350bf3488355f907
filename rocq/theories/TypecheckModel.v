(** Model of the mixed-type arithmetic of IntegersModP(p) and of polynomials over
    it: the decorator [typecheck] (starks/numbertype.py:25-47), the reflected
    operators (58-65, 112-116) and Python's dispatch of a binary operator between
    the two operand types.

    Values are ints, elements of IntegersModP(p) for any prime p, polynomials over
    IntegersModP(p), and other objects.  Simplifications: an "other" object is not
    iterable, not a bytes object, defines none of the operators and is represented
    by the outcome of [int(obj)] (a float, None, a Decimal, ...); [==] between two objects neither
    of which defines it for the other is [False] (they are different objects).
    The classes are made by calls IntegersModP(p) with p passed by position, so [memoize]
    makes two of them identical exactly if their moduli are equal (C118). *)
From Verif Require Import Prelude PolyModel ModpField.
Set Implicit Arguments.
Unset Strict Implicit.
Unset Printing Implicit Defensive.
Import GRing.Theory.
Local Open Scope ring_scope.
Local Open Scope py_scope.

Inductive pyval :=
| VInt (z : Z)
| VMod (P : primeZ) (x : modp P)
| VPoly (P : primeZ) (c : seq (modp P))
| VOther (int_of : result Z).

(** The value of a special method: [NotImplemented], or a result. *)
Inductive outcome (A : Type) := NotImpl | Done (r : result A).
Arguments NotImpl {A}.

(** starks/numbertype.py:49-56 (default 1), starks/polynomial.py:32: the attribute
    [operatorPrecedence] of the class, if there is one *)
Definition precedence (v : pyval) : option nat :=
  match v with
  | VMod _ _ => Some 1%N
  | VPoly _ _ => Some 2%N
  | _ => None
  end.

(** starks/numbertype.py:29-31: the test that makes a method return
    [NotImplemented]; [n] is the precedence of [self] *)
Definition yields (n : nat) (other : pyval) : bool :=
  if precedence other is Some m then (n < m)%N else false.

(** starks/modp.py:31-39 [IntegerModP.__init__]: every exception becomes a
    TypeError.  [int] of an element is its attribute [n] (modp.py:90-91); a
    polynomial has no [__int__].  On an element of the same class this is the
    identity, so the test of numbertype.py:33 need not be modelled. *)
Definition cast_modp (P : primeZ) (v : pyval) : result (modp P) :=
  match v with
  | VInt z => Ok (in_modp P z)
  | VMod Q x => Ok (in_modp P (mval x))
  | VPoly _ _ => Err TypeError
  | VOther (Ok z) => Ok (in_modp P z)
  | VOther (Err _) => Err TypeError
  end.

(** starks/polynomial.py:38-58 [Polynomial.__init__].  The class attribute
    [__iter__] of IntegersModP (starks/modp.py:104) makes an element of another
    modulus look iterable (line 53), but calling it with an instance is a
    TypeError (its function takes no argument). *)
Definition cast_poly (P : primeZ) (v : pyval) : result (seq (modp P)) :=
  match v with
  | VPoly Q c => Ok (@pmk (modp_fieldType P) [seq in_modp P (mval x) | x <- c])
  | VMod Q x => if (pz Q =? pz P)%Z then Ok (@pmk (modp_fieldType P) [:: in_modp P (mval x)])
                else Err TypeError
  | VInt z => Ok (@pmk (modp_fieldType P) [:: in_modp P z])
  | VOther (Ok z) => Ok (@pmk (modp_fieldType P) [:: in_modp P z])
  | VOther (Err _) => Err TypeError
  end.

(** A method decorated with [typecheck] (starks/numbertype.py:25-47), on an element and
    on a polynomial. *)
Definition mod_method (P : primeZ) (A : Type) (f : modp P -> modp P -> A) (self : modp P)
    (other : pyval) : outcome A :=
  if yields 1 other then NotImpl
  else Done (let* y := cast_modp P other in Ok (f self y)).

Definition poly_method (P : primeZ) (A : Type) (f : seq (modp P) -> seq (modp P) -> A)
    (self : seq (modp P)) (other : pyval) : outcome A :=
  if yields 2 other then NotImpl
  else Done (let* d := cast_poly P other in Ok (f self d)).

(** [a + b], [a * b] when the method of the left operand (or, with [self] and
    [other] exchanged, the reflected method of the right one, which calls it)
    is the decorated one; ints and other objects have none for such operands. *)
Section Dispatch.
Variable A : Type.
Variable fmod : forall P : primeZ, modp P -> modp P -> A.
Variable fpoly : forall P : primeZ, seq (modp P) -> seq (modp P) -> A.

Definition method (self other : pyval) : outcome A :=
  match self with
  | VMod P x => mod_method (@fmod P) x other
  | VPoly P c => poly_method (@fpoly P) c other
  | _ => NotImpl
  end.

(** First the method of the left operand, then the reflected one of the right
    operand; [none] is the outcome if both give [NotImplemented]. *)
Definition dispatch (none : result A) (a b : pyval) : result A :=
  match method a b with
  | Done r => r
  | NotImpl => match method b a with Done r => r | NotImpl => none end
  end.
End Dispatch.

(** starks/modp.py:43-45, starks/polynomial.py:108-113, numbertype.py:58-59 *)
Definition py_add (a b : pyval) : result pyval :=
  if (a, b) is (VInt x, VInt y) then Ok (VInt (x + y)%Z)
  else dispatch (fun P (x y : modp P) => VMod (x + y))
                (fun P c d => VPoly (@padd (modp_fieldType P) c d)) (Err TypeError) a b.

(** starks/modp.py:51-53, starks/polynomial.py:115-126, numbertype.py:64-65 *)
Definition py_mul (a b : pyval) : result pyval :=
  if (a, b) is (VInt x, VInt y) then Ok (VInt (x * y)%Z)
  else dispatch (fun P (x y : modp P) => VMod (x * y))
                (fun P c d => VPoly (@pmul (modp_fieldType P) c d)) (Err TypeError) a b.

(** [-v] *)
Definition py_neg (v : pyval) : result pyval :=
  match v with
  | VInt z => Ok (VInt (- z)%Z)
  | VMod P x => Ok (VMod (- x))
  | VPoly P c => Ok (VPoly (@pneg (modp_fieldType P) c))
  | VOther _ => Err TypeError
  end.

(** [a - b]: starks/modp.py:47-49 is decorated; starks/polynomial.py:80-81 is
    [self + (-other)]; the reflected version (numbertype.py:61-62) is
    [-self + other]. *)
Definition py_sub (a b : pyval) : result pyval :=
  let reflected := match b with
    | VMod _ _ | VPoly _ _ => let* nb := py_neg b in py_add nb a
    | _ => Err TypeError
    end in
  match a with
  | VInt x => if b is VInt y then Ok (VInt (x - y)%Z) else reflected
  | VMod P x =>
      match mod_method (fun x y => VMod (x - y)) x b with Done r => r | NotImpl => reflected end
  | VPoly P c => let* nb := py_neg b in py_add a nb
  | VOther _ => reflected
  end.

(** [a == b]: starks/modp.py:58-60, starks/polynomial.py:98-101; Python also tries
    the method of the right operand. *)
Definition py_eq (a b : pyval) : result bool :=
  if (a, b) is (VInt x, VInt y) then Ok (x =? y)%Z
  else dispatch (fun P (x y : modp P) => x == y)
                (fun P c d => @peq (modp_fieldType P) c d) (Ok false) a b.

(** [a / b]: starks/numbertype.py:112-116 (not decorated; only elements have a
    method [inverse]) for elements, starks/polynomial.py:145-149 (decorated) for
    polynomials, which have no reflected version.  The quotient of two ints, a float, is
    not modelled. *)
Definition py_inverse (v : pyval) : result pyval :=
  match v with
  | VMod P x => let* y := @finv (modp_fieldType P) x in Ok (@VMod P y)
  | _ => Err AttributeError
  end.
Definition py_div (a b : pyval) : result pyval :=
  match a, b with
  | VMod _ _, _ => let* i := py_inverse b in py_mul a i
  | VPoly P c, _ => let* d := cast_poly P b in
                    let* q := @pdiv (modp_fieldType P) c d in Ok (@VPoly P q)
  | VInt _, VMod _ _ | VOther _, VMod _ _ => let* i := py_inverse b in py_mul i a
  | _, _ => Err TypeError
  end.
