(** Model of the printed forms: [__str__] and [__repr__] of the number types and polynomials.
    A string is the list of its code points (ParserModel.v). *)
From Coq.Strings Require Import String.
From Verif Require Import Prelude PolyModel MultiModel ParserModel ModpModel.
Set Implicit Arguments.
Unset Strict Implicit.
Unset Printing Implicit Defensive.
Local Open Scope py_scope.

(** [str(z)] and ['%d' % z] of an int *)
Definition zdec (z : Z) : str :=
  if (z <? 0)%Z then c_minus :: dec (Z.to_nat (- z)) else dec (Z.to_nat z).

(** starks/modp.py:84-85 [__str__] and 87-88 [__repr__] of an element with attribute [n] *)
Definition modp_str (n : Z) : str := zdec n.
Definition modp_repr (p n : Z) : str := zdec n ++ cp " (mod " ++ zdec p ++ cp ")".

(** starks/modp.py:31-39 constructor from a str: [int(n) % p]; every exception becomes a
    TypeError *)
Definition modp_of_str (p : Z) (st : str) : result Z :=
  match py_int st with
  | Ok n => if (p =? 0)%Z then Err TypeError else Ok (modp_mk p n)
  | Err _ => Err TypeError
  end.

(** starks/rationals_modp.py:107-108 [__str__] and 110-111 [__repr__] *)
Definition rat_str (x : Z * Z) : str := zdec x.1 ++ cp "/" ++ zdec x.2.
Definition rat_repr (p : Z) (x : Z * Z) : str := zdec x.1 ++ cp "/" ++ zdec x.2 ++ cp " (mod " ++ zdec p ++ cp ")".

(** starks/polynomial.py:63-70 [__repr__] of a polynomial over IntegersModP: ['%s' % a] is
    [str(a)].  [cs] are the attributes [n] of the coefficients. *)
Definition zp_poly_repr (cs : seq Z) : str := prepr (map modp_str cs).

(** starks/finitefield.py:200 the name of the class FiniteField(p, m) *)
Definition fq_name (p m : Z) : str := cp "F_{" ++ zdec p ++ cp "^" ++ zdec m ++ cp "}".

(** the element sign *)
Definition c_in : nat := 8712.

(** starks/finitefield.py:127-129 [__repr__]; the class has no [__str__], so [str] gives the
    same text. *)
Definition fq_repr (p m : Z) (x : seq Z) : str := zp_poly_repr x ++ [:: c_space; c_in; c_space] ++ fq_name p m.

(** starks/polynomial.py:63-70 over FiniteField(p, m) *)
Definition fq_poly_repr (p m : Z) (cs : seq (seq Z)) : str := prepr (map (fq_repr p m) cs).
