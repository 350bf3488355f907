(** Model of starks/modp.py:25-106 ([IntegersModP]).  An element of class
    [IntegersModP(p)] is represented by its attribute [n : Z]; the class by [p].
    [p > 0] is assumed by the theorems (for p = 0 the constructor raises
    TypeError; negative p is never used).  Type casts performed by
    [@typecheck] are not modelled: both operands belong to the class. *)
From Coq Require Import ZArith List.
From Verif Require Import Base EuclidModel PowModel.
Local Open Scope Z_scope.

(** starks/modp.py:36 constructor from an int *)
Definition modp_mk (p n : Z) : Z := n mod p.

(** starks/modp.py:33-34 constructor from bytes: no reduction *)
Definition modp_of_bytes (b : bytes) : Z := from_bytes_be b.

(** starks/modp.py:43-45 [__add__] *)
Definition modp_add (p a b : Z) : Z := modp_mk p (a + b).
(** starks/modp.py:47-49 [__sub__] *)
Definition modp_sub (p a b : Z) : Z := modp_mk p (a - b).
(** starks/modp.py:51-53 [__mul__] *)
Definition modp_mul (p a b : Z) : Z := modp_mk p (a * b).
(** starks/modp.py:55-56 [__neg__] *)
Definition modp_neg (p a : Z) : Z := modp_mk p (- a).
(** starks/modp.py:58-60 [__eq__] *)
Definition modp_eq (a b : Z) : bool := a =? b.
(** starks/modp.py:62-64 [__ne__] *)
Definition modp_ne (a b : Z) : bool := negb (a =? b).
(** starks/modp.py:66-69 [__divmod__]: integer division of representatives *)
Definition modp_divmod (p a b : Z) : result (Z * Z) :=
  let* (q, r) := int_divmod a b in Ok (modp_mk p q, modp_mk p r).
(** starks/modp.py:71-79 [inverse]; the [raise] on line 77 evaluates
    [self.__name__], an AttributeError on instances. *)
Definition modp_inverse (p a : Z) : result Z :=
  let* (xy, d) := eea_int a p in
  if d =? 1 then Ok (modp_mk p (fst xy)) else Err InverseError.
(** starks/numbertype.py:112-113 [__truediv__] *)
Definition modp_div (p a b : Z) : result Z :=
  let* i := modp_inverse p b in Ok (modp_mul p a i).
(** starks/numbertype.py:68-84 at IntegersModP *)
Definition modp_pow (p a n : Z) : result Z :=
  dom_pow (modp_mk p 1) (modp_mul p) a n.
(** starks/modp.py:94-95 [to_bytes] *)
Definition modp_to_bytes (a : Z) : result bytes := to_bytes_be 32 a.
(** starks/modp.py:11-16 [iterate_modp]: the values yielded *)
Definition modp_iter (p : Z) : list Z :=
  List.map (fun i => modp_mk p (Z.of_nat i)) (List.seq 0 (Z.to_nat p)).
