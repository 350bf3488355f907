(** Model of starks/rationals_modp.py:14-123 ([RationalsModP]).  An element is
    the pair of its attributes (m, n); the class is represented by [p] (p > 0).
    [@typecheck] casts are not modelled: both operands belong to the class.
    The blanket [except:] of lines 44-46 turns every exception of the
    constructor into TypeError. *)
From Coq Require Import ZArith List.
From Coq.Strings Require String.
Import String.StringSyntax.
Delimit Scope string_scope with string.
Import ListNotations.
From Verif Require Import Base EuclidModel PowModel.
Local Open Scope Z_scope.

Definition rat : Type := (Z * Z)%type.

(** [//] on ints *)
Definition floordiv (a b : Z) : result Z :=
  if b =? 0 then Err ZeroDivisionError else Ok (a / b).

(** starks/rationals_modp.py:36-43: reduction to lowest terms *)
Definition rat_reduce (num den : Z) : result rat :=
  let* common := gcd_int num den in
  if common =? 0 then Ok (num, den)
  else let* a := floordiv num common in
       let* b := floordiv den common in
       Ok (a, b).

(** starks/rationals_modp.py:29-48 constructor from two ints *)
Definition rat_mk (p m n : Z) : result rat :=
  if p =? 0 then Err TypeError
  else match rat_reduce (m mod p) (n mod p) with
       | Ok r => Ok r
       | Err _ => Err TypeError
       end.

(** starks/rationals_modp.py:31-33 constructor from bytes: no reduction mod p *)
Definition rat_of_bytes (b : bytes) : result rat :=
  match rat_reduce (from_bytes_be (firstn 32 b)) (from_bytes_be (skipn 32 b)) with
  | Ok r => Ok r
  | Err _ => Err TypeError
  end.

(** starks/rationals_modp.py:50-55 [__add__] *)
Definition rat_add (p : Z) (x y : rat) : result rat :=
  let num := (fst x * snd y + fst y * snd x) mod p in
  let den := (snd x * snd y) mod p in
  let* common := gcd_int num den in
  let* a := floordiv num common in
  let* b := floordiv den common in
  rat_mk p a b.

(** starks/rationals_modp.py:57-62 [__sub__] *)
Definition rat_sub (p : Z) (x y : rat) : result rat :=
  let num := (fst x * snd y - fst y * snd x) mod p in
  let den := (snd x * snd y) mod p in
  let* common := gcd_int num den in
  let* a := floordiv num common in
  let* b := floordiv den common in
  rat_mk p a b.

(** starks/rationals_modp.py:64-68 [__mul__] *)
Definition rat_mul (p : Z) (x y : rat) : result rat :=
  rat_mk p ((fst x * fst y) mod p) ((snd x * snd y) mod p).

(** starks/rationals_modp.py:70-71 [__neg__] *)
Definition rat_neg (p : Z) (x : rat) : result rat := rat_mk p (- fst x) (snd x).

(** starks/rationals_modp.py:73-76 [__eq__] *)
Definition rat_eq (p : Z) (x y : rat) : bool :=
  (fst x * snd y) mod p =? (fst y * snd x) mod p.

(** starks/rationals_modp.py:6-10 and 14: the names bound in the module, and
    those of the enclosing function (lines 14, 17); builtins hold no class whose
    name starts with "Integer" *)
Definition visible_names : list String.string :=
  ["gcd"; "FieldElement"; "memoize"; "typecheck"; "_Modular"; "RationalsModP";
   "p"; "RationalModP"]%string.
Definition lookup_name (name : String.string) : result unit :=
  if existsb (String.eqb name) visible_names then Ok tt else Err NameError.

(** starks/rationals_modp.py:78-81 [__ne__]: the left operand of [or] looks up
    the name [IntegerModP]; the instance test itself is [false] for rationals,
    so its value [is False] decides the [or] *)
Definition rat_ne (p : Z) (x y : rat) : result bool :=
  let* _ := lookup_name "IntegerModP"%string in
  Ok true.

(** starks/rationals_modp.py:90-93 [inverse] *)
Definition rat_inverse (p : Z) (x : rat) : result rat :=
  if fst x =? 0 then Err GenericException else rat_mk p (snd x) (fst x).

(** starks/numbertype.py:112-113 [__truediv__] *)
Definition rat_div (p : Z) (x y : rat) : result rat :=
  let* i := rat_inverse p y in rat_mul p x i.

(** starks/numbertype.py:68-84 [__pow__] at RationalModP; [self.__class__(1)]
    is the pair (1 mod p, 1 mod p) reduced *)
Definition rat_pow (p : Z) (x : rat) (n : Z) : result rat :=
  let* one := rat_mk p 1 1 in pow_gen rat one (rat_mul p) x n.

(** starks/rationals_modp.py:113-114 [to_bytes] *)
Definition rat_to_bytes (x : rat) : result bytes :=
  let* a := to_bytes_be 32 (fst x) in
  let* b := to_bytes_be 32 (snd x) in
  Ok (a ++ b)%list.
