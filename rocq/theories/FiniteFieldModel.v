(** Model of starks/finitefield.py.  An element of class FiniteField(p, m) is
    represented by its attribute [poly] (a coefficient list over the prime
    field [F]); the class by [g], the attribute [ideal_generator].  Casts made by
    [@typecheck] are not modelled: both operands belong to the class.  The bytes
    constructor (line 79-80) and [to_bytes] are covered by PolyBytesModel.v. *)
From Verif Require Import Prelude PolyModel IrredModel ModpModel ModpField.
Set Implicit Arguments.
Unset Strict Implicit.
Unset Printing Implicit Defensive.
Import GRing.Theory.
Local Open Scope ring_scope.
Local Open Scope py_scope.

Section FiniteFieldModel.
Variable F : fieldType.

(** The two kinds of class returned by [FiniteField]. *)
Inductive field_class := CZp | CFq (ideal_generator : seq F).

(** starks/finitefield.py:57-72 [FiniteField]; [generated] is the outcome of
    [generate_primitive_polynomial] (line 69). *)
Definition finite_field (p m : Z) (modulus : option (seq F)) (generated : result (seq F))
  : result field_class :=
  let* _ := (if modulus is Some g then
               let* b := is_irreducible g p in
               if b then Ok tt else Err ValueError
             else Ok tt) in
  if (m =? 1)%Z then Ok CZp else
  let* g := (if modulus is Some g then Ok g else generated) in
  Ok (CFq g).

(** starks/finitefield.py:73 [field_size] *)
Definition field_size (p m : Z) : Z := (p ^ m)%Z.

Variable g : seq F.

(** starks/finitefield.py:85-86 constructor from a Polynomial *)
Definition fq_poly (a : seq F) : result (seq F) := pmod a g.
(** starks/finitefield.py:87-88 constructor from a list of Z/p elements *)
Definition fq_list (l : seq F) : result (seq F) := pmod (pmk l) g.
(** starks/finitefield.py:83-84 constructor from an int or Z/p element: no
    reduction *)
Definition fq_const (c : F) : seq F := pmk [:: c].

(** starks/finitefield.py:92-102 *)
Definition fq_add (x y : seq F) : result (seq F) := fq_poly (padd x y).
Definition fq_sub (x y : seq F) : result (seq F) := fq_poly (psub x y).
Definition fq_mul (x y : seq F) : result (seq F) := fq_poly (pmul x y).
(** starks/finitefield.py:104-110 *)
Definition fq_eq (x y : seq F) : bool := peq x y.
Definition fq_ne (x y : seq F) : bool := ~~ fq_eq x y.
(** starks/finitefield.py:121-122 *)
Definition fq_neg (x : seq F) : result (seq F) := fq_poly (pneg x).

(** starks/finitefield.py:112-118 [__pow__]; [fuel] bounds the recursion depth *)
Fixpoint fq_pow (fuel : nat) (x : seq F) (n : Z) : result (seq F) :=
  if fuel is fuel'.+1 then
    if (n =? 0)%Z then fq_list [:: 1]
    else if (n =? 1)%Z then Ok x
    else if (n mod 2 =? 0)%Z then
      let* sqrut := fq_pow fuel' x (n / 2)%Z in fq_mul sqrut sqrut
    else let* r := fq_pow fuel' x (n - 1)%Z in fq_mul r x
  else Err RecursionError.

(** starks/finitefield.py:131-134 [__divmod__] *)
Definition fq_divmod (x y : seq F) : result (seq F * seq F) :=
  let* (q, r) := pdivmod x y in
  let* q := fq_poly q in
  let* r := fq_poly r in
  Ok (q, r).

(** starks/finitefield.py:136-146 [inverse] *)
Definition fq_inverse (x : seq F) : result (seq F) :=
  if fq_eq x (fq_const 0) then Err ZeroDivisionError else
  let* (xy, d) := peea x g in
  if ~~ (pdegree d =? 0)%Z then Err GenericException else
  let* c := (if d is c :: _ then Ok c else Err IndexError) in
  let* ci := finv c in
  let* a := fq_poly xy.1 in
  fq_mul a (fq_const ci).

(** starks/numbertype.py:112-113 [__truediv__] *)
Definition fq_div (x y : seq F) : result (seq F) :=
  let* i := fq_inverse y in fq_mul x i.
End FiniteFieldModel.

Section Binary.
Variable P : primeZ.
Local Notation F := (modp_fieldType P).
Variable g : seq F.

(** [str(c)[0]] as a digit: the leading decimal digit of the attribute [n]
    (starks/modp.py:84-85 [__str__]) *)
Fixpoint lead_digit (fuel : nat) (n : Z) : Z :=
  if fuel is f.+1 then if (n <? 10)%Z then n else lead_digit f (n / 10)%Z else n.
Definition digit0 (c : F) : Z := lead_digit (Z.to_nat (Z.log2 (mval c))) (mval c).

(** starks/finitefield.py:16-23 [num_to_binary_list_pow] *)
Definition num_to_binary_list_pow (index : nat) : seq F := nseq index 0 ++ [:: 1].

(** starks/finitefield.py:153-161 [two_pow] *)
Definition two_pow (x : seq F) : result (seq F) :=
  let* num := fq_list g [:: 1] in
  foldM (fun num i =>
    let* c := py_nth x (Z.of_nat i) in
    if (digit0 c =? 1)%Z then
      let* l := fq_list g (num_to_binary_list_pow i.+1) in
      fq_mul g num l
    else Ok num) (iota 0 (size x)) num.

(** starks/finitefield.py:166-181 [LT]; returns 0 or 1 *)
Definition fq_LT (x y : seq F) : result Z :=
  if (pdegree y <? pdegree x)%Z then Ok 0%Z
  else if (pdegree x <? pdegree y)%Z then Ok 1%Z
  else
    let* xor_o := fq_add g x y in
    if fq_eq xor_o (fq_const 0) then Ok 1%Z else
    let* a := py_nth x (pdegree xor_o) in
    let* b := py_nth y (pdegree xor_o) in
    Ok (if (digit0 b <? digit0 a)%Z then 0%Z else 1%Z).

(** starks/finitefield.py:26-55 [add_binary_nums].  Strings of '0' and '1' are
    lists of booleans, most significant first ([zfill] prepends '0').  The
    result is the list of characters, least significant first. *)
Definition zfill (n : nat) (s : seq bool) : seq bool := nseq (n - size s) false ++ s.
Definition add_binary_nums (x y : seq bool) : seq bool :=
  let max_len := maxn (size x) (size y) in
  let x := zfill max_len x in
  let y := zfill max_len y in
  let '(res, carry) :=
    foldl (fun (st : seq bool * nat) i =>
      let r := (st.2 + nth false x i + nth false y i)%N in
      (odd r :: st.1, if (r < 2)%N then 0%N else 1%N))
      ([::], 0%N) (rev (iota 0 max_len)) in
  let res := if carry != 0%N then true :: res else res in
  rev (zfill max_len res).

(** starks/finitefield.py:185-197 [Regular_Binary_Addition]; a character other
    than '1' counts as '0' in [add_binary_nums] (line 43-44) *)
Definition regular_binary_addition (x y : seq F) : result (seq F) :=
  let str (a : seq F) := rev [seq (digit0 c =? 1)%Z | c <- a] in
  fq_list g [seq in_modp P (if b then 1 else 0)%Z | b <- add_binary_nums (str x) (str y)].
End Binary.
