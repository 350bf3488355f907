(** Model of starks/floatingpoint.py.  [g] is the modulus of the class [field]
    (a FiniteField(2, m)), [m] its attribute [field.m].  An Fp object is the
    record of its four attributes; [z] and [s] are ints.  Casts of [@typecheck]
    are modelled only for the list operands of lines 164 and 194. *)
From Verif Require Import Prelude PolyModel ModpModel ModpField FiniteFieldModel.
Set Implicit Arguments.
Unset Strict Implicit.
Unset Printing Implicit Defensive.
Import GRing.Theory.
Local Open Scope ring_scope.
Local Open Scope py_scope.

(** starks/floatingpoint.py:17-24 [num_to_binary_list]; one iteration per bit *)
Fixpoint ntb_loop (fuel : nat) (index : Z) : seq Z :=
  if fuel is f.+1 then
    if (0 <? index)%Z then (index mod 2)%Z :: ntb_loop f (index / 2)%Z else [::]
  else [::].
Definition num_to_binary_list (index : Z) : seq Z := ntb_loop (Z.to_nat (Z.log2 index)).+1 index.

Section FloatModel.
Variable P : primeZ.
Local Notation F := (modp_fieldType P).
Variable g : seq F.
Variable m : Z.

(** starks/floatingpoint.py:33-39 *)
Record fp := Fp { fv : seq F; fp_p : seq F; fz : Z; fs : Z }.

(** [field(polysOver(l))] for a list of ints *)
Definition field_of (l : seq Z) : result (seq F) := fq_poly g (pmk [seq in_modp P z | z <- l]).

(** starks/floatingpoint.py:42-44 [__eq__] *)
Definition fp_eq (a b : fp) : bool :=
  (fz a =? fz b)%Z ||
  [&& fq_eq (fv a) (fv b), fq_eq (fp_p a) (fp_p b), (fz a =? fz b)%Z & (fs a =? fs b)%Z].

(** starks/floatingpoint.py:48-124 [__add__] *)
Definition fp_add (x y : fp) : result fp :=
  if (fz x =? 1)%Z then Ok (Fp (fv y) (fp_p y) (fz y) (fs y)) else
  if (fz y =? 1)%Z then Ok (Fp (fv x) (fp_p x) (fz x) (fs x)) else
  let* a := fq_LT g (fv x) (fv y) in
  let* b := fq_LT g (fp_p x) (fp_p y) in
  let '(v_min, v_max, s_c) :=
    if fq_eq (fp_p x) (fp_p y) then
      if (a =? 1)%Z then (fv x, fv y, fs y) else (fv y, fv x, fs x)
    else
      if (b =? 1)%Z then (fv x, fv y, fs y) else (fv y, fv x, fs x) in
  let '(p_min, p_max) := if (b =? 1)%Z then (fp_p x, fp_p y) else (fp_p y, fp_p x) in
  let* Delta := fq_sub g p_max p_min in
  let* fm := field_of (num_to_binary_list m) in
  let* c := fq_LT g Delta fm in
  let* vp := (if (c =? 0)%Z then Ok (v_max, p_max)
              else
                let* t := two_pow g Delta in
                let* v := fq_mul g v_max t in
                let* v := fq_add g v v_min in
                Ok (v, p_min)) in
  let* zero := field_of [:: 0%Z] in
  let z_c := if fq_eq vp.1 zero then 1%Z else 0%Z in
  Ok (Fp vp.1 vp.2 z_c s_c).

(** starks/floatingpoint.py:127-132 [__sub__] for distinct objects: returns the
    result and the new state of [other] *)
Definition flip (y : fp) : fp := Fp (fv y) (fp_p y) (fz y) (Z.lxor (fs y) 1).
Definition fp_sub (x y : fp) : result fp * fp := (fp_add x (flip y), flip y).
(** the same when both operands are one object *)
Definition fp_sub_self (x : fp) : result fp * fp := (fp_add (flip x) (flip x), flip x).

(** starks/floatingpoint.py:135-167 [__truediv__] *)
Definition fp_div (x y : fp) : result fp :=
  if (fz y =? 1)%Z then Err ZeroDivisionError else
  let* zero := field_of [:: 0%Z] in
  if fq_eq (fv y) zero then Err ZeroDivisionError else
  let z_c := Z.lor (fz x) (fz y) in
  let s_c := Z.lxor (fs x) (fs y) in
  let* v_c := (if (z_c =? 1)%Z then Ok zero else fq_div g (fv x) (fv y)) in
  let* p_c := (if (z_c =? 1)%Z then Ok zero else
    let* p1 := fq_sub g (fp_p x) (fp_p y) in
    let* i := fq_inverse g (fv y) in
    let* l := fq_list g [seq in_modp P z | z <- num_to_binary_list (pdegree (fv x) + pdegree i - (m - 1))%Z] in
    fq_add g p1 l) in
  Ok (Fp v_c p_c z_c s_c).

(** starks/floatingpoint.py:170-197 [__mul__]; line 194 uses the degree of
    [self.v] twice *)
Definition fp_mul (x y : fp) : result fp :=
  let z_c := Z.lor (fz x) (fz y) in
  let s_c := Z.lxor (fs x) (fs y) in
  let* zero := field_of [:: 0%Z] in
  let* v_c := (if (z_c =? 1)%Z then Ok zero else fq_mul g (fv x) (fv y)) in
  let* p_c := (if (z_c =? 1)%Z then Ok zero else
    let* p1 := fq_add g (fp_p x) (fp_p y) in
    let* l := fq_list g [seq in_modp P z | z <- num_to_binary_list (pdegree (fv x) + pdegree (fv x) - (m - 1))%Z] in
    fq_add g p1 l) in
  Ok (Fp v_c p_c z_c s_c).

(** starks/floatingpoint.py:201-208 [Float_to_Fix] *)
Definition float_to_fix (x : fp) : result (seq F * Z) :=
  if (fz x =? 1)%Z then let* zero := field_of [:: 0%Z] in Ok (zero, 0%Z) else
  let* t := two_pow g (fp_p x) in
  let* o := fq_mul g (fv x) t in
  Ok (o, fs x).

(** starks/floatingpoint.py:219-221: the while loop; [fuel] bounds it *)
Fixpoint fp_pow_loop (fuel : nat) (self : fp) (one target : seq F) (counter : seq F) (output : fp) : result fp :=
  if fuel is f.+1 then
    if fq_ne counter target then
      let* output := fp_mul output self in
      let* counter := regular_binary_addition g counter one in
      fp_pow_loop f self one target counter output
    else Ok output
  else Err Diverges.

(** starks/floatingpoint.py:212-226 [__pow__] *)
Definition fp_pow (fuel : nat) (self other : fp) : result fp :=
  let* (fixed, _) := float_to_fix other in
  let* zero := field_of [:: 0%Z] in
  let* one := field_of [:: 1%Z] in
  let* output := fp_pow_loop fuel self one fixed zero (Fp one zero 0%Z 0%Z) in
  if (fs other =? 1)%Z then fp_div (Fp one zero 0%Z 0%Z) output else Ok output.
End FloatModel.
