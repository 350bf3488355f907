(** Model of the interpolation part of starks/poly_utils.py and of
    AffineSpace (starks/reedsolomon.py), over an arbitrary field [F].  Element
    objects of the repository's fields define neither [__bool__] nor [__len__],
    so Python truthiness tests on them ([if values[i - 1]], [if num and y])
    always succeed; the model drops those tests.  [print] calls are ignored. *)
From Verif Require Import Prelude ModpModel ModpField PolyModel.
Set Implicit Arguments.
Unset Strict Implicit.
Unset Printing Implicit Defensive.
Import GRing.Theory.
Local Open Scope ring_scope.
Local Open Scope py_scope.

Section InterpModel.
Variable F : fieldType.
Implicit Types (xs ys : seq F).

(** Python [l[i]] for a literal index [i >= 0]. *)
Definition idx (T : Type) (l : seq T) (i : nat) : result T :=
  if List.nth_error l i is Some x then Ok x else Err IndexError.

(** starks/poly_utils.py:328-331: one iteration of the outer loop of [zpoly]:
    insert 0 in front, then [root[j] -= root[j+1] * x] for increasing [j]. *)
Definition zpoly_step (root : seq F) (x : F) : seq F :=
  let root := 0 :: root in
  foldl (fun r j => set_nth 0 r j (nth 0 r j - nth 0 r j.+1 * x)) root
        (iota 0 (size root).-1).

(** starks/poly_utils.py:322-335 [zpoly] *)
Definition zpoly (roots : seq F) : seq F := pmk (foldl zpoly_step [:: 1] roots).

(** starks/poly_utils.py:301-320 [multi_inv]; the assert on line 313 holds by
    construction.  [partials[-1]] is [last 1 partials]. *)
Definition multi_inv (values : seq F) : result (seq F) :=
  let partials :=
    foldl (fun ps v => rcons ps (last 1 ps * (if v == 0 then 1 else v))) [:: 1] values in
  let* inv := fdiv 1 (last 1 partials) in
  Ok (foldl (fun (st : seq F * F) i =>
        (set_nth 0 st.1 i.-1 (nth 0 partials i.-1 * st.2),
         if nth 0 values i.-1 != 0 then st.2 * nth 0 values i.-1 else st.2))
      (nseq (size values) 0, inv) (rev (iota 1 (size values)))).1.

(** starks/poly_utils.py:337-368 [lagrange_interp].  All list accesses are in
    range once the assert on line 350 has passed ([num_coefficients] then has
    exactly [len(ys)] entries: lemma [lagrange_nums_size]). *)
Definition lagrange_interp (xs ys : seq F) : result (seq F) :=
  let root := zpoly xs in
  assert_ (size root == (size ys).+1) ;;*
  let* nums := mapM (fun x => pdiv root (pmk [:: - x; 1])) xs in
  let denoms := [seq pcall (nth [::] nums i) (nth 0 xs i) | i <- iota 0 (size xs)] in
  let* invdenoms := multi_inv denoms in
  let b := foldl (fun b i =>
      let yslice := nth 0 ys i * nth 0 invdenoms i in
      let nc := nth [::] nums i in
      foldl (fun b j => set_nth 0 b j (nth 0 b j + nth 0 nc j * yslice)) b (iota 0 (size ys)))
    (nseq (size ys) 0) (iota 0 (size xs)) in
  Ok (pmk b).

(** starks/poly_utils.py:397-410 [lagrange_interp_2] on lists (lines 399-402
    replace a Polynomial argument by its coefficient list first).  Index errors
    for short lists; the inverse is taken before [ys] is read. *)
Definition lagrange_interp_2 (xs ys : seq F) : result (seq F) :=
  let* x1 := idx xs 1 in
  let eq0 := pmk [:: - x1; 1] in
  let* x0 := idx xs 0 in
  let eq1 := pmk [:: - x0; 1] in
  let e0 := pcall eq0 x0 in
  let e1 := pcall eq1 x1 in
  let* invall := fdiv 1 (e0 * e1) in
  let* y0 := idx ys 0 in
  let inv_y0 := y0 * invall * e1 in
  let* y1 := idx ys 1 in
  let inv_y1 := y1 * invall * e0 in
  Ok (pmk [seq nth 0 eq0 i * inv_y0 + nth 0 eq1 i * inv_y1 | i <- iota 0 2]).

(** starks/poly_utils.py:373-378 (and 417-422): the four cubic numerators. *)
Definition cubic4 (x0 x1 x2 x3 : F) : seq F * seq F * seq F * seq F :=
  let x01 := x0 * x1 in let x02 := x0 * x2 in let x03 := x0 * x3 in
  let x12 := x1 * x2 in let x13 := x1 * x3 in let x23 := x2 * x3 in
  (pmk [:: - x12 * x3; x12 + x13 + x23; - x1 - x2 - x3; 1],
   pmk [:: - x02 * x3; x02 + x03 + x23; - x0 - x2 - x3; 1],
   pmk [:: - x01 * x3; x01 + x03 + x13; - x0 - x1 - x3; 1],
   pmk [:: - x01 * x2; x01 + x02 + x12; - x0 - x1 - x2; 1]).

(** starks/poly_utils.py:390-393 (and 438-439): the combination of the four
    numerators; each has exactly 4 coefficients (monic cubics). *)
Definition combine4 (eq0 eq1 eq2 eq3 : seq F) (c0 c1 c2 c3 : F) : seq F :=
  pmk [seq nth 0 eq0 i * c0 + nth 0 eq1 i * c1 + nth 0 eq2 i * c2 + nth 0 eq3 i * c3
      | i <- iota 0 4].

(** starks/poly_utils.py:371-393 [lagrange_interp_4] *)
Definition lagrange_interp_4 (xs ys : seq F) : result (seq F) :=
  let* x0 := idx xs 0 in let* x1 := idx xs 1 in
  let* x2 := idx xs 2 in let* x3 := idx xs 3 in
  let '(eq0, eq1, eq2, eq3) := cubic4 x0 x1 x2 x3 in
  let e0 := pcall eq0 x0 in let e1 := pcall eq1 x1 in
  let e2 := pcall eq2 x2 in let e3 := pcall eq3 x3 in
  let e01 := e0 * e1 in let e23 := e2 * e3 in
  let* invall := fdiv 1 (e01 * e23) in
  let* y0 := idx ys 0 in let* y1 := idx ys 1 in
  let* y2 := idx ys 2 in let* y3 := idx ys 3 in
  Ok (combine4 eq0 eq1 eq2 eq3 (y0 * invall * e1 * e23) (y1 * invall * e0 * e23)
               (y2 * invall * e01 * e3) (y3 * invall * e01 * e2)).

(** starks/poly_utils.py:412-440 [multi_interp_4].  [zip] stops at the shorter
    list; the first loop collects [(ys, eq0..eq3)] and the evaluations. *)
Definition multi_interp_4 (xsets ysets : seq (seq F)) : result (seq (seq F)) :=
  let* data := mapM (fun xy : seq F * seq F =>
      let xs := xy.1 in
      let* x0 := idx xs 0 in let* x1 := idx xs 1 in
      let* x2 := idx xs 2 in let* x3 := idx xs 3 in
      let '(eq0, eq1, eq2, eq3) := cubic4 x0 x1 x2 x3 in
      Ok ((xy.2, eq0, eq1, eq2, eq3),
          [:: pcall eq0 x0; pcall eq1 x1; pcall eq2 x2; pcall eq3 x3]))
    (zip xsets ysets) in
  let* invalls := multi_inv (flatten [seq d.2 | d <- data]) in
  mapM (fun id : nat * ((seq F * seq F * seq F * seq F * seq F) * seq F) =>
      let '(i, ((ys, eq0, eq1, eq2, eq3), _)) := id in
      let invallz := slice invalls (i * 4) (i * 4 + 4) in
      let* y0 := idx ys 0 in let* v0 := idx invallz 0 in
      let* y1 := idx ys 1 in let* v1 := idx invallz 1 in
      let* y2 := idx ys 2 in let* v2 := idx invallz 2 in
      let* y3 := idx ys 3 in let* v3 := idx invallz 3 in
      Ok (combine4 eq0 eq1 eq2 eq3 (y0 * v0) (y1 * v1) (y2 * v2) (y3 * v3)))
    (enumerate data).
End InterpModel.

(** ** AffineSpace (starks/reedsolomon.py:18-45) *)
Section AffineModel.
Variable (F : fieldType) (V : lmodType F).

(** [itertools.product( *[pool] * n)]: the last component varies fastest. *)
Fixpoint cart_power (T : Type) (pool : seq T) (n : nat) : seq (seq T) :=
  if n is n'.+1 then
    flatten [seq [seq v :: t | t <- cart_power pool n'] | v <- pool]
  else [:: [::]].

(** starks/reedsolomon.py:36-45 [__iter__]: the list of yielded values, where
    [felts] are the values yielded by [field.__iter__()], and basis and shift
    live in an [F]-vector space ([val * basis_elt] is scaling: the field itself,
    polynomials over it, ...). *)
Definition affine_iter (felts : seq F) (basis : seq V) (shift : V) : seq V :=
  [seq foldl (fun elt (vb : F * V) => elt + vb.1 *: vb.2) shift (zip vals basis)
  | vals <- cart_power felts (size basis)].

(** starks/reedsolomon.py:28-34 [__len__]; [field_size] is [p ** m]. *)
Definition affine_len (p : Z) (m : Z) (basis : seq V) : Z :=
  ((p ^ m) ^ Z.of_nat (size basis))%Z.
End AffineModel.

(** starks/poly_utils.py:62-70 [construct_affine_vanishing_polynomial]; the
    cast [field(elt)] is the identity on elements of [F]. *)
Definition affine_vanishing (F : fieldType) (felts : seq F) (basis : seq F^o) (shift : F^o) : seq F :=
  zpoly (affine_iter felts basis shift).

(** starks/modp.py:11-16,104: the elements yielded by [IntegersModP(p).__iter__()] *)
Definition zp_felts (P : primeZ) : seq (modp P) := [seq in_modp P z | z <- modp_iter (pz P)].
