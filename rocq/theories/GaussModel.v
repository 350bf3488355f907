(** Model of the Gaussian elimination of starks/poly_utils.py (lines 72-154).  The entries
    are Polynomial objects over a field [K], as in starks/test/test_poly_utils.py:297-341
    (for other entries [max] raises AttributeError, [degree] is a method of Polynomial).

    Simplifications: a matrix is a function of the row and the column (the callers pass
    [row] different lists of [row+1] entries, all of them different objects); the value 0
    written below the diagonal is the zero polynomial. *)
From Verif Require Import Prelude PolyModel.
Set Implicit Arguments.
Unset Strict Implicit.
Unset Printing Implicit Defensive.
Import GRing.Theory.
Local Open Scope ring_scope.
Local Open Scope py_scope.

Section GaussModel.
Variable K : fieldType.

(** [starts_one c]: [str(c)[0] == "1"] *)
Variable starts_one : K -> bool.

Definition matrix := nat -> nat -> seq K.

(** [M[r][c] = v] *)
Definition set_entry (M : matrix) (r c : nat) (v : seq K) : matrix :=
  fun r' c' => if (r' == r) && (c' == c) then v else M r' c'.

(** starks/poly_utils.py:139-154 [max]: whether the result is 1.  Two coefficients are
    different objects, so the comparison of the leading ones returns. *)
Definition max_is_one (a b : seq K) : bool :=
  if (pdegree b <? pdegree a)%Z then true
  else if (pdegree a <? pdegree b)%Z then false
  else if a is x :: a' then starts_one (last x a') else true.

(** starks/poly_utils.py:101-108: [(maxEl, maxRow)] *)
Definition pivot (M : matrix) (row i : nat) : seq K * nat :=
  foldl (fun st k => if max_is_one (M k i) st.1 then (M k i, k) else st)
        (M i i, i) (iota i.+1 (row - i.+1)).

(** starks/poly_utils.py:110-114: the swap of the columns i..row *)
Definition swap (M : matrix) (row i maxRow : nat) : matrix :=
  foldl (fun M k =>
      let tmp := M maxRow k in
      let M := set_entry M maxRow k (M i k) in
      set_entry M i k tmp) M (iota i (row.+1 - i)).

(** starks/poly_utils.py:121-127: row [k] is eliminated with row [i] *)
Definition eliminate (M : matrix) (row i k : nat) : result matrix :=
  let* c := pdiv (pneg (M k i)) (M i i) in
  Ok (foldl (fun M j =>
        set_entry M k j (if i == j then [::] else padd (M k j) (pmul c (M i j))))
      M (iota i (row.+1 - i))).

(** starks/poly_utils.py:100-127: one iteration of the outer loop *)
Definition gauss_step (M : matrix) (row i : nat) : result matrix :=
  let maxRow := (pivot M row i).2 in
  let M := swap M row i maxRow in
  foldM (fun M k => eliminate M row i k) (iota i.+1 (row - i.+1)) M.

(** starks/poly_utils.py:130-134: row [i] of the back substitution *)
Definition back_step (row : nat) (st : (nat -> seq K) * matrix) (i : nat) : result ((nat -> seq K) * matrix) :=
  let (x, M) := st in
  let* xi := pdiv (M i row) (M i i) in
  let x := fun j => if j == i then xi else x j in
  Ok (x, foldl (fun M k => set_entry M k row (psub (M k row) (pmul (M k i) xi))) M (rev (iota 0 i))).

(** starks/poly_utils.py:99-136 [gauss]: the list [x] and the matrix after the call *)
Definition gauss (M : matrix) (row : nat) : result (seq (seq K) * matrix) :=
  let* M := foldM (fun M i => gauss_step M row i) (iota 0 row) M in
  let* (x, M) := foldM (back_step row) (rev (iota 0 row)) (fun _ => [::], M) in
  Ok (mkseq x row, M).

(** starks/poly_utils.py:78-86: the Moore matrix *)
Definition moore_matrix (b : seq (seq K)) : result matrix :=
  let* rows := mapM (fun bi =>
      let* powers := mapM (fun j => ppow bi (2 ^ (Z.of_nat j + 1))) (iota 0 (size b)) in
      Ok (bi :: powers)) b in
  Ok (fun r c => nth [::] (nth [::] rows r) c).

(** starks/poly_utils.py:72-97 [construct_affine_vanishing_polynomial_Moore]; [cast] is the
    conversion of a polynomial to the field.  The check of lines 90-94 reads the matrix
    that [gauss] has changed. *)
Definition moore (F : fieldType) (cast : seq K -> result F) (b : seq (seq K)) : result (seq F) :=
  let row := size b in
  let* M := moore_matrix b in
  let* (kernel, M) := gauss M row in
  let ker j := nth [::] kernel j in
  mapM (fun i =>
      let temp := foldl (fun temp j => padd temp (pmul (M i j.+1) (ker j.+1)))
                        (pmul (M i 0%N) (ker 0%N)) (iota 0 (row - 1)) in
      assert_ (peq temp (M i row))) (iota 0 row) ;;*
  let* coefficients := mapM cast kernel in
  Ok (pmk coefficients).
End GaussModel.
