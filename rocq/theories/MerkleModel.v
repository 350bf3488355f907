(** Model of starks/merkle_tree.py.  The hash [blake] (starks/merkle_tree.py:5,
    blake2s digest) is a parameter [H : bytes -> bytes] of every definition, so
    the theorems hold for every hash function; facts about blake2s that a
    theorem needs (32-byte output) are hypotheses of that theorem. *)
From Coq Require Import Bool ZArith List.
From Verif Require Import Base.
Import ListNotations.
Local Open Scope Z_scope.

(** Python [l[i]] for a non-negative index. *)
Definition lget {A} (l : list A) (i : nat) : result A :=
  match nth_error l i with Some a => Ok a | None => Err IndexError end.

(** starks/merkle_tree.py:11-23 [permute4] *)
Definition permute4 {A} (values : list A) : result (list A) :=
  let ld4 := (length values / 4)%nat in
  foldM (fun o i =>
    let* a := lget values i in
    let* b := lget values (i + ld4) in
    let* c := lget values (i + ld4 * 2) in
    let* d := lget values (i + ld4 * 3) in
    Ok (o ++ [a; b; c; d])) (seq 0 ld4) [].

(** starks/merkle_tree.py:26-33 [get_index_in_permuted]; [//] and [%] by zero
    raise ZeroDivisionError. *)
Definition get_index_in_permuted (x L : Z) : result Z :=
  let ld4 := L / 4 in
  if ld4 =? 0 then Err ZeroDivisionError
  else Ok (x / ld4 + 4 * (x mod ld4)).

(** The three kinds of list elements accepted by [merkelize]
    (starks/merkle_tree.py:48-53): an int, a byte string, or any other object,
    represented by the outcome of its [to_bytes()] method. *)
Inductive leaf : Type :=
| LInt (z : Z)
| LBytes (b : bytes)
| LObj (to_bytes : result bytes).

(** starks/merkle_tree.py:48-53 *)
Definition leaf_bytes (x : leaf) : result bytes :=
  match x with
  | LInt z => to_bytes_be 32 z
  | LBytes b => Ok b
  | LObj r => r
  end.

(** starks/merkle_tree.py:54-55: the loop [for i in range(len(L)-1, 0, -1)];
    [i] counts down to 1. *)
Fixpoint hash_loop (H : bytes -> bytes) (i : nat) (nodes : list bytes) : result (list bytes) :=
  match i with
  | O => Ok nodes
  | S i' =>
    let* a := lget nodes (i * 2) in
    let* b := lget nodes (i * 2 + 1) in
    hash_loop H i' (set_nth_list nodes i (H (a ++ b)))
  end.

(** starks/merkle_tree.py:36-56 [merkelize] *)
Definition merkelize (H : bytes -> bytes) (L : list leaf) : result (list bytes) :=
  let* L := permute4 L in
  let* leaves := mapM leaf_bytes L in
  hash_loop H (length L - 1) (repeat [] (length L) ++ leaves).

(** starks/merkle_tree.py:64-67: the loop of [mk_branch].  [fuel] bounds the
    iterations; [mk_branch] passes enough (the index halves each time). *)
Fixpoint branch_loop (fuel : nat) (tree : list bytes) (index : Z) (o : list bytes)
  : result (list bytes) :=
  if index >? 1 then
    match fuel with
    | O => Err Diverges
    | S fuel' =>
      let* s := py_nth tree (Z.lxor index 1) in
      branch_loop fuel' tree (index / 2) (o ++ [s])
    end
  else Ok o.

(** starks/merkle_tree.py:59-68 [mk_branch] *)
Definition mk_branch (tree : list bytes) (index : Z) : result (list bytes) :=
  let half := Z.of_nat (length tree) / 2 in
  let* index := get_index_in_permuted index half in
  let index := index + half in
  let* v := py_nth tree index in
  branch_loop (Z.to_nat index) tree index [v].

(** starks/merkle_tree.py:79-84: the loop of [verify_branch] *)
Fixpoint verify_loop (H : bytes -> bytes) (v : bytes) (index : Z) (ps : list bytes) : bytes :=
  match ps with
  | [] => v
  | p :: ps' =>
    verify_loop H (if index mod 2 =? 0 then H (v ++ p) else H (p ++ v)) (index / 2) ps'
  end.

(** starks/merkle_tree.py:71-86 [verify_branch] with [output_as_int=False].
    [proof[0]] of an empty proof is never reached: 2**0//2//4 = 0 raises first. *)
Definition verify_branch (H : bytes -> bytes) (root : bytes) (index : Z) (proof : list bytes)
  : result bytes :=
  let half := 2 ^ Z.of_nat (length proof) / 2 in
  let* index := get_index_in_permuted index half in
  let index := index + half in
  let* v := lget proof 0 in
  assert_ (bytes_eqb (verify_loop H v index (tl proof)) root) ;;*
  lget proof 0.

(** starks/merkle_tree.py:86 with [output_as_int=True] *)
Definition verify_branch_int (H : bytes -> bytes) (root : bytes) (index : Z) (proof : list bytes)
  : result Z :=
  rmap from_bytes_be (verify_branch H root index proof).

(** Python [zip( *rows )]: column i for every i below the shortest row; no
    rows give no columns. *)
Definition zip_star {A} (rows : list (list A)) : list (list A) :=
  match rows with
  | [] => []
  | r :: rs =>
    let n := fold_left (fun m r' => Nat.min m (length r')) rs (length r) in
    map (fun i => flat_map (fun r' => match nth_error r' i with Some a => [a] | None => [] end) rows)
        (seq 0 n)
  end.

(** starks/merkle_tree.py:94-119 [merkelize_polynomial_evaluations]; an
    evaluation is given by the outcome of its [to_bytes()].  The parameter
    [dims] is unused by the code. *)
Definition merkelize_polynomial_evaluations (H : bytes -> bytes) (dims : Z)
    (evals : list (list (result bytes))) : result (list bytes) :=
  let* leaves := mapM (fun col => rmap (@concat _) (mapM (fun v => v) col)) (zip_star evals) in
  merkelize H (map LBytes leaves).

(** starks/merkle_tree.py:121-147 [unpack_merkle_leaf] *)
Definition unpack_merkle_leaf (leaf : bytes) (dims num_polys : nat) : list bytes :=
  flat_map (fun poly_ind =>
    map (fun dim => slice leaf (32 * (poly_ind * dims + dim)) (32 * (poly_ind * dims + dim + 1)))
        (seq 0 dims))
    (seq 0 num_polys).
