(** Model of starks/merkle_tree.py:36-56 and 94-119 for leaves of every kind of
    Python value that the library has, in particular elements of FiniteField(p, m),
    whose [to_bytes] (starks/finitefield.py:149-150) is that of their polynomial.

    Nodes are Python values: [Some b] is a byte string, [None] is None (which
    [Polynomial.to_bytes] returns when it does not raise). *)
From Coq Require Import Bool ZArith List.
From Verif Require Import Base ModpModel PolyBytesModel MerkleModel.
Import ListNotations.
Local Open Scope Z_scope.

(** A leaf: an int, a byte string, an IntegerModP (its attribute [n]), a polynomial
    over IntegersModP, or an element of a FiniteField (the coefficients of its
    polynomial). *)
Inductive value : Type :=
| VInt (z : Z)
| VBytes (b : bytes)
| VModp (n : Z)
| VPoly (coefficients : list Z)
| VExt (poly : list Z).

(** starks/finitefield.py:149-150 *)
Definition ext_to_bytes (poly : list Z) : result (option bytes) := poly_to_bytes poly.

(** [x.to_bytes()]; ints need two arguments in the Python versions of the project
    (TypeError), byte strings do not have the method (AttributeError) *)
Definition value_to_bytes (x : value) : result (option bytes) :=
  match x with
  | VInt _ => Err TypeError
  | VBytes _ => Err AttributeError
  | VModp n => rmap Some (modp_to_bytes n)
  | VPoly c => poly_to_bytes c
  | VExt c => ext_to_bytes c
  end.

(** starks/merkle_tree.py:48-53 *)
Definition node_of (x : value) : result (option bytes) :=
  match x with
  | VInt z => rmap Some (to_bytes_be 32 z)
  | VBytes b => Ok (Some b)
  | _ => value_to_bytes x
  end.

(** [a + b] of two nodes; None has no addition *)
Definition node_add (a b : option bytes) : result bytes :=
  match a, b with
  | Some x, Some y => Ok (x ++ y)
  | _, _ => Err TypeError
  end.

(** starks/merkle_tree.py:54-55 *)
Fixpoint ext_hash_loop (H : bytes -> bytes) (i : nat) (nodes : list (option bytes)) : result (list (option bytes)) :=
  match i with
  | O => Ok nodes
  | S i' =>
    let* a := lget nodes (i * 2) in
    let* b := lget nodes (i * 2 + 1) in
    let* s := node_add a b in
    ext_hash_loop H i' (set_nth_list nodes i (Some (H s)))
  end.

(** starks/merkle_tree.py:36-56 [merkelize] *)
Definition ext_merkelize (H : bytes -> bytes) (L : list value) : result (list (option bytes)) :=
  let* L := permute4 L in
  let* leaves := mapM node_of L in
  ext_hash_loop H (length L - 1) (repeat (Some []) (length L) ++ leaves).

(** [b''.join(l)]: an element that is not a byte string raises TypeError *)
Definition py_join (l : list (option bytes)) : result bytes :=
  foldM (fun acc x => match x with Some b => Ok (acc ++ b) | None => Err TypeError end) l [].

(** starks/merkle_tree.py:94-119 [merkelize_polynomial_evaluations]; the parameter
    [dims] is unused by the code *)
Definition ext_merkelize_evaluations (H : bytes -> bytes) (evals : list (list value))
  : result (list (option bytes)) :=
  let* leaves := mapM (fun col => let* bs := mapM value_to_bytes col in py_join bs) (zip_star evals) in
  ext_merkelize H (map VBytes leaves).
