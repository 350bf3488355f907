(** Property theorems C53-C57, C71-C73: starks/merkle_tree.py.  [H] is the hash
    function; every theorem is for all [H].  [mapM leaf_bytes L = Ok leaves]
    says that every leaf of [L] can be turned into bytes. *)
From Coq Require Import Bool ZArith List Permutation Lia ssreflect ssrbool.
From Coq.Strings Require Import Byte.
From Verif Require Import Base BaseProofs MerkleModel MerkleProofs.
Import ListNotations.
Local Open Scope Z_scope.

(** A 32-byte hash function for the examples. *)
Definition toyhash (x : bytes) : bytes := be_digits 32 ((from_bytes_be x * 31 + 7) mod 2 ^ 200).
Lemma toyhash32 x : length (toyhash x) = 32%nat.
Proof. reflexivity. Qed.
Definition ints8 := map LInt [10; 11; 12; 13; 14; 15; 16; 17].
Definition toytree : list bytes :=
  match merkelize toyhash ints8 with Ok t => t | _ => [] end.
Definition toyroot := nth 1 toytree [].

(** C53 *)
Theorem C53_permute4_is_permutation : forall (A : Type) (l : list A),
  exists o, permute4 l = Ok o /\ Permutation (firstn (4 * (length l / 4)) l) o.
Proof. exact @permute4_perm. Qed.
Print Assumptions C53_permute4_is_permutation.

Theorem C53_index_in_permuted : forall (A : Type) (l o : list A) (x : nat),
  permute4 l = Ok o -> (4 <= length l)%nat -> (x < 4 * (length l / 4))%nat ->
  exists y, get_index_in_permuted (Z.of_nat x) (Z.of_nat (length l)) = Ok (Z.of_nat y) /\
    (y < 4 * (length l / 4))%nat /\ nth_error o y = nth_error l x.
Proof. exact @index_in_permuted. Qed.
Print Assumptions C53_index_in_permuted.

(** Elements beyond the last multiple of four vanish. *)
Theorem C53_drops_tail : forall (A : Type) (l : list A),
  exists o, permute4 l = Ok o /\ (length o + length l mod 4 = length l)%nat.
Proof.
move=> A l; have [o [E [L _]]] := permute4_ok l; exists o; split=> //.
by rewrite L; have := Nat.div_mod (length l) 4; lia.
Qed.
Print Assumptions C53_drops_tail.

(** Fewer than four elements have no index in the permuted list. *)
Theorem C53_index_short : forall x L : Z, 0 <= L < 4 -> get_index_in_permuted x L = Err ZeroDivisionError.
Proof.
move=> x L H; rewrite /get_index_in_permuted; have -> : L / 4 = 0 by apply: Z.div_small; lia.
by [].
Qed.
Print Assumptions C53_index_short.

Example C53_example :
  permute4 [0; 1; 2; 3; 4; 5; 6; 7] = Ok [0; 2; 4; 6; 1; 3; 5; 7] /\
  get_index_in_permuted 5 8 = Ok 6 /\
  permute4 [0; 1; 2; 3; 4] = Ok [0; 1; 2; 3] /\ permute4 [1; 2; 3] = Ok [] /\
  get_index_in_permuted 0 3 = Err ZeroDivisionError.
Proof. repeat split. Qed.

(** C54.  The bytes of a leaf: 32 of them, big-endian, for an int, which must be between 0 and
    2^256 - 1. *)
Theorem C54_leaf_bytes : forall z : Z,
  (0 <= z < 2 ^ 256 -> exists b, leaf_bytes (LInt z) = Ok b /\ length b = 32%nat /\ from_bytes_be b = z) /\
  (~ 0 <= z < 2 ^ 256 -> leaf_bytes (LInt z) = Err OverflowError).
Proof.
move=> z; split=> H.
  have [b [E [L F]]] := to_bytes_be_ok 32 z H; by exists b.
apply: to_bytes_be_err; lia.
Qed.
Print Assumptions C54_leaf_bytes.

Theorem C54_merkle_completeness : forall (H : bytes -> bytes) (L : list leaf) (leaves : list bytes) (k : nat),
  length L = (2 ^ k)%nat -> (2 <= k)%nat -> mapM leaf_bytes L = Ok leaves ->
  exists tree root, [/\ merkelize H L = Ok tree, py_nth tree 1 = Ok root &
    forall i v, nth_error leaves i = Some v ->
      exists br, [/\ mk_branch tree (Z.of_nat i) = Ok br, length br = S k &
                     verify_branch H root (Z.of_nat i) br = Ok v]].
Proof. exact merkle_complete. Qed.
Print Assumptions C54_merkle_completeness.

Example C54_example : length ints8 = (2 ^ 3)%nat /\
  (let* t := merkelize toyhash ints8 in
   let* r := py_nth t 1 in
   mapM (fun i => let* b := mk_branch t (Z.of_nat i) in verify_branch_int toyhash r (Z.of_nat i) b)
        (seq 0 8)) = Ok [10; 11; 12; 13; 14; 15; 16; 17].
Proof. by split; [|vm_compute]. Qed.

(** C55: [hashed H i pf] lists the strings the verifier hashes when checking
    [pf]; the collision is found among them. *)
Theorem C55_merkle_binding : forall (H : bytes -> bytes) (root : bytes) (i : Z) (pf1 pf2 : list bytes) (v1 v2 : bytes),
  (forall x, length (H x) = 32%nat) ->
  verify_branch H root i pf1 = Ok v1 -> verify_branch H root i pf2 = Ok v2 ->
  length pf1 = length pf2 -> length v1 = length v2 -> v1 <> v2 ->
  exists x y, [/\ In x (hashed H i pf1), In y (hashed H i pf2), x <> y & H x = H y].
Proof. exact merkle_binding. Qed.
Print Assumptions C55_merkle_binding.

(** ... in particular a proof against the root of a tree opens to the committed
    leaf unless it contains a collision with the honest branch *)
Theorem C55_merkle_binding_tree : forall (H : bytes -> bytes) (L : list leaf) leaves (k : nat) tree root (i : nat) v pf w,
  (forall x, length (H x) = 32%nat) ->
  length L = (2 ^ k)%nat -> (2 <= k)%nat -> mapM leaf_bytes L = Ok leaves ->
  merkelize H L = Ok tree -> py_nth tree 1 = Ok root -> nth_error leaves i = Some v ->
  length pf = S k -> verify_branch H root (Z.of_nat i) pf = Ok w -> length w = length v ->
  w = v \/ exists br x y, [/\ mk_branch tree (Z.of_nat i) = Ok br,
     In x (hashed H (Z.of_nat i) br), In y (hashed H (Z.of_nat i) pf), x <> y & H x = H y].
Proof. exact merkle_binding_tree. Qed.
Print Assumptions C55_merkle_binding_tree.

(** A constant hash: both leaves are accepted, and the colliding strings are
    the ones listed by [hashed]. *)
Example C55_example :
  let H := fun _ : bytes => be_digits 32 7 in
  let pf b := [be_digits 32 b; be_digits 32 0; be_digits 32 0] in
  verify_branch_int H (be_digits 32 7) 1 (pf 1) = Ok 1 /\
  verify_branch_int H (be_digits 32 7) 1 (pf 2) = Ok 2 /\
  hashed H 1 (pf 1) = [be_digits 32 0 ++ be_digits 32 1; be_digits 32 7 ++ be_digits 32 0] /\
  verify_branch toyhash toyroot 2 (pf 1) = Err AssertionError.
Proof. by vm_compute. Qed.

(** C56: one byte moves between leaf and sibling. *)
Theorem C56_merkle_malleable : forall (H : bytes -> bytes) root i leaf sib rest,
  verify_branch H root i (leaf :: sib :: rest) = Ok leaf -> sib <> [] ->
  exists leaf' sib', length leaf' = S (length leaf) /\
    verify_branch H root i (leaf' :: sib' :: rest) = Ok leaf'.
Proof. exact merkle_malleable. Qed.
Print Assumptions C56_merkle_malleable.

(** ... so for every tree and index some uncommitted leaf is accepted *)
Theorem C56_forged_leaf : forall (H : bytes -> bytes) (L : list leaf) leaves (k : nat) tree root len (i : nat) v,
  length L = (2 ^ k)%nat -> (2 <= k)%nat ->
  mapM leaf_bytes L = Ok leaves -> (forall x, In x leaves -> length x = len) -> (0 < len)%nat ->
  merkelize H L = Ok tree -> py_nth tree 1 = Ok root -> nth_error leaves i = Some v ->
  exists pf w, [/\ verify_branch H root (Z.of_nat i) pf = Ok w, length pf = S k & ~ In w leaves].
Proof. exact merkle_malleable_tree. Qed.
Print Assumptions C56_forged_leaf.

(** leaf 0 is 10, its sibling is leaf 2 = 12 = 00..0c; moving the first (zero)
    byte of the sibling opens leaf 0 as 10 * 256 *)
Example C56_example :
  match mk_branch toytree 0 with
  | Ok (leaf :: (b :: sib) :: rest) =>
      verify_branch_int toyhash toyroot 0 (leaf :: (b :: sib) :: rest) = Ok 10 /\
      verify_branch_int toyhash toyroot 0 ((leaf ++ [b]) :: sib :: rest) = Ok 2560
  | _ => False
  end.
Proof. by vm_compute. Qed.

(** C57 *)
Theorem C57_unpack_concat : forall (l : list bytes) (dims np : nat),
  (forall x, In x l -> length x = 32%nat) -> length l = (np * dims)%nat ->
  unpack_merkle_leaf (concat l) dims np = l.
Proof. exact unpack_ok. Qed.
Print Assumptions C57_unpack_concat.

(** packing, committing, opening at [i] and unpacking gives the i-th evaluation
    of every polynomial *)
Theorem C57_packed_round_trip : forall (H : bytes -> bytes) (dims np : nat) (rows : list (list Z)) (k : nat),
  (forall r, In r rows -> length r = (2 ^ k)%nat) -> (2 <= k)%nat ->
  length rows = (np * dims)%nat -> (0 < np * dims)%nat ->
  (forall r z, In r rows -> In z r -> 0 <= z < 256 ^ 32) ->
  exists tree root, [/\
    merkelize_polynomial_evaluations H (Z.of_nat dims) (map (map (to_bytes_be 32)) rows) = Ok tree,
    py_nth tree 1 = Ok root &
    forall i, (i < 2 ^ k)%nat -> exists br leaf,
      [/\ mk_branch tree (Z.of_nat i) = Ok br, verify_branch H root (Z.of_nat i) br = Ok leaf &
          map from_bytes_be (unpack_merkle_leaf leaf dims np) = map (fun r => nth i r 0) rows]].
Proof. exact packed_ok. Qed.
Print Assumptions C57_packed_round_trip.

Example C57_example :
  (let* t := merkelize_polynomial_evaluations toyhash 2
               (map (map (to_bytes_be 32)) [[1; 2; 3; 4]; [5; 6; 7; 8]]) in
   let* b := mk_branch t 2 in
   let* r := py_nth t 1 in
   let* l := verify_branch toyhash r 2 b in
   Ok (map from_bytes_be (unpack_merkle_leaf l 2 1))) = Ok [3; 7].
Proof. by vm_compute. Qed.

(** C71: the depth is taken from the proof, so an inner node is accepted as a
    leaf (at another index) by a proof that is one element shorter. *)
Theorem C71_inner_node_accepted_as_leaf : forall (H : bytes -> bytes) root i leaf sib rest,
  verify_branch H root i (leaf :: sib :: rest) = Ok leaf -> (2 <= length rest)%nat ->
  0 <= i < 2 ^ Z.of_nat (S (length rest)) ->
  exists i' node, [/\ node = H (leaf ++ sib) \/ node = H (sib ++ leaf), 0 <= i' < 2 ^ Z.of_nat (length rest) &
    verify_branch H root i' (node :: rest) = Ok node].
Proof. exact merkle_no_depth_check. Qed.
Print Assumptions C71_inner_node_accepted_as_leaf.

Example C71_example :
  match mk_branch toytree 5 with
  | Ok (leaf :: sib :: rest) => verify_branch toyhash toyroot 3 (toyhash (leaf ++ sib) :: rest)
  | _ => Err KeyError
  end = Ok (nth 7 toytree []).
Proof. by vm_compute. Qed.

(** C72: indices are not range checked; index i + n means index i + 1. *)
Theorem C72_index_alias : forall (H : bytes -> bytes) root i proof, (4 <= length proof)%nat ->
  let n := 2 ^ Z.of_nat (length proof - 1) in
  i mod (n / 4) + 1 < n / 4 ->
  verify_branch H root (i + n) proof = verify_branch H root (i + 1) proof.
Proof. exact merkle_alias. Qed.
Print Assumptions C72_index_alias.

Example C72_example :
  (let* b := mk_branch toytree 5 in verify_branch_int toyhash toyroot 12 b) = Ok 15 /\
  (let* b := mk_branch toytree 5 in verify_branch_int toyhash toyroot 5 b) = Ok 15.
Proof. by vm_compute. Qed.

(** C73: completeness fails when the number of leaves is a multiple of four but
    not a power of two. *)
Theorem C73_twelve_leaves_refuted : forall (H : bytes -> bytes) l0 l1 l2 l3 l4 l5 l6 l7 l8 l9 l10 l11 tree root br v,
  (forall x, length (H x) = 32%nat) -> length l6 = length l9 -> l6 <> l9 ->
  merkelize H (map LBytes [l0; l1; l2; l3; l4; l5; l6; l7; l8; l9; l10; l11]) = Ok tree ->
  py_nth tree 1 = Ok root -> mk_branch tree 6 = Ok br -> verify_branch H root 6 br = Ok v ->
  exists x y, x <> y /\ H x = H y.
Proof. exact twelve_leaves. Qed.
Print Assumptions C73_twelve_leaves_refuted.

Example C73_example :
  (let* t := merkelize toyhash (map LInt [0; 1; 2; 3; 4; 5; 6; 7; 8; 9; 10; 11]) in
   let* r := py_nth t 1 in
   let* b := mk_branch t 6 in
   verify_branch toyhash r 6 b) = Err AssertionError.
Proof. by vm_compute. Qed.
