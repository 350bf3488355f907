(** Property theorems C128, and C73 for all sizes: what the root of a tree built by [merkelize]
    (starks/merkle_tree.py:36-56) commits to.  [H] is the hash function; every
    theorem is for all [H]. *)
From Coq Require Import Bool ZArith List Lia ssreflect ssrbool.
From Coq.Strings Require Import Byte.
From Verif Require Import Base BaseProofs MerkleModel MerkleProofs MerkleCommit MerkleSizes.
Import ListNotations.
Local Open Scope Z_scope.

Lemma py_nth_1 {A} (t : list A) r : py_nth t 1 = Ok r -> nth_error t 1 = Some r.
Proof.
case E: (nth_error t 1) => [a|]; first by rewrite (py_nth_nat t 1 a E) => -[->].
rewrite /py_nth; change (1 <? 0) with false; cbv iota zeta; change (Z.to_nat 1) with 1%nat.
by rewrite E; case: ifP.
Qed.

(** Two lists of the same multiple of four of leaves, the leaves of the same sizes: equal roots
    mean equal leaves, or two different strings with the same hash are found at the same node of
    the two trees. *)
Theorem C128_root_binds : forall (H : bytes -> bytes) L1 L2 (q : nat) leaves1 leaves2 t1 t2 root,
  (forall x, length (H x) = 32%nat) ->
  length L1 = (4 * q)%nat -> length L2 = (4 * q)%nat ->
  mapM leaf_bytes L1 = Ok leaves1 -> mapM leaf_bytes L2 = Ok leaves2 ->
  map (@length byte) leaves1 = map (@length byte) leaves2 ->
  merkelize H L1 = Ok t1 -> merkelize H L2 = Ok t2 -> py_nth t1 1 = Ok root -> py_nth t2 1 = Ok root ->
  leaves1 = leaves2 \/
  exists j x y, [/\ (1 <= j < 4 * q)%nat, x = nth (2 * j) t1 [] ++ nth (2 * j + 1) t1 [],
                    y = nth (2 * j) t2 [] ++ nth (2 * j + 1) t2 [] & x <> y /\ H x = H y].
Proof.
move=> H L1 L2 q l1 l2 t1 t2 root H32 E1 E2 M1 M2 S T1 T2 G1 G2; have R1 := py_nth_1 _ _ G1; have R2 := py_nth_1 _ _ G2.
have [->|[j [Hj D E]]] := root_binds H L1 L2 q l1 l2 t1 t2 H32 E1 E2 M1 M2 S T1 T2 (eq_trans R1 (eq_sym R2)).
  by left.
right; exists j, (children t1 j), (children t2 j); rewrite /children (Nat.mul_comm 2 j); by split.
Qed.
Print Assumptions C128_root_binds.

(** Without the condition on the sizes the leaves are not determined, whatever the hash. *)
Theorem C128_sizes_refuted : forall H : bytes -> bytes, exists l1 l2 t1 t2 root,
  [/\ l1 <> l2, length l1 = 4%nat, length l2 = 4%nat &
      [/\ merkelize H (map LBytes l1) = Ok t1, merkelize H (map LBytes l2) = Ok t2,
          py_nth t1 1 = Ok root & py_nth t2 1 = Ok root]].
Proof.
move=> H; exists [[x01]; []; []; []], [[]; [x01]; []; []]; do 3 eexists.
by split=> //; split; reflexivity.
Qed.
Print Assumptions C128_sizes_refuted.

(** The tree depends on the bytes of the leaves only: an int cannot be told from its 32 bytes. *)
Theorem C128_bytes_only : forall (H : bytes -> bytes) L leaves,
  mapM leaf_bytes L = Ok leaves -> merkelize H L = merkelize H (map LBytes leaves).
Proof.
move=> H L leaves M; have [LL _] := mapM_nth _ _ _ M.
have [o [P [So N]]] := permute4_ok L; have [o' [P' [So' N']]] := permute4_ok (map LBytes leaves).
have Lm : length (map LBytes leaves) = length L by rewrite map_length.
have Hall : forall a, In a o -> exists b, leaf_bytes a = Ok b.
  move=> a /(@In_nth_error _ _ _) [i Hi].
  have Hlt := nth_error_in_lt _ _ _ Hi; rewrite So in Hlt.
  rewrite (permute4_pos _ _ _ P Hlt) in Hi.
  by have [b [Hb _]] := proj2 (mapM_nth _ _ _ M) _ _ Hi; exists b.
have [r R] := mapM_total leaf_bytes o Hall.
have [t [Et T]] := hash_loop_tree H r.
rewrite (merkelize_of H L o r t) //; symmetry.
suff Eo : o' = map LBytes r.
  by apply: (merkelize_of _ _ _ _ _ P' _ T); rewrite Eo mapM_LBytes.
have [Lr _] := mapM_nth _ _ _ R.
apply: nth_error_inj_lt; first by rewrite map_length Lr So So' Lm.
rewrite So' Lm => k Hk.
have Hk' : (k < 4 * (length (map LBytes leaves) / 4))%nat by rewrite Lm.
by rewrite (permute4_pos _ _ _ P' Hk') Lm !nth_error_map (permuted_leaves _ _ _ _ _ P R M Hk).
Qed.
Print Assumptions C128_bytes_only.

(** An object counts as the bytes its [to_bytes] returns; if that raises, so does [merkelize]. *)
Theorem C128_objects : forall (H : bytes -> bytes) (l : list bytes),
  merkelize H (map (fun b => LObj (Ok b)) l) = merkelize H (map LBytes l).
Proof.
move=> H l; apply: C128_bytes_only.
by elim: l => [|b l IH] //=; rewrite IH.
Qed.
Print Assumptions C128_objects.

Theorem C128_object_raises : forall (H : bytes -> bytes) L (q : nat) (x : exn),
  length L = (4 * q)%nat -> In (LObj (Err x)) L ->
  (forall a, In a L -> a = LObj (Err x) \/ exists b, a = LBytes b) -> merkelize H L = Err x.
Proof.
move=> H L q x HL HI HA; rewrite /merkelize.
have [o [Eo P]] := permute4_perm L; rewrite Eo [bind (Ok _) _]/=.
have Eq : (length L / 4 = q)%nat by rewrite HL Nat.mul_comm Nat.div_mul.
rewrite Eq -HL firstn_all in P.
have {}HI : In (LObj (Err x)) o by apply: (Permutation.Permutation_in _ P).
have {}HA : forall a, In a o -> a = LObj (Err x) \/ exists b, a = LBytes b.
  by move=> a Ha; apply: HA; apply: (Permutation.Permutation_in _ (Permutation.Permutation_sym P)).
suff -> : mapM leaf_bytes o = Err x by [].
elim: o HI HA {Eo P} => [|a o IH] //= HI HA.
have [->|[b E]] := HA a (or_introl (eq_refl _)); first by [].
case: HI => [E'|HI]; first by rewrite E' in E.
by rewrite E /= IH // => c Hc; apply: HA; right.
Qed.
Print Assumptions C128_object_raises.

(** Up to three elements after the last multiple of four are not committed to, not even looked at. *)
Theorem C128_tail_ignored : forall (H : bytes -> bytes) L u (q : nat),
  length L = (4 * q)%nat -> (length u < 4)%nat -> merkelize H (L ++ u) = merkelize H L.
Proof. by move=> H L u q; apply: tail_ignored. Qed.
Print Assumptions C128_tail_ignored.

(** Leaves and inner nodes are hashed alike: for every list of 8q leaves there is a list of 4q
    leaves, all of them hashes, with the same root; its tree is the upper half of the other. *)
Theorem C128_inner_nodes_as_leaves : forall (H : bytes -> bytes) L (q : nat) t,
  length L = (8 * q)%nat -> merkelize H L = Ok t ->
  exists L', [/\ length L' = (4 * q)%nat, merkelize H (map LBytes L') = Ok (firstn (8 * q) t) &
                 forall x, In x L' -> exists y, x = H y].
Proof. exact inner_nodes. Qed.
Print Assumptions C128_inner_nodes_as_leaves.

(** A 32-byte toy hash.  Eight ints; the four nodes above them as leaves give the same root;
    a ninth element, here an int too large for [to_bytes], changes nothing; another int does. *)
Example C128_example :
  let H x := be_digits 32 ((from_bytes_be x * 31 + 7) mod 2 ^ 200) in
  let root L := let* t := merkelize H L in py_nth t 1 in
  let b := be_digits 32 in
  let ints := [10; 11; 12; 13; 14; 15; 16; 17] in
  root (map LInt ints) =
    root (map LBytes [H (b 10 ++ b 12); H (b 14 ++ b 16); H (b 11 ++ b 13); H (b 15 ++ b 17)]) /\
  root (map LInt ints) = root (map LInt (ints ++ [2 ^ 300])) /\
  root (map LInt ints) = root (map (fun z => LBytes (b z)) ints) /\
  root (map LInt ints) <> root (map LInt [10; 11; 12; 13; 14; 15; 16; 18]) /\
  (exists r, root (map LInt ints) = Ok r) /\
  root (map LInt [10; 11; 12; 2 ^ 300; 14; 15; 16; 17]) = Err OverflowError.
Proof.
do 3 (split; first by vm_compute).
split; first by vm_compute.
by split; [eexists; vm_compute; reflexivity | vm_compute].
Qed.

(** C73: for every number of leaves that is a multiple of four but not a power of two, and any
    distinct leaves of one size, the verifier rejects the honest branch of some leaf, unless the
    branch contains a collision of the hash.  (By C54 it accepts all of them for powers of two.) *)
Theorem C73_not_power_of_two_refuted : forall (H : bytes -> bytes) L leaves (q len : nat) tree root,
  (forall x, length (H x) = 32%nat) ->
  length L = (4 * q)%nat -> (0 < q)%nat -> (forall a, q <> 2 ^ a)%nat ->
  mapM leaf_bytes L = Ok leaves -> NoDup leaves -> (forall x, In x leaves -> length x = len) ->
  merkelize H L = Ok tree -> py_nth tree 1 = Ok root ->
  exists i br, (i < 4 * q)%nat /\ mk_branch tree (Z.of_nat i) = Ok br /\
    (verify_branch H root (Z.of_nat i) br = Err AssertionError \/ exists x y, x <> y /\ H x = H y).
Proof. exact honest_rejected. Qed.
Print Assumptions C73_not_power_of_two_refuted.

(** twenty leaves: the leaves whose honest branches are rejected *)
Example C73_sizes_example :
  let H x := be_digits 32 ((from_bytes_be x * 31 + 7) mod 2 ^ 200) in
  (let* t := merkelize H (map LInt (map Z.of_nat (seq 100 20))) in
   let* r := py_nth t 1 in
   Ok (filter (fun i => match (let* b := mk_branch t i in verify_branch H r i b) with
                        | Err AssertionError => true | _ => false end) (map Z.of_nat (seq 0 20)))) =
  Ok [1; 2; 4; 10; 11; 12; 13; 14; 15; 16; 17].
Proof. by vm_compute. Qed.
