(** Property theorems C72: [mk_branch] and [verify_branch] (starks/merkle_tree.py:59-86) at
    every integer as index.  [H] is the hash function; every theorem is for all [H]. *)
From Coq Require Import Bool ZArith List Lia ssreflect ssrbool.
From Verif Require Import Base BaseProofs MerkleModel MerkleProofs MerkleCommit MerkleIndex.
Import ListNotations.
Local Open Scope Z_scope.
Local Set SsrOldRewriteGoalsOrder.

(** In a tree of 4q leaves an integer x = a q + r with 0 <= r < q stands for the index
    (a mod 4) q + ((r + a / 4) mod q) to the verifier, whatever the root and the proof. *)
Theorem C72_every_index : forall (H : bytes -> bytes) root a r proof, (3 <= length proof)%nat ->
  let q := 2 ^ Z.of_nat (length proof - 1) / 4 in
  0 <= r < q ->
  let i := (a mod 4) * q + (r + a / 4) mod q in
  0 <= i < 2 ^ Z.of_nat (length proof - 1) /\
  verify_branch H root (a * q + r) proof = verify_branch H root i proof.
Proof.
move=> H root a r proof HL q Hr i.
have Q := pow_quarter (length proof - 1) ltac:(lia); rewrite -/q in Q.
have [E1 E2] : (a * q + r) / q = a /\ (a * q + r) mod q = r.
  split; symmetry; first by apply: (Z.div_unique _ _ _ r); lia.
  by apply: (Z.mod_unique _ _ a); lia.
have Ei : i = wrapped q (a * q + r) by rewrite /wrapped E1 E2 /i; lia.
rewrite Ei Q; split; first by apply: wrapped_range; lia.
exact: verify_wrapped.
Qed.
Print Assumptions C72_every_index.

(** An honest branch is accepted at the integers that stand for its index in this sense and,
    when the leaves are different and of one size, at no other integer, unless the hash has a
    collision. *)
Theorem C72_honest_index : forall (H : bytes -> bytes) L leaves (k len i : nat) tree root br v a r,
  length L = (2 ^ k)%nat -> (2 <= k)%nat -> (forall y, length (H y) = 32%nat) ->
  mapM leaf_bytes L = Ok leaves -> NoDup leaves -> (forall y, In y leaves -> length y = len) ->
  merkelize H L = Ok tree -> py_nth tree 1 = Ok root -> nth_error leaves i = Some v ->
  mk_branch tree (Z.of_nat i) = Ok br ->
  let q := 2 ^ Z.of_nat k / 4 in
  0 <= r < q ->
  let j := (a mod 4) * q + (r + a / 4) mod q in
  (j = Z.of_nat i -> verify_branch H root (a * q + r) br = Ok v) /\
  (j <> Z.of_nat i ->
     verify_branch H root (a * q + r) br = Err AssertionError \/ exists y z, y <> z /\ H y = H z).
Proof.
move=> H L leaves k len i tree root br v a r HL Hk H32 M ND HS T Hroot Hv Hb q Hr j.
have [E1 E2] : (a * q + r) / q = a /\ (a * q + r) mod q = r.
  split; symmetry; first by apply: (Z.div_unique _ _ _ r); lia.
  by apply: (Z.mod_unique _ _ a); lia.
have Ej : j = wrapped q (a * q + r) by rewrite /wrapped E1 E2 /j; lia.
have [LL _] := mapM_nth _ _ _ M; rewrite HL in LL.
have Hi : (i < 2 ^ k)%nat by rewrite -LL; apply: nth_error_in_lt Hv.
have [A B] := honest_index H L leaves k len tree root i br (a * q + r) HL Hk H32 M ND HS T Hroot Hi Hb.
rewrite Ej; split=> [/A ->|/B //].
have [t [rt [F1 F2 Hall]]] := merkle_complete H L leaves k HL Hk M.
move: F1 F2; rewrite T => -[Et]; subst t; rewrite Hroot => -[Er]; subst rt.
by have [br' [B1 _ B3]] := Hall i v Hv; move: B1; rewrite Hb => -[->].
Qed.
Print Assumptions C72_honest_index.

(** The prover at every integer x = a q + r: with t = a + 4 r + 4 q it returns node t and the
    siblings on the way to the root if 2 <= t < 8 q, for t < 4 q an inner node; one node alone,
    counted from the end if t is negative, if -8 q <= t <= 1; and otherwise raises IndexError. *)
Theorem C72_mk_branch : forall tree (q : nat) a r,
  length tree = (8 * q)%nat -> 0 <= r < Z.of_nat q ->
  let x := a * Z.of_nat q + r in
  let t := a + 4 * r + 4 * Z.of_nat q in
  let node n := nth n tree [] in
  (2 <= t < 8 * Z.of_nat q ->
     let n := Z.to_nat t in
     mk_branch tree x =
       Ok (node n :: map (fun i => node (Nat.lxor (n / 2 ^ i) 1)) (seq 0 (Nat.log2 n)))) /\
  (0 <= t < 2 -> mk_branch tree x = Ok [node (Z.to_nat t)]) /\
  (- 8 * Z.of_nat q <= t < 0 -> mk_branch tree x = Ok [node (Z.to_nat (t + 8 * Z.of_nat q))]) /\
  (t < - 8 * Z.of_nat q \/ 8 * Z.of_nat q <= t -> mk_branch tree x = Err IndexError).
Proof.
move=> tree q a r LT Hr x t node.
have [E1 E2] : x / Z.of_nat q = a /\ x mod Z.of_nat q = r.
  split; symmetry; first by apply: (Z.div_unique _ _ _ r); rewrite /x; lia.
  by apply: (Z.mod_unique _ _ a); rewrite /x; lia.
have E := mk_branch_node tree q x LT ltac:(lia); rewrite E1 E2 -/t in E; cbv zeta in E.
rewrite E {E}; split; last split; last split.
- move=> Ht; rewrite (_ : (t >? 1) = true); last by apply/Z.gtb_lt; lia.
  by rewrite (_ : (t <? 8 * Z.of_nat q) = true); last by apply/Z.ltb_lt; lia.
- move=> Ht; rewrite (_ : (t >? 1) = false); last by rewrite Z.gtb_ltb; apply/Z.ltb_ge; lia.
  rewrite (_ : t = Z.of_nat (Z.to_nat t)); last by lia.
  rewrite (py_nth_nat tree _ (node (Z.to_nat t))) ?Nat2Z.id //.
  by apply: nth_error_nth'; rewrite LT; lia.
- move=> Ht; rewrite (_ : (t >? 1) = false); last by rewrite Z.gtb_ltb; apply/Z.ltb_ge; lia.
  rewrite /py_nth LT (_ : (t <? 0) = true); last by apply/Z.ltb_lt; lia.
  rewrite (_ : t + Z.of_nat (8 * q) = t + 8 * Z.of_nat q); last by lia.
  rewrite (_ : (t + 8 * Z.of_nat q <? 0) = false); last by apply/Z.ltb_ge; lia.
  rewrite (_ : (Z.of_nat (8 * q) <=? t + 8 * Z.of_nat q) = false); last by apply/Z.leb_gt; lia.
  by rewrite (nth_error_nth' tree []) //; rewrite LT; lia.
- move=> Ht; case: Z.gtb_spec => G.
    by rewrite (_ : (t <? 8 * Z.of_nat q) = false) //; apply/Z.ltb_ge; lia.
  rewrite /py_nth LT (_ : (t <? 0) = true); last by apply/Z.ltb_lt; lia.
  by rewrite (_ : (t + Z.of_nat (8 * q) <? 0) = true) //; apply/Z.ltb_lt; lia.
Qed.
Print Assumptions C72_mk_branch.

(** Eight leaves 10..17, so q = 2: the integers from -30 to 29 at which the branch of leaf 5 is
    accepted; the prover at -2 = -1 * 2 + 0 gives node 7 and its siblings, at -14 the root alone,
    at -18 the last node alone, at 15 it raises IndexError. *)
Example C72_index_example :
  let H x := be_digits 32 ((from_bytes_be x * 31 + 7) mod 2 ^ 200) in
  (let* t := merkelize H (map LInt (map Z.of_nat (seq 10 8))) in
   let* r := py_nth t 1 in
   let* b := mk_branch t 5 in
   Ok (filter (fun x => match verify_branch_int H r x b with Ok _ => true | Err _ => false end)
         (map (fun i => Z.of_nat i - 30) (seq 0 60)))) = Ok [-27; -20; -11; -4; 5; 12; 21; 28] /\
  (let* t := merkelize H (map LInt (map Z.of_nat (seq 10 8))) in
   let* b := mk_branch t (-2) in
   Ok (if list_eq_dec (list_eq_dec Byte.byte_eq_dec) b (map (fun n => nth n t []) [7%nat; 6%nat; 2%nat])
       then true else false)) = Ok true /\
  (let* t := merkelize H (map LInt (map Z.of_nat (seq 10 8))) in
   let* r := py_nth t 1 in
   let* b := mk_branch t (-14) in
   let* c := mk_branch t (-18) in
   Ok (forallb (fun p => if list_eq_dec Byte.byte_eq_dec (fst p) (snd p) then true else false)
               (combine b [r]), length b, map from_bytes_be c)) = Ok (true, 1%nat, [17]) /\
  (let* t := merkelize H (map LInt (map Z.of_nat (seq 10 8))) in mk_branch t 15) = Err IndexError.
Proof. by vm_compute. Qed.
