(** Property theorems C129: how often [get_pseudorandom_indices]
    (starks/utils.py:60-90) returns given indices, counted over all entropy
    strings long enough to need no expansion; for every [H].  [e] is
    [exclude_multiples_of]; [m] the modulus applied to the 4-byte words;
    [c y] the number of words that give the index [y]. *)
From Coq Require Import Bool ZArith List Lia ssreflect ssrbool.
From Coq.Strings Require Import Byte.
From Verif Require Import Base BaseProofs UtilsModel UtilsProofs UtilsCount.
Import ListNotations.
Local Open Scope Z_scope.

(** The indices are independent: the number of strings that give the list [l] is the product of
    the [c y], times the choices for the bytes that are not read. *)
Theorem C129_independent : forall (H : bytes -> bytes) (fuel : nat) (modulus e : Z) (l : list Z) (extra : nat),
  0 <= modulus < 2 ^ 24 -> e = 0 \/ 2 <= e ->
  (forall y, In y l -> 0 <= y < modulus /\ (e <> 0 -> y mod e <> 0)) ->
  let m := if e =? 0 then modulus else modulus * (e - 1) / e in
  let c y := (2 ^ 32 - 1 - (if e =? 0 then y else y - 1 - y / e)) / m + 1 in
  exists S, [/\ NoDup S,
    (forall s, In s S <-> length s = (4 * length l + extra)%nat /\
       get_pseudorandom_indices H fuel s modulus (Z.of_nat (length l)) e = Ok l) &
    Z.of_nat (length S) = fold_right Z.mul (256 ^ Z.of_nat extra) (map c l)].
Proof. exact count_indices. Qed.
Print Assumptions C129_independent.

(** No index is favoured by more than one word. *)
Theorem C129_fair : forall modulus e y : Z, e = 0 \/ 2 <= e ->
  0 <= y < modulus -> (e <> 0 -> y mod e <> 0) ->
  let m := if e =? 0 then modulus else modulus * (e - 1) / e in
  let c y := (2 ^ 32 - 1 - (if e =? 0 then y else y - 1 - y / e)) / m + 1 in
  2 ^ 32 / m <= c y <= 2 ^ 32 / m + 1.
Proof.
move=> modulus e y He Hy Ny; have [R _] := sample_range modulus e y He (conj Hy Ny).
exact: class_fair.
Qed.
Print Assumptions C129_fair.

(** How many strings miss a set [bad] of allowed indices with all [k] samples: exactly, and at
    most (1 - |bad| * floor(2^32/m) / 2^32)^k of all. *)
Theorem C129_missing : forall (H : bytes -> bytes) (fuel : nat) (modulus e : Z) (bad : list Z) (k extra : nat),
  0 < modulus < 2 ^ 24 -> e = 0 \/ 2 <= e /\ 2 <= modulus -> NoDup bad ->
  (forall y, In y bad -> 0 <= y < modulus /\ (e <> 0 -> y mod e <> 0)) ->
  let m := if e =? 0 then modulus else modulus * (e - 1) / e in
  let c y := (2 ^ 32 - 1 - (if e =? 0 then y else y - 1 - y / e)) / m + 1 in
  let n := fold_right Z.add 0 (map c bad) in
  exists S, [/\ NoDup S,
    (forall s, In s S <-> length s = (4 * k + extra)%nat /\
       exists l, get_pseudorandom_indices H fuel s modulus (Z.of_nat k) e = Ok l /\
                 (forall y, In y l -> ~ In y bad)),
    Z.of_nat (length S) = (2 ^ 32 - n) ^ Z.of_nat k * 256 ^ Z.of_nat extra &
    Z.of_nat (length S) <= (2 ^ 32 - Z.of_nat (length bad) * (2 ^ 32 / m)) ^ Z.of_nat k * 256 ^ Z.of_nat extra].
Proof.
move=> H fuel modulus e bad k extra Hm He ND Hb m c n.
have Hm' : 0 <= modulus < 2 ^ 24 by lia.
have He' : e = 0 \/ 2 <= e by lia.
have Nm : sample_modulus modulus e <> 0.
  rewrite /sample_modulus; case: (Z.eqb_spec e 0) => E; first by lia.
  have {}He : 2 <= e /\ 2 <= modulus by lia.
  have : 1 <= modulus * (e - 1) / e; last by lia.
  apply: Z.div_le_lower_bound; first by lia.
  have : 2 * (e - 1) <= modulus * (e - 1) by apply: Z.mul_le_mono_nonneg_r; lia.
  by lia.
have [S [NS IS LS n32]] := count_missing H fuel modulus e bad k extra Hm' He' Nm ND Hb.
have F := sum_fair modulus e bad He' Hb.
exists S; split=> //; rewrite LS; apply: Z.mul_le_mono_nonneg_r; first exact: Z.pow_nonneg.
apply: Z.pow_le_mono_l; split; first exact: (proj2 (Z.le_0_sub _ _) n32).
exact: (proj1 (Z.sub_le_mono_l _ _ (2 ^ 32)) F).
Qed.
Print Assumptions C129_missing.

(** modulus 100 without multiples of 8: 87 residues; 4 bytes per index, the ninth byte is not read *)
Example C129_example :
  let H := fun x : bytes => x in
  get_pseudorandom_indices H 0 [x00; x00; x01; x07; x00; x00; x02; x0b; xff] 100 2 8 = Ok [3; 2] /\
  100 * (8 - 1) / 8 = 87 /\
  (2 ^ 32 - 1 - (3 - 1 - 3 / 8)) / 87 + 1 = 49367441 /\ (2 ^ 32 - 1 - (99 - 1 - 99 / 8)) / 87 + 1 = 49367440 /\
  2 ^ 32 / 87 = 49367440 /\
  fold_right Z.add 0 (map (fun y => (2 ^ 32 - 1 - (y - 1 - y / 8)) / 87 + 1)
    (filter (fun y => negb (y mod 8 =? 0)) (map Z.of_nat (seq 0 100)))) = 2 ^ 32.
Proof. by vm_compute. Qed.
