(** Property theorems C25, C26 ([memoize]), C39, C40 (starks/utils.py) and C74,
    C75 (MiMC). *)
From Coq Require Import Bool ZArith List Lia ssreflect ssrbool Znumtheory.
From Coq.Strings Require Import Byte.
From Verif Require Import Base BaseProofs ModpModel MerkleModel UtilsModel UtilsProofs Pocklington MimcProofs
  Properties_Merkle.
Import ListNotations.
Local Open Scope Z_scope.

(** C25: [pre], [mid] are arbitrary histories, [f] an arbitrary function with
    state [St].  The repeated call returns the first result and leaves cache and
    state alone, i.e. [f] is not called. *)
Theorem C25_memoize_history : forall (V R St : Type) (veq : V -> V -> bool)
    (f : list V -> list (V * V) -> St -> result R * St),
  (forall a, veq a a = true) -> (forall a b, veq a b = veq b a) ->
  (forall a b c, veq a b = true -> veq b c = true -> veq a c = true) ->
  forall pre mid (args : list V) st0 rs st r,
  run_calls veq f (pre ++ (args, []) :: mid) st0 = (rs, st) ->
  nth_error rs (length pre) = Some (Ok r) ->
  run_calls veq f ((pre ++ (args, []) :: mid) ++ [(args, [])]) st0 = (rs ++ [Ok r], st).
Proof.
move=> V R St veq f Hr Hs Ht pre mid args st0 rs st r E En.
refine (memo_history veq Hr Hs Ht f pre mid args args [] [] st0 rs st r E En _).
exact: teq_refl.
Qed.
Print Assumptions C25_memoize_history.

(** A call whose arguments equal those of no earlier successful call runs [f], in the state
    the earlier calls left, and returns and leaves what [f] returns and leaves.  In particular
    exceptions are not cached. *)
Theorem C25_memoize_fresh : forall (V R St : Type) (veq : V -> V -> bool)
    (f : list V -> list (V * V) -> St -> result R * St) pre (args : list V) s0 rs c s,
  run_calls veq f pre ([], s0) = (rs, (c, s)) ->
  (forall i b kb r, nth_error pre i = Some (b, kb) -> tuple_eqb veq (b ++ map fst kb) args = true ->
     nth_error rs i <> Some (Ok r)) ->
  exists c', run_calls veq f (pre ++ [(args, [])]) ([], s0) =
    (rs ++ [fst (f args [] s)], (c', snd (f args [] s))).
Proof.
move=> V R St veq f pre args s0 rs c s E H; apply: memo_fresh E _ => i b kb r.
rewrite app_nil_r; exact: H.
Qed.
Print Assumptions C25_memoize_fresh.

(** a stateless function respecting [==] is not changed by memoizing it *)
Theorem C25_memoize_transparent : forall (V R : Type) (veq : V -> V -> bool) (g : list V -> result R),
  (forall a, veq a a = true) -> (forall a b, veq a b = veq b a) ->
  (forall a b c, veq a b = true -> veq b c = true -> veq a c = true) ->
  (forall a b, tuple_eqb veq a b = true -> g a = g b) ->
  forall calls, fst (run_calls veq (fun a _ (s : unit) => (g a, s))
                      (map (fun a => (a, [])) calls) ([], tt)) = map g calls.
Proof. exact @memo_transparent. Qed.
Print Assumptions C25_memoize_transparent.

(** the state counts the calls of the wrapped function *)
Example C25_example :
  let f := fun (a : list Z) (_ : list (Z * Z)) (s : nat) => (Ok (fold_right Z.add 0 a), S s) in
  run_calls Z.eqb f [([1; 2], []); ([3], []); ([1; 2], [])] ([], 0%nat)
    = ([Ok 3; Ok 3; Ok 3], ([([3], 3); ([1; 2], 3)], 2%nat)) /\
  let g := fun (a : list Z) (_ : list (Z * Z)) (s : nat) =>
    (if Nat.eqb s 0 then Err ValueError else Ok s, S s) in
  run_calls Z.eqb g [([1], []); ([1], []); ([1], [])] ([], 0%nat)
    = ([Err ValueError; Ok 1%nat; Ok 1%nat], ([([1], 1%nat)], 2%nat)).
Proof. by []. Qed.

(** C26: the values of keyword arguments are ignored: for all [A], [B] the
    second call returns the result computed for [A]. *)
Theorem C26_memoize_keyword_collision : forall (V R St : Type) (veq : V -> V -> bool)
    (f : list V -> list (V * V) -> St -> result R * St),
  (forall a, veq a a = true) -> (forall a b, veq a b = veq b a) ->
  (forall a b c, veq a b = true -> veq b c = true -> veq a c = true) ->
  forall pre mid (args : list V) (name A B : V) st0 rs st r,
  run_calls veq f (pre ++ (args, [(name, A)]) :: mid) st0 = (rs, st) ->
  nth_error rs (length pre) = Some (Ok r) ->
  run_calls veq f ((pre ++ (args, [(name, A)]) :: mid) ++ [(args, [(name, B)])]) st0 = (rs ++ [Ok r], st).
Proof.
move=> V R St veq f Hr Hs Ht pre mid args name A B st0 rs st r E En.
refine (memo_history veq Hr Hs Ht f pre mid args args [(name, A)] [(name, B)] st0 rs st r E En _).
exact: teq_refl.
Qed.
Print Assumptions C26_memoize_keyword_collision.

(** a keyword name given as a positional value collides as well *)
Theorem C26_memoize_positional_collision : forall (V R St : Type) (veq : V -> V -> bool)
    (f : list V -> list (V * V) -> St -> result R * St),
  (forall a, veq a a = true) -> (forall a b, veq a b = veq b a) ->
  (forall a b c, veq a b = true -> veq b c = true -> veq a c = true) ->
  forall pre mid (args : list V) (name A : V) st0 rs st r,
  run_calls veq f (pre ++ (args, [(name, A)]) :: mid) st0 = (rs, st) ->
  nth_error rs (length pre) = Some (Ok r) ->
  run_calls veq f ((pre ++ (args, [(name, A)]) :: mid) ++ [(args ++ [name], [])]) st0 = (rs ++ [Ok r], st).
Proof.
move=> V R St veq f Hr Hs Ht pre mid args name A st0 rs st r E En.
refine (memo_history veq Hr Hs Ht f pre mid args (args ++ [name]) [(name, A)] [] st0 rs st r E En _).
rewrite app_nil_r; exact: teq_refl.
Qed.
Print Assumptions C26_memoize_positional_collision.

(** name 100 with value 5, then with value 6: the result is computed once *)
Example C26_example :
  let f := fun (a : list Z) (k : list (Z * Z)) (s : nat) => (Ok (fold_right Z.add 0 (map snd k)), S s) in
  fst (run_calls Z.eqb f [([2; 4], [(100, 5)]); ([2; 4], [(100, 6)])] ([], 0%nat)) = [Ok 5; Ok 5] /\
  fst (run_calls Z.eqb f [([2; 4], [(100, 6)])] ([], 0%nat)) = [Ok 6].
Proof. by []. Qed.

(** C39 *)
Theorem C39_indices_in_range : forall (H : bytes -> bytes) (fuel : nat) (entropy : bytes) (modulus count : Z),
  (forall x, length (H x) = 32%nat) ->
  0 < modulus < 2 ^ 24 -> 4 * count <= Z.of_nat (length entropy) + 32 * Z.of_nat fuel ->
  exists l, get_pseudorandom_indices H fuel entropy modulus count 0 = Ok l /\
    Z.of_nat (length l) = Z.max 0 count /\ Forall (fun x => 0 <= x < modulus) l.
Proof. exact indices_plain. Qed.
Print Assumptions C39_indices_in_range.

Theorem C39_indices_exclude : forall (H : bytes -> bytes) (fuel : nat) (entropy : bytes) (modulus count e : Z),
  (forall x, length (H x) = 32%nat) ->
  modulus < 2 ^ 24 -> 2 <= e -> 2 <= modulus ->
  4 * count <= Z.of_nat (length entropy) + 32 * Z.of_nat fuel ->
  exists l, get_pseudorandom_indices H fuel entropy modulus count e = Ok l /\
    Z.of_nat (length l) = Z.max 0 count /\
    Forall (fun x => 0 <= x < modulus /\ x mod e <> 0) l.
Proof. exact indices_exclude. Qed.
Print Assumptions C39_indices_exclude.

(** the map used at line 90 from samples to indices is a bijection between
    [0, modulus*(e-1)//e) and the allowed indices *)
Theorem C39_sample_map_bijective : forall e m : Z, 2 <= e ->
  [/\ (forall x, 0 <= x < m * (e - 1) / e -> 0 <= x + 1 + x / (e - 1) < m /\ (x + 1 + x / (e - 1)) mod e <> 0),
      (forall y, 0 <= y < m -> y mod e <> 0 -> exists x, 0 <= x < m * (e - 1) / e /\ x + 1 + x / (e - 1) = y) &
      (forall x y, 0 <= x -> 0 <= y -> x + 1 + x / (e - 1) = y + 1 + y / (e - 1) -> x = y)].
Proof.
move=> e m He; split.
- by move=> x; exact: to_index_spec.
- by move=> y; exact: to_index_onto.
- by move=> x y; exact: to_index_inj.
Qed.
Print Assumptions C39_sample_map_bijective.

(** exactly which indices: sample i is the i-th big-endian 4-byte word of the entropy
    followed by h_0, h_1, ..., where h_0 is the hash of the last (at most 32) bytes of the
    entropy and h_(k+1) the hash of h_k; also for negative arguments *)
Theorem C39_indices_exact : forall (H : bytes -> bytes) (fuel n : nat) (entropy pre tail : bytes) (modulus count e : Z),
  (forall x, length (H x) = 32%nat) -> modulus < 2 ^ 24 ->
  4 * count <= Z.of_nat (length entropy) + 32 * Z.of_nat n -> (n <= fuel)%nat ->
  entropy = pre ++ tail -> length tail = Nat.min 32 (length entropy) ->
  let data := entropy ++ concat (map (fun k => Nat.iter k H (H tail)) (seq 0 n)) in
  let m := if e =? 0 then modulus else modulus * (e - 1) / e in
  let x i := from_bytes_be (firstn 4 (skipn (4 * i) data)) mod m in
  m <> 0 -> get_pseudorandom_indices H fuel entropy modulus count e =
    Ok (map (fun i => if e =? 0 then x i else x i + 1 + x i / (e - 1)) (seq 0 (Z.to_nat count))).
Proof.
move=> H fuel n entropy pre tail modulus count e H32 Hm Hn Hf E Lt.
have T : last32 entropy = tail.
  rewrite /last32 {2}E skipn_app (_ : length entropy - 32 = length pre)%nat; last first.
    by move: Lt; rewrite E app_length; lia.
  by rewrite skipn_all Nat.sub_diag.
by rewrite -T; apply: indices_exact.
Qed.
Print Assumptions C39_indices_exact.

Theorem C39_rejected_arguments : forall (H : bytes -> bytes) (fuel : nat) (entropy : bytes) (modulus count e : Z),
  (2 ^ 24 <= modulus -> get_pseudorandom_indices H fuel entropy modulus count e = Err AssertionError) /\
  ((forall x, length (H x) = 32%nat) -> modulus < 2 ^ 24 -> 1 <= count ->
   4 * count <= Z.of_nat (length entropy) + 32 * Z.of_nat fuel ->
   get_pseudorandom_indices H fuel entropy modulus count 1 = Err ZeroDivisionError).
Proof.
move=> H fuel entropy modulus count e; split.
- exact: indices_big_modulus.
- exact: indices_exclude_one.
Qed.
Print Assumptions C39_rejected_arguments.

Example C39_example :
  get_pseudorandom_indices toyhash 3 [x00; x00; x01; x07; x00; x00; x02; x0b] 100 2 0 = Ok [63; 23] /\
  get_pseudorandom_indices toyhash 3 [x00; x00; x01; x07; x00; x00; x02; x0b] 100 2 8 = Ok [3; 2] /\
  rmap (@length _) (get_pseudorandom_indices toyhash 3 [x01] 100 20 8) = Ok 20%nat /\
  get_pseudorandom_indices toyhash 3 [x00; x00; x01; x07; x00; x00; x02; x0b] 100 2 (-1) = Ok [32; 62].
Proof. by vm_compute. Qed.

(** C40 *)
Theorem C40_is_a_power_of_2 : forall (fuel : nat) (x : Z), x <> 0 -> Z.abs x < 2 ^ Z.of_nat fuel ->
  exists b, is_a_power_of_2 fuel x = Ok b /\ (b = true <-> exists k, 0 <= k /\ x = 2 ^ k).
Proof. exact pow2_spec. Qed.
Print Assumptions C40_is_a_power_of_2.

Theorem C40_zero_never_returns : forall fuel : nat, is_a_power_of_2 fuel 0 = Err Diverges.
Proof. exact pow2_zero. Qed.
Print Assumptions C40_zero_never_returns.

Example C40_example :
  map (is_a_power_of_2 10) [1; 2; 3; 512; 768; -1; -8] =
    [Ok true; Ok true; Ok false; Ok true; Ok false; Ok false; Ok false].
Proof. by []. Qed.

(** C74: the modulus used by [mimc] and throughout the tests is prime. *)
Theorem C74_modulus_is_prime : Znumtheory.prime (2 ^ 256 - 2 ^ 32 * 351 + 1).
Proof. exact prime_mimc. Qed.
Print Assumptions C74_modulus_is_prime.

Example C74_example : 2 ^ 256 - 2 ^ 32 * 351 + 1
  = 115792089237316195423570985008687907853269984665640564039457584006405596119041.
Proof. by []. Qed.

(** C75: for every number of steps and non-empty round constants [mimc] is a
    permutation of [0, p). *)
Theorem C75_mimc_total : forall (inp steps : Z) (rc : list Z), rc <> [] ->
  exists r, mimc inp steps rc = Ok r /\ (2 <= steps -> 0 <= r < 2 ^ 256 - 2 ^ 32 * 351 + 1).
Proof. exact mimc_total. Qed.
Print Assumptions C75_mimc_total.

Theorem C75_mimc_injective : forall (inp1 inp2 steps : Z) (rc : list Z) (r : Z), rc <> [] ->
  0 <= inp1 < 2 ^ 256 - 2 ^ 32 * 351 + 1 -> 0 <= inp2 < 2 ^ 256 - 2 ^ 32 * 351 + 1 ->
  mimc inp1 steps rc = Ok r -> mimc inp2 steps rc = Ok r -> inp1 = inp2.
Proof. exact mimc_injective. Qed.
Print Assumptions C75_mimc_injective.

Theorem C75_mimc_surjective : forall (steps : Z) (rc : list Z) (y : Z), rc <> [] ->
  0 <= y < 2 ^ 256 - 2 ^ 32 * 351 + 1 ->
  exists x, 0 <= x < 2 ^ 256 - 2 ^ 32 * 351 + 1 /\ mimc x steps rc = Ok y.
Proof. exact mimc_surjective. Qed.
Print Assumptions C75_mimc_surjective.

(** one more step cubes and adds the next round constant, cyclically; [steps]
    counts states, so [steps - 1] rounds are made *)
Theorem C75_mimc_step : forall (inp steps : Z) (rc : list Z), rc <> [] -> 1 <= steps ->
  mimc inp (steps + 1) rc =
    let* x := mimc inp steps rc in
    Ok ((x ^ 3 + nth (Z.to_nat (steps - 1) mod length rc) rc 0) mod (2 ^ 256 - 2 ^ 32 * 351 + 1)).
Proof. exact mimc_S. Qed.
Print Assumptions C75_mimc_step.

Theorem C75_mimc_edges : forall (inp steps : Z) (rc : list Z),
  (steps <= 1 -> mimc inp steps rc = Ok inp) /\ (2 <= steps -> mimc inp steps [] = Err ZeroDivisionError).
Proof. by move=> inp steps rc; split; [exact: mimc_le1 | exact: mimc_no_constants]. Qed.
Print Assumptions C75_mimc_edges.

Example C75_example : mimc 3 4 [5; 7] = Ok ((((3 ^ 3 + 5) ^ 3 + 7) ^ 3 + 5)).
Proof. by vm_compute. Qed.
