(** Property theorems C34-C38: starks/fft.py (multiplicative FFT) and
    [get_power_cycle].  [order_is w n]: n is the multiplicative order of [w];
    [fft_size n]: n = m * 2^k with 1 <= m <= 4.  The [fuel] bounds the number of
    iterations of the root-collecting loop. *)
From mathcomp Require Import zify.
From Verif Require Import Prelude ModpModel ModpField PolyModel PolyProofs InterpModel InterpProofs
  FftModel FftProofs.
Import GRing.Theory.
Local Open Scope ring_scope.
Local Open Scope py_scope.

Local Notation z17 l := [seq in_modp P17 z | z <- l].
Local Notation z31 l := [seq in_modp P31 z | z <- l].

(** C34 *)
Theorem C34_fft_is_evaluation : forall (F : fieldType) (fuel : nat) (p : Z) (w : F) (n : nat) (c : seq F),
  fft_size n -> order_is w n -> (n <= fuel)%N -> (size c <= n)%N ->
  nb_fft fuel p w c = Ok [seq pcall c (w ^+ i) | i <- iota 0 n].
Proof. exact nb_fft_spec. Qed.
Print Assumptions C34_fft_is_evaluation.

Lemma order_2_17 : order_is (in_modp P17 2) 8.
Proof.
split=> //; first exact: mval_inj.
move=> i Hi; have {Hi} : i \in iota 1 7 by rewrite mem_iota.
by move: i; apply/allP; vm_compute.
Qed.

Example C34_example : fft_size 8 /\ order_is (in_modp P17 2) 8 /\
  rmap (map (@mval P17)) (nb_fft 8 17 (in_modp P17 2) (z17 [:: 1; 2; 3]%Z))
    = Ok [:: 6; 0; 6; 5; 2; 9; 7; 7]%Z.
Proof.
split; first by exists 1%N, 3%N.
by split; [exact: order_2_17 | vm_compute].
Qed.

(** C35: the two directions. [p] is the characteristic (the code's [field.p]). *)
Theorem C35_inverse_of_fft : forall (F : fieldType) (fuel p : nat) (w : F) (n : nat) (c : seq F),
  p \in [char F] -> fft_size n -> order_is w n -> (n <= fuel)%N -> normal c -> (size c <= n)%N ->
  (let* v := nb_fft fuel (Z.of_nat p) w c in nb_inv_fft fuel (Z.of_nat p) w v) = Ok c.
Proof. exact inv_fft_fft. Qed.
Print Assumptions C35_inverse_of_fft.

Theorem C35_fft_of_inverse : forall (F : fieldType) (fuel p : nat) (w : F) (n : nat) (v : seq F),
  p \in [char F] -> fft_size n -> order_is w n -> (n <= fuel)%N -> size v = n ->
  (let* c := nb_inv_fft fuel (Z.of_nat p) w v in nb_fft fuel (Z.of_nat p) w c) = Ok v.
Proof. exact fft_inv_fft. Qed.
Print Assumptions C35_fft_of_inverse.

Example C35_example :
  rmap (map (@mval P17)) (nb_inv_fft 8 17 (in_modp P17 2) (z17 [:: 6; 0; 6; 5; 2; 9; 7; 7]%Z))
    = Ok [:: 1; 2; 3]%Z.
Proof. by vm_compute. Qed.

(** C36: [mul_polys] is n times the cyclic convolution: coefficient k of the
    result is n * (c_k + c_(n+k)) with c = a * b. *)
Theorem C36_mul_polys : forall (F : fieldType) (fuel : nat) (w : F) (n : nat) (a b : seq F),
  fft_size n -> order_is w n -> (n <= fuel)%N -> (size a <= n)%N -> (size b <= n)%N ->
  exists r, [/\ mul_polys fuel a b w = Ok r, size r = n &
     forall k, (k < n)%N -> nth 0 r k =
       n%:R * (nth 0 (Poly a * Poly b) k + nth 0 (Poly a * Poly b) (n + k))].
Proof. exact mul_polys_spec. Qed.
Print Assumptions C36_mul_polys.

(** The docstring's claim "multiply polynomials" is false even without wrap-around. *)
Theorem C36_product_refuted :
  ~ (forall (F : fieldType) (fuel : nat) (w : F) (n : nat) (a b r : seq F),
       fft_size n -> order_is w n -> (n <= fuel)%N -> (size a + size b <= n)%N ->
       mul_polys fuel a b w = Ok r -> Poly r = Poly a * Poly b).
Proof.
move=> H; pose one := [:: in_modp P17 1].
have [|||||r [E _ _]] := @mul_polys_spec (modp_fieldType P17) 8 (in_modp P17 2) 8 one one.
- by exists 1%N, 3%N.
- exact: order_2_17.
- by [].
- by [].
- by [].
have /(congr1 (fun q : {poly modp_fieldType P17} => mval q`_0)) :=
  H _ 8%N (in_modp P17 2) 8%N one one r (ex_intro _ 1%N (ex_intro _ 3%N (And3 isT isT (Logic.eq_refl _))))
  order_2_17 isT isT E.
rewrite -Poly_pmul !coef_Poly; move: E; vm_compute => -[<-]; by [].
Qed.
Print Assumptions C36_product_refuted.

Example C36_example :
  rmap (map (@mval P17)) (mul_polys 8 (z17 [:: 1; 1]%Z) (z17 [:: 1; 1]%Z) (in_modp P17 2))
    = Ok [:: 8; 16; 8; 0; 0; 0; 0; 0]%Z.
Proof. by vm_compute. Qed.

(** C37: any other order of the root raises IndexError, on every input ... *)
Theorem C37_unsupported_order : forall (F : fieldType) (fuel : nat) (p : Z) (w : F) (n : nat) (c : seq F),
  ~ fft_size n -> order_is w n -> (n <= fuel)%N -> (size c <= n)%N ->
  nb_fft fuel p w c = Err IndexError.
Proof. exact nb_fft_bad. Qed.
Print Assumptions C37_unsupported_order.

(** ... root 0 never terminates ... *)
Theorem C37_zero_root_diverges : forall (F : fieldType) (fuel : nat) (p : Z) (c : seq F) (inv : bool),
  fft_1d fuel c p 0 inv = Err Diverges.
Proof. exact fft_zero_root. Qed.
Print Assumptions C37_zero_root_diverges.

(** ... and with more coefficients than points the result is not the list of evaluations. *)
Theorem C37_large_degree_refuted :
  ~ (forall (F : fieldType) (fuel : nat) (p : Z) (w : F) (n : nat) (c r : seq F),
       fft_size n -> order_is w n -> (n <= fuel)%N ->
       nb_fft fuel p w c = Ok r -> r = [seq pcall c (w ^+ i) | i <- iota 0 n]).
Proof.
move=> H.
have Ho : order_is (1 : modp_fieldType P17) 1 by split=> // -[|[|i]].
have := H (modp_fieldType P17) 1%N 17%Z 1 1%N (z17 [:: 1; 1]%Z) (z17 [:: 1]%Z)
  (ex_intro _ 1%N (ex_intro _ 0%N (And3 isT isT (Logic.eq_refl _)))) Ho isT.
have E : nb_fft 1 17 (1 : modp_fieldType P17) (z17 [:: 1; 1]%Z) = Ok (z17 [:: 1]%Z).
  have : rmap (map (@mval P17)) (nb_fft 1 17 (1 : modp_fieldType P17) (z17 [:: 1; 1]%Z)) = Ok [:: 1%Z] by vm_compute.
  case: (nb_fft _ _ _ _) => //= l [E]; congr Ok; apply: (inj_map (@mval_inj P17)); by rewrite E.
by move=> /(_ E) /(congr1 (map (@mval P17))).
Qed.
Print Assumptions C37_large_degree_refuted.

Lemma order_5_31 : order_is (in_modp P31 2) 5.
Proof.
split=> //; first exact: mval_inj.
move=> i Hi; have {Hi} : i \in iota 1 4 by rewrite mem_iota.
by move: i; apply/allP; vm_compute.
Qed.

Example C37_example : ~ fft_size 5 /\ order_is (in_modp P31 2) 5 /\
  nb_fft 5 31 (in_modp P31 2) (z31 [:: 1; 2]%Z) = Err IndexError.
Proof.
split; last by split; [exact: order_5_31 | vm_compute].
move=> [m [[|k] [H1 H2 H3]]]; first by lia.
by move: H3; rewrite expnS; lia.
Qed.

(** C38: [get_power_cycle] *)
Theorem C38_power_cycle : forall (F : fieldType) (w : F) (n fuel : nat), order_is w n -> (n <= fuel)%N ->
  exists l, [/\ get_power_cycle fuel w = Ok l, size l = n, uniq l &
                forall i, (i < n)%N -> nth 0 l i = w ^+ i].
Proof. exact get_power_cycle_spec. Qed.
Print Assumptions C38_power_cycle.

Theorem C38_infinite_order_diverges : forall (F : fieldType) (w : F),
  (forall i, (0 < i)%N -> w ^+ i != 1) -> forall fuel, get_power_cycle fuel w = Err Diverges.
Proof. exact get_power_cycle_diverges. Qed.
Print Assumptions C38_infinite_order_diverges.

(** Over a finite field the loop terminates on every non-zero element, and 0 diverges. *)
Theorem C38_finite_field : forall (F : finFieldType) (w : F),
  (w != 0 -> exists n, order_is w n /\ (n < #|F|)%N) /\
  (w = 0 -> forall fuel, get_power_cycle fuel w = Err Diverges).
Proof. exact finite_order. Qed.
Print Assumptions C38_finite_field.

Example C38_example : rmap (map (@mval P17)) (get_power_cycle 8 (in_modp P17 2))
  = Ok [:: 1; 2; 4; 8; 16; 15; 13; 9]%Z.
Proof. by vm_compute. Qed.
