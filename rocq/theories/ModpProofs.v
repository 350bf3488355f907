(** Proofs about starks/modp.py at the level of ints. *)
From Coq Require Import ZArith List Lia Znumtheory FinFun.
From Verif Require Import Base BaseProofs EuclidModel EuclidProofs PowModel PowProofs ModpModel.
Local Open Scope Z_scope.

(** Specification vocabulary: [r] is the canonical representative of the
    integer [z] modulo [p]. *)
Definition canonical_of (p r z : Z) := 0 <= r < p /\ (p | z - r).
Definition canonical (p r : Z) := 0 <= r < p.

Lemma mult_small p x k : - p < x < p -> x = k * p -> x = 0.
Proof.
  intros B E. destruct (Z.lt_total k 0) as [H|[H|H]]; [|subst; lia|].
  - assert (k * p <= -1 * p) by (apply Z.mul_le_mono_nonneg_r; lia). lia.
  - assert (1 * p <= k * p) by (apply Z.mul_le_mono_nonneg_r; lia). lia.
Qed.

Lemma mod_canonical p z : 0 < p -> canonical_of p (z mod p) z.
Proof.
  intros H. split; [apply Z.mod_pos_bound; auto|].
  exists (z / p). rewrite Z.mod_eq by lia. lia.
Qed.

Lemma modp_divmod_spec p a b : canonical p a -> canonical p b -> b <> 0 ->
  exists q r, modp_divmod p a b = Ok (q, r) /\ canonical p q /\ a = q * b + r /\ 0 <= r < b.
Proof.
  unfold canonical. intros Ha Hb Hn. exists (a / b), (a mod b).
  assert (Hm := Z.mod_pos_bound a b ltac:(lia)).
  assert (Hd := Z.div_mod a b Hn).
  assert (Hq := Z.div_pos a b ltac:(lia) ltac:(lia)).
  assert (Hq' : a / b <= a) by (apply Z.div_le_upper_bound; nia).
  unfold modp_divmod, int_divmod. destruct (Z.eqb_spec b 0); [lia|]. cbn. unfold modp_mk.
  rewrite !Z.mod_small by lia. repeat split; lia.
Qed.
Lemma modp_divmod_zero p a : modp_divmod p a 0 = Err ZeroDivisionError.
Proof. reflexivity. Qed.

Lemma canonical_of_unique p r1 r2 z : canonical_of p r1 z -> canonical_of p r2 z -> r1 = r2.
Proof.
  intros [B1 [k1 E1]] [B2 [k2 E2]].
  assert (H : r1 - r2 = (k2 - k1) * p) by (rewrite Z.mul_sub_distr_r; lia).
  apply mult_small in H; lia.
Qed.

Lemma modp_mk_spec p n : 0 < p -> canonical_of p (modp_mk p n) n.
Proof. apply mod_canonical. Qed.
Lemma modp_add_spec p a b : 0 < p -> canonical_of p (modp_add p a b) (a + b).
Proof. apply mod_canonical. Qed.
Lemma modp_sub_spec p a b : 0 < p -> canonical_of p (modp_sub p a b) (a - b).
Proof. apply mod_canonical. Qed.
Lemma modp_mul_spec p a b : 0 < p -> canonical_of p (modp_mul p a b) (a * b).
Proof. apply mod_canonical. Qed.
Lemma modp_neg_spec p a : 0 < p -> canonical_of p (modp_neg p a) (- a).
Proof. apply mod_canonical. Qed.

Lemma modp_eq_spec p a b : canonical p a -> canonical p b ->
  (modp_eq a b = true <-> (p | a - b)) /\ (modp_ne a b = true <-> ~ (p | a - b)).
Proof.
  intros Ha Hb. unfold canonical in *. unfold modp_eq, modp_ne.
  assert (E : a = b <-> (p | a - b)).
  { split; [intros ->; exists 0; lia|]. intros [k Hk]. apply mult_small in Hk; lia. }
  destruct (Z.eqb_spec a b); cbn; split; split; intros; try tauto; try congruence.
Qed.

Lemma modp_inverse_coprime p a : 0 < p -> 0 <= a -> Z.gcd a p = 1 ->
  exists y, modp_inverse p a = Ok y /\ canonical p y /\ (p | a * y - 1).
Proof.
  intros Hp Ha Hg. destruct (eea_int_spec a p) as (x & y & g & E & G & B & S).
  rewrite gcd_int_nonneg in G by lia. rewrite Hg in G. injection G as G. rewrite <- G in *. clear G.
  unfold modp_inverse. rewrite E. cbn -[Z.modulo]. exists (x mod p). split; [reflexivity|].
  split; [apply Z.mod_pos_bound; auto|].
  exists (- y - a * (x / p)). rewrite Z.mod_eq by lia. lia.
Qed.

Lemma modp_inverse_noncoprime p a : 0 < p -> 0 <= a -> Z.gcd a p <> 1 ->
  modp_inverse p a = Err InverseError.
Proof.
  intros Hp Ha Hg. destruct (eea_int_spec a p) as (x & y & g & E & G & B & S).
  rewrite gcd_int_nonneg in G by lia. injection G as G. rewrite <- G in *. clear G.
  unfold modp_inverse. rewrite E. cbn -[Z.modulo Z.gcd].
  destruct (Z.eqb_spec (Z.gcd a p) 1); congruence.
Qed.

Lemma prime_gcd p a : prime p -> 0 < a < p -> Z.gcd a p = 1.
Proof.
  intros Hp Ha. apply Zgcd_1_rel_prime,  rel_prime_le_prime; auto. lia.
Qed.

Lemma modp_pow_spec p a n : 1 < p -> canonical p a -> 0 <= n ->
  exists r, modp_pow p a n = Ok r /\ canonical_of p r (a ^ n).
Proof.
  intros Hp Ha Hn. unfold modp_pow, dom_pow.
  apply (pow_gen_spec Z (modp_mk p 1) _ (fun y k => canonical_of p y (a ^ k))); auto.
  - intros x y j k Hj Hk [_ [u Hu]] [_ [v Hv]]. eexists. split; [reflexivity|].
    destruct (modp_mul_spec p x y ltac:(lia)) as [B [w Hw]]. split; auto.
    exists (w + u * y + v * a ^ j). rewrite Z.pow_add_r by lia.
    replace (a ^ j) with (x + u * p) in * by lia.
    replace (a ^ k) with (y + v * p) in * by lia.
    replace (modp_mul p x y) with (x * y - w * p) by lia. ring.
  - rewrite Z.pow_1_r. split; auto. exists 0; lia.
  - apply modp_mk_spec. lia.
Qed.

Lemma modp_pow_neg p a n : n < 0 ->
  modp_pow p a n = Ok (if Z.odd n then a else modp_mk p 1).
Proof. apply pow_gen_neg. Qed.

Lemma modp_bytes_roundtrip a : 0 <= a < 2 ^ 256 ->
  exists b, modp_to_bytes a = Ok b /\ length b = 32%nat /\ modp_of_bytes b = a.
Proof. intros H. apply to_bytes_be_ok. exact H. Qed.

Lemma modp_to_bytes_overflow a : 2 ^ 256 <= a -> modp_to_bytes a = Err OverflowError.
Proof. intros H. apply to_bytes_be_err. change (256 ^ Z.of_nat 32) with (2 ^ 256). lia. Qed.

(** Commutative ring laws on canonical elements, every modulus p > 1. *)
Lemma modp_ring_laws p : 1 < p ->
  (forall a b, canonical p (modp_add p a b) /\ canonical p (modp_mul p a b) /\ canonical p (modp_neg p a)) /\
  (forall a b c, modp_add p a (modp_add p b c) = modp_add p (modp_add p a b) c) /\
  (forall a b, modp_add p a b = modp_add p b a) /\
  (forall a, canonical p a -> modp_add p a (modp_mk p 0) = a) /\
  (forall a, modp_add p a (modp_neg p a) = modp_mk p 0) /\
  (forall a b, modp_sub p a b = modp_add p a (modp_neg p b)) /\
  (forall a b c, modp_mul p a (modp_mul p b c) = modp_mul p (modp_mul p a b) c) /\
  (forall a b, modp_mul p a b = modp_mul p b a) /\
  (forall a, canonical p a -> modp_mul p a (modp_mk p 1) = a) /\
  (forall a b c, modp_mul p a (modp_add p b c) = modp_add p (modp_mul p a b) (modp_mul p a c)) /\
  modp_mk p 1 <> modp_mk p 0.
Proof.
  intros Hp. unfold canonical, modp_add, modp_mul, modp_neg, modp_sub, modp_mk.
  repeat split; intros; try (apply Z.mod_pos_bound; lia).
  - rewrite Zplus_mod_idemp_r, Zplus_mod_idemp_l. f_equal. ring.
  - f_equal; ring.
  - rewrite Zplus_mod_idemp_r, Z.add_0_r. apply Z.mod_small; lia.
  - rewrite Zplus_mod_idemp_r. f_equal. ring.
  - rewrite Zplus_mod_idemp_r. f_equal.
  - rewrite Zmult_mod_idemp_r, Zmult_mod_idemp_l. f_equal. ring.
  - f_equal; ring.
  - rewrite Zmult_mod_idemp_r, Z.mul_1_r. apply Z.mod_small; lia.
  - rewrite Zmult_mod_idemp_r, <- Zplus_mod. f_equal. ring.
  - rewrite Z.mod_0_l, Z.mod_small by lia. lia.
Qed.

Lemma modp_inverse_iff p a : 1 < p -> canonical p a ->
  (Z.gcd a p = 1 -> exists y, modp_inverse p a = Ok y /\ canonical p y /\
                              modp_mul p a y = modp_mk p 1) /\
  (Z.gcd a p <> 1 -> modp_inverse p a = Err InverseError).
Proof.
  intros Hp Ha. unfold canonical in *. split; intros H.
  - destruct (modp_inverse_coprime p a ltac:(lia) ltac:(lia) H) as (y & E & C & [k D]).
    exists y. split; [exact E|]. split; [exact C|]. unfold modp_mul, modp_mk.
    replace (a * y) with (1 + k * p) by lia. apply Z_mod_plus_full.
  - apply modp_inverse_noncoprime; lia.
Qed.

Lemma modp_inverse_prime p a : prime p -> canonical p a ->
  (a <> 0 -> exists y, modp_inverse p a = Ok y /\ canonical p y /\
                       modp_mul p a y = modp_mk p 1) /\
  (a = 0 -> modp_inverse p a = Err InverseError).
Proof.
  intros Hp Ha. pose proof (prime_ge_2 p Hp).
  destruct (modp_inverse_iff p a ltac:(lia) Ha) as [H1 H2]. unfold canonical in Ha. split; intros E.
  - apply H1. apply prime_gcd; auto. lia.
  - apply H2. subst. rewrite Z.gcd_0_l. lia.
Qed.

Lemma modp_div_spec p a b : prime p -> canonical p a -> canonical p b -> b <> 0 ->
  exists c, modp_div p a b = Ok c /\ canonical p c /\ modp_mul p c b = a.
Proof.
  intros Hp Ha Hb Hb0. pose proof (prime_ge_2 p Hp).
  destruct (proj1 (modp_inverse_prime p b Hp Hb) Hb0) as (y & E & C & M).
  unfold modp_div. rewrite E. cbn -[modp_mul]. eexists. split; [reflexivity|].
  destruct (modp_ring_laws p ltac:(lia)) as (R1 & _ & _ & _ & _ & _ & RA & RC & R0 & _).
  split; [apply (R1 a y)|].
  rewrite <- RA, (RC y b), M. apply R0; auto.
Qed.

Lemma modp_iter_spec p : 0 < p -> NoDup (modp_iter p) /\ forall x, In x (modp_iter p) <-> canonical p x.
Proof.
  intros Hp. unfold modp_iter, canonical.
  assert (E : map (fun i => modp_mk p (Z.of_nat i)) (seq 0 (Z.to_nat p)) = map Z.of_nat (seq 0 (Z.to_nat p))).
  { apply map_ext_in. intros i Hi. apply in_seq in Hi. unfold modp_mk. apply Z.mod_small. lia. }
  rewrite E. split.
  - apply FinFun.Injective_map_NoDup; [|apply seq_NoDup]. intros i j. lia.
  - intros x. rewrite in_map_iff. split.
    + intros (i & <- & Hi). apply in_seq in Hi. lia.
    + intros Hx. exists (Z.to_nat x). split; [lia|]. apply in_seq. lia.
Qed.

Lemma modp_bytes_eq_bad p : 1 < p < 256 -> exists b : bytes,
  (p | modp_of_bytes b - modp_mk p 0) /\ modp_eq (modp_of_bytes b) (modp_mk p 0) = false.
Proof.
  intros Hp. exists (cons (byte_of p) nil). unfold modp_of_bytes, from_bytes_be. cbn -[Z.mul].
  rewrite byte_val_of, Z.mod_small by lia. unfold modp_mk; cbn [Z.modulo]; rewrite ?Z.mod_0_l by lia.
  split; [exists 1; lia|]. unfold modp_eq. apply Z.eqb_neq. lia.
Qed.
