(** Proofs about the model of misc/primality.py and misc/blum_blum_shub.py. *)
From Coq Require Import Bool ZArith List Lia Znumtheory.
From Coq Require Import ssreflect ssrbool.
From Verif Require Import Base BaseProofs PrimalityModel FermatZ.
Import ListNotations.
Local Open Scope Z_scope.
Local Set SsrOldRewriteGoalsOrder.
Local Set Bullet Behavior "None".
Local Set Implicit Arguments.
Local Unset Strict Implicit.

(** ** Congruences *)
Definition cg (n a b : Z) : Prop := (n | a - b).

Lemma cg_refl n a : cg n a a. Proof. by exists 0; lia. Qed.
Lemma cg_sym n a b : cg n a b -> cg n b a.
Proof. by move=> [k H]; exists (- k); lia. Qed.
Lemma cg_trans n a b c : cg n a b -> cg n b c -> cg n a c.
Proof. by move=> [k H] [l L]; exists (k + l); lia. Qed.
Lemma cg_mul n a b c d : cg n a b -> cg n c d -> cg n (a * c) (b * d).
Proof. by move=> [k H] [l L]; exists (k * c + b * l); nia. Qed.
Lemma cg_add n a b c d : cg n a b -> cg n c d -> cg n (a + c) (b + d).
Proof. by move=> [k H] [l L]; exists (k + l); lia. Qed.
Lemma cg_pow n a b e : 0 <= e -> cg n a b -> cg n (a ^ e) (b ^ e).
Proof.
move=> He H; move: e He; apply: natlike_ind; first by rewrite !Z.pow_0_r; apply: cg_refl.
by move=> e He IH; rewrite !Z.pow_succ_r //; apply: cg_mul.
Qed.
Lemma cg_sub n d a b : (d | n) -> cg n a b -> cg d a b.
Proof. by move=> H1 H2; apply: Z.divide_trans H2. Qed.
Lemma cg_mod n a : n <> 0 -> cg n (a mod n) a.
Proof. by move=> H; exists (- (a / n)); have := Z.div_mod a n H; lia. Qed.
Lemma cg_eq n a b : n <> 0 -> (a mod n = b mod n <-> cg n a b).
Proof.
move=> H; split=> E.
  by apply: (cg_trans (b := a mod n)); [apply/cg_sym/cg_mod|rewrite E; apply: cg_mod].
case: E => k E; have -> : a = b + k * n by lia.
by rewrite Z.mod_add.
Qed.
Lemma cg_val n a b : 0 <= b < n -> (a mod n = b <-> cg n a b).
Proof. by move=> H; rewrite -cg_eq ?(Z.mod_small b) //; lia. Qed.

(** ** Splitting off the powers of two *)
Lemma decompose_loop_ok fuel : forall e n, 0 < n < 2 ^ Z.of_nat fuel ->
  exists s r, decompose_loop fuel e n = Ok (e + s, r) /\ 0 <= s /\ 0 < r /\
    r mod 2 = 1 /\ n = 2 ^ s * r.
Proof.
elim: fuel => [|fuel IH] e n Hn; first by move: Hn => /=; lia.
rewrite Nat2Z.inj_succ Z.pow_succ_r in Hn; last by lia.
rewrite /=; case: (Z.eqb_spec (n mod 2) 0) => E.
  have En := Z.div_mod n 2 ltac:(lia).
  case: (IH (e + 1) (n / 2)) => [|s [r [H1 [H2 [H3 [H4 H5]]]]]]; first by lia.
  exists (1 + s), r; rewrite H1; split; first by do 2 f_equal; lia.
  do !split=> //; first lia.
  rewrite Z.pow_add_r; [lia|lia|]; lia.
exists 0, n; split; first by do 2 f_equal; lia.
do !split=> //; try lia.
by have := Z.mod_pos_bound n 2; lia.
Qed.

Lemma two_power_odd_unique s r s' r' : 0 <= s -> 0 <= s' -> r mod 2 = 1 -> r' mod 2 = 1 ->
  2 ^ s * r = 2 ^ s' * r' -> s = s' /\ r = r'.
Proof.
wlog L : s r s' r' / s <= s'.
  move=> W H1 H2 H3 H4 E; case: (Z.le_ge_cases s s') => L; first by apply: W.
  by case: (W s' r' s r) => // -> ->.
move=> H1 H2 H3 H4 E.
have Es : s' = s + (s' - s) by lia.
rewrite Es Z.pow_add_r in E; [|lia|lia].
have P := Z.pow_pos_nonneg 2 s ltac:(lia) H1.
have E2 : r = 2 ^ (s' - s) * r' by nia.
case: (Z.eq_dec s' s) => [N|N]; first by move: E2; rewrite N Z.sub_diag Z.pow_0_r; split; lia.
exfalso; have Q : s' - s = 1 + (s' - s - 1) by lia.
rewrite Q Z.pow_add_r in E2; [|lia|lia].
have : r mod 2 = 0 by rewrite E2 -Z.mul_assoc Z.mul_comm Z.mod_mul.
lia.
Qed.

Lemma decompose_ok n : 0 < n ->
  exists s r, decompose n = Ok (s, r) /\ 0 <= s /\ 0 < r /\ r mod 2 = 1 /\ n = 2 ^ s * r.
Proof.
move=> Hn; rewrite /decompose; apply: (@decompose_loop_ok _ 0); split=> //.
rewrite Z.abs_eq; last by lia.
have L := Z.log2_nonneg n.
rewrite !Nat2Z.inj_succ Z2Nat.id // Z.pow_succ_r; last by lia.
have [_ U] := Z.log2_spec n Hn; have := Z.pow_nonneg 2 (Z.succ (Z.log2 n)); lia.
Qed.

Lemma decompose_zero fuel e : decompose_loop fuel e 0 = Err Diverges.
Proof. by elim: fuel e => //= fuel IH e; rewrite IH. Qed.

(** ** Strong liars *)
(** [a] passes the test for [p] with [p - 1 = 2^s * r]. *)
Definition strong_liar (p s r a : Z) : Prop :=
  cg p (a ^ r) 1 \/ exists i, 0 <= i < s /\ cg p (a ^ (2 ^ i * r)) (-1).

Lemma isWitnessP a p s r : 2 < p -> 0 <= s ->
  reflect (strong_liar p s r a) (negb (isWitness a p s r)).
Proof.
move=> Hp Hs; rewrite /isWitness.
case: (Z.eqb_spec ((a ^ r) mod p) 1) => E1.
  by constructor; left; apply/cg_val; [lia|].
case X: (existsb _ _) => /=; constructor.
  move: X => /existsb_exists [i [Hi /Z.eqb_eq E]]; right; exists (Z.of_nat i).
  move: Hi => /in_seq Hi; split; first lia.
  have : cg p (a ^ (2 ^ Z.of_nat i * r)) (p - 1) by apply/cg_val; [lia|].
  by move=> H; apply: cg_trans H _; exists 1; lia.
case=> [H|[i [Hi H]]]; first by apply: E1; apply/cg_val; [lia|].
move: X; apply/not_false_iff_true/existsb_exists; exists (Z.to_nat i).
split; first by apply/in_seq; lia.
rewrite Z2Nat.id; last by lia.
apply/Z.eqb_eq/cg_val; first lia.
by apply: cg_trans H _; exists (-1); lia.
Qed.

Lemma witness_loopP p s r draws : 2 < p -> 0 <= s ->
  witness_loop p s r draws = true <-> Forall (strong_liar p s r) draws.
Proof.
move=> Hp Hs; elim: draws => [|a draws IH] /=; first by split.
have -> : forall b c : bool, (if b then false else c) = (if negb b then c else false) by case.
case: (@isWitnessP a p s r Hp Hs) => H.
  by rewrite IH; split=> F; [constructor|apply: Forall_inv_tail F].
by split=> // F; case: H; apply: Forall_inv F.
Qed.

Lemma probablyPrime_odd p draws : 3 < p -> p mod 2 = 1 ->
  exists s r, 1 <= s /\ 0 < r /\ r mod 2 = 1 /\ p - 1 = 2 ^ s * r /\
    probablyPrime p draws = Ok (witness_loop p s r draws).
Proof.
move=> Hp Ho; case: (@decompose_ok (p - 1)) => [|s [r [D [H1 [H2 [H3 H4]]]]]]; first lia.
exists s, r; split; last split=> //; last split=> //; last split=> //.
  case: (Z.eq_dec s 0) => [E|]; last by lia.
  move: H4; rewrite E Z.pow_0_r Z.mul_1_l => H4.
  have E2 := Z.div_mod p 2 ltac:(lia); have E3 := Z.div_mod r 2 ltac:(lia); lia.
rewrite /probablyPrime D /=.
have -> : (p =? 2) = false by apply/Z.eqb_neq; lia.
have -> : (p =? 3) = false by apply/Z.eqb_neq; lia.
have -> : (p <? 2) = false by apply/Z.ltb_ge; lia.
have -> : (p mod 2 =? 0) = false by apply/Z.eqb_neq; lia.
by [].
Qed.

(** ** Primes are never rejected *)
Lemma prime_sqrt1 p y : prime p -> cg p (y ^ 2) 1 -> cg p y 1 \/ cg p y (-1).
Proof.
move=> Hp H; have D : (p | (y - 1) * (y + 1)).
  by move: H; rewrite /cg (_ : y ^ 2 - 1 = (y - 1) * (y + 1)) //; ring.
case: (prime_mult p Hp _ _ D) => [?|[k K]]; first by left.
by right; exists k; lia.
Qed.

Lemma prime_strong_liar p s r a : prime p -> 0 <= s -> 0 <= r -> p - 1 = 2 ^ s * r ->
  ~ (p | a) -> strong_liar p s r a.
Proof.
move=> Hp Hs Hr E Ha; have H2 := prime_ge_2 _ Hp.
have F : cg p (a ^ (2 ^ s * r)) 1.
  by apply/cg_val; [lia|rewrite -E; apply: fermat_Z].
move: F {E}; rewrite /strong_liar; move: s Hs; apply: natlike_ind.
  by rewrite Z.pow_0_r Z.mul_1_l; left.
move=> s Hs IH F.
have P := Z.pow_nonneg 2 s ltac:(lia).
have [F1|F1] : cg p (a ^ (2 ^ s * r)) 1 \/ cg p (a ^ (2 ^ s * r)) (-1).
  apply: prime_sqrt1 => //; rewrite -Z.pow_mul_r; [|nia|lia].
  by rewrite (_ : 2 ^ s * r * 2 = 2 ^ Z.succ s * r) // Z.pow_succ_r //; ring.
  case: (IH F1) => [H|[i [Hi H]]]; [by left|right; exists i; split=> //; lia].
by right; exists s; split=> //; lia.
Qed.

(** ** Composite numbers: some base is a witness *)
Lemma divisor_not_liar p s r d : 0 < r -> 0 <= s -> 1 < d -> (d | p) -> 2 < p ->
  ~ strong_liar p s r d.
Proof.
move=> Hr Hs Hd Hp Hp2.
have D : forall e, 0 < e -> (d | d ^ e).
  move=> e He; exists (d ^ (e - 1)); rewrite Z.mul_comm -Z.pow_succ_r; [f_equal|]; lia.
have N1 : forall x, (d | x) -> ~ cg p x 1.
  move=> x [k Hk] /(cg_sub Hp) [l Hl]; have : (d | 1) by exists (k - l); lia.
  move=> /Z.divide_1_r; lia.
have N2 : forall x, (d | x) -> ~ cg p x (-1).
  move=> x [k Hk] /(cg_sub Hp) [l Hl]; have : (d | 1) by exists (l - k); lia.
  move=> /Z.divide_1_r; lia.
case=> [|[i [Hi]]]; first by apply: N1; apply: D.
apply: N2; apply: D; have := Z.pow_pos_nonneg 2 i; nia.
Qed.

(** ** At most half of the bases are liars *)
Lemma prime_factor n : 1 < n -> exists p, prime p /\ (p | n).
Proof.
move=> Hn; have H0 : 0 <= n by lia.
move: n H0 Hn; apply: (Z_lt_induction (fun n => 1 < n -> exists p, prime p /\ (p | n))).
move=> n IH Hn; case: (prime_dec n) => [Hp|Hp]; first by exists n; split=> //; exists 1; lia.
case: (not_prime_divide n Hn Hp) => d [Hd D].
case: (IH d) => [||p [Hp' P]]; try lia.
by exists p; split=> //; apply: Z.divide_trans D.
Qed.

Lemma split_power p n : prime p -> 0 < n ->
  exists k m, 0 <= k /\ 0 < m /\ n = p ^ k * m /\ ~ (p | m).
Proof.
move=> Hp Hn; have H0 : 0 <= n by lia.
have Hp2 := prime_ge_2 _ Hp.
move: n H0 Hn; apply: (Z_lt_induction (fun n => 0 < n ->
  exists k m, 0 <= k /\ 0 < m /\ n = p ^ k * m /\ ~ (p | m))).
move=> n IH Hn; case: (Zdivide_dec p n) => [[q Q]|D]; last first.
  by exists 0, n; do !split=> //; try lia; rewrite Z.pow_0_r; lia.
case: (IH q) => [||k [m [Hk [Hm [E D]]]]]; try nia.
exists (k + 1), m; do !split=> //; try lia.
rewrite Z.pow_add_r; [|lia|lia]; rewrite Z.pow_1_r Q E; ring.
Qed.

Lemma max_index (Q : nat -> bool) s : (0 < s)%nat -> Q 0%nat = true ->
  exists t, (t < s)%nat /\ Q t = true /\ forall j, (t < j < s)%nat -> Q j = false.
Proof.
elim: s => [|s IH] // Hs H0; first by lia.
case: (PeanoNat.Nat.eq_dec s 0) => [->|N].
  by exists 0%nat; do !split=> //; lia.
case Qs: (Q s); first by exists s; do !split=> //; lia.
case: IH => // [|t [H1 [H2 H3]]]; first by lia.
exists t; do !split=> //; first by lia.
move=> j Hj; case: (PeanoNat.Nat.eq_dec j s) => [->//|Nj]; apply: H3; lia.
Qed.

Lemma cg_crt A B a b : rel_prime A B -> cg A a b -> cg B a b -> cg (A * B) a b.
Proof.
move=> R [k K] H; rewrite /cg K.
have : (B | k) by apply: (Gauss B A k); [rewrite Z.mul_comm -K|apply: rel_prime_sym].
by move=> [l ->]; exists l; ring.
Qed.

Lemma minus1_odd e : 0 <= e -> e mod 2 = 1 -> (-1) ^ e = -1.
Proof.
move=> He E; rewrite (_ : e = 2 * (e / 2) + 1); last by have := Z.div_mod e 2; lia.
have := Z.div_pos e 2; move=> P.
rewrite Z.pow_add_r; [|lia|lia]; rewrite Z.pow_mul_r; [|lia|lia].
by rewrite (_ : (-1) ^ 2 = 1) // Z.pow_1_l; lia.
Qed.

Section Half.
Variables n s r : Z.
Hypotheses (Hn : 3 < n) (Hs : 1 <= s) (Hr : 0 < r) (Hro : r mod 2 = 1).
Hypothesis En : n - 1 = 2 ^ s * r.

Lemma n_odd d : (d | n) -> d mod 2 = 1.
Proof.
move=> [k K]; have Ed := Z.div_mod d 2 ltac:(lia).
have := Z.mod_pos_bound d 2 ltac:(lia) => B.
case: (Z.eq_dec (d mod 2) 0) => [E|]; last by lia.
exfalso; move: En; rewrite (_ : s = 1 + (s - 1)); last by lia.
rewrite Z.pow_add_r; [|lia|lia]; rewrite Z.pow_1_r.
set x := 2 ^ _; nia.
Qed.

Lemma minus1_up a i j : 0 <= j < i -> cg n (a ^ (2 ^ j * r)) (-1) -> cg n (a ^ (2 ^ i * r)) 1.
Proof.
move=> Hj H.
have P2 := Z.pow_pos_nonneg 2 (i - j - 1) ltac:(lia) ltac:(lia).
have P3 := Z.pow_pos_nonneg 2 j ltac:(lia) ltac:(lia).
have E2 : 2 ^ i = 2 ^ j * (2 * 2 ^ (i - j - 1)).
  by rewrite -Z.pow_succ_r; [rewrite -Z.pow_add_r; [f_equal|..]|]; lia.
rewrite (_ : 2 ^ i * r = 2 ^ j * r * (2 * 2 ^ (i - j - 1))); last by rewrite E2; ring.
rewrite Z.pow_mul_r; [|nia|lia].
have := cg_pow (e := 2 * 2 ^ (i - j - 1)) ltac:(lia) H.
rewrite (Z.pow_mul_r (-1)); [|lia|lia].
by rewrite (_ : (-1) ^ 2 = 1) // Z.pow_1_l //; lia.
Qed.

Lemma one_up a i : 0 <= i -> cg n (a ^ r) 1 -> cg n (a ^ (2 ^ i * r)) 1.
Proof.
move=> Hi H; have P := Z.pow_pos_nonneg 2 i ltac:(lia) Hi.
rewrite Z.mul_comm Z.pow_mul_r; [|lia|lia].
by have := cg_pow (e := 2 ^ i) ltac:(lia) H; rewrite Z.pow_1_l //; lia.
Qed.

Lemma liar_full a : strong_liar n s r a -> cg n (a ^ (n - 1)) 1.
Proof.
rewrite En; case=> [H|[j [Hj H]]]; first by apply: one_up => //; lia.
by apply: minus1_up H; lia.
Qed.

Lemma liar_power a i : 0 <= i ->
  strong_liar n s r a -> (forall j, i < j < s -> ~ cg n (a ^ (2 ^ j * r)) (-1)) ->
  cg n (a ^ (2 ^ i * r)) 1 \/ cg n (a ^ (2 ^ i * r)) (-1).
Proof.
move=> Hi [H|[j [Hj H]]] M; first by left; apply: one_up.
case: (Z.lt_total i j) => [Lt|[E|Gt]]; first by case: (M j) => //; lia.
  by right; rewrite E.
by left; apply: minus1_up H; lia.
Qed.

(** the group element that turns liars into witnesses, coprime factors *)
Lemma shift_coprime A B : n = A * B -> 1 < A -> 1 < B -> rel_prime A B ->
  exists u y, cg n (u * y) 1 /\
    forall a, strong_liar n s r a -> strong_liar n s r (a * u) -> False.
Proof.
move=> EAB HA HB R.
have A3 : 3 <= A by have := @n_odd A ltac:(exists B; lia); have := Z.div_mod A 2; lia.
have B3 : 3 <= B by have := @n_odd B ltac:(exists A; lia); have := Z.div_mod B 2; lia.
pose Q (i : nat) := existsb (fun x => (x ^ (2 ^ Z.of_nat i * r)) mod n =? n - 1)
                      (map Z.of_nat (seq 0 (Z.to_nat n))).
have QP : forall i a, cg n (a ^ (2 ^ Z.of_nat i * r)) (-1) -> Q i = true.
  move=> i a H; apply/existsb_exists; exists (a mod n); split.
    apply/in_map_iff; exists (Z.to_nat (a mod n)).
    have := Z.mod_pos_bound a n ltac:(lia) => Ba.
    by split; [lia|apply/in_seq; lia].
  apply/Z.eqb_eq/cg_val; first lia.
  have P := Z.pow_pos_nonneg 2 (Z.of_nat i) ltac:(lia) ltac:(lia).
  apply: cg_trans (cg_pow _ (cg_mod _ _)) _; [nia|lia|].
  by apply: cg_trans H _; exists (-1); lia.
have Q0 : Q 0%nat = true.
  apply: (QP 0%nat (-1)); rewrite (_ : 2 ^ Z.of_nat 0 * r = r); last by rewrite Z.pow_0_r; lia.
  by rewrite minus1_odd //; [apply: cg_refl|lia].
case: (@max_index Q (Z.to_nat s)) => // [|t [Ht [Qt Mt]]]; first by lia.
move: Qt => /existsb_exists [x [_ /Z.eqb_eq /cg_val Hx]].
have {}Hx := Hx ltac:(lia).
set E := 2 ^ Z.of_nat t * r in Hx.
have P := Z.pow_pos_nonneg 2 (Z.of_nat t) ltac:(lia) ltac:(lia).
have EP : 0 < E by rewrite /E; nia.
case: (rel_prime_bezout _ _ R) => v w BZ.
pose u := x * (w * B) + v * A.
have WB : w * B = 1 - v * A by lia.
have VA : v * A = 1 - w * B by lia.
have uA : cg A u x by exists (v - x * v); rewrite /u WB; ring.
have uB : cg B u 1 by exists (x * w - w); rewrite /u VA; ring.
have dA : (A | n) by exists B; lia.
have dB : (B | n) by exists A; lia.
have uEA : cg A (u ^ E) (-1).
  apply: cg_trans (cg_pow _ uA) _; first lia.
  apply: cg_trans (cg_sub dA Hx) _; exists B; lia.
have uEB : cg B (u ^ E) 1.
  by have := cg_pow (e := E) ltac:(lia) uB; rewrite Z.pow_1_l //; lia.
exists u, (u ^ (2 * E - 1)); split.
  rewrite -Z.pow_succ_r; last by lia.
  rewrite (_ : Z.succ (2 * E - 1) = E * 2); last by lia.
  rewrite EAB Z.pow_mul_r; [|lia|lia]; apply: cg_crt => //.
    exact: (cg_pow (e := 2) (b := -1)).
  exact: (cg_pow (e := 2) (b := 1)).
have M : forall a j, Z.of_nat t < j < s -> ~ cg n (a ^ (2 ^ j * r)) (-1).
  move=> a j Hj H; have := Mt (Z.to_nat j) ltac:(lia).
  by rewrite (QP _ a) // Z2Nat.id //; lia.
move=> a L1 L2.
have H1 := @liar_power a (Z.of_nat t) ltac:(lia) L1 (M a).
have H2 := @liar_power (a * u) (Z.of_nat t) ltac:(lia) L2 (M (a * u)).
rewrite -/E Z.pow_mul_l in H1 H2.
have {}H2 : cg n (u ^ E) 1 \/ cg n (u ^ E) (-1).
  have W : forall c d, c * c = 1 -> cg n (a ^ E) c -> cg n (a ^ E * u ^ E) d -> cg n (u ^ E) (c * d).
    move=> c d Hc Ha Hau.
    have S1 : cg n (c * (c * u ^ E)) (c * (a ^ E * u ^ E)).
      by apply: cg_mul (cg_refl _ _) (cg_mul (cg_sym Ha) (cg_refl _ _)).
    have S2 := cg_mul (cg_refl n c) Hau.
    by move: S1; rewrite Z.mul_assoc Hc Z.mul_1_l => S1; apply: cg_trans S1 S2.
  case: H1 => H1; case: H2 => H2.
  - by left; apply: (W 1 1).
  - by right; apply: (W 1 (-1)).
  - by right; apply: (W (-1) 1).
  - by left; apply: (W (-1) (-1)).
case: H2 => H2.
  have K : cg A 1 (-1) by apply: cg_trans (cg_sym (cg_sub dA H2)) uEA.
  by have := Z.divide_pos_le A 2 ltac:(lia) K; lia.
have K : cg B 1 (-1) by apply: cg_trans (cg_sym uEB) (cg_sub dB H2).
by have := Z.divide_pos_le B 2 ltac:(lia) K; lia.
Qed.

Lemma shift_prime_power p k : prime p -> 2 <= k -> n = p ^ k ->
  exists u y, cg n (u * y) 1 /\
    forall a, strong_liar n s r a -> strong_liar n s r (a * u) -> False.
Proof.
move=> Hp Hk E; have Hp2 := prime_ge_2 _ Hp.
pose q := p ^ (k - 1).
have q0 : 0 < q by apply: Z.pow_pos_nonneg; lia.
have nq : n = p * q by rewrite E /q -Z.pow_succ_r; [f_equal|]; lia.
have qq : (n | q * q).
  exists (p ^ (k - 2)); rewrite E /q -!Z.pow_add_r; try lia; f_equal; lia.
have pw : forall e, 0 <= e -> cg n ((1 + q) ^ e) (1 + e * q).
  apply: natlike_ind; first by rewrite Z.pow_0_r; apply: cg_refl.
  move=> e He IH; rewrite Z.pow_succ_r //; apply: cg_trans (cg_mul (cg_refl n _) IH) _.
  case: qq => l L; exists (e * l); nia.
exists (1 + q), (1 - q); split; first by case: qq => l L; exists (- l); nia.
move=> a L1 L2.
have H1 := liar_full L1; have H2 := liar_full L2.
rewrite Z.pow_mul_l in H2.
have H3 : cg n ((1 + q) ^ (n - 1)) 1.
  apply: cg_trans _ H2; apply: cg_sym; rewrite -{2}[(1 + q) ^ (n - 1)]Z.mul_1_l.
  by apply: cg_mul => //; apply: cg_refl.
have [l L] : cg n (1 + (n - 1) * q) 1 by apply: cg_trans (cg_sym (pw _ _)) H3; lia.
have : (p | 1) by exists (q - l); nia.
move=> /Z.divide_1_r; lia.
Qed.

Lemma shift_exists : ~ prime n -> exists u y, cg n (u * y) 1 /\
    forall a, strong_liar n s r a -> strong_liar n s r (a * u) -> False.
Proof.
move=> Np; case: (@prime_factor n) => [|p [Hp Dp]]; first lia.
have Hp2 := prime_ge_2 _ Hp.
case: (@split_power p n Hp) => [|k [m [Hk [Hm [E D]]]]]; first lia.
have Hk0 : k <> 0 by move=> K; apply: D; rewrite (_ : m = n) // E K Z.pow_0_r Z.mul_1_l.
case: (Z.eq_dec m 1) => [M|M].
  apply: (@shift_prime_power p k) => //; last by rewrite E M Z.mul_1_r.
  case: (Z.eq_dec k 1) => [K|]; last by lia.
  by case: Np; rewrite E K M Z.pow_1_r Z.mul_1_r.
apply: (@shift_coprime (p ^ k) m) => //; [|lia|].
  by have := Z.pow_gt_1 p k; lia.
apply/rel_prime_sym/Zpow_facts.rel_prime_Zpower_r; first by lia.
by apply/rel_prime_sym/prime_rel_prime.
Qed.

Lemma filter_compl {A} (f : A -> bool) l :
  (length (filter f l) + length (filter (fun x => negb (f x)) l) = length l)%nat.
Proof. by elim: l => //= x l; case: (f x) => /=; lia. Qed.

(** liars among 1..n-1 *)
Lemma liars_half : ~ prime n ->
  (2 * length (filter (fun a => negb (isWitness a n s r))
                 (map Z.of_nat (seq 1 (Z.to_nat (n - 1))))) <= Z.to_nat (n - 1))%nat.
Proof.
move=> /shift_exists [u [y [Huy Hu]]].
set U := map _ _; set L := filter _ U.
have UP : forall a, In a U <-> 1 <= a <= n - 1.
  move=> a; rewrite in_map_iff; split=> [[i [<- /in_seq]]|H]; first lia.
  by exists (Z.to_nat a); split; [lia|apply/in_seq; lia].
have inj : forall a b, cg n (a * u) (b * u) -> cg n a b.
  move=> a b H; have := cg_mul H (cg_refl n y).
  rewrite -!Z.mul_assoc => H2.
  apply: cg_trans (cg_trans _ H2) _.
    by rewrite -{1}(Z.mul_1_r a); apply: cg_mul; [apply: cg_refl|apply: cg_sym].
  by rewrite -{2}(Z.mul_1_r b); apply: cg_mul; [apply: cg_refl|].
have NU : NoDup U.
  apply: FinFun.Injective_map_NoDup; [by move=> i j; lia|exact: seq_NoDup].
have W : forall a, reflect (strong_liar n s r a) (negb (isWitness a n s r)).
  by move=> a; apply: isWitnessP; lia.
pose f a := (a * u) mod n.
have N : NoDup (map f L).
  have : forall a, In a L -> 1 <= a <= n - 1 by move=> a /filter_In [] /UP.
  have : NoDup L by apply: NoDup_filter.
  elim: (L) => [|a l IH] /= ND R; first by constructor.
  constructor; last by apply: IH; [inversion ND|move=> b Hb; apply: R; right].
  move=> /in_map_iff [b [E Hb]].
  have : cg n b a by apply: inj; apply/cg_eq; [lia|].
  move=> /cg_eq X; have {}X := X ltac:(lia).
  have Ra := R a (or_introl Logic.eq_refl); have Rb := R b (or_intror Hb).
  move: X; rewrite !Z.mod_small; try lia; move=> X; subst b.
  by inversion ND.
have I : incl (map f L) (filter (fun a => negb (negb (isWitness a n s r))) U).
  move=> b /in_map_iff [a [<- /filter_In [/UP Ha /W La]]].
  have Bf := Z.mod_pos_bound (a * u) n ltac:(lia).
  have Nf : f a <> 0.
    rewrite /f => E; have H0 : cg n (a * u) (0 * u) by apply/cg_eq; [lia|rewrite E Z.mul_0_l Z.mod_0_l //; lia].
    have D := inj _ _ H0; rewrite /cg Z.sub_0_r in D.
    by have := Z.divide_pos_le n a ltac:(lia) D; lia.
  apply/filter_In; split; first by apply/UP; rewrite /f in Nf *; lia.
  apply/negP => /W Lb; apply: (Hu a La).
  have T : forall e, 0 <= e -> cg n ((a * u) ^ e) (f a ^ e).
    by move=> e He; apply: cg_pow => //; apply/cg_sym/cg_mod; lia.
  case: Lb => [H|[i [Hi H]]]; [left|right; exists i; split=> //].
    by apply: cg_trans (T _ _) H; lia.
  apply: cg_trans (T _ _) H; have := Z.pow_pos_nonneg 2 i; nia.
have := NoDup_incl_length N I; rewrite map_length.
have := filter_compl (fun a => negb (isWitness a n s r)) U.
rewrite -/L /U map_length seq_length; lia.
Qed.

(** liars among the values [random.randint(2, n - 2)] can return *)
Lemma liars_half_draws : ~ prime n ->
  (2 * length (filter (fun a => negb (isWitness a n s r))
                 (map Z.of_nat (seq 2 (Z.to_nat (n - 3))))) <= Z.to_nat (n - 3))%nat.
Proof.
move=> /liars_half.
have -> : seq 1 (Z.to_nat (n - 1)) = 1%nat :: seq 2 (Z.to_nat (n - 3)) ++ [Z.to_nat (n - 1)].
  rewrite (_ : Z.to_nat (n - 1) = S (Z.to_nat (n - 3) + 1)); last by lia.
  move: (Z.to_nat (n - 3)) => k; rewrite [LHS]/= seq_app [seq _ 1]/=.
  do 3 f_equal; lia.
rewrite map_cons map_app /= filter_app /=.
have -> : isWitness 1 n s r = false.
  by rewrite /isWitness Z.pow_1_l ?Z.mod_1_l //; lia.
rewrite /= !app_length /=; case: isWitness => /=; lia.
Qed.
End Half.

(** ** Parity *)
Lemma fold_add_acc l : forall a, fold_left Z.add l a = a + fold_left Z.add l 0.
Proof.
by elim: l => [|x l IH] a /=; [lia|rewrite IH (IH x); lia].
Qed.

(** the number of one bits below position [L] *)
Definition ones (n : Z) (L : nat) : Z :=
  Z.of_nat (length (filter (fun i => Z.testbit n (Z.of_nat i)) (seq 0 L))).

Lemma ones_S n L : ones n (S L) = Z.b2z (Z.odd n) + ones (n / 2) L.
Proof.
rewrite /ones.
have E : length (filter (fun i => Z.testbit n (Z.of_nat i)) (map S (seq 0 L))) =
          length (filter (fun i => Z.testbit (n / 2) (Z.of_nat i)) (seq 0 L)).
  elim: (seq 0 L) => // i l IH; cbn [filter map].
  rewrite -Z.div2_div Z.div2_spec Z.shiftr_spec; last by lia.
  rewrite (_ : Z.of_nat i + 1 = Z.of_nat (S i)); last by lia.
  by case: (Z.testbit n (Z.of_nat (S i))); cbn [length]; rewrite IH // -Z.div2_div Z.div2_spec.
rewrite /= -seq_shift.
by case: Z.odd; cbn [length Z.b2z]; rewrite E ?Nat2Z.inj_succ; lia.
Qed.

Lemma bin_pos_sum p : forall L, Zpos p < 2 ^ Z.of_nat L ->
  fold_left Z.add (bin_pos p) 0 = ones (Zpos p) L.
Proof.
have D0 : forall q, Zpos q~0 / 2 = Zpos q by move=> q; rewrite -Z.div2_div.
have D1 : forall q, Zpos q~1 / 2 = Zpos q by move=> q; rewrite -Z.div2_div.
elim: p => [p IH|p IH|] [|L]; try (by rewrite Z.pow_0_r; lia);
  rewrite Nat2Z.inj_succ Z.pow_succ_r; try lia; move=> H; rewrite ones_S.
- rewrite [bin_pos _]/= fold_left_app [fold_left _ [1] _]/= (IH L) ?D1; last by lia.
  by rewrite [Z.odd _]/= [Z.b2z _]/=; lia.
- rewrite [bin_pos _]/= fold_left_app [fold_left _ [0] _]/= (IH L) ?D0; last by lia.
  by rewrite [Z.odd _]/= [Z.b2z _]/=; lia.
- rewrite (_ : 1 / 2 = 0) // /ones (_ : filter _ _ = []) //.
  by elim: (seq 0 L) => // i l IH; cbn [filter]; rewrite Z.bits_0.
Qed.

Lemma parity_spec n L : 0 <= n < 2 ^ Z.of_nat L -> parity n = Ok (ones n L mod 2).
Proof.
case: n => [|p|p] //; last by lia.
  move=> _; rewrite /parity /= /ones (_ : filter _ _ = []) //.
  by elim: (seq 0 L) => // i l IH; cbn [filter]; rewrite Z.bits_0.
by move=> [_ H]; rewrite /parity /bin_bits [bind _ _]/= (bin_pos_sum H).
Qed.

Lemma parity_bit n : 0 <= n -> parity n = Ok 0 \/ parity n = Ok 1.
Proof.
move=> Hn; rewrite (@parity_spec n (S (Z.to_nat (Z.log2 n)))).
  have := Z.mod_pos_bound (ones n (S (Z.to_nat (Z.log2 n)))) 2 ltac:(lia).
  set b := _ mod 2 => Hb; have [->|->] : b = 0 \/ b = 1 by lia.
    by left.
  by right.
split=> //; rewrite Nat2Z.inj_succ Z2Nat.id; last exact: Z.log2_nonneg.
case: (Z.eq_dec n 0) => [->//|N]; have := Z.log2_spec n; lia.
Qed.

Lemma parity_neg n : n < 0 -> parity n = Err ValueError.
Proof. by case: n. Qed.

(** ** Squaring modulo a product of two good primes *)
Definition residue (M x : Z) : Prop := exists a, cg M x (a ^ 2).

Lemma pow_double a e : 0 <= e -> a ^ (2 * e) = (a ^ 2) ^ e.
Proof. by move=> He; rewrite Z.pow_mul_r //; lia. Qed.

(** minus one is not a square times a square *)
Lemma good_prime_anti p a b : prime p -> p mod 4 = 3 -> cg p (a ^ 2) (- (b ^ 2)) ->
  (p | a) /\ (p | b).
Proof.
move=> Hp H4 H; have Hp2 := prime_ge_2 _ Hp.
have E4 := Z.div_mod p 4 ltac:(lia).
pose e := (p - 1) / 2.
have Ee : p - 1 = 2 * e by rewrite /e -Z_div_exact_full_2 //; rewrite (_ : p - 1 = (2 * (p / 4) + 1) * 2) ?Z.mod_mul //; lia.
have e0 : 0 <= e by lia.
have eo : e = 2 * (p / 4) + 1 by lia.
have sq : forall x, (p | x ^ 2) -> (p | x).
  by move=> x; rewrite (_ : x ^ 2 = x * x); [case/(prime_mult p Hp)|ring].
have ab : (p | b) -> (p | a).
  move=> [k K]; apply: sq; case: H => l L; exists (l - b * k); nia.
have ba : (p | a) -> (p | b).
  move=> [k K]; apply: sq; case: H => l L; exists (l - a * k); nia.
case: (Zdivide_dec p b) => [Db|Nb]; first by split=> //; apply: ab.
have Na : ~ (p | a) by move=> /ba.
have Fa := fermat_Z _ _ Hp Na; have Fb := fermat_Z _ _ Hp Nb.
have {}Fa : cg p (a ^ (p - 1)) 1 by apply/cg_val; [lia|].
have {}Fb : cg p (b ^ (p - 1)) 1 by apply/cg_val; [lia|].
have := cg_pow e0 H.
rewrite -pow_double // -Ee (_ : - b ^ 2 = (-1) * b ^ 2); last by ring.
rewrite Z.pow_mul_l -pow_double // -Ee minus1_odd //; last by rewrite eo Z.add_mod // Z.mul_comm Z.mod_mul.
move=> X; exfalso.
have : cg p 1 (-1 * 1).
  apply: cg_trans (cg_sym Fa) _; apply: cg_trans X _; apply: cg_mul Fb; exact: cg_refl.
move=> D; have := Z.divide_pos_le p 2 ltac:(lia) D => Hle.
have Ep : p = 2 by lia.
by rewrite Ep in H4.
Qed.

(** Injectivity of squaring on squares modulo [p * q]; [p = q] is allowed. *)
Lemma squares_inj p q x y : prime p -> prime q -> p mod 4 = 3 -> q mod 4 = 3 ->
  residue (p * q) x -> residue (p * q) y -> cg (p * q) (x ^ 2) (y ^ 2) ->
  cg (p * q) x y.
Proof.
move=> Hp Hq Hp4 Hq4 [a Ha] [b Hb] H.
have dp : (p | p * q) by exists q; lia.
have dq : (q | p * q) by exists p; lia.
have F : cg (p * q) ((x - y) * (x + y)) 0.
  by move: H; rewrite /cg (_ : (x - y) * (x + y) - 0 = x ^ 2 - y ^ 2) //; ring.
have anti : forall l, prime l -> l mod 4 = 3 -> (l | p * q) -> (l | x + y) -> (l | a) /\ (l | b).
  move=> l Hl Hl4 Dl Dxy; apply: good_prime_anti => //.
  apply: cg_trans (cg_sym (cg_sub Dl Ha)) _.
  case: Dxy => k K; case: (cg_sub Dl Hb) => m Mm; exists (k - m); lia.
have one : forall l, prime l -> l mod 4 = 3 -> (l | p * q) -> cg l x y.
  move=> l Hl Hl4 Dl.
  have [//|D] : (l | x - y) \/ (l | x + y).
    apply: prime_mult => //; have := cg_sub Dl F; by rewrite /cg Z.sub_0_r.
  case: (anti l Hl Hl4 Dl D) => [[k K] [m Mm]].
  case: (cg_sub Dl Ha) => u U; case: (cg_sub Dl Hb) => v V.
  by exists (u - v + k * a - m * b); nia.
case: (Z.eq_dec p q) => [E|N].
  subst q; case: (Zdivide_dec p (x + y)) => [D|D].
    case: (anti p Hp Hp4 dp D) => [[k K] [m Mm]].
    case: Ha => u U; case: Hb => v V; exists (u - v + k * k - m * m); subst a b; nia.
  have R : rel_prime (p * p) (x + y).
    by apply/rel_prime_sym/rel_prime_mult; apply/rel_prime_sym/prime_rel_prime.
  apply: (Gauss _ (x + y)) => //.
  by move: F; rewrite /cg Z.sub_0_r Z.mul_comm.
apply: cg_crt; [|exact: one|exact: one].
apply: prime_rel_prime => // /(prime_div_prime p q Hp Hq).
by [].
Qed.

(** Squaring permutes the residues in [0, M). *)
Lemma squares_onto p q y : prime p -> prime q -> p mod 4 = 3 -> q mod 4 = 3 ->
  0 <= y < p * q -> residue (p * q) y ->
  exists x, 0 <= x < p * q /\ residue (p * q) x /\ bbs (p * q) x = y.
Proof.
move=> Hp Hq Hp4 Hq4 Hy Ry; set M := p * q in Hy Ry *.
have M0 : 0 < M by lia.
pose S := nodup Z.eq_dec (map (fun i => (Z.of_nat i ^ 2) mod M) (seq 0 (Z.to_nat M))).
have SP : forall z, In z S <-> 0 <= z < M /\ residue M z.
  move=> z; rewrite nodup_In in_map_iff; split.
    move=> [i [<- _]]; split; first exact: Z.mod_pos_bound.
    by exists (Z.of_nat i); apply: cg_mod; lia.
  move=> [Hz [a Ha]]; exists (Z.to_nat (a mod M)).
  have B := Z.mod_pos_bound a M M0; split; last by apply/in_seq; lia.
  rewrite Z2Nat.id; last by lia.
  apply/cg_val => //; apply: cg_trans (cg_sym Ha); apply: cg_pow; [lia|apply: cg_mod; lia].
have ND : NoDup S by apply: NoDup_nodup.
have ND2 : NoDup (map (bbs M) S).
  have : forall z, In z S -> 0 <= z < M /\ residue M z by move=> z /SP.
  elim: (S) ND => [|z l IH] ND R /=; first by constructor.
  constructor; last by apply: IH; [inversion ND|move=> w Hw; apply: R; right].
  move=> /in_map_iff [w [E Hw]].
  case: (R z (or_introl Logic.eq_refl)) => Bz Rz; case: (R w (or_intror Hw)) => Bw Rw.
  have : cg M w z.
    by apply: squares_inj => //; apply/cg_eq; [lia|exact: E].
  move=> /cg_eq X; have {}X := X ltac:(lia); rewrite !Z.mod_small // in X; subst w.
  by inversion ND.
have I : incl (map (bbs M) S) S.
  move=> w /in_map_iff [z [<- _]]; apply/SP; split; first exact: Z.mod_pos_bound.
  by exists z; apply: cg_mod; lia.
have J : incl S (map (bbs M) S).
  by apply: NoDup_length_incl => //; rewrite map_length.
have : In y (map (bbs M) S) by apply: J; apply/SP.
by move=> /in_map_iff [x [E /SP [Bx Rx]]]; exists x.
Qed.

Lemma bbs_neg M x : M <> 0 -> bbs M (M - x) = bbs M x.
Proof. by move=> HM; apply/cg_eq => //; exists (M - 2 * x); nia. Qed.

Lemma good_prime_inv p draws : good_prime p draws = Ok true ->
  p mod 4 = 3 /\ probablyPrime p draws = Ok true.
Proof. by rewrite /good_prime; case: Z.eqb_spec. Qed.

Lemma find_good_prime_inv cs p : find_good_prime cs = Ok p ->
  exists draws, In (p, draws) cs /\ p mod 4 = 3 /\ probablyPrime p draws = Ok true.
Proof.
elim: cs => [|[c draws] cs IH] //=.
case E: (good_prime c draws) => [[]|] //=.
  by case=> <-; exists draws; split; [left|apply: good_prime_inv].
by move=> /IH [d [I H]]; exists d; split=> //; right.
Qed.

(** ** Several independent draws *)
(** all lists of [k] elements of [l] *)
Fixpoint vectors {A} (k : nat) (l : list A) : list (list A) :=
  match k with
  | O => [[]]
  | S k' => flat_map (fun a => map (cons a) (vectors k' l)) l
  end.

Lemma vectors_In {A} k (l : list A) d :
  In d (vectors k l) <-> length d = k /\ forall x, In x d -> In x l.
Proof.
elim: k d => [|k IH] d /=.
  split; first by case=> [<-|//].
  by case: d => [|x d] [] //; left.
rewrite in_flat_map; split.
  move=> [a [Ha /in_map_iff [d' [<- /IH [L H]]]]]; split; first by rewrite /= L.
  by move=> x [<-//|]; apply: H.
move=> [L H]; case: d L H => [|a d] // [L] H; exists a; split; first by apply: H; left.
by apply/in_map_iff; exists d; split=> //; apply/IH; split=> // x Hx; apply: H; right.
Qed.

Lemma filter_map_length {A B} (g : A -> B) (f : B -> bool) l :
  length (filter f (map g l)) = length (filter (fun x => f (g x)) l).
Proof. by elim: l => //= x l IH; case: (f (g x)) => /=; rewrite IH. Qed.

Lemma filter_all {A} (f : A -> bool) l : (forall x, f x = false) -> filter f l = [].
Proof. by move=> H; elim: l => //= x l ->; rewrite H. Qed.

Lemma vectors_count p s r k l :
  length (filter (fun d => witness_loop p s r d) (vectors k l)) =
  PeanoNat.Nat.pow (length (filter (fun a => negb (isWitness a p s r)) l)) k.
Proof.
elim: k => [|k IH] //=.
have G : forall m, length (filter (fun d => witness_loop p s r d)
      (flat_map (fun a => map (cons a) (vectors k l)) m)) =
   (length (filter (fun a => negb (isWitness a p s r)) m) *
    length (filter (fun d => witness_loop p s r d) (vectors k l)))%nat.
  elim=> [|a m IHm] //=; rewrite filter_app app_length IHm filter_map_length /=.
  case: (isWitness a p s r) => //=.
  by rewrite (@filter_all _ (fun _ => false)).
by rewrite G IH; lia.
Qed.

Lemma zseq_range n : 3 < n ->
  map Z.of_nat (seq 2 (Z.to_nat (n - 3))) = map (fun i => 2 + Z.of_nat i) (seq 0 (Z.to_nat (n - 3))).
Proof.
move=> Hn; rewrite -(seq_shift _ 1) -(seq_shift _ 0) !map_map; apply: map_ext => i; lia.
Qed.

Lemma pp_error n k : 3 < n -> n mod 2 = 1 -> ~ prime n ->
  (PeanoNat.Nat.pow 2 k * length (filter (fun d => match probablyPrime n d with Ok b => b | Err _ => true end)
     (vectors k (map (fun i => 2 + Z.of_nat i)%Z (seq 0 (Z.to_nat (n - 3))))))
   <= PeanoNat.Nat.pow (Z.to_nat (n - 3)) k)%nat.
Proof.
move=> Hn Ho Np.
have [s [r [Hs [Hr [Hro [E _]]]]]] := probablyPrime_odd [] Hn Ho.
have X : forall d, probablyPrime n d = Ok (witness_loop n s r d).
  move=> d; have [s' [r' [Hs' [Hr' [Hro' [E' ->]]]]]] := probablyPrime_odd d Hn Ho.
  have [-> ->//] := @two_power_odd_unique s' r' s r ltac:(lia) ltac:(lia) Hro' Hro ltac:(lia).
rewrite (filter_ext _ (fun d => witness_loop n s r d)); last by move=> d; rewrite X.
rewrite vectors_count -zseq_range // -PeanoNat.Nat.pow_mul_l.
apply: PeanoNat.Nat.pow_le_mono_l; exact: liars_half_draws.
Qed.
