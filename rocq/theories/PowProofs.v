(** Proofs about starks/numbertype.py:68-103. *)
From Coq Require Import ZArith List Lia.
From Verif Require Import Base PowModel.
Local Open Scope Z_scope.

(** Specification: n-fold product, defined independently of the loop. *)
Fixpoint nfold {A} (one : A) (mul : A -> A -> A) (x : A) (n : nat) : A :=
  match n with O => one | S k => mul x (nfold one mul x k) end.

Section PowGen.
Variables (A : Type) (one : A) (mulr : A -> A -> result A).
(** [rep x k]: [x] represents the k-th power of the base. *)
Variable rep : A -> Z -> Prop.
Hypothesis mulr_rep : forall x y j k, 0 <= j -> 0 <= k -> rep x j -> rep y k ->
  exists z, mulr x y = Ok z /\ rep z (j + k).

Lemma land_pow2 n k : 0 <= k ->
  (Z.land n (2 ^ k) =? 2 ^ k) = Z.testbit n k.
Proof.
  intros Hk. destruct (Z.testbit n k) eqn:E.
  - apply Z.eqb_eq. apply Z.bits_inj'. intros j Hj.
    rewrite Z.land_spec, Z.pow2_bits_eqb by lia.
    destruct (Z.eqb_spec k j); subst; rewrite ?E, ?Bool.andb_false_r; auto.
  - apply Z.eqb_neq. intros C.
    assert (Z.testbit (Z.land n (2^k)) k = Z.testbit (2^k) k) by congruence.
    rewrite Z.land_spec, E, Z.pow2_bits_true in H by lia. discriminate.
Qed.

Lemma mod_pow2_succ n k : 0 <= k ->
  n mod 2 ^ (k + 1) = (if Z.testbit n k then 2 ^ k else 0) + n mod 2 ^ k.
Proof.
  intros Hk. rewrite Z.pow_add_r, Z.pow_1_r by lia.
  rewrite Z.rem_mul_r by (try apply Z.pow_nonzero; lia).
  rewrite <- Z.testbit_spec' by lia. destruct (Z.testbit n k); cbn -[Z.pow Z.mul]; lia.
Qed.

Lemma pow_loop_spec n : 0 <= n -> forall f k Q R,
  (1 <= k) -> rep Q (2 ^ (k - 1)) -> rep R (n mod 2 ^ k) ->
  Z.log2 n + 2 <= Z.of_nat f + k ->
  (0 < f)%nat ->
  exists z, pow_loop A mulr f n Q R (2 ^ k) = Ok z /\ rep z n.
Proof.
  intros Hn. induction f as [|f IH]; intros k Q R Hk HQ HR Hf Hf0; [lia|].
  cbn -[Z.pow Z.shiftl]. destruct (Z.leb_spec (2 ^ k) n) as [L|L].
  - assert (P : 0 < 2 ^ (k - 1)) by (apply Z.pow_pos_nonneg; lia).
    destruct (mulr_rep Q Q (2 ^ (k-1)) (2 ^ (k-1)) ltac:(lia) ltac:(lia) HQ HQ) as (Q' & E & HQ').
    rewrite E. cbn -[Z.pow Z.shiftl].
    assert (E2 : 2 ^ (k - 1) + 2 ^ (k - 1) = 2 ^ k).
    { replace k with ((k - 1) + 1) at 3 by lia. rewrite Z.pow_add_r, Z.pow_1_r by lia. lia. }
    rewrite E2 in HQ'.
    rewrite land_pow2 by lia.
    assert (Klog : k <= Z.log2 n) by (apply Z.log2_le_pow2; lia).
    rewrite Z.shiftl_mul_pow2, Z.pow_1_r by lia.
    replace (2 ^ k * 2) with (2 ^ (k + 1)) by (rewrite Z.pow_add_r, Z.pow_1_r by lia; lia).
    pose proof (mod_pow2_succ n k ltac:(lia)) as M.
    assert (B : 0 <= n mod 2 ^ k) by (apply Z.mod_pos_bound, Z.pow_pos_nonneg; lia).
    destruct (Z.testbit n k).
    + destruct (mulr_rep Q' R (2 ^ k) (n mod 2 ^ k) ltac:(lia) B HQ' HR) as (R' & E' & HR').
      rewrite E'. cbn -[Z.pow Z.shiftl]. apply IH; auto; try lia.
      * replace (k + 1 - 1) with k by lia. auto.
      * rewrite M. auto.
    + cbn -[Z.pow Z.shiftl]. apply IH; auto; try lia.
      * replace (k + 1 - 1) with k by lia. auto.
      * rewrite M, Z.add_0_l. auto.
  - exists R. split; auto. rewrite Z.mod_small in HR by lia. auto.
Qed.

Lemma pow_gen_spec self n : 0 <= n -> rep self 1 -> rep one 0 ->
  exists z, pow_gen A one mulr self n = Ok z /\ rep z n.
Proof.
  intros Hn H1 H0. unfold pow_gen.
  replace 2 with (2 ^ 1) by reflexivity.
  apply pow_loop_spec; auto; try lia.
  - rewrite Z.pow_1_r, Zmod_odd. destruct (Z.odd n); auto.
Qed.

Lemma pow_loop_range n f : forall k Q R z, 1 <= k -> 2 ^ k <= n ->
  pow_loop A mulr f n Q R (2 ^ k) = Ok z -> exists x y, mulr x y = Ok z.
Proof.
  induction f as [|f IH]; intros k Q R z Hk Hn H; [discriminate|].
  cbn -[Z.pow Z.shiftl] in H. destruct (Z.leb_spec (2 ^ k) n) as [L|L]; [|lia].
  destruct (mulr Q Q) as [Q'|] eqn:EQ; [|discriminate]. cbn -[Z.pow Z.shiftl] in H.
  rewrite land_pow2 in H by lia.
  rewrite Z.shiftl_mul_pow2, Z.pow_1_r in H by lia.
  replace (2 ^ k * 2) with (2 ^ (k + 1)) in H by (rewrite Z.pow_add_r, Z.pow_1_r by lia; lia).
  destruct (Z_le_dec (2 ^ (k + 1)) n) as [M|M].
  - destruct (if Z.testbit n k then mulr Q' R else Ok R) as [R'|]; [|discriminate].
    apply (IH (k + 1) Q' R'); auto; lia.
  - assert (T : Z.testbit n k = true).
    { apply Z.testbit_true; [lia|].
      replace (n / 2 ^ k) with 1; [reflexivity|].
      rewrite Z.pow_add_r, Z.pow_1_r in M by lia.
      apply Z.div_unique with (n - 2 ^ k); lia. }
    rewrite T in H.
    destruct (mulr Q' R) as [R'|] eqn:ER; [|discriminate]. cbn -[Z.pow Z.shiftl] in H.
    destruct f; [discriminate|]. cbn -[Z.pow Z.shiftl] in H.
    destruct (Z.leb_spec (2 ^ (k + 1)) n); [lia|]. inversion H; subst. eauto.
Qed.

Lemma pow_gen_range self n z : 2 <= n -> pow_gen A one mulr self n = Ok z ->
  exists x y, mulr x y = Ok z.
Proof.
  intros Hn. unfold pow_gen. replace 2 with (2 ^ 1) by reflexivity.
  apply pow_loop_range; lia.
Qed.

Lemma pow_gen_small self n : 0 <= n < 2 ->
  pow_gen A one mulr self n = Ok (if n =? 1 then self else one).
Proof.
  intros H. assert (n = 0 \/ n = 1) as [-> | ->] by lia; reflexivity.
Qed.

Lemma pow_gen_raises self n e : 2 <= n -> mulr self self = Err e ->
  pow_gen A one mulr self n = Err e.
Proof.
  intros Hn H. unfold pow_gen. rewrite Nat.add_comm. cbn -[Z.odd Z.land].
  destruct (Z.leb_spec 2 n); [|lia]. rewrite H. reflexivity.
Qed.

Lemma pow_gen_neg self n : n < 0 ->
  pow_gen A one mulr self n = Ok (if Z.odd n then self else one).
Proof.
  intros H. unfold pow_gen. rewrite Nat.add_comm. cbn -[Z.odd].
  destruct (Z.leb_spec 2 n); [lia|]. reflexivity.
Qed.
End PowGen.

Section DomPow.
Variables (A : Type) (one : A) (mul : A -> A -> A).
Hypothesis mulA : forall x y z, mul x (mul y z) = mul (mul x y) z.
Hypothesis mul1l : forall x, mul one x = x.
Hypothesis mul1r : forall x, mul x one = x.

Lemma nfold_add x j k :
  mul (nfold one mul x j) (nfold one mul x k) = nfold one mul x (j + k).
Proof. induction j; cbn; rewrite ?mul1l, <- ?mulA, ?IHj; auto. Qed.

Lemma dom_pow_spec x n : 0 <= n ->
  dom_pow one mul x n = Ok (nfold one mul x (Z.to_nat n)).
Proof.
  intros Hn. unfold dom_pow.
  destruct (pow_gen_spec A one (fun a b => Ok (mul a b))
     (fun y k => y = nfold one mul x (Z.to_nat k))) with (self := x) (n := n)
    as (z & E & S); auto.
  - intros a b j k Hj Hk -> ->. eexists. split; [reflexivity|].
    rewrite nfold_add. f_equal. lia.
  - change (Z.to_nat 1) with 1%nat. cbn. rewrite mul1r; auto.
  - rewrite E. congruence.
Qed.

Lemma nfold_iter x n : nfold one mul x n = Nat.iter n (mul x) one.
Proof. induction n as [|n IH]; [reflexivity|]. simpl. rewrite IH. reflexivity. Qed.

Lemma dom_pow_iter x (n : nat) :
  dom_pow one mul x (Z.of_nat n) = Ok (Nat.iter n (mul x) one).
Proof. rewrite dom_pow_spec, Nat2Z.id, nfold_iter by lia. reflexivity. Qed.
End DomPow.

(** Variant for a carrier on which the laws hold only on a subset closed
    under multiplication. *)
Section DomPowOn.
Variables (A : Type) (P : A -> Prop) (one : A) (mul : A -> A -> A).
Hypothesis P1 : P one.
Hypothesis Pmul : forall x y, P x -> P y -> P (mul x y).
Hypothesis mulA : forall x y z, P x -> P y -> P z -> mul x (mul y z) = mul (mul x y) z.
Hypothesis mul1l : forall x, P x -> mul one x = x.
Hypothesis mul1r : forall x, P x -> mul x one = x.

Lemma nfold_P x j : P x -> P (nfold one mul x j).
Proof. intros; induction j; cbn; auto. Qed.

Lemma nfold_add_on x j k : P x ->
  mul (nfold one mul x j) (nfold one mul x k) = nfold one mul x (j + k).
Proof.
  intros Px. induction j; cbn.
  - apply mul1l, nfold_P; auto.
  - rewrite <- mulA, IHj; auto using nfold_P.
Qed.

Lemma dom_pow_spec_on x n : P x -> 0 <= n ->
  dom_pow one mul x n = Ok (nfold one mul x (Z.to_nat n)).
Proof.
  intros Px Hn. unfold dom_pow.
  destruct (pow_gen_spec A one (fun a b => Ok (mul a b))
     (fun y k => y = nfold one mul x (Z.to_nat k))) with (self := x) (n := n)
    as (z & E & S); auto.
  - intros a b j k Hj Hk -> ->. eexists. split; [reflexivity|].
    rewrite nfold_add_on by auto. f_equal. lia.
  - change (Z.to_nat 1) with 1%nat. cbn. rewrite mul1r; auto.
  - rewrite E. congruence.
Qed.
End DomPowOn.
