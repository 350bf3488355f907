(** Proofs about starks/euclidean.py on ints. *)
From Coq Require Import ZArith List Lia Znumtheory.
From Verif Require Import Base EuclidModel.
Local Open Scope Z_scope.

Notation iloop := (gcd_loop Z Z.abs int_divmod).
Notation ieloop := (eea_loop Z Z.abs int_divmod Z.sub Z.mul).

Definition same_sign (a b : Z) := (0 <= a /\ 0 <= b) \/ (a <= 0 /\ b <= 0).

Lemma int_divmod_ok a b : b <> 0 -> int_divmod a b = Ok (a / b, a mod b).
Proof. intros H. unfold int_divmod. destruct (Z.eqb_spec b 0); congruence. Qed.

Lemma mod_facts a b : b <> 0 ->
  Z.abs (a mod b) < Z.abs b /\ same_sign b (a mod b).
Proof.
  intros Hb. unfold same_sign. destruct (Z.lt_total 0 b) as [H|[H|H]]; try lia.
  - pose proof (Z.mod_pos_bound a b H). lia.
  - pose proof (Z.mod_neg_bound a b H). lia.
Qed.

Lemma mod_half b r : r <> 0 -> same_sign b r -> Z.abs r < Z.abs b ->
  2 * Z.abs (b mod r) < Z.abs b.
Proof.
  intros Hr Hs Hlt.
  destruct (mod_facts b r Hr) as [H1 H2].
  pose proof (Z.div_mod b r Hr) as E.
  set (q := b / r) in *. set (m := b mod r) in *.
  unfold same_sign in *.
  assert (1 <= q).
  { destruct Hs as [[? ?]|[? ?]]; destruct H2 as [[? ?]|[? ?]]; nia. }
  destruct Hs as [[? ?]|[? ?]]; destruct H2 as [[? ?]|[? ?]]; nia.
Qed.

Lemma iloop_terminates_ss (n : nat) : forall a b, same_sign a b ->
  Z.abs b < 2 ^ Z.of_nat n ->
  forall f, (2 * n + 1 <= f)%nat -> exists g, iloop f a b = Ok g.
Proof.
  induction n as [|n IH]; intros a b Hs Hb f Hf.
  - assert (b = 0) by (simpl in Hb; lia). subst. destruct f; [lia|].
    exists a. reflexivity.
  - destruct f as [|[|f]]; try lia.
    cbn -[Z.ltb Z.abs].
    destruct (Z.ltb_spec 0 (Z.abs b)); [|eexists; reflexivity].
    rewrite int_divmod_ok by lia. cbn -[Z.ltb Z.abs].
    destruct (mod_facts a b ltac:(lia)) as [H1 H2].
    destruct (Z.ltb_spec 0 (Z.abs (a mod b))); [|eexists; reflexivity].
    rewrite int_divmod_ok by lia. cbn -[Z.ltb Z.abs].
    apply IH; [| |lia].
    + apply mod_facts; lia.
    + pose proof (mod_half b (a mod b) ltac:(lia) H2 H1).
      rewrite Nat2Z.inj_succ, Z.pow_succ_r in Hb by lia. lia.
Qed.

Lemma iloop_terminates (n : nat) a b f : Z.abs b < 2 ^ Z.of_nat n ->
  (2 * n + 2 <= f)%nat -> exists g, iloop f a b = Ok g.
Proof.
  intros Hb Hf. destruct f as [|f]; [lia|]. cbn -[Z.ltb Z.abs].
  destruct (Z.ltb_spec 0 (Z.abs b)); [|eexists; reflexivity].
  rewrite int_divmod_ok by lia. cbn -[Z.ltb Z.abs].
  destruct (mod_facts a b ltac:(lia)) as [H1 H2].
  apply iloop_terminates_ss with (n := n); auto; lia.
Qed.

Lemma int_fuel_enough a b c d : Z.abs c + Z.abs d <= Z.abs a + Z.abs b ->
  exists g, iloop (int_fuel a b) c d = Ok g.
Proof.
  intros H. unfold int_fuel. set (s := Z.abs a + Z.abs b).
  apply (iloop_terminates (Z.to_nat (Z.log2 s) + 1)).
  - destruct (Z.eq_dec s 0) as [E|E].
    + apply Z.le_lt_trans with 0; [lia|]. apply Z.pow_pos_nonneg; lia.
    + pose proof (Z.log2_spec s ltac:(lia)) as [_ L].
      replace (Z.of_nat (Z.to_nat (Z.log2 s) + 1)) with (Z.succ (Z.log2 s))
        by (pose proof (Z.log2_nonneg s); lia). lia.
  - lia.
Qed.

Lemma iloop_spec f : forall a b g, iloop f a b = Ok g ->
  forall d, (d | g) <-> (d | a) /\ (d | b).
Proof.
  induction f as [|f IH]; intros a b g H d; [discriminate|].
  cbn -[Z.ltb Z.abs] in H.
  destruct (Z.ltb_spec 0 (Z.abs b)).
  - rewrite int_divmod_ok in H by lia. cbn -[Z.ltb Z.abs] in H.
    rewrite (IH _ _ _ H d).
    pose proof (Z.div_mod a b ltac:(lia)) as E.
    split; intros [H1 H2]; split; auto.
    + rewrite E. apply Z.divide_add_r; auto. apply Z.divide_mul_l; auto.
    + rewrite Z.mod_eq by lia. apply Z.divide_sub_r; auto.
      apply Z.divide_mul_l; auto.
  - assert (b = 0) by lia. inversion H; subst. split; intros; [|tauto].
    split; auto. apply Z.divide_0_r.
Qed.

(** Specification: [g] is a greatest common divisor of [a] and [b]: its
    divisors are exactly the common divisors. *)
Definition is_gcd (g a b : Z) := forall d, (d | g) <-> (d | a) /\ (d | b).

Lemma gcd_int_spec a b : exists g, gcd_int a b = Ok g /\ is_gcd g a b.
Proof.
  unfold gcd_int, gcd_gen. destruct (Z.abs a <? Z.abs b).
  - destruct (int_fuel_enough a b b a) as [g E]; [lia|]. exists g; split; auto.
    intros d. rewrite (iloop_spec _ _ _ _ E). tauto.
  - destruct (int_fuel_enough a b a b) as [g E]; [lia|]. exists g; split; auto.
    intros d. apply (iloop_spec _ _ _ _ E).
Qed.

(** [eea_loop] follows [gcd_loop] and keeps the Bezout identities. *)
Lemma ieloop_follows a0 b0 f : forall a b x2 x1 y2 y1 g,
  iloop f a b = Ok g ->
  a = a0 * x2 + b0 * y2 -> b = a0 * x1 + b0 * y1 ->
  exists x y, ieloop f a b x2 x1 y2 y1 = Ok (x, y, g) /\ a0 * x + b0 * y = g.
Proof.
  induction f as [|f IH]; intros a b x2 x1 y2 y1 g H Ha Hb; [discriminate|].
  cbn -[Z.ltb Z.abs] in *.
  destruct (Z.ltb_spec 0 (Z.abs b)).
  - rewrite int_divmod_ok in * by lia. cbn -[Z.ltb Z.abs] in *.
    apply IH; auto.
    rewrite Z.mod_eq by lia. rewrite Ha at 1. rewrite Hb at 1. ring.
  - inversion H; subst g. eauto.
Qed.

Lemma eea_ordered_spec a b f g : iloop f a b = Ok g ->
  exists x y, eea_ordered Z Z.abs int_divmod Z.sub Z.mul 0 1 f a b = Ok (x, y, g)
              /\ a * x + b * y = g.
Proof.
  intros H. unfold eea_ordered. destruct (Z.eqb_spec (Z.abs b) 0) as [E|E].
  - assert (b = 0) by lia. subst b. destruct f; [discriminate|]. cbn in H.
    inversion H; subst. exists 1, 0. split; auto. ring.
  - apply ieloop_follows with (a := a) (b := b); auto; ring.
Qed.

Lemma eea_int_spec a b :
  exists x y g, eea_int a b = Ok (x, y, g) /\ gcd_int a b = Ok g /\
                a * x + b * y = g /\ is_gcd g a b.
Proof.
  destruct (gcd_int_spec a b) as (g & Hg & Sg).
  pose proof Hg as Hg'.
  unfold eea_int, eea_gen, gcd_int, gcd_gen in *. destruct (Z.abs a <? Z.abs b).
  - destruct (eea_ordered_spec _ _ _ _ Hg') as (x & y & E & B).
    exists y, x, g. rewrite E. cbn. split; [|split; [|split]]; auto. lia.
  - destruct (eea_ordered_spec _ _ _ _ Hg') as (x & y & E & B).
    exists x, y, g. rewrite E. cbn. split; [|split; [|split]]; auto.
Qed.

(** For non-negative arguments the returned gcd is the non-negative one. *)
Lemma iloop_nonneg f : forall a b g, 0 <= a -> 0 <= b -> iloop f a b = Ok g -> 0 <= g.
Proof.
  induction f as [|f IH]; intros a b g Ha Hb H; [discriminate|].
  cbn -[Z.ltb Z.abs] in H. destruct (Z.ltb_spec 0 (Z.abs b)).
  - rewrite int_divmod_ok in H by lia. cbn -[Z.ltb Z.abs] in H.
    pose proof (Z.mod_pos_bound a b ltac:(lia)).
    apply (IH b (a mod b)); auto; lia.
  - inversion H; subst; auto.
Qed.

Lemma is_gcd_Zgcd g a b : 0 <= g -> is_gcd g a b -> g = Z.gcd a b.
Proof.
  intros Hg H. apply Z.divide_antisym_nonneg; auto using Z.gcd_nonneg.
  - destruct (proj1 (H g) (Z.divide_refl g)). apply Z.gcd_greatest; auto.
  - apply H. split; [apply Z.gcd_divide_l|apply Z.gcd_divide_r].
Qed.

Lemma gcd_int_nonneg a b : 0 <= a -> 0 <= b -> gcd_int a b = Ok (Z.gcd a b).
Proof.
  intros Ha Hb. destruct (gcd_int_spec a b) as (g & E & S).
  rewrite E. f_equal. apply is_gcd_Zgcd; auto.
  unfold gcd_int, gcd_gen in E. destruct (_ <? _); eapply iloop_nonneg in E; eauto.
Qed.

Lemma gcd_int_abs a b g : gcd_int a b = Ok g -> Z.abs g = Z.gcd a b.
Proof.
  intros H. destruct (gcd_int_spec a b) as (g' & E & S).
  assert (g' = g) by congruence. subst.
  apply is_gcd_Zgcd; [lia|]. intros d. rewrite <- (S d). apply Z.divide_abs_r.
Qed.
