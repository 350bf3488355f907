(** Facts about the base vocabulary. *)
From Coq Require Import Bool ZArith List Lia.
From Coq.Strings Require Import Byte.
From Verif Require Import Base.
Import ListNotations.
Local Open Scope Z_scope.

Lemma byte_val_range b : 0 <= byte_val b < 256.
Proof.
  unfold byte_val. pose proof (Byte.to_N_bounded b). lia.
Qed.

Lemma byte_of_val b : byte_of (byte_val b) = b.
Proof.
  unfold byte_of. rewrite Z.mod_small by apply byte_val_range.
  unfold byte_val. rewrite N2Z.id, Byte.of_to_N. reflexivity.
Qed.

Lemma byte_val_of z : byte_val (byte_of z) = z mod 256.
Proof.
  unfold byte_of. pose proof (Z.mod_pos_bound z 256 ltac:(lia)) as B.
  destruct (Byte.of_N (Z.to_N (z mod 256))) eqn:E.
  - apply Byte.to_of_N in E. unfold byte_val. rewrite E. lia.
  - apply Byte.of_N_None_iff in E. lia.
Qed.

Lemma byte_val_inj a b : byte_val a = byte_val b -> a = b.
Proof. intros H. rewrite <- (byte_of_val a), H. apply byte_of_val. Qed.

Lemma from_bytes_be_app a b :
  from_bytes_be (a ++ b) = from_bytes_be a * 256 ^ Z.of_nat (length b) + from_bytes_be b.
Proof.
  unfold from_bytes_be. rewrite fold_left_app.
  generalize (fold_left (fun acc x => acc * 256 + byte_val x) a 0) as s.
  induction b as [|x b IH]; intros s; cbn [fold_left length].
  - cbn. lia.
  - rewrite IH. rewrite (IH (0 * 256 + _)).
    rewrite Nat2Z.inj_succ, Z.pow_succ_r by lia. ring.
Qed.

Lemma from_bytes_be_snoc a x : from_bytes_be (a ++ [x]) = from_bytes_be a * 256 + byte_val x.
Proof. rewrite from_bytes_be_app. cbn. lia. Qed.

Lemma from_bytes_be_range b : 0 <= from_bytes_be b < 256 ^ Z.of_nat (length b).
Proof.
  induction b as [|x b IH] using rev_ind.
  - cbn. lia.
  - rewrite from_bytes_be_snoc, app_length, Nat.add_1_r, Nat2Z.inj_succ, Z.pow_succ_r by lia.
    pose proof (byte_val_range x). lia.
Qed.

Lemma be_digits_length len n : length (be_digits len n) = len.
Proof. revert n; induction len; intros n; cbn; auto. rewrite app_length, IHlen. cbn. lia. Qed.

Lemma from_be_digits len n : from_bytes_be (be_digits len n) = n mod 256 ^ Z.of_nat len.
Proof.
  revert n; induction len as [|k IH]; intros n.
  - cbn. rewrite Z.mod_1_r. reflexivity.
  - cbn [be_digits]. rewrite from_bytes_be_snoc, IH, byte_val_of.
    rewrite Nat2Z.inj_succ, Z.pow_succ_r by lia.
    rewrite Z.rem_mul_r by (try apply Z.pow_nonzero; lia). lia.
Qed.

Lemma be_digits_from b : be_digits (length b) (from_bytes_be b) = b.
Proof.
  induction b as [|x b IH] using rev_ind; auto.
  rewrite app_length, Nat.add_1_r. cbn [be_digits].
  rewrite from_bytes_be_snoc.
  pose proof (byte_val_range x).
  rewrite Z.div_add_l, Z.div_small, Z.add_0_r, IH by lia.
  f_equal. f_equal. apply byte_val_inj. rewrite byte_val_of.
  rewrite Z.add_comm, Z.mod_add, Z.mod_small by lia. reflexivity.
Qed.

Lemma to_bytes_be_ok len n : 0 <= n < 256 ^ Z.of_nat len ->
  exists b, to_bytes_be len n = Ok b /\ length b = len /\ from_bytes_be b = n.
Proof.
  intros H. exists (be_digits len n). unfold to_bytes_be.
  destruct (Z.ltb_spec n 0); [lia|]. destruct (Z.leb_spec (256 ^ Z.of_nat len) n); [lia|].
  cbn. split; auto. split; [apply be_digits_length|].
  rewrite from_be_digits, Z.mod_small; auto.
Qed.

Lemma to_bytes_be_err len n : ~ (0 <= n < 256 ^ Z.of_nat len) ->
  to_bytes_be len n = Err OverflowError.
Proof.
  intros H. unfold to_bytes_be.
  destruct (Z.ltb_spec n 0); auto. destruct (Z.leb_spec (256 ^ Z.of_nat len) n); auto. lia.
Qed.

Lemma to_bytes_be_inv len n b : to_bytes_be len n = Ok b ->
  0 <= n < 256 ^ Z.of_nat len /\ length b = len /\ from_bytes_be b = n.
Proof.
  intros H. destruct (Z_lt_dec n 0); [rewrite to_bytes_be_err in H by lia; discriminate|].
  destruct (Z_lt_dec n (256 ^ Z.of_nat len)); [|rewrite to_bytes_be_err in H by lia; discriminate].
  destruct (to_bytes_be_ok len n ltac:(lia)) as (b' & E & L & F).
  split; [lia|]. assert (b = b') by congruence. subst. auto.
Qed.

Lemma from_bytes_be_inj a b : length a = length b -> from_bytes_be a = from_bytes_be b -> a = b.
Proof. intros L H. rewrite <- (be_digits_from a), L, H. apply be_digits_from. Qed.

Lemma bytes_eqb_spec a b : reflect (a = b) (bytes_eqb a b).
Proof.
  apply iff_reflect. revert b; induction a as [|x a IH]; intros [|y b]; cbn; split; try congruence; auto.
  - intros [= -> ->]. rewrite (proj1 (IH b) eq_refl), Bool.andb_true_r.
    apply Byte.byte_dec_lb. reflexivity.
  - rewrite Bool.andb_true_iff. intros [E1 E2]. apply Byte.byte_dec_bl in E1. apply IH in E2. congruence.
Qed.

Lemma bytes_eqb_refl a : bytes_eqb a a = true.
Proof. destruct (bytes_eqb_spec a a); congruence. Qed.

Lemma mapM_ok {A B} (f : A -> result B) (g : A -> B) l :
  (forall x, In x l -> f x = Ok (g x)) -> mapM f l = Ok (map g l).
Proof.
  induction l as [|x l IH]; intros H; cbn; auto.
  rewrite H, IH; cbn; auto; intros; apply H; cbn; auto.
Qed.

Lemma py_nth_nat {A} (l : list A) i a : nth_error l i = Some a -> py_nth l (Z.of_nat i) = Ok a.
Proof.
  intros H. unfold py_nth.
  assert (i < length l)%nat by (apply nth_error_Some; congruence).
  destruct (Z.ltb_spec (Z.of_nat i) 0); [lia|].
  destruct (Z.ltb_spec (Z.of_nat i) 0); [lia|].
  destruct (Z.leb_spec (Z.of_nat (length l)) (Z.of_nat i)); [lia|]. cbn.
  rewrite Nat2Z.id, H. reflexivity.
Qed.
