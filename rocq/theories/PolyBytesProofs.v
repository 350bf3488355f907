From Coq Require Import ZArith List Lia.
From Verif Require Import Base BaseProofs ModpModel PolyBytesModel.
Import ListNotations.
Local Open Scope Z_scope.

(** [l] is [m] with trailing zeros removed. *)
Definition stripped (l m : list Z) :=
  (exists k, m = l ++ repeat 0 k) /\ last l 1 <> 0.

Lemma strip_zeros_spec l : stripped (strip_zeros l) l.
Proof.
  induction l as [|x l [[k E] N]]; cbn -[last].
  - split; [exists 0%nat; reflexivity|cbn; lia].
  - destruct (strip_zeros l) as [|y t] eqn:S.
    + unfold modp_eq. destruct (Z.eqb_spec x 0).
      * split; [exists (Datatypes.S k); cbn in *; congruence|cbn; lia].
      * split; [exists k; cbn in *; congruence|cbn; lia].
    + split; [exists k; cbn in *; congruence|]. exact N.
Qed.

Lemma chunks_concat bs : Forall (fun b => length b = 32%nat) bs ->
  chunks32 (length bs) (concat bs) = bs.
Proof.
  induction 1 as [|b bs Hb Hbs IH]; cbn [chunks32 concat length]; auto.
  rewrite firstn_app, skipn_app, Hb, Nat.sub_diag, firstn_O, skipn_O, app_nil_r.
  rewrite firstn_all2, skipn_all2 by lia. cbn [app]. congruence.
Qed.

Lemma length_concat32 (bs : list bytes) : Forall (fun b => length b = 32%nat) bs ->
  length (concat bs) = (32 * length bs)%nat.
Proof. induction 1; cbn [concat length]; auto. rewrite app_length, H, IHForall. lia. Qed.

Lemma poly_of_bytes_concat bs : Forall (fun b => length b = 32%nat) bs ->
  exists l, poly_of_bytes (concat bs) = Ok l /\ stripped l (map modp_of_bytes bs).
Proof.
  intros H. unfold poly_of_bytes. rewrite (length_concat32 bs H).
  rewrite Nat.mul_comm, Nat.mod_mul, Nat.div_mul by lia. cbn -[chunks32].
  eexists. split; [reflexivity|]. rewrite chunks_concat by auto. apply strip_zeros_spec.
Qed.

Lemma poly_of_bytes_bad c : Nat.modulo (length c) 32 <> 0%nat -> poly_of_bytes c = Err ValueError.
Proof. intros H. unfold poly_of_bytes. destruct (Nat.eqb_spec (length c mod 32) 0); congruence. Qed.

Lemma strip_zeros_id l : last l 1 <> 0 -> strip_zeros l = l.
Proof.
  intros H. destruct (strip_zeros_spec l) as [[k E] N].
  destruct k as [|k]; [rewrite app_nil_r in E; congruence|].
  exfalso. apply H. rewrite E. replace (S k) with (k + 1)%nat by lia.
  rewrite repeat_app. cbn. rewrite app_assoc, last_last. reflexivity.
Qed.

Lemma to_bytes_all l : Forall (fun a => 0 <= a < 2 ^ 256) l ->
  exists bs, mapM modp_to_bytes l = Ok bs /\ Forall (fun b => length b = 32%nat) bs
             /\ map modp_of_bytes bs = l.
Proof.
  induction 1 as [|a l Ha Hl (bs & E & L & M)]; [exists []; cbn; auto|].
  destruct (to_bytes_be_ok 32 a) as (b & Eb & Lb & Fb); [exact Ha|].
  exists (b :: bs). cbn [mapM]. unfold modp_to_bytes at 1. rewrite Eb, E.
  split; [reflexivity|]. split; [constructor; auto|]. cbn. rewrite M.
  unfold modp_of_bytes. congruence.
Qed.

Lemma poly_bytes_roundtrip l : Forall (fun a => 0 <= a < 2 ^ 256) l -> last l 1 <> 0 ->
  exists bs, mapM modp_to_bytes l = Ok bs /\ poly_of_bytes (concat bs) = Ok l.
Proof.
  intros H N. destruct (to_bytes_all l H) as (bs & E & L & M). exists bs. split; auto.
  unfold poly_of_bytes. rewrite (length_concat32 bs L), Nat.mul_comm, Nat.mod_mul, Nat.div_mul by lia.
  cbn -[chunks32]. rewrite chunks_concat, M, strip_zeros_id by auto. reflexivity.
Qed.
