(** MiMC (starks/utils.py:20-27) is a permutation of [0, p). *)
From Coq Require Import Znumtheory.
From mathcomp Require Import zify ssrZ.
From Verif Require Import Prelude ModpModel ModpField FftProofs FinFld UtilsModel UtilsProofs Pocklington.
Import GRing.Theory.
Local Open Scope Z_scope.
Local Opaque mimc_modulus.

Definition Pmimc : primeZ := PrimeZ prime_mimc.
Local Notation F := (modp_finFieldType Pmimc).
Local Notation p := mimc_modulus.

Lemma mimc_exponent : exists d : nat, (3 * d = (2 * (Z.to_nat p).-1).+1)%N.
Proof.
exists (Z.to_nat ((2 * (p - 1) + 1) / 3)).
have E : 2 * (p - 1) + 1 = 3 * ((2 * (p - 1) + 1) / 3) by vm_compute.
have H : 1 < p by vm_compute.
by move: (_ / 3) E H => q; move: p => P; lia.
Qed.

Lemma cube_root : exists d : nat, forall x : F, ((x ^+ 3) ^+ d = x)%R.
Proof.
have [d Ed] := mimc_exponent; exists d => x; rewrite -exprM Ed.
have [->|H] := eqVneq x 0%R; first by rewrite expr0n.
rewrite exprS mulnC exprM; have := @fermat F x H; rewrite (card_modp Pmimc) => ->.
by rewrite expr1n mulr1.
Qed.

Lemma mimc_round c x y : 0 <= x < p -> 0 <= y < p ->
  (x ^ 3 + c) mod p = (y ^ 3 + c) mod p -> x = y.
Proof.
move=> Hx Hy E; have [d Hd] := cube_root.
have E3 : x ^ 3 mod p = y ^ 3 mod p.
  have -> : x ^ 3 = (x ^ 3 + c) - c by ring.
  have -> : y ^ 3 = (y ^ 3 + c) - c by ring.
  by rewrite Zminus_mod E -Zminus_mod.
have : in_modp Pmimc x = in_modp Pmimc y :> F.
  rewrite -(Hd (in_modp Pmimc x)) -(Hd (in_modp Pmimc y)) -!(in_modpX Pmimc _ 3).
  by congr (_ ^+ _)%R; apply/in_modp_eq.
by move=> /in_modp_eq; rewrite !Z.mod_small.
Qed.

Lemma mimc_round_onto c y : 0 <= y < p -> exists x, 0 <= x < p /\ (x ^ 3 + c) mod p = y.
Proof.
move=> Hy; have [d Hd] := cube_root.
pose x : F := (in_modp Pmimc (y - c) ^+ d)%R.
have H3 : (x ^+ 3 = in_modp Pmimc (y - c))%R by rewrite -exprM mulnC exprM Hd.
exists (mval x); split; first exact: (mvalP x).
have Ex : in_modp Pmimc (mval x) = x.
  by apply: mval_inj => /=; rewrite Z.mod_small //; exact: (mvalP x).
have E : (mval x) ^ 3 mod p = (y - c) mod p.
  by apply/(in_modp_eq Pmimc); rewrite (in_modpX Pmimc _ 3) Ex.
rewrite Zplus_mod E -Zplus_mod; have -> : y - c + c = y by ring.
by rewrite Z.mod_small.
Qed.

(** induction on the number of rounds *)
Lemma mimc_injective inp1 inp2 steps rc r : rc <> [::] -> 0 <= inp1 < p -> 0 <= inp2 < p ->
  mimc inp1 steps rc = Ok r -> mimc inp2 steps rc = Ok r -> inp1 = inp2.
Proof.
move=> Hrc H1 H2; case: (Z.le_gt_cases steps 1) => Hs.
  by rewrite !mimc_le1 // => -[->] [->].
have -> : steps = 1 + Z.of_nat (Z.to_nat (steps - 1)) by lia.
elim: (Z.to_nat (steps - 1)) r => [|n IH] r; first by rewrite !mimc_le1 // => -[->] [->].
rewrite Nat2Z.inj_succ -Z.add_1_r Z.add_assoc !mimc_S //; try lia.
have [x1 [E1 B1]] := mimc_total inp1 (1 + Z.of_nat n) rc Hrc.
have [x2 [E2 B2]] := mimc_total inp2 (1 + Z.of_nat n) rc Hrc.
rewrite E1 E2 !bind_ok => -[Ea] [Eb]; apply: (IH x1) => //; rewrite E2; congr Ok.
have bnd : forall i x, 0 <= i < p -> mimc i (1 + Z.of_nat n) rc = Ok x ->
    (2 <= 1 + Z.of_nat n -> 0 <= x < p) -> 0 <= x < p.
  move=> i x Hi Ei; case: n {IH E1 E2 B1 B2 Ea Eb} Ei => [|n] Ei; last by apply; lia.
  by move: Ei; rewrite mimc_le1 // => -[<-].
apply: (mimc_round (List.nth (Z.to_nat (1 + Z.of_nat n - 1) mod length rc)%nat rc 0)).
- exact: bnd E2 B2.
- exact: bnd E1 B1.
- by rewrite Ea Eb.
Qed.

Lemma mimc_surjective steps rc y : rc <> [::] -> 0 <= y < p ->
  exists x, 0 <= x < p /\ mimc x steps rc = Ok y.
Proof.
move=> Hrc Hy; case: (Z.le_gt_cases steps 1) => Hs.
  by exists y; rewrite mimc_le1.
have -> : steps = 1 + Z.of_nat (Z.to_nat (steps - 1)) by lia.
elim: (Z.to_nat (steps - 1)) y Hy => [|n IH] y Hy; first by exists y; rewrite mimc_le1.
rewrite Nat2Z.inj_succ -Z.add_1_r Z.add_assoc.
have [x [Hx Ex]] := mimc_round_onto (List.nth (Z.to_nat (1 + Z.of_nat n - 1) mod length rc)%nat rc 0) y Hy.
have [z [Hz Ez]] := IH x Hx.
by exists z; split=> //; rewrite mimc_S // ?Ez ?bind_ok ?Ex //; lia.
Qed.
