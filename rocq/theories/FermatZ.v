(** Fermat's little theorem on [Z], from the finite field [modp P]. *)
From Coq Require Import Zpow_facts Znumtheory.
From mathcomp Require Import zify ssrZ.
From Verif Require Import Prelude ModpModel ModpField FinFld Pocklington.
Import GRing.Theory.
Local Open Scope Z_scope.

Lemma fermat_Z (p a : Z) : Znumtheory.prime p -> ~ (p | a) -> a ^ (p - 1) mod p = 1.
Proof.
move=> Hp Hd; pose P := PrimeZ Hp; have H2 := prime_ge_2 _ Hp.
have Hx : in_modp P a != 0%R.
  apply/eqP => /(congr1 (@mval P)) /= E; apply: Hd.
  by apply Z.mod_divide; [lia | rewrite E Z.mod_0_l //; lia].
have := @fermat (modp_finFieldType P) _ Hx; rewrite card_modp /= -in_modpX.
rewrite (_ : Z.of_nat (Z.to_nat p).-1 = p - 1); last by lia.
move=> /(congr1 (@mval P)) /= ->; rewrite Z.mod_1_l //; lia.
Qed.
