(** Pocklington's criterion, and the primality of the modulus used by
    starks/utils.py:22 and by the test suite.  Certificates were found by an
    external factorisation program; everything is re-checked here. *)
From Coq Require Import Zpow_facts Znumtheory.
From mathcomp Require Import zify ssrZ.
From Verif Require Import Prelude ModpModel ModpField FinFld UtilsModel.
Import GRing.Theory.
Local Open Scope Z_scope.
Local Set Implicit Arguments.
Local Unset Strict Implicit.

Lemma divide_nat (a b : Z) : 0 < a -> 0 <= b -> (Z.to_nat a %| Z.to_nat b)%N -> (a | b).
Proof. by move=> Ha Hb /dvdnP [k Hk]; exists (Z.of_nat k); lia. Qed.

Lemma nat_divide (a b : nat) : (Z.of_nat a | Z.of_nat b) -> (a %| b)%N.
Proof.
move=> [k Hk]; case: a Hk => [|a] Hk; first by rewrite (_ : b = 0%N) //; lia.
by apply/dvdnP; exists (Z.to_nat k); nia.
Qed.

Lemma prime_nat_Z (r : nat) : prime.prime r -> Znumtheory.prime (Z.of_nat r).
Proof.
move=> Hr; have H1 := prime_gt1 Hr.
rewrite -prime_alt; split; first by lia.
move=> n [Hn1 Hn2] Hd.
have : (Z.to_nat n %| r)%N by apply: nat_divide; rewrite Z2Nat.id //; lia.
by move: (primeP Hr) => [_ H] /H /orP [/eqP|/eqP]; lia.
Qed.

Lemma prime_Z_nat (p : Z) : Znumtheory.prime p -> prime.prime (Z.to_nat p).
Proof.
move=> Hp; have H1 := prime_ge_2 _ Hp; apply/primeP; split; first by lia.
move=> d Hd; have : (Z.of_nat d | p).
  by rewrite -(Z2Nat.id p); [move: Hd => /dvdnP [k ->]; exists (Z.of_nat k); lia | lia].
by move=> /(prime_divisors _ Hp); lia.
Qed.

Section InModp.
Variable P : primeZ.
Lemma in_modp_eq (a b : Z) : in_modp P a = in_modp P b <-> a mod pz P = b mod pz P.
Proof. by split=> [/(congr1 (@mval P)) | E]; [| apply: mval_inj]. Qed.
Lemma in_modpM (a b : Z) : in_modp P (a * b) = (in_modp P a * in_modp P b)%R.
Proof. by apply: mval_inj; rewrite /= -Zmult_mod. Qed.
Lemma in_modpX (a : Z) (n : nat) : in_modp P (a ^ Z.of_nat n) = (in_modp P a ^+ n)%R.
Proof.
elim: n => [|n IH]; first by rewrite expr0.
by rewrite Nat2Z.inj_succ Z.pow_succ_r ?in_modpM ?IH ?exprS //; lia.
Qed.
End InModp.

Lemma one_gcd (F : fieldType) (x : F) (m n : nat) : (0 < m)%N ->
  (x ^+ m = 1 -> x ^+ n = 1 -> x ^+ gcdn m n = 1)%R.
Proof.
move=> Hm Em En; have [km kn E _] := egcdnP n Hm.
have := congr1 (fun k => x ^+ k)%R E; rewrite mulnC exprM Em expr1n exprD mulnC exprM En expr1n mul1r.
by move=> ->.
Qed.

(** one prime factor q of N-1 divides r-1 for every prime divisor r of N *)
Lemma pock_one (N q a : Z) (r : nat) : 1 < N -> Znumtheory.prime q -> (q | N - 1) ->
  a ^ (N - 1) mod N = 1 -> Z.gcd (a ^ ((N - 1) / q) mod N - 1) N = 1 ->
  prime.prime r -> (Z.of_nat r | N) -> (Z.to_nat q %| r.-1)%N.
Proof.
move=> HN Hq Hd Ha Hg Hr HrN.
pose P := PrimeZ (prime_nat_Z Hr); have Hr1 := prime_gt1 Hr.
have Hq2 := prime_ge_2 _ Hq.
have modr : forall z, z mod N mod Z.of_nat r = z mod Z.of_nat r.
  by move=> z; symmetry; apply: Zmod_div_mod => //; lia.
set n := Z.to_nat (N - 1); set m := Z.to_nat ((N - 1) / q).
have Hm0 : 0 <= (N - 1) / q by apply: Z.div_pos; lia.
have Enm : n = (Z.to_nat q * m)%N.
  by have := Z_div_exact_full_2 (N - 1) q; rewrite (Zdivide_mod _ _ Hd); rewrite /n /m; lia.
pose x := in_modp P a.
have Hxn : (x ^+ n = 1)%R.
  rewrite -in_modpX /n Z2Nat.id; last by lia.
  by apply/in_modp_eq; rewrite -(modr (a ^ (N - 1))) Ha.
have Hxm : (x ^+ m <> 1)%R.
  rewrite -in_modpX /m Z2Nat.id // => /in_modp_eq E.
  have : (Z.of_nat r | 1).
    rewrite -Hg; apply: Z.gcd_greatest => //.
    apply: Zmod_divide; first by lia.
    rewrite Zminus_mod modr [X in X - _]E.
    by rewrite Z.sub_diag Zmod_0_l.
  by move=> /Z.divide_pos_le; lia.
have Hx0 : (x != 0)%R.
  apply/eqP => E; move: Hxn; rewrite E expr0n; case: eqP => [|_ /eqP]; last by rewrite eq_sym oner_eq0.
  by rewrite /n; lia.
have Hfer : (x ^+ r.-1 = 1)%R.
  have := @fermat (modp_finFieldType P) x Hx0.
  by rewrite (card_modp P) /= Nat2Z.id.
case Hdiv: (_ %| _)%N => //; exfalso.
have Hpq := prime_Z_nat Hq.
have Hn0 : (0 < n)%N by rewrite /n; lia.
have Hgcd := one_gcd Hn0 Hxn Hfer.
have Hcop : coprime (gcdn n r.-1) (Z.to_nat q).
  rewrite coprime_sym prime_coprime //; apply/negP => H.
  by move: (dvdn_trans H (dvdn_gcdr n r.-1)); rewrite Hdiv.
have : (gcdn n r.-1 %| m)%N.
  by rewrite -(Gauss_dvdr m Hcop) -Enm dvdn_gcdl.
by move=> /dvdnP [k Ek]; apply: Hxm; rewrite Ek mulnC exprM Hgcd expr1n.
Qed.

Definition pock_check (N : Z) (l : list (Z * Z)) : bool :=
  (1 <? N) &&
  all (fun qa => ((N - 1) mod qa.1 =? 0) && (Zpow_mod qa.2 (N - 1) N =? 1)
                 && (Z.gcd (Zpow_mod qa.2 ((N - 1) / qa.1) N - 1) N =? 1)) l &&
  uniq [seq qa.1 | qa <- l] &&
  (N <? (foldr (fun qa acc => qa.1 * acc) 1 l) ^ 2).

Lemma pocklington (N : Z) (l : list (Z * Z)) :
  (forall qa, qa \in l -> Znumtheory.prime qa.1) -> pock_check N l -> Znumtheory.prime N.
Proof.
move=> Hp /andP [/andP [/andP [/Z.ltb_lt HN Hall] Hu] /Z.ltb_lt HF].
have Nn : Z.of_nat (Z.to_nat N) = N by rewrite Z2Nat.id; lia.
rewrite -Nn; apply: prime_nat_Z.
set r := pdiv (Z.to_nat N).
have Hr : prime.prime r by apply: pdiv_prime; lia.
have HrN : (Z.of_nat r | N).
  by have /dvdnP [k Ek] := pdiv_dvd (Z.to_nat N); exists (Z.of_nat k); rewrite -/r in Ek; lia.
have Hr1 := prime_gt1 Hr.
have Hdiv : forall qa, qa \in l -> (Z.to_nat qa.1 %| r.-1)%N.
  move=> qa Hin; have /andP [/andP [/Z.eqb_eq H1 /Z.eqb_eq H2] /Z.eqb_eq H3] := allP Hall qa Hin.
  move: H2 H3; rewrite !Zpow_mod_correct; try lia; move=> H2 H3.
  apply: (@pock_one N qa.1 qa.2) => //; first exact: Hp.
  by apply: Zmod_divide => //; have := prime_ge_2 _ (Hp _ Hin); lia.
have Hprod : (foldr (fun qa acc => Z.to_nat qa.1 * acc)%N 1%N l %| r.-1)%N /\
   Z.of_nat (foldr (fun qa acc => Z.to_nat qa.1 * acc)%N 1%N l) = foldr (fun qa acc => qa.1 * acc) 1 l.
  elim: l {Hall HF} Hp Hu Hdiv => [|qa l IH] Hp Hu Hdiv; first by rewrite dvd1n.
  move: Hu; rewrite map_cons cons_uniq => /andP [Hni Hu].
  have [||H1 H2] := IH _ Hu.
  - by move=> x Hx; apply: Hp; rewrite inE Hx orbT.
  - by move=> x Hx; apply: Hdiv; rewrite inE Hx orbT.
  have Hq := Hp qa (mem_head _ _); have Hq2 := prime_ge_2 _ Hq.
  split; last by rewrite /= -H2 Nat2Z.inj_mul Z2Nat.id //; apply: Z.le_trans Hq2.
  rewrite /= Gauss_dvd ?H1 ?Hdiv ?mem_head //.
  rewrite prime_coprime ?prime_Z_nat //; apply/negP.
  have : forall x, x \in l -> Znumtheory.prime x.1 by move=> x Hx; apply: Hp; rewrite inE Hx orbT.
  elim: l Hni {IH Hp Hu Hdiv H1 H2} => [|x l IH] /=.
    by rewrite dvdn1 => _ _ /eqP; move: (qa.1) Hq2 => q; lia.
  rewrite inE negb_or => /andP [Hne Hni] Hp; rewrite Euclid_dvdM ?prime_Z_nat // => /orP [H|]; last first.
    by apply: IH => // y Hy; apply: Hp; rewrite inE Hy orbT.
  have Hx := Hp x (mem_head _ _); have Hx2 := prime_ge_2 _ Hx.
  move: H; rewrite dvdn_prime2 ?prime_Z_nat // => /eqP E.
  move/eqP: Hne; apply; move: E Hx2 Hq2; move: (qa.1) (x.1) => q q'; lia.
have [H1 H2] := Hprod.
have Hle : (foldr (fun qa acc => Z.to_nat qa.1 * acc)%N 1%N l <= r.-1)%N by apply: dvdn_leq => //; lia.
apply: ltn_pdiv2_prime; first by lia.
rewrite -/r; move: HF Hle; rewrite -H2; move: (foldr _ _ _) => F HF Hle.
by nia.
Qed.

Local Ltac pock l := apply: (@pocklington _ l); last by vm_compute.

Lemma prime_359 : Znumtheory.prime 359. Proof. by apply: primebP; vm_compute. Qed.
Lemma prime_419 : Znumtheory.prime 419. Proof. by apply: primebP; vm_compute. Qed.
Lemma prime_79 : Znumtheory.prime 79. Proof. by apply: primebP; vm_compute. Qed.
Lemma prime_29 : Znumtheory.prime 29. Proof. by apply: primebP; vm_compute. Qed.
Lemma prime_13 : Znumtheory.prime 13. Proof. by apply: primebP; vm_compute. Qed.
Lemma prime_47389 : Znumtheory.prime 47389.
Proof. pock [:: (359, 2)]; by move=> qa; rewrite !inE => /eqP ->; exact: prime_359. Qed.
Lemma prime_17599 : Znumtheory.prime 17599.
Proof. pock [:: (419, 2)]; by move=> qa; rewrite !inE => /eqP ->; exact: prime_419. Qed.
Lemma prime_5689 : Znumtheory.prime 5689.
Proof. pock [:: (79, 2)]; by move=> qa; rewrite !inE => /eqP ->; exact: prime_79. Qed.
Lemma prime_227561 : Znumtheory.prime 227561.
Proof. pock [:: (5689, 2)]; by move=> qa; rewrite !inE => /eqP ->; exact: prime_5689. Qed.
Lemma prime_5279 : Znumtheory.prime 5279.
Proof.
pock [:: (29, 2); (13, 2)].
by move=> qa; rewrite !inE => /orP [] /eqP ->; [exact: prime_29 | exact: prime_13].
Qed.

Lemma prime_c1 : Znumtheory.prime 19903381.
Proof. pock [:: (47389, 2)]; by move=> qa; rewrite !inE => /eqP ->; exact: prime_47389. Qed.
Lemma prime_c2 : Znumtheory.prime 2865134424244852517.
Proof.
pock [:: (19903381, 2); (17599, 2)].
by move=> qa; rewrite !inE => /orP [] /eqP ->; [exact: prime_c1 | exact: prime_17599].
Qed.
Lemma prime_c3 : Znumtheory.prime 494933341829.
Proof.
pock [:: (227561, 2); (5279, 2)].
by move=> qa; rewrite !inE => /orP [] /eqP ->; [exact: prime_227561 | exact: prime_5279].
Qed.
Lemma prime_c4 : Znumtheory.prime 56221458031723427.
Proof. pock [:: (494933341829, 2)]; by move=> qa; rewrite !inE => /eqP ->; exact: prime_c3. Qed.
Lemma prime_c5 : Znumtheory.prime 2768008234834258951084553497114048089766079.
Proof.
pock [:: (2865134424244852517, 2); (56221458031723427, 2)].
by move=> qa; rewrite !inE => /orP [] /eqP ->; [exact: prime_c2 | exact: prime_c4].
Qed.
Lemma prime_mimc : Znumtheory.prime mimc_modulus.
Proof.
pock [:: (2768008234834258951084553497114048089766079, 2)].
by move=> qa; rewrite !inE => /eqP ->; exact: prime_c5.
Qed.
