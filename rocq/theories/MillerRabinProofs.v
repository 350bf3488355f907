(** Rabin's bound for the model of misc/primality.py. *)
From Coq Require Import ZArith List Lia Znumtheory.
From mathcomp Require Import all_ssreflect zify ssrZ.
From Verif Require Import Base PrimalityModel PrimalityProofs Pocklington InterpProofs MillerRabin.
Import ListNotations.
Set Implicit Arguments.
Unset Strict Implicit.
Unset Printing Implicit Defensive.
Local Open Scope Z_scope.

Lemma of_nat_expn a k : Z.of_nat (a ^ k)%N = Z.of_nat a ^ Z.of_nat k.
Proof.
elim: k => [|k IH]; first by [].
rewrite expnS -multE Nat2Z.inj_mul IH Nat2Z.inj_succ Z.pow_succ_r //; lia.
Qed.

Lemma cg_one (N x : nat) : (1 < N)%N -> cg (Z.of_nat N) (Z.of_nat x) 1 -> (x == 1 %[mod N])%N.
Proof.
move=> N1; case: x => [|x] H.
  have := Z.divide_pos_le (Z.of_nat N) 1 ltac:(lia).
  by move: H => [q Hq] H; move: H => /(_ ltac:(exists (- q); lia)); move/ltP: N1; lia.
rewrite eqn_mod_dvd // subn1; apply: nat_divide.
by move: H; rewrite /cg (_ : Z.of_nat x.+1 - 1 = Z.of_nat x); last lia.
Qed.

Lemma cg_minus (N x : nat) : cg (Z.of_nat N) (Z.of_nat x) (-1) -> (N %| x.+1)%N.
Proof.
move=> H; apply: nat_divide.
by move: H; rewrite /cg (_ : Z.of_nat x - -1 = Z.of_nat x.+1); last lia.
Qed.

Lemma card_count N (P : pred nat) : #|[set a : 'I_N | P a]| = count P (iota 0 N).
Proof. by rewrite -sum1dep_card -(big_mkord P (fun=> 1%N)) -sum1_count /index_iota subn0. Qed.

Lemma count_app T (f : pred T) l m : count f (List.app l m) = (count f l + count f m)%N.
Proof. exact: count_cat. Qed.

Lemma length_filter T (f : T -> bool) l : length (List.filter f l) = count f l.
Proof. by elim: l => //= x l; case: (f x) => /= ->. Qed.

Section Liars.
Variables n s r : Z.
Hypothesis Hn : 3 < n.
Hypothesis Ho : n mod 2 = 1.
Hypothesis Hs : 1 <= s.
Hypothesis Hr : 0 < r.
Hypothesis Hro : r mod 2 = 1.
Hypothesis En : n - 1 = 2 ^ s * r.
Hypothesis Np : ~ Znumtheory.prime n.

Let N := Z.to_nat n.

Lemma liar_strong (a : nat) : strong_liar n s r (Z.of_nat a) ->
  strong N (Z.to_nat s) (Z.to_nat r) a.
Proof.
have NE : n = Z.of_nat N by rewrite /N Z2Nat.id; lia.
have N1 : (1 < N)%N by apply/ltP; lia.
case=> [H|[i [Hi H]]]; apply/orP; [left|right].
  by apply: cg_one => //; rewrite of_nat_expn Z2Nat.id -?NE //; lia.
have lt : (Z.to_nat i < Z.to_nat s)%N by apply/ltP; lia.
apply/existsP; exists (Ordinal lt) => /=; apply: cg_minus.
rewrite of_nat_expn -multE Nat2Z.inj_mul of_nat_expn !Z2Nat.id -?NE //; lia.
Qed.

Lemma odd_to_nat z : 0 <= z -> z mod 2 = 1 -> odd (Z.to_nat z).
Proof.
move=> z0 z1; have E := Z.div_mod z 2 ltac:(lia); have q0 := Z.div_pos z 2 z0 ltac:(lia).
have -> : Z.to_nat z = ((Z.to_nat (z / 2)).*2).+1 by rewrite -muln2 -multE; lia.
by rewrite /= odd_double.
Qed.

Lemma liars_quarter :
  4 * Z.of_nat (length (List.filter (fun a => negb (isWitness a n s r))
                 (List.map Z.of_nat (List.seq 2 (Z.to_nat (n - 3)))))) <= n - 9.
Proof.
have N1 : (1 < N)%N by apply/ltP; rewrite /N; lia.
have Npn : ~~ prime.prime N.
  by apply/negP => /prime_nat_Z; rewrite /N Z2Nat.id //; lia.
have NN : N.-1 = (2 ^ Z.to_nat s * Z.to_nat r)%N.
  apply: Nat2Z.inj; rewrite -multE Nat2Z.inj_mul of_nat_expn !Z2Nat.id; try lia.
have := rabin (@odd_to_nat n ltac:(lia) Ho) N1 Npn NN (@odd_to_nat r ltac:(lia) Hro).
rewrite card_count -list_seqE.
have W a : reflect (strong_liar n s r a) (negb (isWitness a n s r)).
  by apply: isWitnessP; lia.
have sub l : (count (fun a => negb (isWitness a n s r)) (List.map Z.of_nat l) <=
              count (fun a => strong N (Z.to_nat s) (Z.to_nat r) a) l)%N.
  elim: l => //= a l IH; apply: leq_add IH.
  by case: W => // /liar_strong ->.
have := sub (List.seq 0 N); rewrite length_filter.
have -> : List.seq 0 N = List.app [:: 0; 1]%nat (List.app (List.seq 2 (Z.to_nat (n - 3))) [:: Z.to_nat (n - 1)]).
  rewrite (_ : N = (2 + (Z.to_nat (n - 3) + 1))%coq_nat); last by rewrite /N; lia.
  rewrite List.seq_app List.seq_app [List.seq _ 1]/=.
  by congr (List.app _ (List.app _ [:: _])); lia.
have L1 : strong_liar n s r 1.
  by left; rewrite Z.pow_1_l; [exists 0; lia|lia].
have LN : strong_liar n s r (n - 1).
  right; exists 0; split; first lia; rewrite Z.pow_0_r Z.mul_1_l.
  apply: cg_trans (cg_pow (b := -1) _ _) _; [lia|by exists 1; lia|].
  have -> : (-1) ^ r = -1.
    have E := Z.div_mod r 2 ltac:(lia).
    rewrite E Hro Z.pow_add_r ?Z.pow_mul_r; try lia.
    by rewrite -[(-1) ^ 2]/1 Z.pow_1_l; lia.
  by exists 0; lia.
rewrite !List.map_app !count_app; set c := count _ (List.map _ (List.seq 2 _)).
suff: (4 * (c + 2) <= N.-1)%N -> 4 * Z.of_nat c <= n - 9.
  move=> X A B; apply: X; apply: leq_trans B; rewrite leq_mul2l /=; apply: leq_trans A.
  rewrite /= Z2Nat.id; last lia.
  by move: (introT (W _) L1) (introT (W _) LN) => -> ->; lia.
by rewrite /N; lia.
Qed.
End Liars.

Lemma pp_error_quarter n k : 3 < n -> n mod 2 = 1 -> ~ Znumtheory.prime n ->
  4 ^ Z.of_nat k * Z.of_nat (length (List.filter
     (fun d => match probablyPrime n d with Ok b => b | Err _ => true end)
     (vectors k (List.map (fun i => 2 + Z.of_nat i) (List.seq 0 (Z.to_nat (n - 3)))))))
   <= (n - 9) ^ Z.of_nat k.
Proof.
move=> Hn Ho Np.
have [s [r [Hs [Hr [Hro [E _]]]]]] := probablyPrime_odd [::] Hn Ho.
have X d : probablyPrime n d = Ok (witness_loop n s r d).
  have [s' [r' [Hs' [Hr' [Hro' [E' ->]]]]]] := probablyPrime_odd d Hn Ho.
  have [-> -> //] := @two_power_odd_unique s' r' s r ltac:(lia) ltac:(lia) Hro' Hro ltac:(lia).
rewrite (filter_ext _ (fun d => witness_loop n s r d)); last by move=> d; rewrite X.
rewrite vectors_count -zseq_range // Nat2Z.inj_pow -Z.pow_mul_l.
apply: Z.pow_le_mono_l; split; first lia.
exact: liars_quarter.
Qed.
