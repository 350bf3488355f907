(** Property theorems C31: what [lagrange_interp] (starks/poly_utils.py:337-368) returns for
    any points, repeated ones included. *)
From Verif Require Import Prelude BaseProofs PolyModel PolyProofs ModpModel ModpField InterpModel InterpProofs.
Set Implicit Arguments.
Unset Strict Implicit.
Unset Printing Implicit Defensive.
Import GRing.Theory.
Local Open Scope ring_scope.

Lemma num_of_prod (F : fieldType) (xs : seq F) i : (i < size xs)%N ->
  num_of xs xs`_i = \prod_(j < size xs | j != i :> nat) ('X - (xs`_j)%:P).
Proof.
move=> Hi; rewrite /num_of (big_nth 0) big_mkord (bigD1 (Ordinal Hi)) //= mulrC mulpK //.
by rewrite polyXsubC_eq0.
Qed.

Lemma num_of_at (F : fieldType) (xs : seq F) x z : x \in xs -> z \in xs ->
  ((num_of xs x).[z] == 0) = ~~ ((z == x) && (count_mem x xs == 1)%N).
Proof.
move=> Hx Hz; rewrite num_ofE // -[_ == 0]/(root _ _) root_prod_XsubC -[in LHS]has_pred1 has_count.
have := permP (perm_to_rem Hx) (pred1 z); rewrite /= eq_sym => E.
have := permP (perm_to_rem Hx) (pred1 x); rewrite /= eqxx add1n => E1.
case: eqP E => [->|ne] E.
  by rewrite E1 eqSS lt0n.
by rewrite add0n in E; rewrite -E -has_count has_pred1 Hz.
Qed.

(** The polynomial: every factor of the denominator that vanishes makes it 1. *)
Theorem C31_formula : forall (F : fieldType) (xs ys : seq F), size xs = size ys ->
  let n := size xs in
  let basis i := \prod_(j < n | j != i :> nat) ('X - (xs`_j)%:P) in
  let weight i := \prod_(j < n | j != i :> nat) (xs`_i - xs`_j) in
  exists l, [/\ lagrange_interp xs ys = Ok l, normal l &
    Poly l = \sum_(i < n) (ys`_i / (if weight i == 0 then 1 else weight i)) *: basis i].
Proof.
move=> F xs ys Es n basis weight; exists (lag xs ys); rewrite lagrange_total //; split=> //.
  exact: normal_polyseq.
rewrite polyseqK; apply: eq_bigr => i _; have B := num_of_prod (ltn_ord i).
rewrite B -/(basis i); congr ((_ / _) *: _); rewrite /nz.
suff -> : (basis i).[xs`_i] = weight i by [].
by rewrite /basis horner_prod; apply: eq_bigr => j _; rewrite hornerXsubC.
Qed.
Print Assumptions C31_formula.

(** Its values: right at the points that occur once, and 0 at every repeated point, whatever
    the values given for it. *)
Theorem C31_values : forall (F : fieldType) (xs ys l : seq F), size xs = size ys ->
  lagrange_interp xs ys = Ok l ->
  forall i, (i < size xs)%N ->
  pcall l xs`_i = if count_mem xs`_i xs == 1%N then ys`_i else 0.
Proof.
move=> F xs ys l Es; rewrite lagrange_total // => -[<-] i Hi; rewrite pcallE polyseqK.
rewrite /lag horner_sum (bigD1 (Ordinal Hi)) //= hornerZ big1 => [|j Hj]; last first.
  rewrite hornerZ; move: (_ / _) => c; rewrite num_of_prod // horner_prod (bigD1 (Ordinal Hi)) /=; last by rewrite eq_sym.
  by rewrite hornerXsubC subrr mul0r mulr0.
rewrite addr0; have := num_of_at (mem_nth 0 Hi) (mem_nth 0 Hi); rewrite eqxx /= /nz.
case: (count_mem _ _ == _) => /=; last by move/eqP => ->; rewrite mulr0.
by move=> D; rewrite D -mulrA mulVf ?mulr1 // D.
Qed.
Print Assumptions C31_values.

(** So the values are interpolated exactly if every repeated point is given the value 0. *)
Theorem C31_interpolates_iff : forall (F : fieldType) (xs ys l : seq F), size xs = size ys ->
  lagrange_interp xs ys = Ok l ->
  (forall i, (i < size xs)%N -> pcall l xs`_i = ys`_i) <->
  (forall i j, (i < size xs)%N -> (j < size xs)%N -> i <> j -> xs`_i = xs`_j -> ys`_i = 0).
Proof.
move=> F xs ys l Es E; have V := C31_values Es E.
have C i : (i < size xs)%N ->
  (count_mem xs`_i xs == 1%N) = ~~ [exists j : 'I_(size xs), (j != i :> nat) && (xs`_j == xs`_i)].
  move=> Hi; rewrite -sum1_count (big_nth 0) big_mkord (bigD1 (Ordinal Hi)) /= ?eqxx //.
  rewrite -[X in _ == X]addn0 eqn_add2l sum_nat_eq0 negb_exists; apply: eq_forallb => j.
  by rewrite implybE orbF andbC.
split=> [A i j Hi Hj ne Eij|A i Hi].
  rewrite -A // V // C // (_ : [exists _, _]) //; apply/existsP; exists (Ordinal Hj) => /=.
  by rewrite Eij eqxx andbT; apply/eqP => Ej; apply: ne.
rewrite V // C //; case: existsP => //= -[j /andP [/eqP ne /eqP Ej]].
by rewrite (A i j) // => Eij; apply: ne.
Qed.
Print Assumptions C31_interpolates_iff.

(** The points 1, 2, 1 over Z/7: value 5 at 2; the values 3 and 4, or 3 and 3, given at 1 are
    lost, the values 0 and 0 are not. *)
Local Notation z7 l := [seq in_modp P7 z | z <- l].
Example C31_values_example :
  let run ys := rmap (fun l => [seq mval (pcall (l : seq (modp_fieldType P7)) x) | x <- z7 [:: 1; 2; 1]%Z])
                  (lagrange_interp (F := modp_fieldType P7) (z7 [:: 1; 2; 1]%Z) (z7 ys)) in
  [/\ run [:: 3; 5; 4]%Z = Ok [:: 0; 5; 0]%Z, run [:: 3; 5; 3]%Z = Ok [:: 0; 5; 0]%Z,
      run [:: 0; 5; 0]%Z = Ok [:: 0; 5; 0]%Z &
      rmap (map (@mval P7)) (lagrange_interp (F := modp_fieldType P7) (z7 [:: 1; 2; 1]%Z) (z7 [:: 3; 5; 4]%Z)) = Ok [:: 5; 4; 5]%Z].
Proof. by vm_compute. Qed.
