(** Property theorems C134: the evaluations of univariate polynomials
    (starks/polynomial.py:158-164) as a Reed-Solomon code in the sense of the
    docstring of starks/reedsolomon.py:48-77, and its decoding by
    lagrange_interp (starks/poly_utils.py:337-368).

    The code RS[F, S, k]: the functions x |-> a(x) on S for the normalised
    coefficient lists a of at most k elements (degree below k). *)
From mathcomp Require Import zify ssrZ.
From Verif Require Import Prelude PolyModel PolyProofs InterpModel InterpProofs ModpModel ModpField.
Set Implicit Arguments.
Unset Strict Implicit.
Unset Printing Implicit Defensive.
Import GRing.Theory.
Local Open Scope ring_scope.
Local Open Scope py_scope.

Local Notation z7 l := [seq in_modp P7 x | x <- l].

(** Different codewords agree at fewer than k points ... *)
Theorem C134_agreement : forall (F : fieldType) (S a b : seq F) k,
  uniq S -> normal a -> normal b -> (size a <= k)%N -> (size b <= k)%N -> a <> b ->
  (count (fun x => pcall a x == pcall b x) S < k)%N.
Proof.
move=> F S a b k US Na Nb Sa Sb N.
have P0 : Poly a - Poly b != 0.
  rewrite subr_eq0; apply/eqP => E; case: N.
  by rewrite -(PolyK_normal Na) -(PolyK_normal Nb) E.
rewrite -size_filter; apply: leq_trans (max_poly_roots P0 _ (filter_uniq _ US)) _.
  apply/allP => x; rewrite mem_filter !pcallE => /andP [/eqP E _].
  by rewrite /root hornerD hornerN E subrr.
apply: leq_trans (size_add _ _) _; rewrite size_opp geq_max.
by rewrite !(leq_trans (size_Poly _)).
Qed.
Print Assumptions C134_agreement.

Local Lemma count_prefix (F : eqType) (T R : seq F) : uniq (T ++ R) -> count (mem T) (T ++ R) = size T.
Proof.
rewrite cat_uniq => /and3P [_ /hasPn H _]; rewrite count_cat (eq_in_count (a2 := predT)) => [|x /= ->] //.
rewrite count_predT (eq_in_count (a2 := pred0)) ?count_pred0 ?addn0 // => x I.
exact/negbTE/(H x I).
Qed.

(** ... and some at exactly k - 1 *)
Theorem C134_agreement_attained : forall (F : fieldType) (S : seq F) k,
  uniq S -> (0 < k)%N -> (k <= size S)%N ->
  exists a b, [/\ normal a /\ normal b, (size a <= k)%N, (size b <= k)%N, a <> b &
    count (fun x => pcall a x == pcall b x) S = k.-1].
Proof.
move=> F S k US K0 KS; have [N _ D _ Z] := zpoly_spec (take k.-1 S).
have St : size (take k.-1 S) = k.-1 by rewrite size_takel //; move: KS; move: (size S); clear; lia.
have Sz : size (zpoly (take k.-1 S)) = k by move: D K0; rewrite /pdegree /pabs St; move: (size _); clear; lia.
exists (zpoly (take k.-1 S)), [::]; split.
- by split=> //; rewrite /normal /= oner_neq0.
- by rewrite Sz.
- by [].
- by move=> E; move: Sz K0; rewrite E /=; clear; lia.
rewrite (eq_count (a2 := mem (take k.-1 S))) => [|x]; last by rewrite /= [in RHS]/in_mem /= -[RHS]Z.
by have := @count_prefix F (take k.-1 S) (drop k.-1 S); rewrite cat_take_drop => /(_ US) ->.
Qed.
Print Assumptions C134_agreement_attained.

(** A received word is within e errors of at most one codeword when 2e <= |S| - k *)
Theorem C134_unique_decoding : forall (F : fieldType) (S a b : seq F) (w : F -> F) k e,
  uniq S -> normal a -> normal b -> (size a <= k)%N -> (size b <= k)%N ->
  (2 * e + k <= size S)%N ->
  (count (fun x => pcall a x != w x) S <= e)%N -> (count (fun x => pcall b x != w x) S <= e)%N ->
  a = b.
Proof.
move=> F S a b w k e US Na Nb Sa Sb L Ea Eb; apply/eqP/negPn/negP => /eqP N.
have C := C134_agreement US Na Nb Sa Sb N.
have T := count_predC (fun x => pcall a x == pcall b x) S.
suff : (count (predC (fun x => pcall a x == pcall b x)) S <=
   count (fun x => pcall a x != w x) S + count (fun x => pcall b x != w x) S)%N.
  by move: L Ea Eb C T; do 4 move: (count _ _); move: (size S); clear; lia.
rewrite -count_predUI; apply: leq_trans (leq_addr _ _); apply: sub_count => x /=.
by apply: contraNT; rewrite negb_or !negbK => /andP [/eqP -> /eqP ->].
Qed.
Print Assumptions C134_unique_decoding.

(** Any k of the values, at distinct points in any order, give back the polynomial *)
Theorem C134_erasures : forall (F : fieldType) (T a : seq F),
  uniq T -> normal a -> (size a <= size T)%N ->
  lagrange_interp T [seq pcall a x | x <- T] = Ok a.
Proof.
move=> F T a UT Na L; apply: lagrange_unique => //; first by rewrite size_map.
by move=> i Hi; rewrite (nth_map 0).
Qed.
Print Assumptions C134_erasures.

(** Up to |S| - k errors are detected by the length of the interpolation result *)
Theorem C134_error_detection : forall (F : fieldType) (S a : seq F) (w : F -> F) k,
  uniq S -> normal a -> (size a <= k)%N ->
  (0 < count (fun x => pcall a x != w x) S)%N ->
  (count (fun x => pcall a x != w x) S + k <= size S)%N ->
  exists l, lagrange_interp S [seq w x | x <- S] = Ok l /\ (k < size l)%N.
Proof.
move=> F S a w k US Na Sa E0 E1.
have [|l [El Nl _ Vl]] := @lagrange_spec F S [seq w x | x <- S] US; first by rewrite size_map.
have V x : x \in S -> pcall l x = w x.
  move=> I; have := Vl (index x S); rewrite index_mem => /(_ I).
  by rewrite (nth_map 0) ?index_mem // nth_index.
exists l; split=> //; rewrite ltnNge; apply/negP => Sl.
have N : a <> l.
  move=> E; move: E0; rewrite E (eq_in_count (a2 := pred0)) ?count_pred0 // => x /V ->.
  by rewrite eqxx.
have := C134_agreement US Na Nl Sa Sl N.
have := count_predC (fun x => pcall a x == w x) S.
rewrite (eq_in_count (a1 := fun x => pcall a x == pcall l x) (a2 := fun x => pcall a x == w x)).
  rewrite (eq_count (a1 := predC _) (a2 := fun x => pcall a x != w x)) //.
  by move: E1; do 2 move: (count _ _); move: (size S); clear; lia.
by move=> x /V ->.
Qed.
Print Assumptions C134_error_detection.

(** 1 + 2X on 5 points of Z/7, k = 2, with one error at the point 4 (9 = 2 replaced by 3) *)
Example C134_example :
  let S := z7 [:: 0; 1; 2; 3; 4]%Z in let a := z7 [:: 1; 2]%Z in
  [/\ [seq mval (pcall a x) | x <- S] = [:: 1; 3; 5; 0; 2]%Z,
      rmap (map (@mval P7)) (lagrange_interp (z7 [:: 3; 1]%Z) (z7 [:: 0; 3]%Z)) = Ok [:: 1; 2]%Z &
      rmap size (lagrange_interp S (z7 [:: 1; 3; 5; 0; 3]%Z)) = Ok 5%N].
Proof. by vm_compute. Qed.
