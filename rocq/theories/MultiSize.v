(** Lemmas for C131: number of terms and total degree of sums, products and powers
    of multivariate polynomials. *)
From Verif Require Import Prelude PowModel PowProofs PolyModel PolyProofs FftProofs FiniteFieldProofs MultiModel MultiLenModel MultiProofs.
From mathcomp Require Import zify ssrZ.
Set Implicit Arguments.
Unset Strict Implicit.
Unset Printing Implicit Defensive.
Import GRing.Theory.
Local Open Scope ring_scope.

Section Size.
Variable F : fieldType.
Implicit Types (a b p : mpoly F) (k : key).

Lemma size_keys p : size (mkeys p) = size p.
Proof. by rewrite size_map. Qed.

Lemma mlen_mmk p : (mlen (mmk p) <= size p)%N.
Proof. by rewrite /mlen size_filter count_size. Qed.

Lemma mlen_add a b : (mlen (madd a b) <= mlen a + mlen b)%N.
Proof.
apply: leq_trans (mlen_mmk _) _; rewrite size_map size_cat size_filter size_keys leq_add2l.
by apply: leq_trans (count_size _ _) _; rewrite size_keys.
Qed.

Lemma mlen_neg n a : wf n a -> mlen (mneg a) = mlen a.
Proof.
move=> W; rewrite /mlen /mneg /mmk /remove_zero_coefficients filter_map size_map size_filter.
rewrite (eq_in_count (a2 := predT)) ?count_predT ?(perm_size (perm_iter (wf_uniq W))) // => kc I /=.
rewrite oppr_eq0; case/andP: W => U /allP A; move: I; rewrite (perm_mem (perm_iter U)) => /A.
by case/andP.
Qed.

Lemma mlen_sub n a b : wf n b -> (mlen (msub a b) <= mlen a + mlen b)%N.
Proof. by move=> W; rewrite -(mlen_neg W) mlen_add. Qed.

Lemma size_set p k (x : F) : (size (dict_set p k x) <= (size p).+1)%N.
Proof. by rewrite -!size_keys mkeys_set; case: ifP => _; rewrite ?size_rcons. Qed.

Lemma size_set_in p k (x : F) : k \in mkeys p -> size (dict_set p k x) = size p.
Proof. by move=> I; rewrite -!size_keys mkeys_set I. Qed.

Lemma size_mul_step p ka kb : (size (mmul_step p ka kb) <= (size p).+1)%N.
Proof.
rewrite /mmul_step; set k := add_power_tuples _ _.
case: ifPn => [N|/negPn I]; last by rewrite size_set_in.
by rewrite size_set_in ?size_set // mkeys_set (negbTE N) mem_rcons mem_head.
Qed.

Lemma size_iter p : size (miter p) = size p.
Proof. by rewrite size_map size_sort size_keys. Qed.

Lemma mlen_mul a b : (mlen (mmul a b) <= mlen a * mlen b)%N.
Proof.
rewrite /mmul; case: ifP => _ //; apply: leq_trans (mlen_mmk _) _.
rewrite /mlen -(size_iter a) -(size_iter b).
have row (ka : key * F) l q : (size (foldl (fun nc kb => mmul_step nc ka kb) q l) <= size q + size l)%N.
  elim: l q => [|kb l IH] q /=; first by rewrite addn0.
  by apply: leq_trans (IH _) _; have := size_mul_step q ka kb; lia.
suff H q (l : seq (key * F)) : (size (foldl (fun nc ka => foldl (fun nc kb => mmul_step nc ka kb) nc (miter b)) q l)
   <= size q + size l * size (miter b))%N by exact: H.
elim: l q => [|ka l IH] q /=; first by rewrite addn0.
by apply: leq_trans (IH _) _; have := row ka (miter b) q; rewrite mulSn; lia.
Qed.

(** ** Total degree: the degree in 'X after X_i := 'Y^(B^i) * 'X *)
Let PP : comRingType := [comRingType of {poly {poly F}}].
Let phi : {rmorphism F -> PP} := [rmorphism of (@polyC [ringType of {poly F}]) \o (@polyC F)].
Definition hvar (B i : nat) : PP := ('X^(B ^ i) : {poly F})%:P * 'X.
Definition hev B p : {poly {poly F}} := meval phi (hvar B) p.
Let kv (B : nat) := fun i => 'X^(B ^ i) : {poly F}.

Lemma mon_hvar B k : mon (hvar B) k = (mon (kv B) k)%:P * 'X^(\sum_(e <- k) e)%N.
Proof.
rewrite /mon (big_nth 0%N) big_mkord rmorph_prod -prodrXr -big_split /=.
by apply: eq_bigr => i _; rewrite {1}/hvar exprMn /kv -polyC_exp.
Qed.

Definition hpart d p : mpoly F := [seq kc <- p | (\sum_(e <- kc.1) e)%N == d].

Lemma coef_hev B p d : (hev B p)`_d = meval [rmorphism of polyC] (kv B) (hpart d p).
Proof.
rewrite /hev /meval coef_sum /hpart big_filter [RHS]big_mkcond /=.
apply: eq_bigr => kc _; rewrite mon_hvar mulrA -rmorphM coefCM coefXn eq_sym.
by case: eqP => _; rewrite ?mulr1 ?mulr0.
Qed.

Lemma wf_hpart n d p : wf n p -> wf n (hpart d p).
Proof.
case/andP=> U A; apply/andP; split; last by rewrite all_filter; apply: sub_all A => kc /= ->; rewrite implybT.
by apply: subseq_uniq U; apply: map_subseq; exact: filter_subseq.
Qed.

Lemma hpart_neq0 n B d p kc : wf n p -> all (fun l => all (fun e => e < B)%N l) (mkeys p) ->
  kc \in p -> (\sum_(e <- kc.1) e)%N = d -> (hev B p)`_d != 0.
Proof.
move=> W K I D; rewrite coef_hev; have W' := wf_hpart d W.
have I' : kc.1 \in mkeys (hpart d p) by apply: map_f; rewrite mem_filter D eqxx.
have S : {subset mkeys (hpart d p) <= mkeys p}.
  by move=> l /mapP [x]; rewrite mem_filter => /andP [_ J] ->; exact: map_f.
apply/eqP => /(congr1 (fun q : {poly F} => q`_(kron B kc.1))).
rewrite coef0 (@coef_kron F n) ?(wf_size W' I') //.
- by move/eqP; apply/negP; rewrite -(wf_get _ W').
- by apply: (allP K); exact: S.
by apply/allP => l /S; apply: (allP K).
Qed.

Lemma sum_mdegree p kc : kc \in p -> ((\sum_(e <- kc.1) e)%N <= mdegree p)%N.
Proof. by move=> I; rewrite mdegreeE (big_rem kc.1) ?leq_maxl //=; exact: map_f. Qed.

Lemma mdegree_attained p : p != [::] -> exists2 kc, kc \in p & (\sum_(e <- kc.1) e)%N = mdegree p.
Proof.
rewrite mdegreeE; elim: p => [|kc p IH] // _; rewrite /= big_cons.
case: (leqP (\max_(k <- mkeys p) \sum_(e <- k) e)%N (\sum_(e <- kc.1) e)%N) => L.
  by exists kc; rewrite ?mem_head.
case: p IH L => [|x p] IH L; first by rewrite big_nil in L.
have [//|y I E] := IH; exists y; first by rewrite inE I orbT.
by rewrite E.
Qed.

Lemma size_hev n B p : wf n p -> all (fun l => all (fun e => e < B)%N l) (mkeys p) ->
  size (hev B p) = if p is [::] then 0%N else (mdegree p).+1.
Proof.
move=> W K; case: (altP (p =P [::])) => [->|N]; first by rewrite /hev /meval big_nil size_poly0.
transitivity (mdegree p).+1; last by case: (p) N.
apply/eqP; rewrite eqn_leq; apply/andP; split.
  apply/leq_sizeP => d L; rewrite coef_hev /hpart (eq_in_filter (a2 := pred0)) ?filter_pred0.
    by rewrite /meval big_nil.
  by move=> kc /sum_mdegree H; apply/eqP => E; rewrite E in H; lia.
have [kc I E] := mdegree_attained N.
have := hpart_neq0 W K I E; apply: contraNltn => L.
by rewrite nth_default //.
Qed.

Definition kb (ps : seq (mpoly F)) : nat := key_bound (flatten [seq mkeys p | p <- ps]).
Lemma kbP ps p : p \in ps -> all (fun l => all (fun e => e < kb ps)%N l) (mkeys p).
Proof.
move=> I; apply/allP => l J; apply: key_boundP; apply/flattenP.
by exists (mkeys p) => //; exact: map_f.
Qed.

Lemma mdegree_size n B p : wf n p -> all (fun l => all (fun e => e < B)%N l) (mkeys p) ->
  mdegree p = (size (hev B p)).-1.
Proof. by move=> W K; rewrite (size_hev W K); case: (p). Qed.

Lemma hev_eq0 n B p : wf n p -> all (fun l => all (fun e => e < B)%N l) (mkeys p) ->
  (hev B p == 0) = (mlen p == 0%N).
Proof. by move=> W K; rewrite -size_poly_eq0 (size_hev W K); case: (p). Qed.

Lemma mlen_mul_eq0 n a b : wf n a -> wf n b ->
  (mlen (mmul a b) == 0%N) = (mlen a == 0%N) || (mlen b == 0%N).
Proof.
move=> Wa Wb; have [W E] := mul_spec Wa Wb; pose B := kb [:: a; b; mmul a b].
have K p : p \in [:: a; b; mmul a b] -> all (fun l => all (fun e => e < B)%N l) (mkeys p) by exact: kbP.
rewrite -(hev_eq0 W (K _ _)) ?inE ?eqxx ?orbT // -(hev_eq0 Wa (K _ _)) ?inE ?eqxx //.
by rewrite -(hev_eq0 Wb (K _ _)) ?inE ?eqxx ?orbT // /hev E mulf_eq0.
Qed.

Lemma mdegree_mul n a b : wf n a -> wf n b -> mlen a != 0%N -> mlen b != 0%N ->
  mdegree (mmul a b) = (mdegree a + mdegree b)%N.
Proof.
move=> Wa Wb Na Nb; have [W E] := mul_spec Wa Wb; pose B := kb [:: a; b; mmul a b].
have K p : p \in [:: a; b; mmul a b] -> all (fun l => all (fun e => e < B)%N l) (mkeys p) by exact: kbP.
have Ka := K a ltac:(by rewrite !inE eqxx); have Kb := K b ltac:(by rewrite !inE eqxx orbT).
have Kc := K (mmul a b) ltac:(by rewrite !inE eqxx !orbT).
rewrite (mdegree_size W Kc) (mdegree_size Wa Ka) (mdegree_size Wb Kb) /hev E.
have Ha : hev B a != 0 by rewrite (hev_eq0 Wa Ka).
have Hb : hev B b != 0 by rewrite (hev_eq0 Wb Kb).
rewrite size_mul //; move: Ha Hb; rewrite -!size_poly_gt0 /hev.
move: (size _) (size _) => x y; clear; lia.
Qed.

Lemma mdegree_pow n a d r : wf n a -> mpow n a d = Ok r -> mdegree r = (d * mdegree a)%N.
Proof.
move=> Wa Er; have [r' [Er' [W E]]] := mpow_spec d Wa.
have {Er'} Er' : r' = r by move: Er'; rewrite Er => -[].
rewrite {r'}Er' in W E; pose B := kb [:: a; r].
have K p : p \in [:: a; r] -> all (fun l => all (fun e => e < B)%N l) (mkeys p) by exact: kbP.
have Ka := K a ltac:(by rewrite !inE eqxx); have Kr := K r ltac:(by rewrite !inE eqxx orbT).
rewrite (mdegree_size W Kr) (mdegree_size Wa Ka) /hev E.
by rewrite size_exp mulnC.
Qed.

Lemma mdegree_add n a b : wf n a -> wf n b ->
  (mdegree (madd a b) <= maxn (mdegree a) (mdegree b))%N /\
  (mdegree a != mdegree b -> mdegree (madd a b) = maxn (mdegree a) (mdegree b)).
Proof.
move=> Wa Wb; have W := wf_add Wa Wb; pose B := kb [:: a; b; madd a b].
have K p : p \in [:: a; b; madd a b] -> all (fun l => all (fun e => e < B)%N l) (mkeys p) by exact: kbP.
have Ka := K a ltac:(by rewrite !inE eqxx); have Kb := K b ltac:(by rewrite !inE eqxx orbT).
have Kc := K (madd a b) ltac:(by rewrite !inE eqxx !orbT).
rewrite (mdegree_size W Kc) (mdegree_size Wa Ka) (mdegree_size Wb Kb).
have -> : hev B (madd a b) = hev B a + hev B b by rewrite /hev (meval_addE _ _ Wa Wb).
move: (hev B a) (hev B b) => x y; split.
  by have := size_add x y; move: (size _) (size _) (size _) => ???; clear; lia.
move=> N; case: (ltngtP (size x) (size y)) => L; last by rewrite L eqxx in N.
  by rewrite addrC size_addl //; move: L; move: (size _) (size _) => ??; clear; lia.
by rewrite size_addl //; move: L; move: (size _) (size _) => ??; clear; lia.
Qed.

Lemma mdegree_neg n a : wf n a -> mdegree (mneg a) = mdegree a.
Proof.
move=> Wa; have W := wf_neg Wa; pose B := kb [:: a; mneg a].
have K p : p \in [:: a; mneg a] -> all (fun l => all (fun e => e < B)%N l) (mkeys p) by exact: kbP.
have Ka := K a ltac:(by rewrite !inE eqxx); have Kc := K (mneg a) ltac:(by rewrite !inE eqxx orbT).
rewrite (mdegree_size W Kc) (mdegree_size Wa Ka) /hev meval_neg ?size_opp //.
exact: wf_uniq Wa.
Qed.
End Size.
