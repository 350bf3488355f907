(** Proofs about AprModel.v. *)
From mathcomp Require Import zify ssrZ.
From Verif Require Import Prelude BaseProofs PolyModel PolyProofs FftProofs ModpField InterpModel InterpProofs
  FiniteFieldModel FiniteFieldProofs MultiModel MultiProofs AirModel AirProofs AprModel.
Set Implicit Arguments.
Unset Strict Implicit.
Unset Printing Implicit Defensive.
Import GRing.Theory.
Local Open Scope ring_scope.
Local Open Scope py_scope.

Section Apr.
Variable F : fieldType.
Variable gz : nat -> F.

Lemma Z_boundariesE w (B : seq (nat * nat * F)) :
  construct_Z_boundaries gz w B = nseq w (polyseq (\prod_(b <- B) ('X - (gz b.1.1)%:P))).
Proof.
rewrite /construct_Z_boundaries.
suff -> : foldl (fun accum (b : nat * nat * F) => pmul accum (psub (pmk [:: 0; 1]) (pmk [:: gz b.1.1])))
                (pmk [:: 1]) B = \prod_(b <- B) ('X - (gz b.1.1)%:P).
  by elim: w 0%N => //= w IH i; rewrite IH.
have -> : pmk [:: (1 : F)] = (1 : {poly F}) by rewrite pmkE /= cons_poly_def mul0r add0r polyC1.
suff gen (p : {poly F}) : foldl (fun accum (b : nat * nat * F) =>
      pmul accum (psub (pmk [:: 0; 1]) (pmk [:: gz b.1.1]))) p B = p * \prod_(b <- B) ('X - (gz b.1.1)%:P).
  by rewrite gen mul1r.
elim: B p => [|b B IH] p /=; first by rewrite big_nil mulr1.
rewrite big_cons mulrA -IH; congr (foldl _ _ B); rewrite pmulE psubE; congr polyseq.
by rewrite !polyseqK !Poly_pmk /= !cons_poly_def !mul0r !add0r polyC1 mul1r polyC0 addr0.
Qed.

(** ** Boundary interpolants *)
Lemma Eps_boundariesE w (B : seq (nat * nat * F)) :
  construct_Eps_boundaries gz w B =
    Ok (nseq w (polyseq (lag [seq gz b.1.1 | b <- B] [seq b.2 | b <- B]))).
Proof.
rewrite /construct_Eps_boundaries lagrange_total ?size_map //.
by elim: w 0%N => //= w IH i; rewrite IH.
Qed.

Lemma lag_repeated (c : F) n ys : lag (nseq n.+1 c) ys =
  (if n is 0%N then (ys`_0)%:P else (\sum_(i < n.+1) ys`_i) *: ('X - c%:P) ^+ n).
Proof.
rewrite /lag size_nseq.
have N : num_of (nseq n.+1 c) c = ('X - c%:P) ^+ n.
  rewrite num_ofE ?mem_nseq ?eqxx //= eqxx.
  by elim: n => [|n IH]; rewrite ?big_nil //= big_cons IH -exprS.
have E (i : 'I_n.+1) : (nseq n.+1 c)`_i = c by rewrite nth_nseq ltn_ord.
case: n N E => [|n] N E.
  by rewrite big_ord1 E N expr0 /nz hornerE oner_eq0 divr1 alg_polyC.
rewrite scaler_suml; apply: eq_bigr => i _; rewrite E N /nz.
by rewrite exprS hornerM hornerXsubC subrr mul0r eqxx divr1.
Qed.

(** ** The witness *)
Lemma witnessE k t w_air n (B : seq (nat * nat * F)) E :
  construct_Eps_boundaries gz n B = Ok E -> size w_air = n ->
  all (fun l => 2 ^ t <= size l)%N w_air ->
  apr_witness gz k t w_air (construct_Z_boundaries gz n B) E = Ok (nseq n [::]).
Proof.
rewrite Eps_boundariesE Z_boundariesE => -[<-] <-.
set Zp := \prod_(b <- B) _; set Ep := lag _ _.
have Hs : (size Ep < size Zp)%N.
  rewrite /Zp (_ : \prod_(b <- B) _ = \prod_(x <- [seq gz b.1.1 | b <- B]) ('X - x%:P)); last by rewrite big_map.
  by rewrite size_prod_XsubC ltnS; exact: size_lag.
rewrite /apr_witness; elim: w_air => //= l w_air IH /andP [Hl /IH ->].
rewrite (@mapM_ok_in _ _ _ (fun i => nth 0 l i)) /=; last first.
  by move=> i; rewrite mem_iota => /andP [_ Hi]; rewrite (py_nth_ok 0) //; exact: leq_trans Hi Hl.
rewrite pdivE ?normal_padd ?normal_polyseq //; last by rewrite -size_eq0 -lt0n (leq_ltn_trans _ Hs).
rewrite bind_ok /=; congr (Ok (_ :: _)).
rewrite Poly_padd Poly_pneg /draw_random_interpolant Poly_pmk !polyseqK /= cons_poly_def mul0r add0r polyC0 addr0.
by rewrite divp_small ?polyseq0 // size_opp.
Qed.
End Apr.

(** ** The spaces *)
Section Spaces.
Variable P : primeZ.
Notation K := (modp_fieldType P).

Lemma span_powers n (c : seq K) :
  \sum_(i < n) c`_i *: nth 0 [seq ('X : {poly K}) ^+ k | k <- iota 0 n] i = \poly_(i < n) c`_i.
Proof.
rewrite poly_def; apply: eq_bigr => i _; congr (_ *: _).
by rewrite (nth_map 0%N) ?size_iota // nth_iota.
Qed.

Lemma powers_mem n (shift p : {poly K}) :
  p \in affine_iter (zp_felts P) [seq 'X^k | k <- iota 0 n] shift <-> (size (p - shift)%R <= n)%N.
Proof.
rewrite affine_mem; split=> [[c [S _ ->]]|H].
  by rewrite addrC addKr /lin size_map size_iota span_powers size_poly.
exists [seq (p - shift)`_i | i <- iota 0 n]; rewrite !size_map size_iota; split=> //.
  by apply/allP => x _; exact: zp_felts_all.
rewrite /lin size_map size_iota span_powers.
have -> : \poly_(i < n) [seq (p - shift)`_i | i <- iota 0 n]`_i = p - shift.
  apply/polyP => i; rewrite coef_poly; case: ltnP => Hi.
    by rewrite (nth_map 0%N) ?size_iota // nth_iota.
  by rewrite nth_default // (leq_trans H).
by rewrite addrC subrK.
Qed.

Lemma powers_uniq n (shift : {poly K}) :
  uniq (affine_iter (zp_felts P) [seq 'X^k | k <- iota 0 n] shift).
Proof.
apply/(affine_uniq _ _ (zp_felts_uniq P) (@zp_felts_all P)) => c; rewrite size_map size_iota => S.
rewrite /lin size_map size_iota span_powers => /polyP H.
apply/(all_nthP 0) => i Hi /=; have := H i; rewrite coef_poly -S Hi coef0 => ->.
exact: eqxx.
Qed.
End Spaces.

Section SpaceL.
Variable P : primeZ.
Notation K := (modp_fieldType P).
Variables k t d : nat.
Let N := (1 + k + apr_R + t + d)%N.
Let L := construct_L k t d ('X : {poly K}).

Lemma size_L : size L.1 = N.+1.
Proof. by rewrite size_cat size_map size_iota addn1. Qed.

Lemma lin_L (c : seq K) : lin c L.1 = \poly_(i < N) c`_i + c`_N *: ('X^N * (1 + 'X)).
Proof.
rewrite /lin size_L (_ : L.1 = [seq 'X^i | i <- iota 0 N] ++ [:: 'X^N * (1 + 'X)]) //.
move: N => n; rewrite big_ord_recr nth_cat size_map size_iota ltnn subnn.
congr (_ + _); rewrite -span_powers; apply: eq_bigr => i _.
by rewrite nth_cat size_map size_iota /= ltn_ord.
Qed.

Lemma coef_lin_L (c : seq K) i : (lin c L.1)`_i =
  (if (i < N)%N then c`_i else 0) + c`_N * ((i == N)%:R + (i == N.+1)%:R).
Proof.
by rewrite lin_L coefD coef_poly coefZ mulrDr mulr1 -exprSr coefD !coefXn.
Qed.

Lemma L_uniq : uniq (affine_iter (zp_felts P) L.1 L.2).
Proof.
apply/(affine_uniq _ _ (zp_felts_uniq P) (@zp_felts_all P)) => c; rewrite size_L => S.
move=> /polyP H.
have HN : c`_N = 0 by have := H N.+1; rewrite coef_lin_L coef0 ltnNge leqnSn eqxx gtn_eqF // !add0r mulr1.
apply/(all_nthP 0) => i; rewrite S ltnS leq_eqVlt => /orP [/eqP ->|Hi] /=; first by rewrite HN eqxx.
by have := H i; rewrite coef_lin_L coef0 Hi HN mul0r addr0 => ->.
Qed.

Lemma L_high p : p \in affine_iter (zp_felts P) L.1 L.2 -> (N < size p)%N.
Proof.
move=> /affine_mem [c [S _ ->]]; rewrite ltnNge; apply/negP => H.
have E1 := coef_lin_L c N.+1; have E0 := coef_lin_L c N.
have Z1 : (L.2 + lin c L.1)`_N.+1 = 0 by rewrite nth_default // (leq_trans H).
have Z0 : (L.2 + lin c L.1)`_N = 0 by rewrite nth_default.
move: Z1 Z0; rewrite !coefD E1 E0 /L /= -/N !coefXn ltnn ltnNge leqnSn !eqxx.
rewrite [(N.+1 == N)]gtn_eqF // [(N == N.+1)]ltn_eqF // !add0r !addr0 !mulr1 => -> /eqP.
by rewrite addr0 oner_eq0.
Qed.

Lemma Lcmp_sub p : p \in affine_iter (zp_felts P) (construct_L_cmp k t d 'X).1 (construct_L_cmp k t d 'X).2 ->
  p \in affine_iter (zp_felts P) L.1 L.2.
Proof.
move=> /affine_mem [c [S A ->]]; apply/affine_mem; exists (rcons c 0).
rewrite /= size_map size_iota -/N in S.
rewrite size_rcons S size_L; split=> //; first by apply/allP => x _; exact: zp_felts_all.
congr (_ + _); rewrite lin_L nth_rcons S ltnn eqxx scale0r addr0.
rewrite /lin /= size_map size_iota -/N span_powers; apply/polyP => i; rewrite !coef_poly.
by rewrite nth_rcons S; case: ifP.
Qed.
End SpaceL.
