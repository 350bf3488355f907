(** Lemmas for C131 and C133: degree of compositions and number of zeros of
    multivariate polynomials (Schwartz-Zippel). *)
From Verif Require Import Prelude PowModel PowProofs PolyModel PolyProofs FftProofs FiniteFieldProofs MultiModel MultiLenModel MultiProofs MultiSize.
From mathcomp Require Import zify ssrZ.
Set Implicit Arguments.
Unset Strict Implicit.
Unset Printing Implicit Defensive.
Import GRing.Theory.
Local Open Scope ring_scope.

Section Compose.
Variables (F : fieldType) (R : idomainType) (phi : {rmorphism F -> {poly R}}).
Hypothesis phiC : forall c, (size (phi c) <= 1)%N.

Lemma size_meval_le m (v : nat -> {poly R}) (p : mpoly F) : (forall i, (size (v i) <= m.+1)%N) ->
  (size (meval phi v p) <= (mdegree p * m).+1)%N.
Proof.
move=> Hv; rewrite /meval; apply: leq_trans (size_sum _ _ _) _; rewrite big_seq.
elim/big_ind: _ => // [x y Hx Hy|kc I]; first by rewrite geq_max Hx.
have Hm : (size (mon v kc.1) <= (m * \sum_(e <- kc.1) e).+1)%N.
  rewrite /mon (big_nth 0%N) big_mkord.
  elim/big_rec2: _ => [|i d q _ IH]; first by rewrite muln0 size_poly1.
  apply: leq_trans (size_mul_leq _ _) _; have := size_exp_leq (v i) (nth 0%N kc.1 i).
  have : ((size (v i)).-1 * nth 0 kc.1 i <= m * nth 0 kc.1 i)%N by rewrite leq_mul2r; have := Hv i; lia.
  rewrite mulnDr; move: IH; set a := size _; set b := size _; set c := (_ * _)%N; set e := (_ * _)%N; set f := (_ * _)%N; set g := size _.
  move: a b c e f g; clear => a _ c e f g; lia.
apply: leq_trans (size_mul_leq _ _) _; have := phiC kc.2; have := sum_mdegree I.
move=> D; have : (m * (\sum_(e <- kc.1) e) <= mdegree p * m)%N by rewrite mulnC leq_mul2r D orbT.
move: Hm; set a := size _; set b := (_ * _)%N; set c := size _; set d := (_ * _)%N.
move: a b c d; clear; lia.
Qed.
End Compose.

Section Degrees.
Variable F : fieldType.
Implicit Types (p q : mpoly F).

Lemma mdegree_compose n n' p (vals : seq (mpoly F)) r m : wf n p -> size vals = n ->
  (forall q, List.In q vals -> wf n' q /\ (mdegree q <= m)%N) ->
  mcompose n n' p vals = Ok r -> (mdegree r <= mdegree p * m)%N.
Proof.
move=> W S Hv E; have [r' [E' [Wr Er]]] := mcompose_spec W S (fun q I => (Hv q I).1).
have {E'} E' : r' = r by move: E'; rewrite E => -[].
rewrite {r'}E' in Wr Er; pose B := kb (r :: vals).
have Kr : all (fun l => all (fun e => e < B)%N l) (mkeys r) := kbP (mem_head r vals).
rewrite (mdegree_size Wr Kr) /hev Er.
have -> (x y : nat) : (x.-1 <= y)%N = (x <= y.+1)%N by lia.
apply: (@size_meval_le F [idomainType of {poly F}]) => [c|i]; first exact: size_polyC_leq1.
case: (ltnP i (size vals)) => L; last by rewrite nth_default // /meval big_nil size_poly0.
have I : nth [::] vals i \in r :: vals by rewrite inE mem_nth ?orbT.
have [Wq Dq] := Hv _ (List.nth_In vals [::] (ltac:(by apply/ltP) : (i < length vals)%coq_nat)).
rewrite -/(hev B (nth [::] vals i)).
have EQ : List.nth i vals [::] = nth [::] vals i by elim: (vals) i {L I Wq Dq} => [|x l IH] [|i] //=.
rewrite EQ in Wq Dq; have Kq : all (fun l => all (fun e => e < B)%N l) (mkeys (nth [::] vals i)) := kbP I.
rewrite (size_hev Wq Kq).
by case: (nth _ _ _) Dq.
Qed.

Lemma size_call_poly n p (vals : seq (seq F)) r m : wf n p -> size vals = n ->
  (forall q : seq F, List.In q vals -> normal q /\ (size q <= m.+1)%N) ->
  mcall_poly n p vals = Ok r -> (size r <= (mdegree p * m).+1)%N.
Proof.
move=> W S Hv; rewrite (mcall_polyE W S (fun (q : seq F) I => (Hv q I).1)) => -[<-].
apply: (@size_meval_le F F) => [c|i]; first exact: size_polyC_leq1.
apply: leq_trans (size_Poly _) _.
case: (ltnP i (size vals)) => L; last by rewrite nth_default.
have EQ : List.nth i vals [::] = nth [::] vals i by elim: (vals) i {L} => [|x l IH] [|i] //=.
by rewrite -EQ; apply: (Hv _ _).2; apply: List.nth_In; apply/ltP.
Qed.
End Degrees.

(** ** Zeros *)
Section Zeros.
Variable F : fieldType.
Implicit Types (p q : mpoly F) (k : key) (S : seq F).

Fixpoint words S (n : nat) : seq (seq F) :=
  if n is n'.+1 then [seq x :: w | x <- S, w <- words S n'] else [:: [::]].

Lemma mem_words S n w : (w \in words S n) = (size w == n) && all (fun x => x \in S) w.
Proof.
elim: n w => [|n IH] [|x w] //=.
- by apply/negP => /allpairsP [[a b] []].
apply/allpairsP/idP => [[[a b] /= [Ia Ib [-> ->]]]|/andP [E /andP [Ix A]]].
  by rewrite Ia eqSS andTb -IH.
by exists (x, w); split=> //=; rewrite IH -eqSS E.
Qed.

Lemma uniq_words S n : uniq S -> uniq (words S n).
Proof.
move=> U; elim: n => [|n IH] //=; apply: allpairs_uniq => //.
by move=> [a b] [c d] _ _ /= [-> ->].
Qed.

Lemma size_words S n : size (words S n) = (size S ^ n)%N.
Proof. by elim: n => [|n IH] //=; rewrite size_allpairs IH expnS. Qed.

Definition ev p (w : seq F) : F := meval [rmorphism of idfun] (nth 0 w) p.

(** the terms with exponent j of the first variable, without it *)
Definition slice j p : mpoly F := [seq (behead kc.1, kc.2) | kc <- p & head 0%N kc.1 == j].

Lemma wf_cons n p kc : wf n.+1 p -> kc \in p -> kc.1 = head 0%N kc.1 :: behead kc.1 /\ size (behead kc.1) = n.
Proof.
move=> W I; have := wf_size W (map_f fst I : kc.1 \in mkeys p).
by case: kc.1 => [|e k] //= [->].
Qed.

Lemma wf_slice n j p : wf n.+1 p -> wf n (slice j p).
Proof.
move=> W; case/andP: (W) => U /allP A; apply/andP; split; last first.
  apply/allP => x /mapP [kc]; rewrite mem_filter => /andP [_ I] ->.
  by rewrite /= (wf_cons W I).2 eqxx; case/andP: (A _ I).
rewrite /mkeys /slice -map_comp map_inj_in_uniq.
  by apply: filter_uniq; exact: (map_uniq U).
move=> x y; rewrite !mem_filter => /andP [/eqP Hx Ix] /andP [/eqP Hy Iy] /= E.
have K : x.1 = y.1 by rewrite (wf_cons W Ix).1 (wf_cons W Iy).1 Hx Hy E.
have := dict_getE U Ix; rewrite K (dict_getE U Iy) => V.
by case: (x) (y) K V => [? ?] [? ?] /= -> ->.
Qed.

Lemma mdegree_slice n j p : wf n.+1 p -> slice j p != [::] -> (mdegree (slice j p) + j <= mdegree p)%N.
Proof.
move=> W /mdegree_attained [x /mapP [kc]]; rewrite mem_filter => /andP [/eqP Hj I] -> <- /=.
by have := sum_mdegree I; rewrite {1}(wf_cons W I).1 big_cons Hj addnC.
Qed.

Definition uni p (w : seq F) : {poly F} :=
  meval [rmorphism of polyC] (fun i => if i is i'.+1 then (nth 0 w i')%:P else 'X) p.

Lemma uniE n p w : wf n.+1 p ->
  uni p w = \sum_(kc <- p) (kc.2 * mon (nth 0 w) (behead kc.1))%:P * 'X^(head 0%N kc.1).
Proof.
move=> W; rewrite /uni /meval !big_seq; apply: eq_bigr => kc I.
rewrite {1}(wf_cons W I).1 {1}/mon big_ord_recl /= mulrCA mulrC polyCM; congr (_ * _ * _).
rewrite /mon rmorph_prod; apply: eq_bigr => i _ /=.
by rewrite rmorphX.
Qed.

Lemma horner_uni p w x : (uni p w).[x] = ev p (x :: w).
Proof.
rewrite /uni /ev /meval horner_sum; apply: eq_bigr => kc _.
rewrite hornerM hornerC /= /mon horner_prod; congr (_ * _); apply: eq_bigr => i _.
by rewrite horner_exp; case: (i : nat) => [|j] /=; rewrite ?hornerX ?hornerC.
Qed.

Lemma coef_uni n p w j : wf n.+1 p -> (uni p w)`_j = ev (slice j p) w.
Proof.
move=> W; rewrite (uniE _ W) coef_sum /ev /meval /slice big_map big_filter [RHS]big_mkcond /=.
by apply: eq_bigr => kc _; rewrite coefCM coefXn eq_sym; case: eqP => _; rewrite ?mulr1 ?mulr0.
Qed.

Lemma max_attained (T : eqType) (f : T -> nat) (s : seq T) : s != [::] ->
  exists2 x, x \in s & forall y, y \in s -> (f y <= f x)%N.
Proof.
elim: s => [|x [|y s] IH] // _; first by exists x; rewrite ?mem_head // => y; rewrite inE => /eqP ->.
have [//|z I H] := IH; case: (leqP (f z) (f x)) => L.
  exists x; rewrite ?mem_head // => u; rewrite inE => /orP [/eqP -> //|/H J]; exact: leq_trans J L.
exists z; first by rewrite inE I orbT.
by move=> u; rewrite inE => /orP [/eqP ->|/H //]; exact: ltnW.
Qed.

Lemma size_flatten_le (T T' : eqType) (f : T -> seq T') m s : (forall x, x \in s -> (size (f x) <= m)%N) ->
  (size (flatten [seq f x | x <- s]) <= m * size s)%N.
Proof.
elim: s => [|x s IH] H //=; rewrite size_cat mulnS; apply: leq_add; first by apply: H; rewrite mem_head.
by apply: IH => y I; apply: H; rewrite inE I orbT.
Qed.

Lemma zeros_bound S n p (L : seq (seq F)) : uniq S -> wf n p -> p != [::] -> uniq L ->
  (forall w, w \in L -> [/\ size w = n, all (fun x => x \in S) w & ev p w = 0]) ->
  (size L * size S <= mdegree p * size S ^ n)%N.
Proof.
move=> US; elim: n p L => [|n IH] p L W N UL HL.
  suff -> : L = [::] by [].
  case: L UL HL => [|w L] // _ /(_ w (mem_head _ _)) [Sw _ Z].
  case: p W N Z => [|[k c] p] // W _; have := wf_size W (mem_head k _).
  case: k W => [|//] W _; case: p W => [|[k' c'] p] W.
    rewrite /ev /meval big_seq1 /mon big_ord0 /= mulr1 => C0.
    by case/andP: W => _ /=; rewrite C0 eqxx.
  have := wf_size W (ltac:(by rewrite /= !inE eqxx orbT) : k' \in mkeys [:: ([::], c), (k', c') & p]).
  by case: k' W => //; rewrite /wf /= inE eqxx.
have [kc I Hm] := max_attained (fun kc : key * F => head 0%N kc.1) N.
set j := head 0%N kc.1 in Hm; pose q := slice j p.
have Wq : wf n q := wf_slice j W.
have Nq : q != [::].
  have : (behead kc.1, kc.2) \in q by apply: (map_f (fun kc : key * F => (behead kc.1, kc.2))); rewrite mem_filter eqxx.
  by case: (q).
have Dq := mdegree_slice W Nq.
pose Y := words S n; pose Y1 := [seq w <- Y | ev q w == 0]; pose Y2 := [seq w <- Y | ev q w != 0].
have UY : uniq Y := uniq_words n US.
have B1 : (size Y1 * size S <= mdegree q * size S ^ n)%N.
  apply: IH => //; first exact: filter_uniq.
  by move=> w; rewrite mem_filter mem_words => /andP [/eqP -> /andP [/eqP -> ->]].
have B2 : (size Y2 <= size S ^ n)%N by rewrite -size_words size_filter count_size.
pose rt w := [seq x <- S | root (uni p w) x].
have R2 w : w \in Y2 -> (size (rt w) <= j)%N.
  rewrite mem_filter => /andP [Nw _].
  have U0 : uni p w != 0.
    by apply: contraNneq Nw => U0; rewrite -(coef_uni _ _ W) U0 coef0.
  have Su : (size (uni p w) <= j.+1)%N.
    apply/leq_sizeP => i Li; rewrite (coef_uni _ _ W) /slice (eq_in_filter (a2 := pred0)).
      by rewrite filter_pred0 /ev /meval big_nil.
    by move=> x Ix; apply/eqP => E; have := Hm x Ix; rewrite E; lia.
  rewrite -ltnS; apply: leq_trans Su; apply: max_poly_roots => //; first exact: filter_all.
  exact: filter_uniq.
pose C := [seq x :: w | x <- S, w <- Y1] ++ flatten [seq [seq x :: w | x <- rt w] | w <- Y2].
have LC : (size L <= size C)%N.
  apply: uniq_leq_size => // w /HL [Sw Aw Zw]; case: w Sw Aw Zw => [|x w] //= [Sw] /andP [Ix Aw] Zw.
  have Iw : w \in Y by rewrite mem_words Sw eqxx.
  rewrite mem_cat; case: (altP (ev q w =P 0)) => E.
    apply/orP; left; apply/allpairsP; exists (x, w); split=> //=.
    by rewrite mem_filter E eqxx.
  apply/orP; right; apply/flattenP; exists [seq x :: w | x <- rt w].
    by apply: (map_f (fun w => [seq x :: w | x <- rt w])); rewrite mem_filter E.
  apply: (map_f (fun x => x :: w)); rewrite mem_filter Ix andbT.
  by rewrite /root horner_uni Zw.
have SC : (size C <= size S * size Y1 + j * size Y2)%N.
  rewrite size_cat size_allpairs leq_add2l; apply: size_flatten_le => w /R2.
  by rewrite size_map.
have T1 : (size L <= (mdegree q + j) * size S ^ n)%N.
  apply: leq_trans LC _; apply: leq_trans SC _; rewrite mulnDl mulnC.
  by apply: leq_add => //; rewrite leq_mul2l B2 orbT.
rewrite expnS [(size S * _)%N]mulnC mulnA leq_mul2r; apply/orP; right.
by apply: leq_trans T1 _; rewrite leq_mul2r Dq orbT.
Qed.

Lemma uni_size n p w j : wf n.+1 p -> (forall kc, kc \in p -> (head 0%N kc.1 <= j)%N) ->
  (size (uni p w) <= j.+1)%N.
Proof.
move=> W Hm; apply/leq_sizeP => i Li; rewrite (coef_uni _ _ W) /slice (eq_in_filter (a2 := pred0)).
  by rewrite filter_pred0 /ev /meval big_nil.
by move=> x Ix; apply/eqP => E; have := Hm x Ix; rewrite E; lia.
Qed.

Lemma nonzero_point S n p : uniq S -> wf n p -> p != [::] ->
  (forall k e, k \in mkeys p -> e \in k -> (e < size S)%N) ->
  exists2 w, (size w == n) && all (fun x => x \in S) w & ev p w != 0.
Proof.
move=> US; elim: n p => [|n IH] p W N HS.
  exists [::] => //; case: p W N {HS} => [|[k c] p] // W _; have := wf_size W (mem_head k _).
  case: k W => [|//] W _; case: p W => [|[k' c'] p] W.
    by rewrite /ev /meval big_seq1 /mon big_ord0 /= mulr1; case/andP: W => _ /= /andP [].
  have := wf_size W (ltac:(by rewrite /= !inE eqxx orbT) : k' \in mkeys [:: ([::], c), (k', c') & p]).
  by case: k' W => //; rewrite /wf /= inE eqxx.
have [kc I Hm] := max_attained (fun kc : key * F => head 0%N kc.1) N.
set j := head 0%N kc.1 in Hm; pose q := slice j p.
have Wq : wf n q := wf_slice j W.
have Nq : q != [::].
  have : (behead kc.1, kc.2) \in q by apply: (map_f (fun kc : key * F => (behead kc.1, kc.2))); rewrite mem_filter eqxx.
  by case: (q).
have [|w Hw E] := IH q Wq Nq.
  move=> k e /mapP [x /mapP [y Iy ->] ->] /= J; move: Iy; rewrite mem_filter => /andP [_ Iy].
  by apply: (HS y.1 e); [exact: map_f|exact: mem_behead].
have U0 : uni p w != 0 by apply: contraNneq E => U0; rewrite -(coef_uni _ _ W) U0 coef0.
have Lj : (j < size S)%N.
  by apply: (HS kc.1); [exact: map_f|rewrite (wf_cons W I).1 mem_head].
have : ~~ all (root (uni p w)) S.
  apply/negP => A; have := leq_trans (max_poly_roots U0 A US) (uni_size w W Hm).
  by rewrite ltnS leqNgt Lj.
case/allPn => x Ix Rx; exists (x :: w); last by rewrite -horner_uni.
by case/andP: Hw => /eqP <- A /=; rewrite eqxx Ix.
Qed.
End Zeros.
