(** Proofs about the model of starks/polynomial.py: every operation returns
    exactly the canonical coefficient list of the corresponding MathComp
    polynomial. *)
From mathcomp Require Import zify.
From Verif Require Import Prelude PowModel PowProofs EuclidModel PolyModel.
Set Implicit Arguments.
Unset Strict Implicit.
Unset Printing Implicit Defensive.
Import GRing.Theory Pdiv.Field.
Local Open Scope ring_scope.

Section PolyProofs.
Variable F : fieldType.
Implicit Types (a b d : seq F) (p : {poly F}).

(** Normal form: no trailing zero. *)
Definition normal (a : seq F) : bool := last 1 a != 0.

Lemma strip_fromP (L : seq F) (x : F) k : let j := strip_from L x k in
  [/\ (j <= k)%N,
      forall i, (j <= i < k)%N -> nth 0 L i = x &
      (0 < j)%N -> nth 0 L j.-1 != x].
Proof.
elim: k => [|k [IH1 IH2 IH3]] /=; first by split=> // i; rewrite ltn0 andbF.
case: eqP => [E|/eqP E].
  split; first by apply: leq_trans IH1 _.
    move=> i; rewrite ltnS [(i <= k)%N]leq_eqVlt => /andP [H1 /orP [/eqP -> //|H2]].
    by apply: IH2; rewrite H1.
  exact: IH3.
split=> //= i; rewrite ltnS => /andP [H1 H2].
by move: (leq_trans H1 H2); rewrite ltnn.
Qed.

Lemma pmkE (c : seq F) : pmk c = Poly c :> seq F.
Proof.
rewrite /pmk /strip; set j := strip_from _ _ _.
have [H1 H2 H3] := strip_fromP c 0 (size c).
rewrite -/j in H1 H2 H3.
have E : Poly (take j c) = Poly c.
  apply/polyP=> i; rewrite !coef_Poly.
  case: (ltnP i j) => Hi; first by rewrite nth_take.
  rewrite nth_default; last by rewrite size_take_min geq_min Hi.
  case: (ltnP i (size c)) => Hs; first by rewrite H2 // Hi.
  by rewrite nth_default.
rewrite -E (@PolyK _ 1) //.
case: (posnP j) => [-> | Hj]; first by rewrite take0 /= oner_neq0.
have Ht : (0 < size (take j c))%N by rewrite size_takel.
rewrite -nth_last size_takel // nth_take ?prednK //.
rewrite (set_nth_default 0) ?H3 //.
by rewrite prednK // .
Qed.

Lemma PolyK_normal a : normal a -> Poly a = a :> seq F.
Proof. by move=> H; rewrite (@PolyK _ 1). Qed.

Lemma normal_polyseq p : normal p.
Proof. by rewrite /normal; case: p => s /= H. Qed.

Lemma normal_pmk (c : seq F) : normal (pmk c).
Proof. by rewrite pmkE normal_polyseq. Qed.

Lemma Poly_pmk (c : seq F) : Poly (pmk c) = Poly c.
Proof. by rewrite pmkE polyseqK. Qed.

Lemma pmk_normal a : normal a -> pmk a = a.
Proof. by move=> H; rewrite pmkE PolyK_normal. Qed.

Lemma size_normal a : normal a -> size a = size (Poly a).
Proof. by move=> H; rewrite PolyK_normal. Qed.

Lemma Poly_inj a b : normal a -> normal b -> Poly a = Poly b -> a = b.
Proof. by move=> Ha Hb E; rewrite -(PolyK_normal Ha) E PolyK_normal. Qed.

(** equality *)
Lemma peqE a b : peq a b = (a == b).
Proof.
rewrite /peq; elim: a b => [|x a IH] [|y b] //=.
by rewrite eqSS eqseq_cons -IH andbCA.
Qed.

Lemma pneE a b : pne a b = (a != b).
Proof.
rewrite -peqE /pne /peq negb_and; congr (_ || _).
by rewrite -has_predC; apply: eq_has.
Qed.

Lemma peqP a b : normal a -> normal b -> peq a b = (Poly a == Poly b).
Proof.
move=> Ha Hb; rewrite peqE; apply/eqP/eqP => [-> //|]; exact: Poly_inj.
Qed.

(** addition *)
Lemma zls_nil b : zip_longest_sum [::] b = b.
Proof.
case: b => //= y b; rewrite !add0r; congr (_ :: _).
by elim: b => //= z b ->; rewrite !add0r.
Qed.

Lemma zls_nil_r a : zip_longest_sum a [::] = a.
Proof. by elim: a => //= x a ->; rewrite add0r addr0. Qed.

Lemma zlsP a b i : nth 0 (zip_longest_sum a b) i = nth 0 a i + nth 0 b i.
Proof.
elim: a b i => [|x a IH] b i; first by rewrite zls_nil nth_nil add0r.
case: b => [|y b]; first by rewrite zls_nil_r nth_nil addr0.
by case: i => [|i] /=; rewrite ?add0r.
Qed.

Lemma paddE a b : padd a b = Poly a + Poly b :> seq F.
Proof.
rewrite /padd pmkE; congr polyseq; apply/polyP=> i.
by rewrite coefD !coef_Poly zlsP.
Qed.

Lemma pnegE a : pneg a = - Poly a :> seq F.
Proof.
rewrite /pneg pmkE; congr polyseq; apply/polyP=> i; rewrite coefN !coef_Poly.
case: (ltnP i (size a)) => Hi; first by rewrite (nth_map 0).
by rewrite !nth_default ?oppr0 ?size_map.
Qed.

Lemma Poly_padd a b : Poly (padd a b) = Poly a + Poly b.
Proof. by rewrite paddE polyseqK. Qed.
Lemma Poly_pneg a : Poly (pneg a) = - Poly a.
Proof. by rewrite pnegE polyseqK. Qed.

Lemma psubE a b : psub a b = Poly a - Poly b :> seq F.
Proof. by rewrite /psub paddE Poly_pneg. Qed.
Lemma Poly_psub a b : Poly (psub a b) = Poly a - Poly b.
Proof. by rewrite psubE polyseqK. Qed.

(** multiplication *)
Lemma Poly_set_nth (c : seq F) i v :
  Poly (set_nth 0 c i (nth 0 c i + v)) = Poly c + v *: 'X^i.
Proof.
apply/polyP=> j; rewrite coefD coefZ coefXn !coef_Poly nth_set_nth /=.
by case: eqP => [-> | _]; rewrite ?mulr1 ?mulr0 ?addr0.
Qed.

Lemma enumerateE (T : Type) (l : seq T) k :
  zip (iota k (size l)) l = [seq (k + ix.1, ix.2)%N | ix <- enumerate l].
Proof.
rewrite /enumerate.
suff H m : zip (iota (k + m) (size l)) l = [seq ((k + ix.1)%N, ix.2) | ix <- zip (iota m (size l)) l].
  by rewrite -[k in LHS]addn0 H.
by elim: l m => //= x l IH m; rewrite -addnS IH.
Qed.

Lemma enumerate_sum (V : zmodType) (f : nat -> F -> V) (l : seq F) :
  \sum_(ix <- enumerate l) f ix.1 ix.2 = \sum_(i < size l) f i (nth 0 l i).
Proof.
rewrite /enumerate -(@big_mkord _ _ _ _ predT (fun i => f i (nth 0 l i))) /index_iota subn0.
rewrite -{2}(@unzip1_zip _ _ (iota 0 (size l)) l) ?size_iota // big_map.
apply: eq_big_seq => -[i x] /= /(nthP (0%N,0)) [k].
rewrite size_zip size_iota minnn => Hk; rewrite nth_zip ?size_iota // nth_iota //.
by case=> <- <-.
Qed.

Lemma Poly_enum (c : seq F) : Poly c = \sum_(ix <- enumerate c) ix.2 *: 'X^ix.1.
Proof.
rewrite (enumerate_sum (fun i x => x *: 'X^i)) -poly_def; apply/polyP=> i.
rewrite coef_Poly coef_poly; case: ltnP => // H; by rewrite nth_default.
Qed.

Lemma enum_lt (A : eqType) (l : seq A) ix : ix \in enumerate l -> (ix.1 < size l)%N.
Proof.
case: ix => i x /(map_f fst); rewrite /= /enumerate -/(unzip1 _) unzip1_zip ?size_iota // mem_iota add0n.
by case/andP.
Qed.

Lemma conv_loop_Poly a b (c : seq F) : (size a + size b - 1 <= size c)%N ->
  Poly (conv_loop a b c) = Poly c + Poly a * Poly b.
Proof.
move=> Hc; rewrite /conv_loop [Poly a]Poly_enum mulr_suml.
have : forall ix, ix \in enumerate a -> (ix.1 < size a)%N by move=> ix; apply: enum_lt.
elim: (enumerate a) c Hc => [|[i x] l IH] c Hc Hl /=; first by rewrite big_nil addr0.
set c' := foldl _ c _.
suff [Sc Pc] : size c' = size c /\ Poly c' = Poly c + x *: 'X^i * Poly b.
  by rewrite IH ?Sc // ?Pc ?big_cons ?addrA // => ix Hx; apply: Hl; rewrite in_cons Hx orbT.
have Hi : (i < size a)%N by apply: (Hl (i, x)); rewrite mem_head.
rewrite /c' [Poly b]Poly_enum mulr_sumr {c' IH}.
have : forall jy, jy \in enumerate b -> (jy.1 < size b)%N by move=> jy; apply: enum_lt.
elim: (enumerate b) c Hc => [|[j y] m IHm] c Hc Hm /=; first by rewrite big_nil addr0.
have Hj : (j < size b)%N by apply: (Hm (j, y)); rewrite mem_head.
have Hs : (i + j < size c)%N by move: Hi Hj Hc; clear; lia.
have Ss : size (set_nth 0 c (i + j) (nth 0 c (i + j) + x * y)) = size c.
  by rewrite size_set_nth; apply/maxn_idPr.
rewrite Hs; have [||Sm Pm] := IHm (set_nth 0 c (i + j) (nth 0 c (i + j) + x * y)).
- by rewrite Ss.
- by move=> jy H; apply: Hm; rewrite in_cons H orbT.
split; first by rewrite Sm Ss.
rewrite Pm big_cons Poly_set_nth /= -addrA; congr (_ + (_ + _)).
by rewrite -scalerAl -scalerAr scalerA exprD.
Qed.

Lemma pmulE a b : pmul a b = Poly a * Poly b :> seq F.
Proof.
rewrite /pmul /pis_zero.
case: (eqVneq a [::]) => [-> | Ha] /=; first by rewrite pmkE mul0r.
case: (eqVneq b [::]) => [-> | Hb] /=; first by rewrite orbT pmkE mulr0.
rewrite !size_eq0 (negbTE Ha) (negbTE Hb) /=.
rewrite pmkE conv_loop_Poly ?size_nseq //; set z := Poly (nseq _ _).
suff -> : z = 0 by rewrite add0r.
by apply/polyP=> i; rewrite coef_Poly nth_nseq if_same coef0.
Qed.

Lemma Poly_pmul a b : Poly (pmul a b) = Poly a * Poly b.
Proof. by rewrite pmulE polyseqK. Qed.

Lemma normal_padd a b : normal (padd a b). Proof. exact: normal_pmk. Qed.
Lemma normal_pneg a : normal (pneg a). Proof. exact: normal_pmk. Qed.
Lemma normal_psub a b : normal (psub a b). Proof. exact: normal_pmk. Qed.
Lemma normal_pmul a b : normal (pmul a b).
Proof. by rewrite pmulE normal_polyseq. Qed.

(** division *)
Lemma plead_ok a : a != [::] -> plead a = Ok (last 0 a).
Proof. by case: a. Qed.

Lemma plead_lead a : normal a -> a != [::] ->
  plead a = Ok (lead_coef (Poly a)) /\ lead_coef (Poly a) != 0.
Proof.
move=> Ha; rewrite lead_coefE (PolyK_normal Ha) nth_last.
by case: a Ha => //= x a; rewrite /normal /=.
Qed.

Lemma nil_Poly a : normal a -> (a == [::]) = (Poly a == 0).
Proof. by move=> Ha; rewrite -size_poly_eq0 -size_normal // size_eq0. Qed.

Lemma fdiv_ok (x y : F) : y != 0 -> fdiv x y = Ok (x / y).
Proof. by move=> H; rewrite /fdiv /finv (negbTE H). Qed.

Lemma size_cancel_lead (p d : {poly F}) : d != 0 -> (size d <= size p)%N ->
  (size (p - (lead_coef p / lead_coef d) *: 'X^(size p - size d) * d)%R < size p)%N.
Proof.
move=> Hd Hs; have Hp : p != 0.
  apply: contraTneq Hs => ->; by rewrite size_poly0 leqn0 size_poly_eq0.
set e := (size p - size d)%N; set m := _ *: _.
have Sd : (0 < size d)%N by rewrite size_poly_gt0.
have Sp : (0 < size p)%N by rewrite size_poly_gt0.
have Hl : lead_coef d != 0 by rewrite lead_coef_eq0.
rewrite -(prednK Sp) ltnS; apply/leq_sizeP => j Hj.
rewrite coefB /m -scalerAl coefZ coefXnM.
case: ltnP => [Hje | Hje]; first by exfalso; rewrite /e in Hje; lia.
case: (eqVneq j (size p).-1) => [-> | Hjn].
  have -> : ((size p).-1 - e = (size d).-1)%N by rewrite /e; lia.
  by rewrite -!lead_coefE divfK // subrr.
have Hp' : (size p <= j)%N by rewrite -(prednK Sp) ltn_neqAle eq_sym Hjn.
have Hd' : (size d <= j - e)%N by rewrite /e; lia.
by rewrite [p`_j]nth_default // [d`_(j-e)]nth_default // mulr0 subr0.
Qed.

Lemma PolymonE e k : Poly (pmk (nseq e 0 ++ [:: k])) = k *: 'X^e :> {poly F}.
Proof.
rewrite Poly_pmk; apply/polyP=> i; rewrite coef_Poly coefZ coefXn nth_cat nth_nseq size_nseq.
case: ltngtP => [H|H|->]; rewrite ?mulr0 ?subnn ?mulr1 //.
by rewrite nth_default // -(subnSK H).
Qed.

Lemma pdegree_le a b : (pdegree a <=? pdegree b)%Z = (size a <= size b)%N.
Proof. by rewrite /pdegree /pabs; apply/Z.leb_spec0/leP; lia. Qed.

Lemma pdivmod_loop_ok f d q r : normal d -> d != [::] -> normal q -> normal r ->
  (size r < f)%N ->
  exists (q' r' : seq F), [/\ pdivmod_loop f d (lead_coef (Poly d)) q r = Ok (q', r'),
    normal q', normal r', (size r' < size d)%N &
    Poly q * Poly d + Poly r = Poly q' * Poly d + Poly r'].
Proof.
move=> Hd Hd0; have [_ Hl] := plead_lead Hd Hd0.
elim: f q r => // f IH q r Hq Hr Hf /=.
rewrite pdegree_le; case: leqP => Hs; last by exists q, r.
have Hr0 : r != [::].
  by apply: contraNneq Hd0 => E; move: Hs; rewrite E leqn0 size_eq0.
have [-> Hlr] := plead_lead Hr Hr0.
rewrite /= fdiv_ok //=.
set k := _ / _; set m := pmk _.
have Em : Poly m = k *: 'X^(size r - size d) by rewrite PolymonE.
have [] := IH (padd q m) (psub r (pmul m d)).
- exact: normal_padd.
- exact: normal_psub.
- move: Hf; rewrite ltnS; apply: leq_trans; rewrite psubE Poly_pmul Em /k.
  rewrite (size_normal Hr) (size_normal Hd); apply: size_cancel_lead.
    by rewrite -nil_Poly.
  by rewrite -!size_normal.
move=> q' [r' [-> Hq' Hr' Hs' E]]; exists q', r'; split=> //.
rewrite -E Poly_padd Poly_psub Poly_pmul mulrDl -addrA; congr (_ + _).
by rewrite addrC subrK.
Qed.

Lemma pdivmod_exists a d : normal a -> normal d -> d != [::] ->
  exists q r, [/\ pdivmod a d = Ok (q, r), normal q, normal r,
    (size r < size d)%N & Poly a = Poly q * Poly d + Poly r].
Proof.
move=> Ha Hd Hd0; have [E _] := plead_lead Hd Hd0.
have [] := @pdivmod_loop_ok (size a).+1 d (pmk [::]) a Hd Hd0 (normal_pmk _) Ha (ltnSn _).
move=> q [r [H1 H2 H3 H4 H5]]; exists q, r; rewrite /pdivmod E /=; split=> //.
by rewrite -H5 Poly_pmk mul0r add0r.
Qed.

Lemma pdivmodE a d : normal a -> normal d -> d != [::] ->
  pdivmod a d = Ok (polyseq (Poly a %/ Poly d), polyseq (Poly a %% Poly d)).
Proof.
move=> Ha Hd Hd0; have [q [r [-> Hq Hr Hs E]]] := pdivmod_exists Ha Hd Hd0.
have Hs' : (size (Poly r) < size (Poly d))%N by rewrite -!size_normal.
by rewrite E divp_addl_mul_small // modp_addl_mul_small // !PolyK_normal.
Qed.

Lemma pdivmod0 a : pdivmod a [::] = Err IndexError.
Proof. by []. Qed.

Lemma pis_zeroE a : pis_zero a = (a == [::]).
Proof. by rewrite /pis_zero size_eq0. Qed.

Lemma pdivE a d : normal a -> normal d -> d != [::] ->
  pdiv a d = Ok (polyseq (Poly a %/ Poly d)).
Proof. by move=> Ha Hd Hd0; rewrite /pdiv pis_zeroE (negbTE Hd0) pdivmodE. Qed.
Lemma pmodE a d : normal a -> normal d -> d != [::] ->
  pmod a d = Ok (polyseq (Poly a %% Poly d)).
Proof. by move=> Ha Hd Hd0; rewrite /pmod pis_zeroE (negbTE Hd0) pdivmodE. Qed.

(** evaluation *)
Lemma pcall_sum a (x : F) : pcall a x = \sum_(i < size a) a`_i * x ^+ i.
Proof.
rewrite /pcall.
suff H y k : (foldl (fun (st : F * F) c => (st.1 + st.2 * c, st.2 * x)) (y, x ^+ k) a).1
     = y + \sum_(i < size a) a`_i * x ^+ (k + i).
  by rewrite -(expr0 x) H add0r; apply: eq_bigr => i _; rewrite add0n.
elim: a y k => [|c a IH] y k /=; first by rewrite big_ord0 addr0.
rewrite -exprSr IH big_ord_recl /= addn0 -addrA; congr (_ + (_ + _)).
  by rewrite mulrC.
by apply: eq_bigr => i _; rewrite addSnnS.
Qed.

Lemma pcallE a (x : F) : pcall a x = (Poly a).[x].
Proof. by rewrite pcall_sum horner_Poly; elim: a => [|c a IH] /=; rewrite ?big_ord0 // big_ord_recl /= mulr1 -IH mulr_suml addrC; congr (_ + _); apply: eq_bigr => i _; rewrite -mulrA -exprSr. Qed.

(** powers *)
Lemma pconst1E : pconst 1 = (1 : {poly F}) :> seq F.
Proof. by rewrite /pconst pmkE /= cons_poly_def mul0r add0r. Qed.

Lemma Poly_pconst (x : F) : Poly (pconst x) = x%:P.
Proof. by rewrite /pconst Poly_pmk /= cons_poly_def mul0r add0r. Qed.

Lemma normal_pconst (x : F) : normal (pconst x). Proof. exact: normal_pmk. Qed.

Lemma ppowE a n : normal a -> (0 <= n)%Z ->
  ppow a n = Ok (polyseq (Poly a ^+ Z.to_nat n)).
Proof.
move=> Ha Hn; rewrite /ppow.
rewrite (@dom_pow_spec_on _ (fun b => normal b)) //; first 1 last.
- exact: normal_pconst.
- by move=> *; exact: normal_pmul.
- by move=> x y z _ _ _; rewrite !pmulE !polyseqK mulrA.
- by move=> x Hx; rewrite pmulE Poly_pconst mul1r PolyK_normal.
- by move=> x Hx; rewrite pmulE Poly_pconst mulr1 PolyK_normal.
congr Ok; elim: (Z.to_nat n) => [|k IH] /=; first by rewrite pconst1E expr0.
by rewrite pmulE IH polyseqK exprS.
Qed.

Lemma ppow_neg a n : (n < 0)%Z -> ppow a n = Ok (if Z.odd n then a else pconst 1).
Proof. exact: pow_gen_neg. Qed.

Lemma modp_mul_congr (m x x' y y' : {poly F}) :
  x %% m = x' %% m -> y %% m = y' %% m -> (x * y) %% m = (x' * y') %% m.
Proof.
move=> Ex Ey; rewrite -(modp_mul x y) Ey modp_mul mulrC.
by rewrite -(modp_mul y' x) Ex modp_mul mulrC.
Qed.

Lemma ppowmod_rep a n m : normal a -> normal m -> m != [::] -> (0 <= n)%Z ->
  exists r, [/\ ppowmod a n m = Ok r, normal r &
    Poly r %% Poly m = (Poly a ^+ Z.to_nat n) %% Poly m].
Proof.
move=> Ha Hm Hm0 Hn; rewrite /ppowmod /dom_powmod.
have [||||r [E [H1 H2]]] := @pow_gen_spec (seq F) (pconst 1)
    (fun x y : seq F => pmod (pmul x y) m)
    (fun (y : seq F) k => normal y /\ Poly y %% Poly m = (Poly a ^+ Z.to_nat k) %% Poly m) _ a n.
- move=> x y j k Hj Hk [Hx Ex] [Hy Ey].
  rewrite pmodE ?normal_pmul //; eexists; split; first by [].
  split; first exact: normal_polyseq.
  rewrite Z2Nat.inj_add // exprD polyseqK modp_mod Poly_pmul.
  exact: modp_mul_congr.
- exact: Hn.
- by rewrite expr1.
- by rewrite /= Poly_pconst; split=> //; exact: normal_pconst.
by exists r.
Qed.

Lemma ppowmodE a n m : normal a -> normal m -> m != [::] -> (2 <= n)%Z ->
  ppowmod a n m = Ok (polyseq ((Poly a ^+ Z.to_nat n) %% Poly m)).
Proof.
move=> Ha Hm Hm0 Hn.
have [|r [E Hr Er]] := @ppowmod_rep a n m Ha Hm Hm0; first by lia.
rewrite E -Er; congr Ok.
have [x [y]] := @pow_gen_range _ _ _ _ _ _ Hn E.
rewrite pmodE ?normal_pmul // => -[Ez].
by rewrite -[in RHS]Ez polyseqK modp_mod.
Qed.

Lemma ppowmod_small a n m : (0 <= n < 2)%Z ->
  ppowmod a n m = Ok (if (n =? 1)%Z then a else pconst 1).
Proof. exact: pow_gen_small. Qed.

Lemma ppowmod_zero a n : (2 <= n)%Z -> ppowmod a n [::] = Err ZeroDivisionError.
Proof. by move=> H; apply: pow_gen_raises. Qed.

(** Euclid *)
Lemma pabs_gt0 a : (0 <? pabs a)%Z = (a != [::]).
Proof. by case: a. Qed.

Lemma pgcd_loop_spec f a b : normal a -> normal b -> (size b < f)%N ->
  exists g, [/\ gcd_loop (seq F) (@pabs F) (@pdivmod F) f a b = Ok g, normal g &
     forall e, (e %| Poly g) = (e %| Poly a) && (e %| Poly b)].
Proof.
elim: f a b => // f IH a b Ha Hb Hf /=.
rewrite pabs_gt0; case: eqVneq => [-> | Hb0] /=.
  by exists a; split=> // e; rewrite dvdp0 andbT.
rewrite pdivmodE //=.
have [|g [-> Hg S]] := IH b (polyseq (Poly a %% Poly b)) Hb (normal_polyseq _).
  move: Hf; rewrite ltnS; apply: leq_trans; rewrite [X in (_ < X)%N](size_normal Hb).
  by rewrite ltn_modp -nil_Poly.
exists g; split=> // e; rewrite S polyseqK andbC.
case Eb: (e %| Poly b); rewrite ?andbF // !andbT.
by rewrite -(dvdp_mod _ Eb).
Qed.

Lemma peea_loop_follows (A0 B0 : {poly F}) f a b x2 x1 y2 y1 g :
  normal a -> normal b ->
  gcd_loop (seq F) (@pabs F) (@pdivmod F) f a b = Ok g ->
  normal x2 -> normal x1 -> normal y2 -> normal y1 ->
  Poly a = A0 * Poly x2 + B0 * Poly y2 -> Poly b = A0 * Poly x1 + B0 * Poly y1 ->
  exists x y, [/\ eea_loop (seq F) (@pabs F) (@pdivmod F) (@psub F) (@pmul F) f a b x2 x1 y2 y1 = Ok (x, y, g),
     normal x, normal y & A0 * Poly x + B0 * Poly y = Poly g].
Proof.
elim: f a b x2 x1 y2 y1 => // f IH a b x2 x1 y2 y1 Ha Hb /=.
rewrite pabs_gt0; case: eqVneq => [-> | Hb0] /=.
  by move=> [<-] *; exists x2, y2.
rewrite pdivmodE //= => Hg N1 N2 N3 N4 Ea Eb.
apply: IH => //; rewrite ?normal_psub ?normal_polyseq //.
rewrite !Poly_psub !Poly_pmul !polyseqK.
have -> : Poly a %% Poly b = Poly a - Poly a %/ Poly b * Poly b.
  by apply/eqP; rewrite eq_sym subr_eq addrC -divp_eq.
set Q := _ %/ _; rewrite {1}Ea {1}Eb !mulrBr mulrDr opprD addrACA.
by rewrite !mulrA ![_ * Q]mulrC.
Qed.

Lemma pgcd_spec a b : normal a -> normal b ->
  exists g, [/\ pgcd a b = Ok g, normal g &
     forall e, (e %| Poly g) = (e %| Poly a) && (e %| Poly b)].
Proof.
move=> Ha Hb; rewrite /pgcd /gcd_gen; case: ifP => _.
  have [|g [-> Hg S]] := @pgcd_loop_spec (maxn (size a) (size b)).+2 b a Hb Ha.
    by rewrite ltnW // !ltnS leq_maxl.
  by exists g; split=> // e; rewrite S andbC.
apply: pgcd_loop_spec => //; by rewrite ltnW // !ltnS leq_maxr.
Qed.

Lemma peea_ordered_spec f a b g : normal a -> normal b ->
  gcd_loop (seq F) (@pabs F) (@pdivmod F) f a b = Ok g ->
  exists x y, [/\ eea_ordered (seq F) (@pabs F) (@pdivmod F) (@psub F) (@pmul F) (pmk [::]) (pconst 1) f a b = Ok (x, y, g),
     normal x, normal y & Poly a * Poly x + Poly b * Poly y = Poly g].
Proof.
move=> Ha Hb Hg; rewrite /eea_ordered.
have -> : (pabs b =? 0)%Z = (b == [::]) by case: (b).
case: eqP => [Eb | Hb0].
  case: f Hg => // f; rewrite Eb /= => -[<-].
  exists (pconst 1), (pmk [::]); split=> //; rewrite ?normal_pmk //.
  by rewrite Poly_pconst mulr1 mul0r addr0.
apply: peea_loop_follows => //; rewrite ?normal_pmk // Poly_pconst Poly_pmk.
  by rewrite mulr1 mulr0 addr0.
by rewrite mulr1 mulr0 add0r.
Qed.

Lemma peea_spec a b : normal a -> normal b ->
  exists x y g, [/\ peea a b = Ok (x, y, g), [/\ normal x, normal y & normal g],
     Poly a * Poly x + Poly b * Poly y = Poly g &
     forall e, (e %| Poly g) = (e %| Poly a) && (e %| Poly b)].
Proof.
move=> Ha Hb; have [g [Eg Ng Sg]] := pgcd_spec Ha Hb.
move: Eg; rewrite /peea /eea_gen /pgcd /gcd_gen; case: ifP => _ Eg.
  have [x [y [-> Nx Ny B]]] := peea_ordered_spec Hb Ha Eg.
  by exists y, x, g; split=> //; rewrite addrC.
have [x [y [-> Nx Ny B]]] := peea_ordered_spec Ha Hb Eg.
by exists x, y, g.
Qed.

Lemma peea_pgcd a b : normal a -> normal b ->
  exists x y g, pgcd a b = Ok g /\ peea a b = Ok (x, y, g) /\
     (normal x /\ normal y /\ normal g) /\
     Poly a * Poly x + Poly b * Poly y = Poly g /\
     forall e, (e %| Poly g) = (e %| Poly a) && (e %| Poly b).
Proof.
move=> Ha Hb; have [g [Eg Ng Sg]] := pgcd_spec Ha Hb.
have [x [y [g' [E [Nx Ny Ng'] B S]]]] := peea_spec Ha Hb.
suff Egg : g' = g by rewrite -Egg in Eg *; exists x, y, g'.
move: E Eg; rewrite /peea /eea_gen /pgcd /gcd_gen; case: ifP => _ E Eg.
  by have [x' [y' [E' _ _ _]]] := peea_ordered_spec Hb Ha Eg; rewrite E' /= in E; case: E.
by have [x' [y' [E' _ _ _]]] := peea_ordered_spec Ha Hb Eg; rewrite E' /= in E; case: E.
Qed.

Lemma ppow_nat a n : normal a -> ppow a (Z.of_nat n) = Ok (polyseq (Poly a ^+ n)).
Proof. by move=> Ha; rewrite ppowE ?Nat2Z.id //; lia. Qed.

(** packaged statements *)
Lemma normal_ops a b (c : seq F) :
  [/\ normal (pmk c), (forall i, nth 0 (pmk c) i = nth 0 c i),
      normal (padd a b), normal (psub a b) & normal (pneg a) /\ normal (pmul a b)].
Proof.
split; rewrite ?normal_pmk ?normal_pmul ?normal_padd ?normal_psub ?normal_pneg //.
by move=> i; rewrite pmkE coef_Poly.
Qed.

Lemma peq_coefs a b : normal a -> normal b ->
  (peq a b <-> forall i, nth 0 a i = nth 0 b i) /\ pne a b = ~~ peq a b.
Proof.
move=> Ha Hb; split; last by rewrite pneE peqE.
rewrite peqP //; split => [/eqP /polyP H i | H]; first by have := H i; rewrite !coef_Poly.
by apply/eqP/polyP => i; rewrite !coef_Poly.
Qed.

Lemma pdegree_spec a : normal a ->
  pdegree a = (Z.of_nat (size (Poly a)) - 1)%Z /\ (pdegree a = (-1)%Z <-> Poly a = 0).
Proof.
move=> Ha; rewrite /pdegree /pabs -size_normal //; split=> //.
have -> : (Poly a = 0) <-> (size a = 0%N).
  rewrite (size_normal Ha); split=> [-> | /eqP]; rewrite ?size_poly0 //.
  by rewrite size_poly_eq0 => /eqP.
by split; lia.
Qed.

Lemma pring_ops a b :
  [/\ padd a b = Poly a + Poly b :> seq F, psub a b = Poly a - Poly b :> seq F,
      pneg a = - Poly a :> seq F & pmul a b = Poly a * Poly b :> seq F].
Proof. by rewrite paddE psubE pnegE pmulE. Qed.

Lemma pmul_coef a b k :
  nth 0 (pmul a b) k = \sum_(i < k.+1) nth 0 a i * nth 0 b (k - i).
Proof. by rewrite pmulE coefM; apply: eq_bigr => i _; rewrite !coef_Poly. Qed.

Lemma pdivmod_full a d : normal a -> normal d -> d != [::] ->
  exists q r : seq F,
    [/\ pdivmod a d = Ok (q, r), pdiv a d = Ok q, pmod a d = Ok r, normal q /\ normal r &
        Poly a = Poly q * Poly d + Poly r /\ (size r < size d)%N].
Proof.
move=> Ha Hd Hd0; have [q [r [E Hq Hr Hs Ea]]] := pdivmod_exists Ha Hd Hd0.
by exists q, r; split=> //; rewrite /pdiv /pmod pis_zeroE (negbTE Hd0) E.
Qed.

Lemma pdivmod_unique a d (q r : seq F) :
  normal a -> normal d -> d != [::] -> normal q -> normal r ->
  Poly a = Poly q * Poly d + Poly r -> (size r < size d)%N -> pdivmod a d = Ok (q, r).
Proof.
move=> Ha Hd Hd0 Hq Hr E Hs; rewrite pdivmodE // E.
have Hs' : (size (Poly r) < size (Poly d))%N by rewrite -!size_normal.
by rewrite divp_addl_mul_small // modp_addl_mul_small // !PolyK_normal.
Qed.

Lemma pdiv_by_zero a :
  [/\ pdivmod a [::] = Err IndexError, pdiv a [::] = Err ZeroDivisionError &
      pmod a [::] = Err ZeroDivisionError].
Proof. by []. Qed.

Lemma pcall_morph a b (x : F) :
  [/\ pcall (padd a b) x = pcall a x + pcall b x, pcall (pmul a b) x = pcall a x * pcall b x,
      pcall (psub a b) x = pcall a x - pcall b x & pcall (pneg a) x = - pcall a x].
Proof. by rewrite !pcallE Poly_padd Poly_pmul Poly_psub Poly_pneg !hornerE. Qed.

Lemma ppowmod_spec a m n : normal a -> normal m -> m != [::] -> (2 <= n)%N ->
  exists r : seq F, [/\ ppowmod a (Z.of_nat n) m = Ok r, normal r, (size r < size m)%N &
     exists q : {poly F}, Poly a ^+ n = q * Poly m + Poly r].
Proof.
move=> Ha Hm Hm0 Hn; rewrite ppowmodE //; last by lia.
rewrite Nat2Z.id; eexists; split; first by []; first exact: normal_polyseq.
  by rewrite (size_normal Hm) ltn_modp -nil_Poly.
by exists (Poly a ^+ n %/ Poly m); rewrite polyseqK -divp_eq.
Qed.

Lemma ppowmod_01 a m : ppowmod a 0 m = Ok (pconst 1) /\ ppowmod a 1 m = Ok a.
Proof. by []. Qed.
End PolyProofs.
