(** How many monic irreducible polynomials of a degree there are over a prime
    field, and that primitive polynomials of every degree exist.  Reference
    facts for starks/poly_utils.py:181-211. *)
From mathcomp Require Import cyclic zify.
From Verif Require Import Prelude FinFld QField IrredProofs.
Set Implicit Arguments.
Unset Strict Implicit.
Unset Printing Implicit Defensive.
Import GRing.Theory.
Local Open Scope ring_scope.

Section Count.
Variable F : finFieldType.
Hypothesis Fchar : #|F| \in [char F].
Implicit Types (f g h : {poly F}).
Local Notation q := #|F|.
Local Notation U n := ('X^(q ^ n) - 'X : {poly F}).

Lemma q_gt1 : (1 < q)%N. Proof. exact: card_gt1. Qed.
Lemma qn_gt1 n : (0 < n)%N -> (1 < q ^ n)%N.
Proof. by move=> Hn; rewrite -{1}(exp1n n) ltn_exp2r // q_gt1. Qed.

Lemma size_U n : (0 < n)%N -> size (U n) = (q ^ n).+1.
Proof.
by move=> Hn; rewrite size_addl ?size_polyXn // size_opp size_polyX ltnS qn_gt1.
Qed.
Lemma U_neq0 n : (0 < n)%N -> U n != 0.
Proof. by move=> Hn; rewrite -size_poly_gt0 size_U. Qed.

Lemma deriv_U n : (0 < n)%N -> (U n)^`() = - 1.
Proof.
move=> Hn; rewrite derivB derivXn derivX.
suff -> : ('X^(q ^ n).-1 *+ (q ^ n) : {poly F}) = 0 by rewrite sub0r.
rewrite -mulr_natr natrX; case: n Hn => // n _.
have -> : (q%:R : {poly F}) = 0 by rewrite -polyC1 -polyCMn (charf0 Fchar) polyC0.
by rewrite exprS mul0r mulr0.
Qed.

(** X^(q^n) - X has no multiple factor *)
Lemma squarefree_U n h : (0 < n)%N -> h ^+ 2 %| U n -> size h = 1%N.
Proof.
move=> Hn /dvdpP [k E]; have D := deriv_U Hn.
have : h %| (U n)^`().
  rewrite E derivM deriv_exp /= expr1; apply: dvdp_add; last first.
    by apply: dvdp_mull; rewrite -mulr_natr; apply: dvdp_mulr; apply: dvdp_mull.
  by apply: dvdp_mull; rewrite expr2; apply: dvdp_mulr.
by rewrite D dvdpNr dvdp1 => /eqP.
Qed.

(** the degree of an irreducible divisor divides n *)
Lemma irr_dvd_U n h : (0 < n)%N -> irreducible_poly h -> (h %| U n) = ((size h).-1 %| n)%N.
Proof.
move=> Hn Hh; pose hh := IrrP Hh; set d := (size h).-1.
have d0 : (0 < d)%N by have [H _] := Hh; rewrite /d -subn1 subn_gt0.
have Fd : forall y : qp_finFieldType hh, y ^+ (q ^ d) = y.
  by apply: frob_all => //; exact: (frob_deg hh).
have Fk : forall k (y : qp_finFieldType hh), y ^+ (q ^ (k * d)) = y.
  by elim=> [|k IH] y; rewrite ?mul0n ?expn0 ?expr1 // mulSn expnD exprM Fd IH.
apply/idP/idP => [/(@dvd_in_q F hh) E|/dvdnP [k E]]; last first.
  by apply/(@dvd_in_q F hh); rewrite E Fk.
rewrite /dvdn; apply/negPn/negP => Hr.
apply: (@frob_small F Fchar hh (n %% d)%N); first by rewrite lt0n Hr ltn_pmod.
by rewrite -[RHS]E {2}(divn_eq n d) expnD exprM Fk.
Qed.

(** a squarefree polynomial divides whatever all its irreducible factors divide *)
Lemma sqfree_dvd f g : f != 0 -> (forall h, h ^+ 2 %| f -> size h = 1%N) ->
  (forall h, irreducible_poly h -> h %| f -> h %| g) -> f %| g.
Proof.
have [m] := ubnP (size f); elim: m f => // m IH f Hm f0 Hs Hi.
have [H1|H1] := leqP (size f) 1.
  have : size f == 1%N by rewrite eqn_leq H1 size_poly_gt0.
  by rewrite size_poly_eq1 => /eqp_dvdl ->; exact: dvd1p.
have [h [Ih /dvdpP [k E]]] := irr_factor H1.
have h0 : h != 0 by exact: irredp_neq0.
have k0 : k != 0 by apply: contraNneq f0 => E0; rewrite E E0 mul0r.
have Hh1 : (1 < size h)%N by case: Ih.
rewrite E Gauss_dvdp; last first.
  rewrite coprimep_sym /coprimep; apply/negPn/negP => Hg.
  have := apply_irredp Ih Hg (dvdp_gcdl _ _) => Heq.
  have : h %| k by rewrite -(eqp_dvdl _ Heq) dvdp_gcdr.
  case/dvdpP=> k' Ek; have /Hs : h ^+ 2 %| f by rewrite E Ek -mulrA -expr2 dvdp_mull.
  by move=> H; rewrite H in Hh1.
rewrite (Hi h) ?E ?dvdp_mull // andbT; apply: IH => //.
- rewrite -ltnS (leq_trans _ Hm) // ltnS E size_mul //.
  have Hk : (0 < size k)%N by rewrite size_poly_gt0.
  by move: (size h) (size k) Hh1 Hk => s u Hs1 Hk; lia.
- by move=> u Hu; apply: Hs; rewrite E; apply: dvdp_mulr.
- by move=> u Iu Hu; apply: Hi => //; rewrite E; apply: dvdp_mulr.
Qed.

(** distinct monic irreducible divisors multiply to a divisor *)
Lemma irr_coprime h g : irreducible_poly h -> irreducible_poly g ->
  h \is monic -> g \is monic -> h != g -> coprimep h g.
Proof.
move=> Ih Ig Mh Mg; apply: contraR; rewrite /coprimep => Hg.
have E1 := apply_irredp Ih Hg (dvdp_gcdl _ _).
have E2 := apply_irredp Ig Hg (dvdp_gcdr _ _).
by rewrite -eqp_monic // -(eqp_ltrans E1).
Qed.

Lemma prod_dvd (s : seq {poly F}) f : uniq s ->
  (forall h, h \in s -> irreducible_poly h) -> {in s, forall h, h \is monic} ->
  {in s, forall h, h %| f} -> \prod_(h <- s) h %| f.
Proof.
elim: s => [|h s IH]; first by rewrite big_nil dvd1p.
move=> /andP [Hn Us] Hi Hm Hd; rewrite big_cons Gauss_dvdp; last first.
  rewrite big_seq; elim/big_ind: _ => [|x y Hx Hy|g Hg]; first exact: coprimep1.
  - by rewrite coprimepMr Hx.
  - apply: irr_coprime; rewrite ?Hi ?Hm ?inE ?Hg ?eqxx ?orbT //.
      by apply: Hi; rewrite inE eqxx.
    by apply: Hi; rewrite inE Hg orbT.
  by apply: contraNneq Hn => ->.
rewrite Hd ?inE ?eqxx // IH // => g Hg; [apply: Hi|apply: Hm|apply: Hd]; by rewrite inE Hg orbT.
Qed.

(** the monic polynomial with given lower coefficients *)
Definition mon d (t : d.-tuple F) : {poly F} := Poly (rcons t 1).
Lemma monE d (t : d.-tuple F) : mon t = rcons t 1 :> seq F.
Proof. by rewrite /mon (PolyK (c := 0)) // last_rcons oner_neq0. Qed.
Lemma size_mon d (t : d.-tuple F) : size (mon t) = d.+1.
Proof. by rewrite monE size_rcons size_tuple. Qed.
Lemma monic_mon d (t : d.-tuple F) : mon t \is monic.
Proof. by rewrite monicE lead_coefE size_mon monE nth_rcons size_tuple ltnn eqxx. Qed.
Lemma mon_inj d : injective (@mon d).
Proof.
move=> t u /(congr1 (@polyseq F)); rewrite !monE => /eqP; rewrite eqseq_rcons => /andP [/eqP E _].
exact: val_inj.
Qed.
Lemma mon_surj f : f \is monic -> exists t : (size f).-1.-tuple F, f = mon t.
Proof.
move=> Mf; have f0 : f != 0 by exact: monic_neq0.
have Hs : (0 < size f)%N by rewrite size_poly_gt0.
have S : size (take (size f).-1 f) == (size f).-1 by rewrite size_takel // leq_pred.
exists (Tuple S); apply: poly_inj; rewrite monE /=.
move: Mf; rewrite monicE lead_coefE => /eqP {1}<-.
by rewrite -take_nth ?prednK ?take_size.
Qed.

Variable irrb : pred {poly F}.
Hypothesis irrbP : forall f, (1 < size f)%N -> reflect (irreducible_poly f) (irrb f).

(** the draws of [d] coefficients that give an irreducible polynomial *)
Definition I d := [set t : d.-tuple F | irrb (mon t)].
Definition irr_list n : seq {poly F} := flatten [seq [seq mon t | t <- enum (I d)] | d <- divisors n].

Lemma in_irr_list n h : (0 < n)%N -> reflect [/\ irreducible_poly h, h \is monic & ((size h).-1 %| n)%N] (h \in irr_list n).
Proof.
move=> Hn; apply: (iffP flatten_mapP) => [[d Hd /mapP [t Ht ->]]|[Ih Mh Hd]].
  rewrite -dvdn_divisors // in Hd; have d0 : (0 < d)%N by exact: dvdn_gt0 Hd.
  rewrite mem_enum inE in Ht; rewrite monic_mon size_mon; split=> //.
  by apply/irrbP => //; rewrite size_mon ltnS.
exists (size h).-1; first by rewrite -dvdn_divisors.
have [t E] := mon_surj Mh; apply/mapP; exists t => //.
by rewrite mem_enum inE -E; apply/irrbP => //; case: Ih.
Qed.

Lemma uniq_irr_list n : (0 < n)%N -> uniq (irr_list n).
Proof.
move=> Hn; rewrite /irr_list; have := divisors_uniq n; elim: (divisors n) => //= d s IH /andP [Hd Us].
rewrite cat_uniq IH // andbT map_inj_uniq ?enum_uniq; last exact: mon_inj.
apply/hasPn => h /flatten_mapP [e He /mapP [t _ ->]]; apply/negP => /mapP [u _ E].
have := congr1 (fun f : {poly F} => size f) E; rewrite !size_mon => -[Ee].
by rewrite -Ee He in Hd.
Qed.

Lemma prod_monic (s : seq {poly F}) : {in s, forall h, h \is monic} ->
  \prod_(h <- s) h \is monic /\ (size (\prod_(h <- s) h)%R).-1 = (\sum_(h <- s) (size h).-1)%N.
Proof.
elim: s => [|h s IH] Hm; first by rewrite !big_nil monic1 size_poly1.
have [|M S] := IH; first by move=> g Hg; apply: Hm; rewrite inE Hg orbT.
rewrite !big_cons -S; have Mh : h \is monic by apply: Hm; rewrite inE eqxx.
split; first by rewrite monicMl.
rewrite size_monicM ?monic_neq0 //.
have := monic_neq0 Mh; have := monic_neq0 M; rewrite -!size_poly_gt0.
move: (\prod_(_ <- _) _) {M S} => P.
by move: (size h) (size P) => x y; lia.
Qed.

Lemma sum_irr_list n : (\sum_(h <- irr_list n) (size h).-1)%N = (\sum_(d <- divisors n) d * #|I d|)%N.
Proof.
rewrite /irr_list big_flatten big_map; apply: eq_bigr => d _.
rewrite big_map big_enum /= (eq_bigr (fun=> d)) ?sum_nat_const 1?mulnC // => t _.
by rewrite size_mon.
Qed.

Lemma prod_irr_list n : (0 < n)%N -> \prod_(h <- irr_list n) h = U n.
Proof.
move=> Hn; have Hl := fun h => in_irr_list h Hn.
have Hm : {in irr_list n, forall h, h \is monic} by move=> h /Hl [].
have [M _] := prod_monic Hm; apply/eqP; rewrite -eqp_monic //; last first.
  by rewrite monicE lead_coefDl ?lead_coefXn // size_opp size_polyX size_polyXn ltnS qn_gt1.
apply/andP; split.
  apply: prod_dvd => //; first exact: uniq_irr_list.
    by move=> h /Hl [].
  by move=> h /Hl [Ih _ Hd]; rewrite irr_dvd_U.
apply: sqfree_dvd; first exact: U_neq0.
  by move=> h; apply: squarefree_U.
move=> h Ih; rewrite irr_dvd_U // => Hd.
pose h' := (lead_coef h)^-1 *: h.
have l0 : (lead_coef h)^-1 != 0 by rewrite invr_eq0 lead_coef_eq0 irredp_neq0.
have Eh : h' %= h by exact: eqp_scale.
have Ih' : irreducible_poly h'.
  split=> [|g Hg Hgd]; first by rewrite (eqp_size Eh); case: Ih.
  apply: (@eqp_trans _ h); last by rewrite eqp_sym.
  by apply: (apply_irredp Ih Hg); rewrite -(eqp_dvdr _ Eh).
have : h' \in irr_list n.
  apply/Hl; split; rewrite ?(eqp_size Eh) //.
  by rewrite monicE lead_coefZ mulVf // lead_coef_eq0 irredp_neq0.
by rewrite -(eqp_dvdl _ Eh) => Hin; rewrite (big_rem _ Hin) /= dvdp_mulr.
Qed.

(** Gauss' formula *)
Lemma gauss_formula n : (0 < n)%N -> (\sum_(d <- divisors n) d * #|I d|)%N = (q ^ n)%N.
Proof.
move=> Hn; have Hm : {in irr_list n, forall h, h \is monic} by move=> h /(in_irr_list h Hn) [].
by have [_] := prod_monic Hm; rewrite prod_irr_list // size_U // sum_irr_list /= => ->.
Qed.

Lemma irr_upper n : (0 < n)%N -> (n * #|I n| <= q ^ n)%N.
Proof.
move=> Hn; rewrite -(gauss_formula Hn) (big_rem n) /=; first exact: leq_addr.
by rewrite -dvdn_divisors.
Qed.

Lemma sum_sub (s r : seq nat) (E : nat -> nat) : uniq s -> {subset s <= r} ->
  (\sum_(d <- s) E d <= \sum_(d <- r) E d)%N.
Proof.
elim: s r => [|d s IH] r; first by rewrite big_nil.
move=> /andP [Hd Us] Hs; have Hr : d \in r by apply: Hs; rewrite inE eqxx.
rewrite big_cons [X in (_ <= X)%N](big_rem d) //= leq_add2l; apply: IH => // e He.
have He' : e \in r by apply: Hs; rewrite inE He orbT.
by move: He'; rewrite (perm_mem (perm_to_rem Hr)) inE; case: eqP => // E0; rewrite -E0 He in Hd.
Qed.

Lemma sum_half m : (2 * (\sum_(1 <= d < m.+1) q ^ d) <= q ^ (2 * m))%N.
Proof.
elim: m => [|[|m] IH]; first by rewrite big_geq.
  by rewrite big_nat1 expn1 muln1 -mulnn leq_mul2r q_gt1 orbT.
rewrite big_nat_recr //= mulnDr.
have Ha : (2 <= q ^ m.+1)%N by exact: qn_gt1.
have Hq := q_gt1.
have -> : (q ^ (2 * m.+2) = q * q * (q ^ (2 * m.+1)))%N.
  by rewrite (_ : 2 * m.+2 = 2 * m.+1 + 2)%N ?expnD 1?mulnC ?mulnn; lia.
have E2 : (q ^ (2 * m.+1) = q ^ m.+1 * q ^ m.+1)%N by rewrite mul2n -addnn expnD.
rewrite E2 in IH *; rewrite (expnS q m.+1).
move: (\sum_(_ <= _ < _) _)%N IH => S IH; move: (q ^ m.+1)%N IH Ha => a IH Ha.
move: #|F| Hq => c Hq; rewrite (_ : c * c * (a * a) = (c * a) * (c * a))%N; last by lia.
have Hb : (2 * a <= c * a)%N by rewrite leq_mul2r Hq orbT.
have Hb2 : ((2 * a) * (2 * a) <= (c * a) * (c * a))%N by exact: leq_mul.
have Hb4 : (4 * (c * a) <= (c * a) * (c * a))%N by rewrite leq_mul2r; apply/orP; right; lia.
lia.
Qed.

Lemma irr_lower n : (0 < n)%N -> (q ^ n <= 2 * (n * #|I n|))%N.
Proof.
move=> Hn; have G := gauss_formula Hn; have Hd : n \in divisors n by rewrite -dvdn_divisors.
rewrite (big_rem n) //= in G; set R := (\sum_(_ <- rem _ _) _)%N in G.
suff : (2 * R <= q ^ n)%N.
  by rewrite -G; move: R (n * _)%N {G} => x y; lia.
have H1 : (R <= \sum_(d <- rem n (divisors n)) q ^ d)%N.
  rewrite /R big_seq [X in (_ <= X)%N]big_seq; apply: leq_sum => d Hd'; apply: irr_upper.
  have : d \in divisors n by apply: mem_rem Hd'.
  by rewrite -dvdn_divisors // => /dvdn_gt0; apply.
have H2 : (\sum_(d <- rem n (divisors n)) q ^ d <= \sum_(1 <= d < (n %/ 2).+1) q ^ d)%N.
  apply: sum_sub; first exact: rem_uniq (divisors_uniq n).
  move=> d; rewrite (mem_rem_uniq _ (divisors_uniq n)) => /andP [Hdn]; rewrite -[_ d]/(d \in divisors n) -dvdn_divisors // => /dvdnP [k Ek].
  rewrite mem_index_iota ltnS leq_divRL //.
  move: Hn Hdn; rewrite Ek; case: k {Ek} => [|[|k]]; rewrite ?mul0n ?mul1n ?eqxx // => Hn _.
  by case: d Hn => [|d] Hn; lia.
have H3 := sum_half (n %/ 2).
have H4 : (q ^ (2 * (n %/ 2)) <= q ^ n)%N.
  by rewrite leq_exp2l ?q_gt1 // mulnC leq_trunc_div.
by lia.
Qed.

Lemma irr_strict n : (1 < n)%N -> (n * #|I n| < q ^ n)%N.
Proof.
move=> Hn; have Hn0 : (0 < n)%N by lia.
have G := gauss_formula Hn0; have Hd : n \in divisors n by rewrite -dvdn_divisors.
have H1 : 1%N \in rem n (divisors n).
  by rewrite (mem_rem_uniq _ (divisors_uniq n)) !inE divisor1 andbT; lia.
rewrite (big_rem n) //= (big_rem 1%N) //= mul1n in G.
have := irr_lower (isT : (0 < 1)%N); have := q_gt1; rewrite expn1 mul1n => Hq H2.
have I1 : (0 < #|I 1|)%N by move: #|I 1| #|F| Hq H2 => x y; lia.
rewrite -G -[X in (X < _)%N]addn0 ltn_add2l; exact: leq_trans I1 (leq_addr _ _).
Qed.

Lemma irr_ex n : (0 < n)%N -> exists h, [/\ irreducible_poly h, h \is monic & size h = n.+1].
Proof.
move=> Hn; have := irr_lower Hn; have := qn_gt1 Hn.
have [E|[t]] := set_0Vmem (I n); first by rewrite E cards0; lia.
rewrite inE => Ht _ _; exists (mon t); rewrite size_mon monic_mon; split=> //.
by apply/irrbP => //; rewrite size_mon.
Qed.

(** *** primitive polynomials *)
Section Prim.
Variables (n : nat) (g : irrP F).
Hypothesis n0 : (0 < n)%N.
Hypothesis Sg : size g = n.+1.
Local Notation Q := (qp_finFieldType g).

Lemma cardQ : #|Q| = (q ^ n)%N. Proof. by rewrite card_qp Sg. Qed.

Definition emb (c : F) : Q := in_q g c%:P.
Lemma emb_rmorph : rmorphism emb.
Proof.
split; first by move=> a b; rewrite /emb polyCB in_qB.
by split=> [a b|]; rewrite /emb ?polyCM ?in_qM // polyC1 in_q1.
Qed.
Canonical emb_additive := Additive emb_rmorph.
Canonical emb_rmorphism := RMorphism emb_rmorph.
Local Notation "f ^e" := (map_poly emb f) (at level 2, format "f ^e").

Lemma U_splits : (U n)^e = \prod_(y <- enum Q) ('X - y%:P).
Proof.
rewrite rmorphB /= map_polyXn map_polyX.
rewrite (@all_roots_prod_XsubC _ ('X^(q ^ n) - 'X : {poly Q}) (enum Q)).
- rewrite lead_coefDl ?lead_coefXn ?scale1r //.
  by rewrite size_opp size_polyX size_polyXn ltnS qn_gt1.
- rewrite size_addl ?size_polyXn ?size_opp ?size_polyX ?ltnS ?qn_gt1 //.
  by rewrite -cardE cardQ.
- by apply/allP => y _; rewrite rootE !hornerE hornerXn -cardQ expf_card subrr.
- by rewrite uniq_rootsE enum_uniq.
Qed.

(** an irreducible polynomial of degree n has exactly n roots in the field of q^n elements *)
Lemma roots_irr h : h %| U n -> #|[set y : Q | root h^e y]| = (size h).-1.
Proof.
move=> Hd; have : h^e %| (U n)^e by rewrite dvdp_map.
rewrite U_splits => /dvdp_prod_XsubC [m Hm].
have Um : uniq (mask m (enum Q)) by rewrite mask_uniq ?enum_uniq.
have -> : [set y : Q | root h^e y] = [set y in mask m (enum Q)].
  by apply/setP => y; rewrite !inE (eqp_root Hm) root_prod_XsubC.
rewrite cardsE (card_uniqP Um).
by have := eqp_size Hm; rewrite size_map_poly size_prod_XsubC => ->.
Qed.

(** a root of an irreducible polynomial satisfies exactly its multiples *)
Lemma root_mult h (y : Q) f : irreducible_poly h -> root h^e y -> root f^e y = (h %| f).
Proof.
move=> Ih Hy; apply/idP/idP => [Hf|/dvdpP [k ->]]; last by rewrite rmorphM rootM Hy orbT.
have [Hc|Hc] := boolP (coprimep h f).
  have [[u v] /= E] := Bezout_eq1_coprimepP h f Hc.
  have : ((u * h + v * f)^e).[y] = 1 by rewrite E rmorph1 hornerC.
  rewrite rmorphD !rmorphM hornerD !hornerM (rootP Hy) (rootP Hf) !mulr0 addr0 => /eqP.
  by rewrite eq_sym oner_eq0.
have Heq := apply_irredp Ih Hc (dvdp_gcdl _ _).
by rewrite -(eqp_dvdl _ Heq) dvdp_gcdr.
Qed.

Lemma root_Xn1 k (y : Q) : root ('X^k - 1)^e y = (y ^+ k == 1).
Proof. by rewrite rmorphB /= map_polyXn rmorph1 rootE !hornerE hornerXn subr_eq0. Qed.

Local Notation N := (q ^ n).-1.
Lemma N_gt0 : (0 < N)%N. Proof. by have := qn_gt1 n0; lia. Qed.

(** [y] generates the multiplicative group *)
Definition gen : pred Q := N.-primitive_root.

Lemma gen_ex : exists w : Q, N.-primitive_root w.
Proof.
have : has N.-primitive_root (enum (predC1 (0 : Q))).
  apply: has_prim_root; first exact: N_gt0.
  - by apply/allP => y; rewrite mem_enum inE unity_rootE -cardQ => /fermat ->.
  - exact: enum_uniq.
  - by rewrite -cardE cardC1 cardQ.
by case/hasP => w _ Hw; exists w.
Qed.

(** there are phi(q^n - 1) of them *)
Lemma card_gen : #|[set y : Q | gen y]| = totient N.
Proof.
have [w Hw] := gen_ex; have N0 := N_gt0.
pose e (i : 'I_N) : Q := w ^+ i.
have Ie : injective e.
  move=> i j /eqP; rewrite /e (eq_prim_root_expr Hw) !modn_small // => /eqP; exact: val_inj.
have -> : [set y : Q | gen y] = e @: [set i : 'I_N | coprime N i].
  apply/setP => y; rewrite inE; apply/idP/imsetP => [Hy|[i]].
    have [i Ei] := prim_rootP Hw (prim_expr_order Hy); exists i => //.
    by rewrite inE coprime_sym -(prim_root_exp_coprime i Hw) -Ei.
  by rewrite inE coprime_sym /e => Hi ->; rewrite /gen (prim_root_exp_coprime _ Hw).
rewrite card_imset // totient_count_coprime big_mkord -sum1dep_card.
by rewrite big_mkcond /=; apply: eq_bigr => i _; case: coprime.
Qed.

(** X generates the multiplicative group modulo h *)
Definition prim_of h := [/\ irreducible_poly h, ~~ (h %| 'X) & forall k, (0 < k < N)%N -> ~~ (h %| 'X^k - 1)].

Lemma gen_root h y : irreducible_poly h -> (size h).-1 = n -> root h^e y ->
  gen y <-> prim_of h.
Proof.
move=> Ih Sh Hy.
have R f := root_mult f Ih Hy.
have y0 : (y == 0) = (h %| 'X) by rewrite -R map_polyX rootX.
split=> [Hg|[_ HX Hk]].
  split=> //.
    rewrite -y0; apply/negP => /eqP E; have := prim_expr_order Hg; have := N_gt0.
    by rewrite E; case: N => // k _ /eqP; rewrite expr0n eq_sym oner_eq0.
  move=> k Hk; rewrite -R root_Xn1 -(prim_order_dvd Hg); apply/negP => /dvdn_leq; lia.
rewrite -y0 in HX; rewrite /gen.
have yN : y ^+ N = 1 by rewrite -cardQ fermat.
have [m Hm Dm] := prim_order_exists N_gt0 yN.
have [<- //|Hne] := eqVneq m N.
have m0 := prim_order_gt0 Hm.
have : (0 < m < N)%N by rewrite m0 ltn_neqAle Hne dvdn_leq // N_gt0.
by move/Hk; rewrite -R root_Xn1 (prim_expr_order Hm) eqxx.
Qed.

Variable primb : pred {poly F}.
Hypothesis primbP : forall t : n.-tuple F, reflect (prim_of (mon t)) (primb (mon t)).
Definition Pr := [set t : n.-tuple F | primb (mon t)].

(** every generator is the root of exactly one irreducible polynomial of degree n *)
Lemma gen_unique (y : Q) : gen y -> exists! t : n.-tuple F, t \in Pr /\ root (mon t)^e y.
Proof.
move=> Hy; have : root (U n)^e y by rewrite U_splits root_prod_XsubC mem_enum.
rewrite -(prod_irr_list n0) rmorph_prod rootE horner_prod prodf_seq_eq0 => /hasP [h Hh /= Hr].
rewrite -rootE in Hr; have [Ih Mh Hd] := in_irr_list h n0 Hh.
have d0 : (0 < (size h).-1)%N by have [H _] := Ih; lia.
have Sh : (size h).-1 = n.
  have : root (U (size h).-1)^e y by rewrite (root_mult _ Ih Hr) irr_dvd_U.
  rewrite rmorphB /= map_polyXn map_polyX rootE !hornerE hornerXn subr_eq0 => E.
  have y0 : y != 0.
    apply/negP => /eqP E0; have := prim_expr_order Hy; have := N_gt0.
    by rewrite E0; case: N => // k _ /eqP; rewrite expr0n eq_sym oner_eq0.
  have : y ^+ (q ^ (size h).-1).-1 == 1.
    apply/eqP/(mulfI y0); rewrite mulr1 -exprS prednK ?(eqP E) //.
    by have := qn_gt1 d0; lia.
  rewrite -(prim_order_dvd Hy) => /dvdn_leq H; have := qn_gt1 d0 => H1.
  have {}H : (q ^ n <= q ^ (size h).-1)%N by have := qn_gt1 n0; lia.
  rewrite leq_exp2l ?q_gt1 // in H; apply/eqP; rewrite eqn_leq H andbT.
  exact: dvdn_leq.
have [t Et] := mon_surj Mh; rewrite Sh in t Et; exists t; split.
  rewrite -Et; split=> //; rewrite inE; apply/primbP; rewrite -Et.
  by apply/(gen_root Ih Sh Hr).
move=> u [Hu Ru]; apply: mon_inj; rewrite -Et; move: Hu; rewrite inE => /primbP [Iu _ _].
apply/eqP; rewrite -eqp_monic ?monic_mon //; apply/andP; split.
  by rewrite -(root_mult _ Ih Hr).
by rewrite -(root_mult _ Iu Ru).
Qed.

Lemma card_prim : (n * #|Pr|)%N = totient N.
Proof.
have HP t : t \in Pr -> prim_of (mon t) by rewrite inE => /primbP.
have -> : (n * #|Pr|)%N = (\sum_(t in Pr) \sum_(y : Q | root (mon t)^e y) 1)%N.
  rewrite mulnC -sum_nat_const; apply: eq_bigr => t /HP [It _ _].
  by rewrite sum1dep_card roots_irr ?size_mon // irr_dvd_U // size_mon.
rewrite (exchange_big_dep gen) /=; last first.
  move=> t y /HP Ht Hr; have [It _ _] := Ht.
  by apply/(gen_root It _ Hr) => //; rewrite size_mon.
rewrite -card_gen -sum1dep_card; apply: eq_bigr => y Hy.
have [t [[Ht Hr] Hu]] := gen_unique Hy.
rewrite (eq_bigl (pred1 t)) ?big_pred1_eq // => u /=.
apply/andP/eqP => [[Hu1 Hu2]|->]; last by split.
by rewrite (Hu u).
Qed.
End Prim.
End Count.
