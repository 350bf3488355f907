From mathcomp Require Import zify ssrZ.
From Verif Require Import Prelude PolyModel PolyProofs FftProofs FinFld QField Pocklington IrredModel.
Set Implicit Arguments.
Unset Strict Implicit.
Unset Printing Implicit Defensive.
Import GRing.Theory.
Local Open Scope ring_scope.
Local Open Scope py_scope.

Section Irred.
Variable F : finFieldType.
Implicit Types (f g : {poly F}).

(** every non-constant polynomial has an irreducible factor *)
Lemma irr_factor f : (1 < size f)%N -> exists g, irreducible_poly g /\ g %| f.
Proof.
move=> Hf; set n := size f.
pose pr (v : 'rV[F]_n) := (1 < size (rVpoly v))%N && (rVpoly v %| f).
have f0 : f != 0 by rewrite -size_poly_gt0 (ltn_trans _ Hf).
have rep : forall q : {poly F}, (1 < size q)%N -> q %| f -> pr (poly_rV q) /\ rVpoly (poly_rV q : 'rV[F]_n) = q.
  move=> q H1 H2; have Hq : (size q <= n)%N by apply: dvdp_leq.
  by rewrite /pr poly_rV_K // H1 H2.
have [H0 _] := rep f Hf (dvdpp f).
case: (arg_minnP (fun v : 'rV[F]_n => size (rVpoly v)) H0) => v /andP [Hv1 Hv2] Hmin.
exists (rVpoly v); split=> //; split=> // q Hq Hd.
have q0 : q != 0 by apply: contraTneq Hd => ->; rewrite dvd0p -size_poly_eq0; case: (size _) Hv1.
have q1 : (1 < size q)%N by rewrite ltn_neqAle eq_sym Hq size_poly_gt0.
have [Hp Er] := rep q q1 (dvdp_trans Hd Hv2).
have := Hmin _ Hp; rewrite Er => Hle.
rewrite -dvdp_size_eqp // eqn_leq Hle andbT dvdp_leq // -size_poly_eq0; by case: (size _) Hv1.
Qed.

Section Frob.
Hypothesis Fchar : #|F| \in [char F].
Variable h : irrP F.
Local Notation Q := (qp_finFieldType h).

Lemma expf_cardX (c : F) i : c ^+ (#|F| ^ i) = c.
Proof. by elim: i => [|i IH]; rewrite ?expn0 ?expr1 // expnS exprM expf_card IH. Qed.

Lemma in_q_charP : #|F| \in [char Q].
Proof.
have [Hp /eqP Hc] : prime.prime #|F| /\ (#|F|%:R == 0 :> F) by apply/andP.
rewrite inE Hp /=; apply/eqP.
have E : forall n, (n%:R : Q) = in_q h (n%:R)%:P.
  by elim=> [|n IH]; rewrite ?in_q0 // !mulrSr IH polyCD in_qD.
by rewrite E Hc.
Qed.

(** if X is fixed by the i-th power of Frobenius so is everything *)
Lemma frob_all i : in_q h 'X ^+ (#|F| ^ i) = in_q h 'X -> forall y : Q, y ^+ (#|F| ^ i) = y.
Proof.
move=> HX y; rewrite -(qvalK y); set a := qval y.
have Hnat : [char Q].-nat (#|F| ^ i)%N.
  by rewrite pnatX pnatE ?in_q_charP // (charf_prime Fchar).
have Hadd : forall I (r : seq I) (g : I -> Q), (\sum_(j <- r) g j) ^+ (#|F| ^ i) = \sum_(j <- r) g j ^+ (#|F| ^ i).
  move=> I r g; elim: r => [|j r IH]; last by rewrite !big_cons exprDn_char // IH.
  by rewrite !big_nil expr0n expn_eq0; have := card_gt1 F; case: #|F|.
rewrite -[a]coefK poly_def in_q_sum Hadd; apply: eq_bigr => j _.
rewrite -mul_polyC in_qM exprMn in_qX -exprM mulnC exprM HX; congr (_ * _).
by rewrite -in_qX -polyC_exp expf_cardX.
Qed.

(** X^(p^i) = X in F[x]/(h) exactly when deg h divides ... ; we need two cases *)
Lemma frob_deg : in_q h 'X ^+ (#|F| ^ (size h).-1) = in_q h 'X.
Proof. by rewrite -card_qp; exact: (@expf_card Q). Qed.

Lemma frob_small i : (0 < i < (size h).-1)%N -> in_q h 'X ^+ (#|F| ^ i) <> in_q h 'X.
Proof.
move=> /andP [Hi0 Hi] /frob_all Hall.
pose pl : {poly Q} := 'X^(#|F| ^ i) - 'X.
have H1 : (1 < #|F| ^ i)%N by rewrite -{1}(exp1n i) ltn_exp2r // card_gt1.
have Hs : size pl = (#|F| ^ i).+1.
  by rewrite size_addl ?size_polyXn // size_opp size_polyX ltnS.
have Hpl : pl != 0 by rewrite -size_poly_gt0 Hs.
have Hr : all (root pl) (enum Q).
  by apply/allP => y _; rewrite rootE !hornerE hornerXn Hall subrr.
have := max_poly_roots Hpl Hr (enum_uniq _); rewrite -cardE card_qp Hs ltnS.
by rewrite leqNgt ltn_exp2l ?Hi // card_gt1.
Qed.
End Frob.

Lemma modp_expr_congr (m x y : {poly F}) n : x %% m = y %% m -> (x ^+ n) %% m = (y ^+ n) %% m.
Proof. by move=> H; elim: n => [|n IH]; rewrite // !exprS; apply: modp_mul_congr. Qed.

Lemma coprimep_congr f a b : a %% f = b %% f -> coprimep f a = coprimep f b.
Proof. by move=> H; rewrite -coprimep_modr H coprimep_modr. Qed.

Lemma Poly_x : Poly (poly_x F) = 'X.
Proof. by rewrite /poly_x Poly_pmk /= !cons_poly_def mul0r add0r polyC1 mul1r polyC0 addr0. Qed.
Lemma normal_x : normal (poly_x F). Proof. exact: normal_pmk. Qed.

Lemma irred_loop_spec n (f : seq F) p pt k : normal f -> f != [::] -> p = Z.of_nat #|F| ->
  normal pt -> Poly pt %% Poly f = 'X^(#|F| ^ k) %% Poly f ->
  exists b, irred_loop n f p pt = Ok b /\
    (b <-> forall i, (k < i <= k + n)%N -> coprimep (Poly f) ('X^(#|F| ^ i) - 'X)).
Proof.
move=> Nf f0 Ep; elim: n pt k => [|n IH] pt k Npt Hpt.
  by exists true; split=> //; split=> // _ i; rewrite addn0; lia.
have Hc := card_gt1 F.
rewrite /irred_loop -/irred_loop ppowmodE ?bind_ok //; last by rewrite Ep; lia.
rewrite Ep Nat2Z.id; set pt' := polyseq _.
have Npt' : normal pt' by exact: normal_polyseq.
have Hpt' : Poly pt' %% Poly f = 'X^(#|F| ^ k.+1) %% Poly f.
  by rewrite /pt' polyseqK modp_mod expnSr exprM; apply: modp_expr_congr.
have [g [-> Ng Hg]] := pgcd_spec Nf (normal_psub pt' (poly_x F)).
rewrite bind_ok.
have Heq : Poly g %= gcdp (Poly f) (Poly (psub pt' (poly_x F))).
  apply/andP; split.
    by rewrite dvdp_gcd -!Hg !dvdpp.
  by rewrite Hg dvdp_gcdl dvdp_gcdr.
have Hdeg : (pdegree g =? 0)%Z = coprimep (Poly f) ('X^(#|F| ^ k.+1) - 'X).
  rewrite /pdegree /pabs (size_normal Ng) (eqp_size Heq).
  rewrite -(coprimep_congr (a := Poly (psub pt' (poly_x F)))); last first.
    by rewrite Poly_psub Poly_x !modpD Hpt'.
  by rewrite /coprimep; move: (size _) => s; lia.
rewrite Hdeg; case: ifP => Hcop; last first.
  exists false; split=> //; split=> // H.
  by rewrite H // in Hcop; lia.
have [b [E Hb]] := IH pt' k.+1 Npt' Hpt'.
exists b; split; first by rewrite -Ep.
rewrite Hb; split=> H i Hi; last by apply: H; lia.
by have [->|Hne] := eqVneq i k.+1; [| apply: H; lia].
Qed.

Lemma dvd_in_q (h : irrP F) i : in_q h 'X ^+ i = in_q h 'X <-> (h : {poly F}) %| 'X^i - 'X.
Proof. by rewrite -in_q_eq0 in_qB in_qX subr_eq0; split=> /eqP. Qed.

Lemma is_irreducible_spec (f : seq F) p : #|F| \in [char F] -> p = Z.of_nat #|F| ->
  normal f -> (1 < size f)%N ->
  exists b, is_irreducible f p = Ok b /\ (b <-> irreducible_poly (Poly f)).
Proof.
move=> Fchar Ep Nf Hs.
have f0 : f != [::] by case: f Hs {Nf}.
have [|b [E Hb]] := @irred_loop_spec (Z.to_nat (Z.quot (pdegree f) 2)) f p (poly_x F) 0 Nf f0 Ep normal_x.
  by rewrite Poly_x expn0 expr1.
exists b; split; first exact: E.
have Sf := size_normal Nf.
have Hn : Z.to_nat (Z.quot (pdegree f) 2) = ((size f).-1 %/ 2)%N.
  rewrite /pdegree /pabs; move: (size f) Hs => s Hs.
  rewrite Z.quot_div_nonneg; try lia.
  have := divn_eq s.-1 2; have := ltn_pmod s.-1 (isT : (0 < 2)%N).
  move: (s.-1 %/ 2)%N (s.-1 %% 2)%N => q r Hr Hq.
  have -> : (Z.of_nat s - 1 = Z.of_nat r + Z.of_nat q * 2)%Z by lia.
  by rewrite Z.div_add // Z.div_small; lia.
have Hk : (2 * ((size f).-1 %/ 2) <= (size f).-1 < 2 * ((size f).-1 %/ 2) + 2)%N.
  by move: (size f).-1 => s; rewrite {2 3}(divn_eq s 2) mulnC leq_addr ltn_add2l ltn_pmod.
move: ((size f).-1 %/ 2)%N Hn Hk => k Hn Hk.
rewrite Hb add0n Hn; split; last first.
  move=> Hirr i Hi; pose h := IrrP Hirr; have := ip_irr h => -[_ Hh].
  rewrite /coprimep; apply/negPn/negP => Hne.
  have Hd : Poly f %| 'X^(#|F| ^ i) - 'X.
    by rewrite -(eqp_dvdl _ (Hh _ Hne (dvdp_gcdl _ _))) dvdp_gcdr.
  apply: (@frob_small Fchar h i); last exact/dvd_in_q.
  rewrite [size h]/= -Sf; move: (size f) Hs Hi Hk => s; lia.
move=> Hcop; split=> [|q Hq1 Hqf]; first by rewrite -Sf.
apply/negPn/negP => Hne.
have pf0 : Poly f != 0 by rewrite -size_poly_gt0 -Sf (ltn_trans _ Hs).
have [r Er] : exists r, Poly f = r * q by exists (Poly f %/ q); rewrite divpK.
have q0 : q != 0 by apply: contraNneq pf0 => H; rewrite Er H mulr0.
have r0 : r != 0 by apply: contraNneq pf0 => H; rewrite Er H mul0r.
have Hsz : size (Poly f) = (size r + size q).-1 by rewrite Er size_mul.
have Hr1 : size r != 1%N.
  apply: contra Hne => /eqP Hr; rewrite -dvdp_size_eqp // Hsz Hr; by apply/eqP; lia.
have Hq0 : (0 < size q)%N by rewrite size_poly_gt0.
have Hr0 : (0 < size r)%N by rewrite size_poly_gt0.
have key : forall t, t %| Poly f -> (1 < size t)%N -> ((size t).-1 <= k)%N -> False.
  move=> t Ht Ht1 Hle; have [g [Hg Hgt]] := irr_factor Ht1.
  pose h := IrrP Hg; have t0 : t != 0 by rewrite -size_poly_gt0 (ltn_trans _ Ht1).
  have Hgs := dvdp_leq t0 Hgt; have Hh1 := ip_gt1 h; rewrite [size h]/= in Hh1.
  have Hd : g %| 'X^(#|F| ^ (size g).-1) - 'X := proj1 (dvd_in_q h _) (frob_deg h).
  have /coprimepP/(_ g (dvdp_trans Hgt Ht) Hd) : coprimep (Poly f) ('X^(#|F| ^ (size g).-1) - 'X).
    have Hb' : forall a c : nat, (a <= c -> 1 < a -> c.-1 <= k -> 0 < a.-1 <= k)%N by clear; lia.
    exact: (Hcop (size g).-1 (Hb' _ _ Hgs Hh1 Hle)).
  by rewrite -size_poly_eq1 => /eqP E1; rewrite E1 in Hh1.
have [Hle|Hlt] := leqP (size q) (size r).
  apply: (key q Hqf); first by rewrite ltn_neqAle eq_sym Hq1.
  rewrite Sf Hsz in Hk; move: Hk; move: (size q) (size r) Hle Hq0 Hr0 Hq1 Hr1 => a c; lia.
apply: (key r); first by rewrite Er dvdp_mulr.
  by rewrite ltn_neqAle eq_sym Hr1.
rewrite Sf Hsz in Hk; move: Hk; move: (size q) (size r) Hlt Hq0 Hr0 Hq1 Hr1 => a c; lia.
Qed.

Lemma is_irreducible_small (f : seq F) p : (size f <= 2)%N -> is_irreducible f p = Ok true.
Proof. by case: f => [|a [|b [|c f]]]. Qed.

(** primitivity *)
Lemma primitive_loop_spec (factors : seq Z) N (f : seq F) : normal f -> (1 < size f)%N -> (0 <= N)%Z ->
  (forall q, q \in factors -> (0 < q)%Z) ->
  exists b, primitive_loop factors N f = Ok b /\
    (b <-> forall q, q \in factors -> ~~ (Poly f %| 'X^(Z.to_nat (N / q)) - 1)).
Proof.
move=> Nf Hs HN; have f0 : f != [::] by case: f Hs {Nf}.
elim: factors => [|q qs IH] Hpos; first by exists true.
have Hq : (0 < q)%Z by apply: Hpos; rewrite mem_head.
rewrite [primitive_loop _ _ _]/= (_ : (q =? 0)%Z = false); last by apply/Z.eqb_neq; lia.
rewrite ppowE ?normal_x //; last by apply: Z.div_pos; lia.
rewrite bind_ok Poly_x pmodE ?normal_polyseq // bind_ok polyseqK.
have Heq : peq (polyseq ('X^(Z.to_nat (N / q)) %% Poly f)) (pmk [:: 1]) = (Poly f %| 'X^(Z.to_nat (N / q)) - 1).
  rewrite peqE -[pmk _]/(pconst (1 : F)) pconst1E.
  have H1 : 1 %% Poly f = 1 by rewrite modp_small // size_poly1 -size_normal.
  rewrite /dvdp modpD modpN H1 subr_eq0; apply/eqP/eqP => [/val_inj //| -> //].
rewrite Heq; have [|b [-> Hb]] := IH; first by move=> x Hx; apply: Hpos; rewrite inE Hx orbT.
case: ifP => Hd.
  exists false; split=> //; split=> // H.
  by have := H q (mem_head _ _); rewrite Hd.
exists b; split=> //; rewrite Hb; split=> H x; last by move=> Hx; apply: H; rewrite inE Hx orbT.
by rewrite inE => /orP [/eqP ->|/H //]; rewrite Hd.
Qed.

Lemma order_primes (K : fieldType) (w : K) (n : nat) : (0 < n)%N -> w ^+ n = 1 ->
  (forall r : nat, prime.prime r -> (r %| n)%N -> w ^+ (n %/ r) != 1) ->
  forall k, (0 < k < n)%N -> w ^+ k != 1.
Proof.
move=> Hn Hw Hr k /andP [Hk0 Hk]; apply/eqP => Hwk.
have Hg := one_gcd Hk0 Hwk Hw; set g := gcdn k n in Hg.
have Hgn : (g %| n)%N by exact: dvdn_gcdr.
have Hg0 : (0 < g)%N by rewrite gcdn_gt0 Hk0.
have Hgk : (g <= k)%N by apply: dvdn_leq => //; exact: dvdn_gcdl.
set c := (n %/ g)%N; have Ec : n = (c * g)%N by rewrite /c divnK.
have Hc1 : (1 < c)%N by nia.
have Hp := pdiv_prime Hc1; set r := prime.pdiv c in Hp.
have /dvdnP [d Ed] : (r %| c)%N := pdiv_dvd c.
have Hr0 := prime_gt0 Hp.
have Hd : (n %/ r)%N = (d * g)%N by rewrite Ec Ed -mulnA [(r * g)%N]mulnC mulnA mulnK.
have := Hr r Hp; rewrite Hd mulnC exprM Hg expr1n eqxx => H.
by have := H _; rewrite Ec Ed -mulnA mulnCA dvdn_mulr // => /(_ isT).
Qed.

Lemma is_primitive_spec (factorint : Z -> seq Z) (f : seq F) p (m : nat) :
  #|F| \in [char F] -> p = Z.of_nat #|F| -> normal f -> size f = m.+1 -> (0 < m)%N ->
  ~~ (Poly f %| 'X) ->
  (forall n q, (1 <= n)%Z -> reflect (Znumtheory.prime q /\ (q | n)%Z) (q \in factorint n)) ->
  exists b, is_primitive factorint f p (Z.of_nat m) = Ok b /\
    (b <-> [/\ irreducible_poly (Poly f), Poly f %| 'X^((#|F| ^ m).-1) - 1 &
              forall k, (0 < k < (#|F| ^ m).-1)%N -> ~~ (Poly f %| 'X^k - 1)]).
Proof.
move=> Fchar Ep Nf Hs Hm HX Hfac; rewrite /is_primitive.
have Hs1 : (1 < size f)%N by rewrite Hs.
have [b [-> Hb]] := is_irreducible_spec Fchar Ep Nf Hs1; rewrite bind_ok.
have Hc := card_gt1 F.
have H1 : (1 < #|F| ^ m)%N by rewrite -{1}(exp1n m) ltn_exp2r.
set N := (#|F| ^ m).-1.
have EN : (p ^ Z.of_nat m - 1 = Z.of_nat N)%Z.
  rewrite Ep (_ : (Z.of_nat #|F| ^ Z.of_nat m)%Z = Z.of_nat (#|F| ^ m)); first by rewrite /N; lia.
  by elim: (m) => [|k IH] //; rewrite Nat2Z.inj_succ Z.pow_succ_r ?IH ?expnS; lia.
case: b Hb => Hb; last first.
  by exists false; split=> //; split=> // -[/Hb].
have Hirr := proj1 Hb isT; pose h := IrrP Hirr.
rewrite [~~ true]/= EN; have HN : (1 <= Z.of_nat N)%Z by rewrite /N; lia.
have HN0 : (0 < N)%N by lia.
have [||b [E Hb']] := @primitive_loop_spec (factorint (Z.of_nat N)) (Z.of_nat N) f Nf Hs1 _.
- by lia.
- by move=> q /Hfac [] // /Znumtheory.prime_ge_2; lia.
exists b; split; first exact: E.
have Hw0 : in_q h 'X != 0 by rewrite in_q_eq0.
have HwN : in_q h 'X ^+ N = 1.
  have := @fermat (qp_finFieldType h) _ Hw0; rewrite card_qp [size h]/= -size_normal // Hs.
  by [].
have dvd1 : forall k, (Poly f %| 'X^k - 1) = (in_q h 'X ^+ k == 1 :> qp h).
  by move=> k; rewrite -[Poly f]/(ip h) -in_q_eq0 in_qB in_qX in_q1 subr_eq0.
rewrite Hb'; split=> [H|[_ _ H] q /Hfac [] // Hq [k Ek]].
  split=> //; first by rewrite dvd1 HwN.
  move=> k Hk; rewrite dvd1; apply: (@order_primes _ _ N) => // r Hr Hrd.
  have := H (Z.of_nat r); rewrite dvd1.
  rewrite (_ : Z.to_nat (Z.of_nat N / Z.of_nat r) = (N %/ r)%N); last first.
    move/dvdnP: Hrd => [d ->]; have Hr0 := prime_gt0 Hr.
    by rewrite mulnK // Nat2Z.inj_mul Z.div_mul ?Nat2Z.id //; lia.
  apply; apply/Hfac => //; split; first exact: prime_nat_Z.
  by move/dvdnP: Hrd => [d ->]; exists (Z.of_nat d); lia.
apply: H; have Hq2 := Znumtheory.prime_ge_2 _ Hq.
rewrite Ek Z.div_mul; last by lia.
have Hk0 : (0 < k)%Z by nia.
have : (k < Z.of_nat N)%Z by nia.
by move: (N) Hk0 => N'; lia.
Qed.

Lemma is_primitive_X (factorint : Z -> seq Z) p : p = Z.of_nat #|F| ->
  (forall n q, (1 <= n)%Z -> reflect (Znumtheory.prime q /\ (q | n)%Z) (q \in factorint n)) ->
  is_primitive factorint (poly_x F) p 1 = Ok true.
Proof.
move=> Ep Hfac; have Hc := card_gt1 F.
have Ex : poly_x F = polyseq 'X by rewrite -Poly_x PolyK_normal ?normal_x.
have Hs : size (poly_x F) = 2%N by rewrite Ex size_polyX.
rewrite /is_primitive is_irreducible_small ?Hs // bind_ok Z.pow_1_r [~~ true]/=.
have Hp : (1 <= p - 1)%Z by lia.
have [|||b [E Hb]] := @primitive_loop_spec (factorint (p - 1)%Z) (p - 1)%Z (poly_x F) normal_x _ _.
- by rewrite Hs.
- by lia.
- by move=> q /Hfac [] // /Znumtheory.prime_ge_2; lia.
rewrite E; congr Ok; apply/idP/Hb => q /Hfac [] // Hq [k Ek].
have Hq2 := Znumtheory.prime_ge_2 _ Hq; rewrite Ek Z.div_mul; last by lia.
have Hk : (0 < Z.to_nat k)%N by nia.
rewrite Poly_x -[X in X %| _]subr0 -polyC0 dvdp_XsubCl rootE !hornerE hornerXn expr0n.
by rewrite eqn0Ngt Hk /= sub0r oppr_eq0 oner_neq0.
Qed.

(** generators *)
Lemma generate_irreducible_spec fuel k draw p d (f : seq F) :
  generate_irreducible fuel k draw p d = Ok f ->
  [/\ normal f, size f = d.+1, last 0 f = 1 & is_irreducible f p = Ok true].
Proof.
elim: fuel k => [|fuel IH] k //=.
set g := pmk _; case E: (is_irreducible g p) => [[]|e] //=; last exact: IH.
move=> [<-].
have Nl : normal (mkseq (draw k) d ++ [:: (1 : F)]) by rewrite /normal last_cat /= oner_neq0.
rewrite /g pmk_normal // last_cat /= size_cat size_mkseq addn1; split=> //.
by rewrite -E /g pmk_normal.
Qed.

(** ... and every monic irreducible polynomial is produced by some draws *)
Lemma generate_irreducible_onto fuel k p d (f : seq F) : normal f -> size f = d.+1 -> last 0 f = 1 ->
  is_irreducible f p = Ok true ->
  generate_irreducible fuel.+1 k (fun _ i => nth 0 f i) p d = Ok f.
Proof.
move=> Nf Hs Hl E; rewrite [generate_irreducible _ _ _ _ _]/=.
have -> : mkseq (fun i => nth 0 f i) d ++ [:: 1] = f.
  apply: (@eq_from_nth _ 0); first by rewrite size_cat size_mkseq addn1.
  move=> i; rewrite size_cat size_mkseq addn1 ltnS leq_eqVlt => /orP [/eqP ->|Hi].
    by rewrite nth_cat size_mkseq ltnn subnn /= -Hl (last_nth 0) Hs; case: (f) Hs.
  by rewrite nth_cat size_mkseq Hi nth_mkseq.
by rewrite pmk_normal // E.
Qed.

Lemma generate_primitive_spec fuel j factorint draw p d (f : seq F) :
  generate_primitive fuel j factorint draw p d = Ok f ->
  [/\ normal f, size f = d.+1, last 0 f = 1, is_irreducible f p = Ok true &
      is_primitive factorint f p (Z.of_nat d) = Ok true].
Proof.
elim: fuel j => [|fuel IH] j; first by [].
rewrite [generate_primitive _ _ _ _ _ _]/=.
have := @generate_irreducible_spec fuel.+1 0 (draw j) p d; rewrite [generate_irreducible _ _ _ _ _]/=.
case: (let* b := _ in _) => [g|e] // /(_ g erefl) [H1 H2 H3 H4]; rewrite bind_ok.
case E: is_primitive => [[]|e] //; last exact: IH.
by rewrite bind_ok => -[<-]; split.
Qed.
End Irred.

Lemma is_monicE (F : fieldType) (f : seq F) : normal f -> f != [::] ->
  is_monic f = Ok (Poly f \is monic).
Proof.
move=> Nf nf; rewrite /is_monic monicE lead_coefE PolyK_normal //.
case: f nf {Nf} => // a f _ /=.
by rewrite /plead /= -last_nth.
Qed.
