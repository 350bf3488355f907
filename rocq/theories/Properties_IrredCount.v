(** Property theorems C123: how often the draws of
    starks/poly_utils.py:181-211 [generate_irreducible_polynomial] and
    [generate_primitive_polynomial] succeed, and what they return. *)
From mathcomp Require Import perm zify ssrZ.
From Verif Require Import Prelude BaseProofs PolyModel PolyProofs ModpModel ModpField Pocklington
  FinFld QField IrredModel IrredProofs FiniteFieldModel FiniteFieldProofs FftProofs IrredCount
  Properties_FiniteField.
Set Implicit Arguments.
Unset Strict Implicit.
Unset Printing Implicit Defensive.
Import GRing.Theory.
Local Open Scope ring_scope.
Local Open Scope py_scope.

(** the draws [t] of [n] coefficients for which [X^n + ...] passes the test *)
Definition accepted (P : primeZ) n (t : n.-tuple (modp_finFieldType P)) : bool :=
  if is_irreducible (rcons t 1) (pz P) is Ok b then b else false.

Definition accepted_primitive (P : primeZ) (factorint : Z -> seq Z) n (t : n.-tuple (modp_finFieldType P)) : bool :=
  if is_primitive factorint (rcons t 1) (pz P) (Z.of_nat n) is Ok b then b else false.

(** the coefficient drawn at place [j] of round [i], when the rounds draw [w] *)
Definition draw_of (P : primeZ) n k (w : k.-tuple (n.-tuple (modp_finFieldType P))) (i j : nat)
  : modp_finFieldType P := nth 0 (nth [::] [seq val t | t <- w] i) j.

Section Aux.
Variable P : primeZ.
Local Notation Zp := (modp_finFieldType P).
Local Notation p := (Z.to_nat (pz P)).

Lemma card_Zp : #|Zp| = p. Proof. exact: card_modp. Qed.

Definition irrb (f : {poly Zp}) : bool := if is_irreducible f (pz P) is Ok b then b else false.
Lemma irrbP (f : {poly Zp}) : (1 < size f)%N -> reflect (irreducible_poly f) (irrb f).
Proof.
move=> Hs; apply: equivP idP _; have [b [E Hb]] := zp_is_irreducible (normal_polyseq f) Hs.
by rewrite /irrb E; rewrite polyseqK in Hb.
Qed.

Lemma acceptedE n (t : n.-tuple Zp) : accepted t = irrb (mon t).
Proof. by rewrite /irrb monE. Qed.
Lemma accepted_set n : [set t : n.-tuple Zp | accepted t] = I irrb n.
Proof. by apply/setP => t; rewrite !inE acceptedE. Qed.

(** the loop returns the first accepted candidate *)
Lemma generate_first n (l : seq (n.-tuple Zp)) k draw : (0 < n)%N ->
  (forall i, (i < size l)%N -> mkseq (draw (k + i)%N) n = nth [::] [seq val t | t <- l] i) ->
  generate_irreducible (size l) k draw (pz P) n =
  if [seq t <- l | accepted t] is t :: _ then Ok (rcons t 1) else Err Diverges.
Proof.
move=> Hn; elim: l k => [|t l IH] k H //.
have E0 : mkseq (draw k) n = t by rewrite -[k]addn0 H.
rewrite -[LHS]/(let f := pmk (mkseq (draw k) n ++ [:: 1]) in let* b := is_irreducible f (pz P) in
    if b then Ok f else generate_irreducible (size l) k.+1 draw (pz P) n).
have Nt : normal (rcons t (1 : Zp)) by rewrite /normal last_rcons oner_eq0.
rewrite E0 cats1 /= (pmk_normal Nt) /accepted.
have [|b [E _]] := zp_is_irreducible Nt; first by rewrite size_rcons size_tuple ltnS.
rewrite E bind_ok; case: b E => E //; rewrite -/(@accepted P n) IH // => i Hi.
by rewrite addSnnS H.
Qed.

Lemma generate_of n k (w : k.-tuple (n.-tuple Zp)) : (0 < n)%N ->
  generate_irreducible k 0 (draw_of w) (pz P) n =
  if [seq t <- w | accepted t] is t :: _ then Ok (rcons t 1) else Err Diverges.
Proof.
move=> Hn; rewrite -{1}(size_tuple w); apply: generate_first => // i Hi.
rewrite add0n /draw_of; set s := nth [::] _ i.
suff Hs : size s = n by rewrite -{1}Hs mkseq_nth.
by rewrite /s (nth_map (nseq_tuple n 0)) // size_tuple.
Qed.

Lemma card_all_tuples (T : finType) k (A : pred T) : #|[set w : k.-tuple T | all A w]| = (#|A| ^ k)%N.
Proof.
have -> : [set w : k.-tuple T | all A w] = [set w | finfun_of_tuple w \in ffun_on A].
  apply/setP => w; rewrite !inE; apply/allP/ffun_onP => [H i|H x /tnthP [i ->]].
    by rewrite ffunE; apply: H; exact: mem_tnth.
  by have := H i; rewrite ffunE.
rewrite (_ : [set w | _] = finfun_of_tuple @^-1: [set f | f \in ffun_on A]); last by apply/setP => w; rewrite !inE.
rewrite on_card_preimset; last by apply: onW_bij; exists (@tuple_of_finfun T k); [exact: finfun_of_tupleK | exact: tuple_of_finfunK].
by rewrite cardsE card_ffun_on card_ord.
Qed.
End Aux.

(** Of the [p^n] possible draws of one round, the number [N_n] of accepted ones satisfies
    Gauss' formula: the sum of [d * N_d] over the divisors [d] of [n] is [p^n]. *)
Theorem C123_gauss_formula : forall (P : primeZ) (n : nat), (0 < n)%N ->
  (\sum_(d <- divisors n) d * #|[set t : d.-tuple (modp_finFieldType P) | accepted t]|)%N
    = (Z.to_nat (pz P) ^ n)%N.
Proof.
move=> P n Hn; rewrite -(card_Zp P) -(gauss_formula (modp_char P) (@irrbP P) Hn).
by apply: eq_bigr => d _; rewrite accepted_set.
Qed.
Print Assumptions C123_gauss_formula.

(** Hence a round succeeds with a probability of at most 1/n and at least 1/(2n): the
    expected number of tests is at least the degree and at most twice the degree. *)
Theorem C123_success_probability : forall (P : primeZ) (n : nat), (0 < n)%N ->
  let good := #|[set t : n.-tuple (modp_finFieldType P) | accepted t]| in
  let draws := #|{: n.-tuple (modp_finFieldType P)}| in
  [/\ draws = (Z.to_nat (pz P) ^ n)%N, (n * good <= draws)%N & (draws <= 2 * n * good)%N].
Proof.
move=> P n Hn good draws.
have Ed : draws = (#|modp_finFieldType P| ^ n)%N by rewrite /draws card_tuple.
rewrite /good accepted_set Ed card_Zp; split=> //; rewrite -(card_Zp P).
  exact: (irr_upper (modp_char P) (@irrbP P) Hn).
by rewrite -mulnA; exact: (irr_lower (modp_char P) (@irrbP P) Hn).
Qed.
Print Assumptions C123_success_probability.

(** The docstring promises "degree many" tests; for every degree above 1 the expected
    number [draws / good] is larger. *)
Theorem C123_degree_many_refuted : forall (P : primeZ) (n : nat), (1 < n)%N ->
  (n * #|[set t : n.-tuple (modp_finFieldType P) | accepted t]| < #|{: n.-tuple (modp_finFieldType P)}|)%N.
Proof.
move=> P n Hn; rewrite accepted_set card_tuple; exact: (irr_strict (modp_char P) (@irrbP P) Hn).
Qed.
Print Assumptions C123_degree_many_refuted.

(** The fraction of the outcomes of [k] rounds in which the loop is still running after
    them is at most [(1 - 1/(2n))^k]. *)
Theorem C123_rounds : forall (P : primeZ) (n k : nat), (0 < n)%N ->
  let running := #|[set w : k.-tuple (n.-tuple (modp_finFieldType P)) |
                     if generate_irreducible k 0 (draw_of w) (pz P) n is Ok _ then false else true]| in
  (running * (2 * n) ^ k <= ((2 * n).-1 * Z.to_nat (pz P) ^ n) ^ k)%N.
Proof.
move=> P n k Hn; lazy zeta; set running := #|[set w | _]|.
have -> : running = (#|[pred t : n.-tuple (modp_finFieldType P) | ~~ accepted t]| ^ k)%N.
  rewrite -card_all_tuples; apply: eq_card => w; rewrite !inE generate_of //.
  by elim: (val w) => //= t l IH; case: (accepted t).
case: k {running} => [|k]; first by rewrite !expn0.
rewrite -expnMn leq_exp2r //.
have [Ed _ Hl] := C123_success_probability P Hn.
have := cardC (fun t : n.-tuple (modp_finFieldType P) => accepted t); rewrite -Ed.
rewrite (_ : #|[set t | accepted t]| = #|(fun t : n.-tuple (modp_finFieldType P) => accepted t)|) in Hl; last first.
  by rewrite cardsE.
rewrite (_ : #|[pred t | ~~ accepted t]| = #|predC (fun t : n.-tuple (modp_finFieldType P) => accepted t)|) //.
move: #|predC _| #|(fun _ => _)| #|{: _}| Hl {Ed} => x y z Hl E.
have : (z <= n * y * 2)%N by lia.
by rewrite -E; nia.
Qed.
Print Assumptions C123_rounds.

(** The polynomial returned is equally likely to be any of the monic irreducible
    polynomials of that degree. *)
Theorem C123_uniform : forall (P : primeZ) (n k : nat) (f g : seq (modp_finFieldType P)), (0 < n)%N ->
  [/\ size f = n.+1, last 0 f = 1 & irreducible_poly (Poly f)] ->
  [/\ size g = n.+1, last 0 g = 1 & irreducible_poly (Poly g)] ->
  #|[set w : k.-tuple (n.-tuple (modp_finFieldType P)) |
       if generate_irreducible k 0 (draw_of w) (pz P) n is Ok h then h == f else false]| =
  #|[set w : k.-tuple (n.-tuple (modp_finFieldType P)) |
       if generate_irreducible k 0 (draw_of w) (pz P) n is Ok h then h == g else false]|.
Proof.
move=> P n k f g Hn [Sf Lf If] [Sg Lg Ig].
have rep h : size h = n.+1 -> last 0 h = 1 -> irreducible_poly (Poly h) ->
    exists t : n.-tuple (modp_finFieldType P), h = rcons t 1 /\ accepted t.
  case/lastP: h => // h x; rewrite size_rcons last_rcons => -[Sh] -> Ih.
  exists (Tuple (introT eqP Sh)); split=> //; rewrite acceptedE; apply/irrbP => //.
  by rewrite size_mon ltnS.
have [t [-> Ht]] := rep f Sf Lf If; have [u [-> Hu]] := rep g Sg Lg Ig.
pose s := tperm t u; have As x : accepted (s x) = accepted x.
  by rewrite /s; case: tpermP => [->|->|]; rewrite ?Ht ?Hu.
pose m (w : k.-tuple (n.-tuple (modp_finFieldType P))) := map_tuple s w.
have mK : involutive m.
  move=> w; apply: val_inj; rewrite /= -map_comp -[RHS]map_id; apply: eq_map => x /=.
  by rewrite /s tpermK.
rewrite -[RHS](on_card_preimset (f := m)); last first.
  by apply: onW_bij; exists m.
apply: eq_card => w; rewrite !inE !generate_of // filter_map (eq_filter (a1 := preim s (@accepted P n)) As).
case: filter => //= x _.
have E (y z : n.-tuple (modp_finFieldType P)) : (rcons y 1 == rcons z 1 :> seq _) = (y == z).
  by rewrite eqseq_rcons eqxx andbT.
rewrite !E -(inj_eq (@perm_inj _ s)) /s tpermL.
by [].
Qed.
Print Assumptions C123_uniform.

Section Primitive.
Variable P : primeZ.
Local Notation Zp := (modp_finFieldType P).
Local Notation p := (Z.to_nat (pz P)).
Variable factorint : Z -> seq Z.
Hypothesis factP : forall n q, (1 <= n)%Z -> reflect (Znumtheory.prime q /\ (q | n)%Z) (q \in factorint n).

Definition primb n (t : n.-tuple Zp) : bool := accepted_primitive factorint t && ~~ (mon t %| 'X).

Lemma primbP n (t : n.-tuple Zp) : (0 < n)%N -> reflect (prim_of n (mon t)) (primb t).
Proof.
move=> Hn; apply: equivP idP _; rewrite /primb /accepted_primitive -monE.
have [HX|HX] := boolP (mon t %| 'X); first by rewrite andbF; split=> // -[_]; rewrite HX.
have [||b [E Hb]] := zp_is_primitive (normal_polyseq (mon t)) _ Hn _ factP; first by rewrite size_mon.
  by rewrite polyseqK.
rewrite E andbT Hb polyseqK -card_Zp; split=> [[Hi _ Hk]|[Hi _ Hk]]; split=> //.
have : mon t %| 'X^(#|Zp| ^ n) - 'X by rewrite irr_dvd_U ?size_mon //; exact: modp_char.
have -> : 'X^(#|Zp| ^ n) - 'X = 'X * ('X^(#|Zp| ^ n).-1 - 1) :> {poly Zp}.
  by rewrite mulrBr mulr1 -exprS prednK // expn_gt0 (ltnW (card_gt1 _)).
rewrite Gauss_dvdpr // /coprimep; apply/negPn/negP => Hg.
have Heq := apply_irredp Hi Hg (dvdp_gcdl _ _).
by move: HX; rewrite -(eqp_dvdl _ Heq) dvdp_gcdr.
Qed.

Lemma card_primb n : (0 < n)%N -> (n * #|[set t : n.-tuple Zp | primb t]|)%N = totient (p ^ n).-1.
Proof.
move=> Hn; have [h [Ih _ Sh]] := irr_ex (modp_char P) (@irrbP P) Hn.
pose pb (f : {poly Zp}) := if insub (take n f) is Some t then primb (n := n) t else false.
have Epb (t : n.-tuple Zp) : pb (mon t) = primb t.
  rewrite /pb monE -cats1 take_cat size_tuple ltnn subnn take0 cats0.
  by rewrite insubT ?size_tuple // => H; congr primb; apply: val_inj.
rewrite -(card_Zp P) -(card_prim (g := IrrP Ih) (modp_char P) (@irrbP P) Hn Sh (primb := pb)).
  by congr (_ * _)%N; apply: eq_card => t; rewrite !inE Epb.
by move=> t; rewrite Epb; exact: primbP.
Qed.
End Primitive.

(** Of the [p^n] possible draws of coefficients, the number [A] that gives a polynomial
    accepted by [is_primitive] satisfies [n * A = phi(p^n - 1)]; for degree one the
    polynomial [X] is accepted in addition. *)
Theorem C123_primitive_count : forall (P : primeZ) (factorint : Z -> seq Z) (n : nat), (0 < n)%N ->
  (forall n q, (1 <= n)%Z -> reflect (Znumtheory.prime q /\ (q | n)%Z) (q \in factorint n)) ->
  (n * #|[set t : n.-tuple (modp_finFieldType P) | accepted_primitive factorint t]|)%N
    = (totient (Z.to_nat (pz P) ^ n).-1 + (n == 1%N))%N.
Proof.
move=> P fac n Hn H; rewrite -(card_primb P H Hn).
have [En|En] := eqVneq n 1%N; last first.
  rewrite addn0; congr (_ * _)%N; apply: eq_card => t; rewrite !inE /primb.
  suff -> : ~~ (mon t %| 'X) by rewrite andbT.
  apply/negP => /dvdp_leq; rewrite polyX_eq0 size_polyX size_mon => /(_ isT); lia.
rewrite {n}En in Hn *; rewrite !mul1n.
pose x : 1.-tuple (modp_finFieldType P) := [tuple 0].
have Ex : mon x = 'X by rewrite -Poly_x /poly_x pmk_normal // /normal /= oner_eq0.
rewrite (cardsD1 x) addnC; congr (_ + _)%N; last first.
  have E : rcons x (1 : modp_finFieldType P) = poly_x _.
    by rewrite /poly_x pmk_normal // /normal /= oner_eq0.
  by rewrite inE /accepted_primitive E zp_is_primitive_X.
apply: eq_card => t; rewrite !inE /primb andbC; congr (_ && _).
apply/idP/idP => [Ht|]; last by apply: contraNneq => ->; rewrite Ex.
apply: contra Ht => Hd; apply/eqP/mon_inj; rewrite Ex; apply/eqP.
by rewrite -eqp_monic ?monic_mon ?monicX // -dvdp_size_eqp // size_mon size_polyX.
Qed.
Print Assumptions C123_primitive_count.

(** So there is, for every prime and every degree, a draw with which both generators
    return in their first round. *)
Theorem C123_generators_can_return : forall (P : primeZ) (factorint : Z -> seq Z) (n : nat), (0 < n)%N ->
  (forall n q, (1 <= n)%Z -> reflect (Znumtheory.prime q /\ (q | n)%Z) (q \in factorint n)) ->
  exists (draw : nat -> nat -> nat -> modp_finFieldType P) f,
    generate_primitive 1 0 factorint draw (pz P) n = Ok f /\
    [/\ irreducible_poly (Poly f), size f = n.+1 &
        forall k, (0 < k < (Z.to_nat (pz P) ^ n).-1)%N -> ~~ (Poly f %| 'X^k - 1)].
Proof.
move=> P fac n Hn H; have := card_primb P H Hn.
have N0 : (0 < (Z.to_nat (pz P) ^ n).-1)%N.
  by rewrite -(card_Zp P); have := qn_gt1 (modp_finFieldType P) Hn; lia.
have [->|[t Ht] _] := set_0Vmem [set t : n.-tuple (modp_finFieldType P) | primb fac t].
  by rewrite cards0 muln0 => E; have := totient_gt0 (Z.to_nat (pz P) ^ n).-1; rewrite -E N0.
rewrite inE in Ht; have [It _ Hk] := primbP H t Hn Ht.
exists (fun _ _ i => nth 0 t i), (rcons t 1); split; last first.
  by rewrite size_rcons size_tuple; split=> // k; rewrite -card_Zp => /Hk.
have E : generate_irreducible 1 0 (fun _ i => nth 0 t i) (pz P) n = Ok (rcons t 1).
  rewrite (@generate_first P n [:: t]) //; last first.
    by case=> // _; rewrite /= -{2}(size_tuple t) mkseq_nth.
  by rewrite /= acceptedE (introT (irrbP _)) // size_mon.
rewrite -[LHS]/(let* f := generate_irreducible 1 0 (fun _ i => nth 0 t i) (pz P) n in
    let* b := is_primitive fac f (pz P) (Z.of_nat n) in
    if b then Ok f else Err Diverges) E bind_ok.
by move: Ht; rewrite /primb /accepted_primitive; case: is_primitive => // -[].
Qed.
Print Assumptions C123_generators_can_return.

(** Over Z/2 three of the sixteen quartics are accepted (so 16/3 > 4 tests are expected),
    two of them as primitive, 4 * 2 = phi(15); over Z/3, X is accepted besides X + 1. *)
Example C123_example :
  let bits := [seq in_modp P2 z | z <- [:: 0; 1]%Z] in
  let pairs := [seq [:: a; b] | a <- bits, b <- bits] in
  let quads := [seq x ++ y | x <- pairs, y <- pairs] in
  let yes r := if r is Ok b then b else false in
  [/\ size quads = 16%N,
      count (fun t => yes (is_irreducible (rcons t 1 : seq (modp_finFieldType P2)) 2)) quads = 3%N,
      count (fun t => yes (is_primitive factorint0 (rcons t 1 : seq (modp_finFieldType P2)) 2 4)) quads = 2%N,
      totient 15%N = 8%N &
      count (fun a => yes (is_primitive factorint0 ([:: a; 1] : seq (modp_finFieldType P3)) 3 1))
        [seq in_modp P3 z | z <- [:: 0; 1; 2]%Z] = 2%N].
Proof. by split; vm_compute. Qed.
