(** Number of iterations and degrees of the coefficients of starks/euclidean.py on polynomials. *)
From mathcomp Require Import zify ssrZ.
From Verif Require Import Prelude EuclidModel PolyModel PolyProofs.
Import GRing.Theory.
Local Open Scope ring_scope.
Set Implicit Arguments.
Unset Strict Implicit.
Unset Printing Implicit Defensive.

Lemma arith nq na nb m1 n1 m2 n2 D : (nq = na - nb + 1 -> m1 = n1 -> m2 = n2 -> nb < na ->
  n1 + na = D -> n2 + nb < D -> m2 < nq + m1 - 1)%N.
Proof. lia. Qed.

Lemma arith2 na nb n1 D : (nb < na -> n1 + na = D -> na - nb + n1 + nb = D)%N.
Proof. lia. Qed.
Lemma arith3 nr na nb n1 D : (nr < nb -> nb < na -> n1 + na = D -> n1 + nr < D)%N.
Proof. lia. Qed.
Lemma arith4 na nb : (0 < nb -> nb < na -> na - nb.-1 = na - nb + 1)%N.
Proof. lia. Qed.

Section Poly.
Variable F : fieldType.
Implicit Types a b x y g : seq F.
Notation ploop := (gcd_loop (seq F) (@pabs F) (@pdivmod F)).
Notation peloop := (eea_loop (seq F) (@pabs F) (@pdivmod F) (@psub F) (@pmul F)).

Lemma peloop_swap f a b x2 x1 y2 y1 :
  peloop f a b y2 y1 x2 x1 =
  match peloop f a b x2 x1 y2 y1 with Ok (x, y, g) => Ok (y, x, g) | Err e => Err e end.
Proof.
elim: f a b x2 x1 y2 y1 => // f IH a b x2 x1 y2 y1 /=.
by case: ifP => // _; case: pdivmod => [[q r]|e] //=; apply: IH.
Qed.

Lemma size_comb (x2 q x1 : {poly F}) : q != 0 -> x1 != 0 ->
  (size x2 < size q + size x1 - 1)%N -> size (x2 - q * x1) = (size q + size x1 - 1)%N.
Proof.
move=> q0 x0 lt; rewrite addrC size_addl size_opp size_mul // -subn1 //.
Qed.

Lemma coef_degree D f a b x2 x1 y2 y1 x y g :
  normal a -> normal b -> normal x2 -> normal x1 -> normal y2 -> normal y1 ->
  b != [::] -> (size b < size a)%N -> (0 < size x1)%N ->
  (size x1 + size a = D)%N -> (size x2 + size b < D)%N ->
  peloop f a b x2 x1 y2 y1 = Ok (x, y, g) -> (size x + size g < D)%N.
Proof.
elim: f a b x2 x1 y2 y1 => // f IH a b x2 x1 y2 y1 Na Nb N2 N1 M2 M1 b0 ab s1 HD H2 /=.
rewrite pabs_gt0 b0 pdivmodE //=; set q := Poly a %/ Poly b; set r := Poly a %% Poly b.
have sa := esym (size_normal Na); have sb := esym (size_normal Nb).
have sx1 := esym (size_normal N1); have sx2 := esym (size_normal N2).
have Pb0 : Poly b != 0 by rewrite -size_poly_gt0 sb lt0n size_eq0.
have x10 : Poly x1 != 0 by rewrite -size_poly_gt0 sx1.
have hb : (0 < size b)%N by rewrite lt0n size_eq0.
have sq : (size q = size a - size b + 1)%N.
  by rewrite size_divp // sa sb; apply: arith4.
have q0 : q != 0 by rewrite -size_poly_gt0 sq addn1.
have [r0|r0] := eqVneq r 0.
  rewrite r0 polyseq0; case: f {IH} => //= f [<- _ <-].
  by rewrite -HD ltn_add2l.
have sx : size (psub x2 (pmul q x1)) = (size a - size b + size x1)%N.
  rewrite (size_normal (normal_psub _ _)) Poly_psub Poly_pmul polyseqK size_comb //.
    by rewrite sq sx1 addnAC addnK.
  exact: (arith sq sx1 sx2 ab HD H2).
apply: IH; rewrite ?normal_psub ?normal_polyseq //.
- by rewrite -size_eq0 size_poly_eq0.
- by rewrite -sb ltn_modp.
- by rewrite sx ltn_addl.
- by rewrite sx; apply: (arith2 ab HD).
have : (size r < size (Poly b))%N by rewrite ltn_modp.
by rewrite sb => rb; apply: (arith3 rb ab HD).
Qed.

Lemma arith5 na nb : (0 < nb -> nb <= na -> na - nb.-1 + nb = na.+1)%N.
Proof. lia. Qed.

Lemma eea_degree_ordered f a b x y g : normal a -> normal b -> (size b <= size a)%N ->
  ~~ (Poly a %| Poly b) -> ~~ (Poly b %| Poly a) ->
  eea_ordered (seq F) (@pabs F) (@pdivmod F) (@psub F) (@pmul F) (pmk [::]) (pconst 1) f a b
    = Ok (x, y, g) ->
  (size x + size g <= size b)%N /\ (size y + size g <= size a)%N.
Proof.
move=> Na Nb ab nab nba; rewrite /eea_ordered.
have b0 : b != [::] by apply: contra nab => /eqP ->; rewrite dvdp0.
have -> : (pabs b =? 0)%Z = (b == [::]) by case: (b).
rewrite (negbTE b0); case: f => //= f; rewrite pabs_gt0 b0 pdivmodE //=.
set q := Poly a %/ Poly b; set r := Poly a %% Poly b => E.
have sa := esym (size_normal Na); have sb := esym (size_normal Nb).
have Pb0 : Poly b != 0 by rewrite -size_poly_gt0 sb lt0n size_eq0.
have hb : (0 < size b)%N by rewrite lt0n size_eq0.
have r0 : polyseq r != [::] by rewrite -size_eq0 size_poly_eq0.
have rb : (size r < size b)%N by rewrite -sb ltn_modp.
have s1 : size (pconst (1 : F)) = 1%N.
  by rewrite (size_normal (normal_pmk _)) Poly_pconst size_poly1.
have s0 : size (pmk ([::] : seq F)) = 0%N by [].
have s1' : size (psub (pconst 1) (pmul q (pmk [::]))) = 1%N.
  rewrite (size_normal (normal_psub _ _)) Poly_psub Poly_pmul Poly_pconst Poly_pmk.
  by rewrite mulr0 subr0 size_poly1.
have sq' : size (psub (pmk [::]) (pmul q (pconst 1))) = (size a - (size b).-1)%N.
  rewrite (size_normal (normal_psub _ _)) Poly_psub Poly_pmul Poly_pconst Poly_pmk.
  by rewrite mulr1 sub0r size_opp polyseqK size_divp // sa sb.
have N (t : seq F) u : normal (psub t u) by apply: normal_psub.
have Nc : normal (pconst (1 : F)) by apply: normal_pmk.
have N0 : normal (pmk ([::] : seq F)) by apply: normal_pmk.
have Nr : normal r by apply: normal_polyseq.
split; rewrite -ltnS.
  apply: (@coef_degree _ f b r _ _ _ _ x y g) E; rewrite ?s1' ?s0 ?add0n //.
  by rewrite ltnS ltnW.
move: E; rewrite peloop_swap; case P: (peloop _ _ _ _ _ _ _) => [[[x' y'] g']|] // [_ <- <-].
apply: (@coef_degree _ f b r _ _ _ _ x' y' g') P; rewrite ?sq' ?s1 //.
- by rewrite subn_gt0; apply: leq_trans ab; case: (size b) hb.
- exact: arith5.
by rewrite add1n !ltnS (leq_trans rb).
Qed.

Theorem eea_degree a b x y g : normal a -> normal b ->
  ~~ (Poly a %| Poly b) -> ~~ (Poly b %| Poly a) -> peea a b = Ok (x, y, g) ->
  (size x + size g <= size b)%N /\ (size y + size g <= size a)%N.
Proof.
move=> Na Nb nab nba; rewrite /peea /eea_gen /pabs; case: Z.ltb_spec => S.
  case E: (eea_ordered _ _ _ _ _ _ _ _ _ _) => [[[x' y'] g']|] //= [<- <- <-].
  by have [] := eea_degree_ordered Nb Na _ nba nab E => //; lia.
by apply: eea_degree_ordered => //; lia.
Qed.

(** the number of divisions is at most the size of the smaller operand *)
Theorem gcd_steps a b : normal a -> normal b ->
  gcd_gen (seq F) (@pabs F) (@pdivmod F) (minn (size a) (size b)).+1 a b = pgcd a b.
Proof.
move=> Na Nb; have M f c d g k : ploop f c d = Ok g -> (f <= k)%N -> ploop k c d = Ok g.
  elim: f k c d => // f IH [|k] c d //=; case: ifP => // _; case: pdivmod => [[q r]|] //= E fk.
  exact: IH.
rewrite /pgcd /gcd_gen /pabs; case: Z.ltb_spec => S.
  have ab : (size a <= size b)%N by lia.
  rewrite (minn_idPl ab); have [g [E _ _]] := pgcd_loop_spec Nb Na (ltnSn (size a)).
  by rewrite E; symmetry; apply: M E _; rewrite ltnS leqW // leq_maxl.
have ba : (size b <= size a)%N by lia.
rewrite (minn_idPr ba); have [g [E _ _]] := pgcd_loop_spec Na Nb (ltnSn (size b)).
by rewrite E; symmetry; apply: M E _; rewrite ltnS leqW // leq_maxr.
Qed.
End Poly.
