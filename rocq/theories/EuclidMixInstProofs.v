(** Proofs about EuclidMixInst.v: polynomials and FiniteField(p, m). *)
From mathcomp Require Import zify ssrZ.
From Verif Require Import Prelude BaseProofs EuclidModel EuclidProofs EuclidMixModel EuclidMixProofs EuclidMixInst
  ModpModel ModpProofs PolyModel PolyProofs FftProofs FinFld QField FiniteFieldModel FiniteFieldProofs.
Set Implicit Arguments.
Unset Strict Implicit.
Unset Printing Implicit Defensive.
Import GRing.Theory.
Local Open Scope ring_scope.
Local Open Scope py_scope.

(** The coefficients are the int literals of starks/euclidean.py:36,38. *)
Definition literal_pair (A : Type) (x y : pynum A) : Prop :=
  (x = PInt 1 /\ y = PInt 0) \/ (x = PInt 0 /\ y = PInt 1).

Lemma literal_swap (A : Type) (x y : pynum A) : literal_pair x y -> literal_pair y x.
Proof. by case=> [[-> ->]|[-> ->]]; [right|left]. Qed.

(** ** IntegersModP(p) *)
Lemma zp_gcdE p a b : canonical p a -> canonical p b ->
  zp_gcd p (PObj a) (PObj b) = Ok (PObj (Z.gcd a b)).
Proof.
move=> Ha Hb.
have L f c d : gcd_loop (pynum Z) (py_abs Z Z.abs) (py_divmod Z (modp_divmod p) (modp_mk p)) f (PObj c) (PObj d)
   = rmap PObj (gcd_loop Z Z.abs (modp_divmod p) f c d).
  elim: f c d => //= f IH c d; case: ifP => // _.
  by case: (modp_divmod p c d) => [[q r]|e] /=; rewrite ?IH.
rewrite /zp_gcd /mix_gcd /gcd_gen /num_fuel /= !L.
have Ea : Z.abs a = a by move: Ha; rewrite /canonical; lia.
have Eb : Z.abs b = b by move: Hb; rewrite /canonical; lia.
have := gcd_int_nonneg a b; rewrite /gcd_int /gcd_gen !zgcd_loop // Ea Eb => H.
move: Ha Hb; rewrite /canonical => Ha Hb.
have : (0 <= a)%Z by lia. have : (0 <= b)%Z by lia.
by move=> Hb0 Ha0; have := H Ha0 Hb0; case: ifP => _ ->.
Qed.

Lemma zp_eeaE p a b : canonical p a -> canonical p b ->
  exists x y xi yi, [/\ eea_int a b = Ok (xi, yi, Z.gcd a b),
    zp_eea p (PObj a) (PObj b) = Ok (x, y, PObj (Z.gcd a b)),
    (erase (modp_mk p) x = xi mod p)%Z /\ (erase (modp_mk p) y = yi mod p)%Z,
    ((a | b) \/ (b | a))%Z -> literal_pair x y &
    ~ (a | b)%Z -> ~ (b | a)%Z -> is_obj x /\ is_obj y].
Proof.
move=> Ha Hb; have Hp : (0 < p)%Z by move: Ha; rewrite /canonical; lia.
have [xi [yi [g [Ei [Eg _]]]]] := eea_int_spec a b.
have G : g = Z.gcd a b.
  have := gcd_int_nonneg a b; rewrite Eg; move: Ha Hb; rewrite /canonical => Ha Hb H.
  have Ha0 : (0 <= a)%Z by lia.
  have Hb0 : (0 <= b)%Z by lia.
  by case: (H Ha0 Hb0).
move: Ei; rewrite /eea_int /eea_gen /zp_eea /mix_eea /num_fuel /=.
have -> : Z.abs a = a by move: Ha; rewrite /canonical; lia.
have -> : Z.abs b = b by move: Hb; rewrite /canonical; lia.
case: Z.ltb_spec => Hab.
  case E: eea_ordered => [[[u v] d]|//] /= [E1 E2 E3]; subst.
  have [|x [y [-> [Ex [Ey [T0 T1]]]]]] := zmord_spec p Hp _ _ _ _ _ _ Hb Ha _ E; first by lia.
  by exists y, x, xi, yi; split=> //= [/T0 /literal_swap//|N1 N2]; have [] := T1 N1 N2.
move=> E; have [|x [y [-> [Ex [Ey [T0 T1]]]]]] := zmord_spec p Hp _ _ _ _ _ _ Ha Hb _ E; first by lia.
exists x, y, xi, yi; subst g; split=> //= [D|N1 N2]; last exact: T1.
by apply: T0; case: D; [right|left].
Qed.

Section ZpAny.
Variable p : Z.
Local Notation zmloop := (mix_eea_loop Z Z.abs (modp_divmod p) (fun a b => Ok (modp_add p a b))
  (fun a b => Ok (modp_sub p a b)) (fun a b => Ok (modp_mul p a b)) (fun a => Ok (modp_neg p a)) (modp_mk p)).
Local Notation zgloop := (gcd_loop (pynum Z) (py_abs Z Z.abs) (py_divmod Z (modp_divmod p) (modp_mk p))).

Definition follows (d : result (pynum Z)) (r : result (pynum Z * pynum Z * pynum Z)) : Prop :=
  match d with Ok d => exists x y, r = Ok (x, y, d) | Err e => r = Err e end.

Lemma zmloop_follows f v w x2 x1 y2 y1 : follows (zgloop f v w) (zmloop f v w x2 x1 y2 y1).
Proof.
elim: f v w x2 x1 y2 y1 => //= f IH v w x2 x1 y2 y1; case: ifP => _; last by exists x2, y2.
case: py_divmod => [[q r]|e] //=.
have [a Ea] : exists a, py_mul Z (fun a b => Ok (modp_mul p a b)) (modp_mk p) q x1 = Ok a
  by case: q x1 => [q|q] [x|x]; eexists.
have [b Eb] : exists b, py_mul Z (fun a b => Ok (modp_mul p a b)) (modp_mk p) q y1 = Ok b
  by clear Ea; case: q y1 => [q|q] [x|x]; eexists.
have S u z : exists c, py_sub Z (fun a b => Ok (modp_add p a b)) (fun a b => Ok (modp_sub p a b))
    (fun a => Ok (modp_neg p a)) (modp_mk p) u z = Ok c by case: u z => [u|u] [z|z]; eexists.
rewrite Ea /=; have [c ->] := S x2 a; rewrite /= Eb /=; have [d ->] := S y2 b.
exact: IH.
Qed.

Lemma zp_follows v w : follows (zp_gcd p v w) (zp_eea p v w).
Proof.
have [f Ef] : exists f, num_fuel v w = f.+1 by rewrite /num_fuel /int_fuel; eexists; rewrite plusE addnS.
have O a b : follows (zgloop f.+1 a b)
   (mix_eea_ordered Z Z.abs (modp_divmod p) (fun a b => Ok (modp_add p a b))
  (fun a b => Ok (modp_sub p a b)) (fun a b => Ok (modp_mul p a b)) (fun a => Ok (modp_neg p a)) (modp_mk p) f.+1 a b).
  rewrite /mix_eea_ordered; case: Z.eqb_spec => E; last exact: zmloop_follows.
  by rewrite /= E /=; do 2!eexists.
rewrite /zp_gcd /zp_eea /mix_gcd /gcd_gen /mix_eea Ef; case: ifP => _; last exact: O.
have := O w v; case: gcd_loop => [d [x [y ->]]|e -> //]; by exists y, x.
Qed.

Lemma zp_ints a b : zp_gcd p (PInt a) (PInt b) = rmap PInt (gcd_int a b) /\
  zp_eea p (PInt a) (PInt b) = rmap (fun '(x, y, d) => (PInt x, PInt y, PInt d)) (eea_int a b).
Proof.
have L f c d : zgloop f (PInt c) (PInt d) = rmap PInt (gcd_loop Z Z.abs int_divmod f c d).
  elim: f c d => //= f IH c d; case: ifP => // _.
  by case: int_divmod => [[q r]|e] /=; rewrite ?IH.
have M f c d x2 x1 y2 y1 : zmloop f (PInt c) (PInt d) (PInt x2) (PInt x1) (PInt y2) (PInt y1) =
    rmap (fun '(x, y, d) => (PInt x, PInt y, PInt d)) (eea_loop Z Z.abs int_divmod Z.sub Z.mul f c d x2 x1 y2 y1).
  elim: f c d x2 x1 y2 y1 => //= f IH c d x2 x1 y2 y1; case: ifP => // _.
  by case: int_divmod => [[q r]|e] /=; rewrite ?IH.
have N : num_fuel (PInt a) (PInt b) = int_fuel a b by rewrite /num_fuel /int_fuel /= !Z.abs_involutive.
split; rewrite ?/zp_gcd ?/zp_eea N /mix_gcd /gcd_int /gcd_gen /mix_eea /eea_int /eea_gen.
  by cbn [py_abs]; case: ifP => _; rewrite L.
rewrite /mix_eea_ordered /eea_ordered; cbn [py_abs]; case: ifP => _; case: ifP => _ //; rewrite M //.
by case: eea_loop => [[[x y] d]|e].
Qed.
End ZpAny.

(** ** polynomials *)
Lemma pabs_ge0 (F : fieldType) (a : seq F) : (0 <= pabs a)%Z. Proof. exact: Zle_0_nat. Qed.
Lemma pabs0 (F : fieldType) (a : seq F) : pabs a = 0%Z <-> a = [::].
Proof. by case: a. Qed.
Lemma pabs_lt_size (F : fieldType) (a b : seq F) : (pabs a < pabs b)%Z -> (size a <= size b)%N.
Proof. by rewrite /pabs; lia. Qed.
Lemma pabs_le_size (F : fieldType) (a b : seq F) : (pabs a <= pabs b)%Z -> (size a <= size b)%N.
Proof. by rewrite /pabs; lia. Qed.

Section Poly.
Variables (F : fieldType) (ofZ : Z -> F).
Hypotheses (ofZ0 : ofZ 0 = 0) (ofZ1 : ofZ 1 = 1).
Local Notation cast := (fun k => pconst (ofZ k)).
Local Notation pmord := (mix_eea_ordered (seq F) (@pabs F) (@pdivmod F) (fun a b => Ok (padd a b)) (fun a b => Ok (psub a b))
    (fun a b => Ok (pmul a b)) (fun a => Ok (pneg a)) cast).
Local Notation pord := (eea_ordered (seq F) (@pabs F) (@pdivmod F) (@psub F) (@pmul F) (pmk [::]) (pconst 1)).

(** which of the cases of the ordered algorithm applies *)
Lemma dvd_cases (a b : seq F) : normal a -> normal b -> (size b <= size a)%N ->
  (Poly a %| Poly b) || (Poly b %| Poly a) = (b == [::]) || (Poly b %| Poly a).
Proof.
move=> Na Nb S; case: eqVneq => [->|b0] /=; first by rewrite dvdp0.
case D: (Poly a %| Poly b) => //=; symmetry.
have B0 : Poly b != 0 by rewrite -nil_Poly.
have := dvdp_leq B0 D; rewrite -!size_normal // => S'.
have := dvdp_size_eqp D; rewrite -!size_normal // (_ : size a == size b); last by rewrite eqn_leq S' S.
by move=> /esym; rewrite eqp_sym => /eqp_dvdl ->; rewrite dvdpp.
Qed.

Lemma pmord_spec f a b x' y' d : normal a -> normal b -> (size b <= size a)%N ->
  pord f a b = Ok (x', y', d) ->
  exists x y, [/\ pmord f (PObj a) (PObj b) = Ok (x, y, PObj d), erase cast x = x', erase cast y = y',
    (Poly a %| Poly b) || (Poly b %| Poly a) -> literal_pair x y &
    ~~ ((Poly a %| Poly b) || (Poly b %| Poly a)) -> is_obj x /\ is_obj y].
Proof.
move=> Na Nb S H.
have [|||||||x [y [M [Ex [Ey [T0 T1]]]]]] :=
  mord_erase (seq F) (@pabs F) (@pdivmod F) (fun a b => Ok (padd a b)) (fun a b => Ok (psub a b))
    (fun a b => Ok (pmul a b)) (fun a => Ok (pneg a)) cast (@normal F) (@psub F) (@pmul F)
    _ _ _ _ _ _ f a b x' y' d Na Nb.
- exact: pabs_ge0.
- by move=> k; exact: normal_pconst.
- by move=> *; split=> //; exact: normal_pmul.
- by move=> *; split=> //; exact: normal_psub.
- move=> k c Nc /=; congr Ok; apply: Poly_inj; rewrite ?normal_padd //.
  by rewrite !Poly_padd addrC.
- move=> c e Nc Ne; rewrite /pabs => e0; rewrite pdivmodE //; last by case: (e) e0.
  by do 2!eexists; split=> //; split; exact: normal_polyseq.
- by rewrite /= ofZ0 ofZ1 -H; congr eea_ordered; rewrite /pconst /pmk /strip /= eqxx.
exists x, y; rewrite M dvd_cases //; case: eqVneq => [b0|b0] /=.
  by split=> // _; left; apply: T0; apply/pabs0.
have := pdivmodE Na Nb b0 => E; have [|U0 U1] := T1 _ _ _ E; first by case: (b) b0.
have R : (Poly b %| Poly a) = (pabs (polyseq (Poly a %% Poly b)) == 0%Z).
  by rewrite /dvdp -size_poly_eq0 /pabs; case: (size _).
split=> // [|]; rewrite R => /eqP D; first by right; exact: U0.
by apply: U1; have := @pabs_ge0 F (polyseq (Poly a %% Poly b)); lia.
Qed.

Lemma poly_eeaE a b : normal a -> normal b ->
  exists x y d, [/\ poly_eea ofZ a b = Ok (x, y, PObj d), peea a b = Ok (erase cast x, erase cast y, d),
    (Poly a %| Poly b) || (Poly b %| Poly a) -> literal_pair x y &
    ~~ ((Poly a %| Poly b) || (Poly b %| Poly a)) -> is_obj x /\ is_obj y].
Proof.
move=> Na Nb; have [x' [y' [d [E _ _ _]]]] := peea_spec Na Nb.
move: E; rewrite /peea /poly_eea /eea_gen /mix_eea /=; case: Z.ltb_spec => S.
  case E: eea_ordered => [[[u v] e]|//] /= [E1 E2 E3]; subst.
  have [|x [y [-> Ex Ey T0 T1]]] := pmord_spec Nb Na _ E; first by move: S; rewrite /pabs; lia.
  exists y, x, d; rewrite /= Ex Ey; split=> //; rewrite orbC; first by move=> /T0 /literal_swap.
  by move=> /T1 [].
move=> E; have [|x [y [-> Ex Ey T0 T1]]] := pmord_spec Na Nb _ E; first by move: S; rewrite /pabs; lia.
by exists x, y, d; rewrite E Ex Ey.
Qed.

Lemma poly_gcdE a b : poly_gcd ofZ a b = rmap PObj (pgcd a b).
Proof.
have L f c d : gcd_loop (pynum (seq F)) (py_abs (seq F) (@pabs F)) (py_divmod (seq F) (@pdivmod F) cast) f (PObj c) (PObj d)
   = rmap PObj (gcd_loop (seq F) (@pabs F) (@pdivmod F) f c d).
  elim: f c d => //= f IH c d; case: ifP => // _.
  by case: pdivmod => [[q r]|e] /=; rewrite ?IH.
by rewrite /poly_gcd /mix_gcd /pgcd /gcd_gen; cbn [py_abs]; case: ifP => _; rewrite L.
Qed.
End Poly.

(** ** FiniteField(p, m) *)
Section Fq.
Variables (F : finFieldType) (ofZ : Z -> F).
Hypotheses (ofZ0 : ofZ 0 = 0) (ofZ1 : ofZ 1 = 1).
Variable g : seq F.
Hypotheses (Ng : normal g) (Hirr : irreducible_poly (Poly g)).
Local Notation valid := (fq_valid g).
Local Notation cast := (fun k => fq_const (ofZ k)).
Let rem (a : {poly F}) : seq F := polyseq (a %% Poly g).
Let sub (a b : seq F) : seq F := rem (Poly a - Poly b).
Let mul (a b : seq F) : seq F := rem (Poly a * Poly b).
Local Notation fmord := (mix_eea_ordered (seq F) (@pabs F) (fq_divmod g) (fq_add g) (fq_sub g) (fq_mul g) (fq_neg g) cast).
Local Notation ford := (eea_ordered (seq F) (@pabs F) (fq_divmod g) sub mul (fq_const (ofZ 0)) (fq_const (ofZ 1))).
Local Notation pord := (eea_ordered (seq F) (@pabs F) (@pdivmod F) (@psub F) (@pmul F) (pmk [::]) (pconst 1)).

Lemma fdiv_poly a b : valid a -> valid b -> b <> [::] ->
  [/\ fq_divmod g a b = pdivmod a b, valid (polyseq (Poly a %/ Poly b)) & valid (polyseq (Poly a %% Poly b))].
Proof.
move=> Va Vb b0; have [q [r [E Vq Vr D S]]] := fq_divmod_ok Ng Hirr Va Vb b0.
have [/andP [Na _] /andP [Nb _] /andP [Nq _] /andP [Nr _]] := And4 Va Vb Vq Vr.
have [Eq Er] : Poly a %/ Poly b = Poly q /\ Poly a %% Poly b = Poly r.
  have S' : (size (Poly r) < size (Poly b))%N by rewrite -!size_normal.
  by rewrite D; split; [rewrite divp_addl_mul_small|rewrite modp_addl_mul_small].
rewrite pdivmodE //; last by apply/eqP.
by rewrite Eq Er !PolyK_normal.
Qed.

Lemma fgcd_loop f a b : valid a -> valid b ->
  gcd_loop (pynum (seq F)) (py_abs (seq F) (@pabs F)) (py_divmod (seq F) (fq_divmod g) cast) f (PObj a) (PObj b) =
  rmap PObj (gcd_loop (seq F) (@pabs F) (@pdivmod F) f a b).
Proof.
elim: f a b => //= f IH a b Va Vb; rewrite pabs_gt0; case: eqP => //= b0.
have [-> _ Vr] := fdiv_poly Va Vb b0.
have [/andP [Na _] /andP [Nb _]] := conj Va Vb.
by rewrite pdivmodE //=; [apply: IH|apply/eqP].
Qed.

Lemma fq_gcdE a b : valid a -> valid b -> fq_gcd ofZ g a b = rmap PObj (pgcd a b).
Proof.
by move=> Va Vb; rewrite /fq_gcd /mix_gcd /pgcd /gcd_gen; cbn [py_abs]; case: ifP => _; rewrite fgcd_loop.
Qed.

Lemma sub_rem x2 q x1 : sub (rem (Poly x2)) (mul q (rem (Poly x1))) = rem (Poly (psub x2 (pmul q x1))).
Proof.
rewrite /sub /mul /rem !polyseqK Poly_psub Poly_pmul; congr polyseq.
by rewrite !modpD !modpN !modp_mod polydiv.Pdiv.Field.modp_mul.
Qed.

Lemma floop_rem f a b x2 x1 y2 y1 x y d : valid a -> valid b ->
  eea_loop (seq F) (@pabs F) (@pdivmod F) (@psub F) (@pmul F) f a b x2 x1 y2 y1 = Ok (x, y, d) ->
  eea_loop (seq F) (@pabs F) (fq_divmod g) sub mul f a b (rem (Poly x2)) (rem (Poly x1)) (rem (Poly y2)) (rem (Poly y1))
  = Ok (rem (Poly x), rem (Poly y), d).
Proof.
elim: f a b x2 x1 y2 y1 => //= f IH a b x2 x1 y2 y1 Va Vb; rewrite pabs_gt0; case: eqP => /= b0.
  by case=> -> -> ->.
have [-> _ Vr] := fdiv_poly Va Vb b0.
have [/andP [Na _] /andP [Nb _]] := conj Va Vb.
by rewrite pdivmodE //=; [rewrite !sub_rem; apply: IH|apply/eqP].
Qed.

Lemma rem_const c : rem (Poly (pconst c)) = fq_const c.
Proof.
have [V E] := fq_const_ok Ng Hirr c.
by rewrite /rem -[pconst c]/(fq_const c) valid_small // PolyK_normal //; case/andP: V.
Qed.

Lemma ford_rem f a b x y d : valid a -> valid b -> pord f a b = Ok (x, y, d) ->
  ford f a b = Ok (rem (Poly x), rem (Poly y), d).
Proof.
have Z0 : pmk [::] = pconst (0 : F) by rewrite /pconst /pmk /strip /= eqxx.
move=> Va Vb; rewrite /eea_ordered ofZ0 ofZ1 Z0; case: ifP => _.
  by case=> <- <- <-; rewrite !rem_const.
by move=> /floop_rem H; rewrite -!rem_const H.
Qed.

Lemma fmord_spec f a b x' y' d : valid a -> valid b -> (size b <= size a)%N ->
  pord f a b = Ok (x', y', d) ->
  exists x y, [/\ fmord f (PObj a) (PObj b) = Ok (x, y, PObj d),
    erase cast x = rem (Poly x') /\ erase cast y = rem (Poly y'), valid (erase cast x) && valid (erase cast y),
    (Poly a %| Poly b) || (Poly b %| Poly a) -> literal_pair x y &
    ~~ ((Poly a %| Poly b) || (Poly b %| Poly a)) -> is_obj x /\ is_obj y].
Proof.
move=> Va Vb S /(ford_rem Va Vb) H.
have [||||||x [y [M [Ex [Ey [T0 T1]]]]]] :=
  mord_erase (seq F) (@pabs F) (fq_divmod g) (fq_add g) (fq_sub g) (fq_mul g) (fq_neg g) cast valid sub mul
    _ _ _ _ _ _ f a b _ _ d Va Vb H.
- exact: pabs_ge0.
- by move=> k; have [] := fq_const_ok Ng Hirr (ofZ k).
- move=> u v Vu Vv; rewrite /fq_mul fq_polyE ?normal_pmul // Poly_pmul; split=> //; exact: valid_mod.
- move=> u v Vu Vv; rewrite /fq_sub fq_polyE ?normal_psub // Poly_psub; split=> //; exact: valid_mod.
- move=> k u Vu; have [V E] := fq_const_ok Ng Hirr (ofZ k).
  rewrite /fq_neg fq_polyE ?normal_pneg // /= /fq_add fq_polyE ?normal_padd //.
  rewrite Poly_padd polyseqK Poly_pneg /sub /rem E; congr (Ok (polyseq _)).
  by rewrite modpD modp_mod -modpD addrC.
- move=> u v Vu Vv; rewrite /pabs => v0.
  have [|-> Vq Vr] := fdiv_poly Vu Vv; first by case: (v) v0.
  have [/andP [Nu _] /andP [Nv _]] := conj Vu Vv.
  by rewrite pdivmodE //; [do 2!eexists|case: (v) v0].
have [/andP [Na _] /andP [Nb _]] := conj Va Vb.
exists x, y; rewrite M Ex Ey !valid_mod // dvd_cases //; case: eqVneq => [b0|b0] /=.
  by split=> // _; left; apply: T0; apply/pabs0.
have [E _ _] := fdiv_poly Va Vb (elimN eqP b0); rewrite pdivmodE // in E.
have [|U0 U1] := T1 _ _ _ E; first by case: (b) b0.
have R : (Poly b %| Poly a) = (pabs (polyseq (Poly a %% Poly b)) == 0%Z).
  by rewrite /dvdp -size_poly_eq0 /pabs; case: (size _).
split=> // [|]; rewrite R => /eqP D; first by right; exact: U0.
by apply: U1; move: D; rewrite /pabs; case: (size _).
Qed.

Lemma fq_bezout a b x y d x' y' : valid a -> valid b -> valid d ->
  Poly a * Poly x' + Poly b * Poly y' = Poly d -> Poly x = Poly x' %% Poly g -> Poly y = Poly y' %% Poly g ->
  exists u v, [/\ fq_mul g a x = Ok u, fq_mul g b y = Ok v & fq_add g u v = Ok d].
Proof.
move=> Va Vb Vd B Ex Ey.
have [u [Eu Vu Pu _]] := fq_mul_ok Ng Hirr a x; have [v [Ev Vv Pv _]] := fq_mul_ok Ng Hirr b y.
have [w [Ew Vw Pw _]] := fq_add_ok Ng Hirr Vu Vv.
exists u, v; split=> //; rewrite Ew; congr Ok.
case/andP: (Vw) => Nw _; case/andP: (Vd) => Nd _; apply: Poly_inj => //.
by rewrite Pw Pu Pv Ex Ey !polydiv.Pdiv.Field.modp_mul -modpD B valid_small.
Qed.

Lemma fq_eeaE a b : valid a -> valid b ->
  exists x y d, [/\ fq_eea ofZ g a b = Ok (x, y, PObj d), pgcd a b = Ok d,
    valid (erase cast x) && valid (erase cast y) && valid d,
    exists u v, [/\ fq_mul g a (erase cast x) = Ok u, fq_mul g b (erase cast y) = Ok v & fq_add g u v = Ok d] &
    ((Poly a %| Poly b) || (Poly b %| Poly a) -> literal_pair x y) /\
    (~~ ((Poly a %| Poly b) || (Poly b %| Poly a)) -> is_obj x /\ is_obj y)].
Proof.
move=> Va Vb; have [/andP [Na Sa] /andP [Nb Sb]] := conj Va Vb.
have [x' [y' [d [Eg [E [[Nx [Ny Nd]] [B D]]]]]]] := peea_pgcd Na Nb.
have Vd : valid d.
  have Da : Poly d %| Poly a by have := D (Poly d); rewrite dvdpp => /esym /andP [].
  have Db : Poly d %| Poly b by have := D (Poly d); rewrite dvdpp => /esym /andP [].
  rewrite /fq_valid Nd /=; case: (eqVneq a [::]) => a0.
    case: (eqVneq b [::]) => b0.
      have : Poly d == 0 by rewrite -B a0 b0 /= !mul0r addr0.
      by rewrite -nil_Poly // => /eqP ->; exact: leq_ltn_trans Sa.
    by apply: leq_ltn_trans Sb; rewrite (size_normal Nd) (size_normal Nb); apply: dvdp_leq => //; rewrite -nil_Poly.
  by apply: leq_ltn_trans Sa; rewrite (size_normal Nd) (size_normal Na); apply: dvdp_leq => //; rewrite -nil_Poly.
move: E; rewrite /peea /fq_eea /eea_gen /mix_eea /=; case: Z.ltb_spec => S.
  case E: eea_ordered => [[[u v] e]|//] /= [E1 E2 E3]; subst.
  have [|x [y [-> [Ex Ey] V T0 T1]]] := fmord_spec Vb Va _ E; first exact: pabs_lt_size S.
  exists y, x, d; rewrite /= (andbC (valid _)) V Vd; split=> //.
    by apply: (fq_bezout Va Vb Vd B); rewrite ?Ex ?Ey /rem polyseqK.
  by rewrite orbC; split=> [/T0 /literal_swap|/T1 []].
move=> E; have [|x [y [-> [Ex Ey] V T0 T1]]] := fmord_spec Va Vb _ E; first exact: pabs_le_size S.
exists x, y, d; rewrite V Vd; split=> //.
by apply: (fq_bezout Va Vb Vd B); rewrite ?Ex ?Ey /rem polyseqK.
Qed.
End Fq.
