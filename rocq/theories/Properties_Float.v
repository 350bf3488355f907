(** Property theorems C78-C81, exact results: every attribute of sums, quotients, products and
    powers of Fp objects (starks/floatingpoint.py:48-226).
    [fp_ok g x]: significand and exponent are elements of the field; [bits_val c]: the integer
    with the binary digits c; [shift D]: the exponent that [two_pow] uses for D (C24);
    [bits_poly n]: the polynomial whose coefficients are the binary digits of n (C79). *)
From mathcomp Require Import zify ssrZ.
From Verif Require Import Prelude BaseProofs PolyModel PolyProofs FftProofs FinFld QField Pocklington ModpModel ModpField
  FiniteFieldModel FiniteFieldProofs FloatModel FloatProofs Properties_FiniteField Properties_Numbers.
Set Implicit Arguments.
Unset Strict Implicit.
Unset Printing Implicit Defensive.
Import GRing.Theory.
Local Open Scope ring_scope.
Local Open Scope py_scope.

Definition shift (P : primeZ) (D : seq (modp_finFieldType P)) : nat :=
  (\sum_(0 <= i < size D | nth 0%R D i == 1%R) i.+1)%N.
Definition bits_poly (P : primeZ) (n : Z) : {poly modp_finFieldType P} :=
  Poly ([seq in_modp P c | c <- num_to_binary_list n] : seq (modp_finFieldType P)).

(** The sum of operands without zero flag.  hi is the operand with the larger exponent, or with
    the larger significand if the exponents are equal. *)
Theorem C78_fp_add_full : forall (P : primeZ) (g : seq (modp_finFieldType P)) m x y,
  pz P = 2%Z -> normal g -> irreducible_poly (Poly g) -> fp_ok g x -> fp_ok g y ->
  fz x <> 1%Z -> fz y <> 1%Z ->
  let x_low := if fp_p x == fp_p y then (bits_val (fv x) <=? bits_val (fv y))%Z
               else (bits_val (fp_p x) <=? bits_val (fp_p y))%Z in
  let lo := if x_low then x else y in
  let hi := if x_low then y else x in
  exists D M z,
    [/\ fq_valid g D, Poly D = Poly (fp_p hi) - Poly (fp_p lo), fq_valid g M & Poly M = bits_poly P m %% Poly g] /\
    [/\ fp_add g m x y = Ok z, fs z = fs hi, fz z = (if fv z == [::] then 1 else 0)%Z,
        ((bits_val M < bits_val D)%Z -> fv z = fv hi /\ fp_p z = fp_p hi) &
        ((bits_val D <= bits_val M)%Z -> fp_p z = fp_p lo /\
           Poly (fv z) = (Poly (fv hi) * 'X^(shift D) + Poly (fv lo)) %% Poly g)].
Proof.
move=> P g m x y P2 Ng Hirr [Vx Wx] [Vy Wy] Zx Zy x_low lo hi.
rewrite /fp_add (proj2 (Z.eqb_neq _ _) Zx) (proj2 (Z.eqb_neq _ _) Zy).
rewrite (fq_LT_spec P2 Ng Hirr Vx Vy) (fq_LT_spec P2 Ng Hirr Wx Wy) !bind_ok.
have Vhi : fq_valid g (fv hi) by rewrite /hi; move: (x_low) => c; case: c.
have Vlo : fq_valid g (fv lo) by rewrite /lo; move: (x_low) => c; case: c.
have Whi : fq_valid g (fp_p hi) by rewrite /hi; move: (x_low) => c; case: c.
have Wlo : fq_valid g (fp_p lo) by rewrite /lo; move: (x_low) => c; case: c.
set t3 := (if fq_eq _ _ then _ else _).
have -> : t3 = (fv lo, fv hi, fs hi).
  rewrite /t3 /lo /hi /x_low /fq_eq peqE.
  by case: (_ == _); case: (bits_val _ <=? bits_val _)%Z.
set t2 := (if (_ =? 1)%Z then (fp_p x, fp_p y) else _).
have -> : t2 = (fp_p lo, fp_p hi).
  rewrite /t2 /lo /hi /x_low; case: eqP => [E|_]; last by case: (_ <=? _)%Z.
  by rewrite E Z.leb_refl; case: (_ <=? _)%Z; rewrite /= ?E.
have [D [-> VD PD _]] := fq_sub_ok Ng Hirr Whi Wlo; rewrite bind_ok.
have [M [-> VM PM]] := field_of_ok Ng Hirr (num_to_binary_list m); rewrite bind_ok.
rewrite (fq_LT_spec P2 Ng Hirr VD VM) bind_ok field_of0 //.
case: Z.leb_spec => Hc; rewrite /=.
  have [t [-> Vt Et]] := two_pow_spec P2 Ng Hirr D; rewrite bind_ok.
  have [v1 [-> V1 E1 _]] := fq_mul_ok Ng Hirr (fv hi) t; rewrite bind_ok.
  have [v2 [-> V2 E2 _]] := fq_add_ok Ng Hirr V1 Vlo; rewrite !bind_ok.
  exists D, M; eexists; split; first by [].
  split; [by [] | by [] | by rewrite /fq_eq peqE | by move=> H; exfalso; move: H Hc; clear; lia | move=> _; split=> //=].
  by rewrite E2 E1 Et polydiv.Pdiv.Field.modp_mul modpD (valid_small Ng Vlo).
exists D, M; eexists; split; first by [].
by split; [by [] | by [] | by rewrite /fq_eq peqE | by [] | by move=> H; exfalso; move: H Hc; clear; lia].
Qed.
Print Assumptions C78_fp_add_full.

Lemma mval_in_modp (P : primeZ) b : mval (in_modp P b) = (b mod pz P)%Z. Proof. by []. Qed.

(** The bound of the comparison is m itself, if m has fewer binary digits than g has
    coefficients (m is the degree of g in every field of the project). *)
Lemma bound_of_m : forall (P : primeZ) (g M : seq (modp_finFieldType P)) m,
  pz P = 2%Z -> normal g -> irreducible_poly (Poly g) -> (0 < m)%Z -> (size (num_to_binary_list m) < size g)%N ->
  fq_valid g M -> Poly M = bits_poly P m %% Poly g -> bits_val M = m.
Proof.
move=> P g M m P2 Ng Hirr m0 Sm VM; have [B S L] := C79_binary_list m.
rewrite modp_small; last first.
  by rewrite -(g_size Ng) /bits_poly; apply: leq_ltn_trans (size_Poly _) _; rewrite size_map.
rewrite /bits_poly; set l := (map _ _) => E.
have mv b : b \in num_to_binary_list m -> mval (in_modp P b) = b.
  by move=> /B [] ->; rewrite mval_in_modp P2.
have Nl : normal (l : seq (modp_finFieldType P)).
  rewrite /normal /l; case: (num_to_binary_list m) (L m0) => [//|b bs] Lb.
  rewrite [last _ _]last_map -[last b bs]/(last 0%Z (b :: bs)) Lb; apply/eqP => /(congr1 (@mval P)).
  by rewrite mval_in_modp P2.
have [NM _] := andP VM; have -> : M = l by apply: Poly_inj.
have -> : bits_val l = foldr (fun b acc => (b + 2 * acc)%Z) 0%Z (num_to_binary_list m); last by rewrite S; lia.
rewrite /l; elim: (num_to_binary_list m) mv => [//|b bs IH] mv.
rewrite [map _ _]/= bits_cons mv ?inE ?eqxx // IH // => c Hc; apply: mv; by rewrite inE Hc orbT.
Qed.

(** When the sum has the value of the sum.  The value of x is v X^p with the integer p; the
    shift must be the difference of the integers. *)
Theorem C78_fp_add_value : forall (P : primeZ) (g : seq (modp_finFieldType P)) m x y z,
  pz P = 2%Z -> normal g -> irreducible_poly (Poly g) -> fp_ok g x -> fp_ok g y ->
  fz x <> 1%Z -> fz y <> 1%Z -> fp_add g m x y = Ok z ->
  (0 < m)%Z -> (size (num_to_binary_list m) < size g)%N ->
  let value (w : fp P) := (Poly (fv w) * 'X^(Z.to_nat (bits_val (fp_p w)))) %% Poly g in
  forall D : seq (modp_finFieldType P), normal D -> Poly D = Poly (fp_p x) + Poly (fp_p y) ->
  (bits_val D <= m)%Z ->
  Z.of_nat (shift D) = Z.abs (bits_val (fp_p x) - bits_val (fp_p y)) ->
  value z = value x + value y.
Proof.
move=> P g m x y z P2 Ng Hirr Ox Oy Zx Zy Ez m0 Sm value D ND PD HD Sh.
have := C78_fp_add_full m P2 Ng Hirr Ox Oy Zx Zy; set x_low := (if _ then _ else _); cbv zeta.
set lo := (if x_low then x else y); set hi := (if x_low then y else x).
move=> [D' [M [z' [[VD' PD' VM PM]]]]]; rewrite Ez => -[[<-] _ _ _ A].
have ED : D' = D.
  have [ND' _] := andP VD'; apply: Poly_inj => //; rewrite PD PD' (oppr_char2 (poly_char2 (modp_char2 P2))).
  by rewrite /hi /lo; case: (x_low) => //; rewrite addrC.
rewrite ED in A; have [|Pz Vz] := A; first by rewrite (bound_of_m P2 Ng Hirr m0 Sm VM PM).
have Gap : (Z.to_nat (bits_val (fp_p hi)) = shift D + Z.to_nat (bits_val (fp_p lo)))%N.
  have B1 : (0 <= bits_val (fp_p x))%Z by apply: bits_ge0.
  have B2 : (0 <= bits_val (fp_p y))%Z by apply: bits_ge0.
  have Ord : (bits_val (fp_p lo) <= bits_val (fp_p hi))%Z.
    rewrite /lo /hi /x_low; case: eqP => [E|_]; last by case: Z.leb_spec => H //; move: H; clear; lia.
    by case: (_ <=? _)%Z; rewrite E; apply: Z.le_refl.
  move: Sh Ord; rewrite /hi /lo; case: (x_low); move: B1 B2; move: (shift D) (bits_val _) (bits_val _); clear; lia.
have -> : value x + value y = value hi + value lo by rewrite /hi /lo; case: (x_low) => //; rewrite addrC.
rewrite /value Pz Vz Gap exprD mulrA -modpD -mulrDl.
by rewrite mulrC polydiv.Pdiv.Field.modp_mul mulrC.
Qed.
Print Assumptions C78_fp_add_value.

(** The exponent of a product that is not flagged as zero depends on the degree of the left
    significand only, so the factors commute exactly if both degrees give the same correction. *)
Theorem C79_fp_mul_commutes_iff : forall (P : primeZ) (g : seq (modp_finFieldType P)) m x y,
  normal g -> irreducible_poly (Poly g) -> fp_ok g x -> fp_ok g y -> Z.lor (fz x) (fz y) <> 1%Z ->
  let correction (w : fp P) := bits_poly P (2 * (Z.of_nat (size (fv w)) - 1) - (m - 1)) %% Poly g in
  fp_mul g m x y = fp_mul g m y x <-> correction x = correction y.
Proof.
move=> P g m x y Ng Hirr Ox Oy Nz correction.
have [z [-> [Vz Wz] Zz Sz [_ Fz]]] := C79_fp_mul P g m x y Ng Hirr Ox Oy.
have [t [-> [Vt Wt] Zt St [_ Ft]]] := C79_fp_mul P g m y x Ng Hirr Oy Ox.
have [Pv Pp] := Fz Nz; have [|Qv Qp] := Ft; first by rewrite Z.lor_comm.
rewrite -/(bits_poly P _) -/(correction x) in Pp; rewrite -/(bits_poly P _) -/(correction y) in Qp.
split=> [[E]|E].
  by move: Pp; rewrite E Qp [Poly (fp_p y) + _]addrC => /addrI ->.
congr Ok; case: z Vz Wz Zz Sz Pv Pp {Fz} => zv zp zz zs; case: t Vt Wt Zt St Qv Qp {Ft} => tv tp tz ts /=.
move=> /andP [Ntv _] /andP [Ntp _] Zt St Qv Qp /andP [Nzv _] /andP [Nzp _] Zz Sz Pv Pp.
congr Fp; rewrite ?Zz ?Zt ?Sz ?St; [| | exact: Z.lor_comm | exact: Z.lxor_comm]; apply: Poly_inj => //.
  by rewrite Pv Qv mulrC.
by rewrite Pp Qp E [Poly (fp_p y) + _]addrC.
Qed.
Print Assumptions C79_fp_mul_commutes_iff.

(** The exponent of a quotient: the difference, corrected by the degrees of the dividend and
    of the inverse of the divisor. *)
Theorem C81_fp_div_full : forall (P : primeZ) (g : seq (modp_finFieldType P)) m x y,
  normal g -> irreducible_poly (Poly g) -> fp_ok g x -> fp_ok g y -> fz y <> 1%Z -> fv y <> [::] ->
  exists i z, [/\ fq_valid g i, (Poly (fv y) * Poly i) %% Poly g = 1 & fp_div g m x y = Ok z] /\
    [/\ fz z = Z.lor (fz x) (fz y), fs z = Z.lxor (fs x) (fs y),
        (Z.lor (fz x) (fz y) = 1%Z -> fv z = [::] /\ fp_p z = [::]) &
        (Z.lor (fz x) (fz y) <> 1%Z ->
           Poly (fv z) = (Poly (fv x) * Poly i) %% Poly g /\
           Poly (fp_p z) = Poly (fp_p x) - Poly (fp_p y) +
             bits_poly P (Z.of_nat (size (fv x)) + Z.of_nat (size i) - m - 1) %% Poly g)].
Proof.
move=> P g m x y Ng Hirr [Vx Wx] [Vy Wy] Zy /eqP Hy; rewrite /fp_div field_of0 // bind_ok /fq_eq peqE (negPf Hy).
rewrite (proj2 (Z.eqb_neq _ _) Zy).
have [i [Ei Vi Hi]] := C20_inverse P g (fv y) Ng Hirr Vy Hy.
case: (Z.eqb_spec (Z.lor _ _) 1) => Hz.
  by rewrite !bind_ok; exists i; eexists; split; [split | split; rewrite ?Hz].
have [v [-> Vv Hv]] := fq_div_poly Ng Hirr Vx Vy Hy; rewrite bind_ok.
have [p1 [-> V1 H1 _]] := fq_sub_ok Ng Hirr Wx Wy; rewrite bind_ok Ei bind_ok.
have [l [-> Vl Hl _]] := fq_list_ok Ng Hirr [seq in_modp P c | c <- num_to_binary_list (pdegree (fv x) + pdegree i - (m - 1))%Z]; rewrite bind_ok.
have [p2 [-> V2 H2 _]] := fq_add_ok Ng Hirr V1 Vl; rewrite bind_ok.
exists i; eexists; split; [by split | split=> //= _].
rewrite H2 H1 Hl; split; last first.
  rewrite /bits_poly (_ : pdegree (fv x) + pdegree i - (m - 1) = Z.of_nat (size (fv x)) + Z.of_nat (size i) - m - 1)%Z //.
  by rewrite !pdegreeE; move: (Z.of_nat _) (Z.of_nat _) => a b; clear; lia.
have <- : (Poly (fv y) * Poly i * Poly v) %% Poly g = Poly v.
  by rewrite mulrC -polydiv.Pdiv.Field.modp_mul Hi mulr1 (valid_small Ng Vv).
rewrite -Hv [X in _ = X %% _]mulrC polydiv.Pdiv.Field.modp_mul; congr (_ %% _).
by rewrite [Poly (fv y) * Poly i]mulrC -mulrA [Poly (fv y) * _]mulrC.
Qed.
Print Assumptions C81_fp_div_full.

Lemma nfold_last (P : primeZ) (g : seq (modp_finFieldType P)) m n x acc :
  fp_nfold g m n.+1 x acc = let* r := fp_nfold g m n x acc in fp_mul g m r x.
Proof.
elim: n acc => [|n IH] acc; first by rewrite /=; case: (fp_mul _ _ _ _).
rewrite -[LHS]/(let* r := fp_mul g m acc x in fp_nfold g m n.+1 x r) -[fp_nfold g m n.+1 x acc]/(let* r := fp_mul g m acc x in fp_nfold g m n x r).
by case: (fp_mul g m acc x) => [r|e] //; rewrite !bind_ok IH.
Qed.

(** [a ** b]: b is first turned into an element (C80_float_to_fix) and that into the integer n of
    its binary digits.  For a without zero flag and b without sign the significand is the n-th
    power, and the exponent is n p plus a correction for every multiplication, made from the
    degree of the power before it.  A flagged a gives 1 for n = 0 and a flagged result
    otherwise.  With the sign of b set, 1 is divided by this. *)
Theorem C80_fp_pow_full : forall (P : primeZ) (g : seq (modp_finFieldType P)) m fuel x y fixed s,
  pz P = 2%Z -> normal g -> irreducible_poly (Poly g) -> fp_ok g x -> fp_ok g y ->
  float_to_fix g y = Ok (fixed, s) -> (Z.to_nat (bits_val fixed) < fuel)%N -> fz x = 0%Z \/ fz x = 1%Z ->
  let n := Z.to_nat (bits_val fixed) in
  exists z, [/\ fp_ok g z,
    fp_pow g m fuel x y = (if (fs y =? 1)%Z then fp_div g m (Fp [:: 1] [::] 0%Z 0%Z) z else Ok z),
    fs z = (if odd n then fs x else 0%Z),
    (fz x = 0%Z \/ n = 0%N -> fz z = 0%Z /\ Poly (fv z) = Poly (fv x) ^+ n %% Poly g /\
       Poly (fp_p z) = Poly (fp_p x) *+ n +
         \sum_(k < n) bits_poly P (2 * (Z.of_nat (size (Poly (fv x) ^+ k %% Poly g)%R) - 1) - (m - 1)) %% Poly g) &
    (fz x = 1%Z -> (0 < n)%N -> fz z = 1%Z /\ fv z = [::] /\ fp_p z = [::])].
Proof.
move=> P g m fuel x y fixed s P2 Ng Hirr Ox Oy Ef Hf Hz n.
have [fixed' [s' [Ef' _ Ep]]] := C80_fp_pow P g m fuel x y P2 Ng Hirr Ox Oy.
move: Ef' Ep; rewrite Ef => -[<- _] {fixed' s'} /(_ Hf) ->; rewrite -/n.
have one_ok : fp_ok g (Fp [:: 1] [::] 0%Z 0%Z) by split; [exact: valid1 | exact: valid_nil].
suff [z [-> Oz Sz A B]] : exists z, [/\ fp_nfold g m n x (Fp [:: 1] [::] 0%Z 0%Z) = Ok z, fp_ok g z,
    fs z = (if odd n then fs x else 0%Z),
    (fz x = 0%Z \/ n = 0%N -> fz z = 0%Z /\ Poly (fv z) = Poly (fv x) ^+ n %% Poly g /\
       Poly (fp_p z) = Poly (fp_p x) *+ n +
         \sum_(k < n) bits_poly P (2 * (Z.of_nat (size (Poly (fv x) ^+ k %% Poly g)%R) - 1) - (m - 1)) %% Poly g) &
    (fz x = 1%Z -> (0 < n)%N -> fz z = 1%Z /\ fv z = [::] /\ fp_p z = [::])].
  by exists z; rewrite bind_ok.
elim: n {Hf} => [|n [r [Er Or Sr A B]]].
  exists (Fp [:: 1] [::] 0%Z 0%Z); split=> // _; split=> //.
  rewrite expr0 mulr0n big_ord0 addr0; split=> //=.
  by rewrite cons_poly_def mul0r add0r modp_small // size_polyC oner_eq0 -g_size // (g_gt1 Ng Hirr).
rewrite nfold_last Er bind_ok.
have [z [E Oz Zz Sz [F1 F2]]] := C79_fp_mul P g m r x Ng Hirr Or Ox; exists z; split=> //.
- rewrite Sz Sr oddS; case: (odd n) => /=; first exact: Z.lxor_nilpotent.
  exact: Z.lxor_0_l.
- case=> // x0; have [r0 [Rv Rp]] := A (or_introl x0); rewrite Zz r0 x0; split=> //.
  have [|Fv Fp] := F2; first by rewrite r0 x0.
  split; first by rewrite Fv Rv exprSr mulrC polydiv.Pdiv.Field.modp_mul mulrC.
  rewrite Fp Rp mulrSr big_ord_recr /= -!addrA; congr (_ + _).
  have [Nr _] := andP (proj1 Or).
  by rewrite addrCA; congr (_ + (_ + _)); rewrite -/(bits_poly P _) -Rv -size_normal.
move=> x1 _; have L : Z.lor (fz r) (fz x) = 1%Z.
  rewrite x1; case: n A B {Er Sr} => [|n] A B; last by have [-> _] := B x1 isT.
  by have [-> _] := A (or_intror erefl).
by have [Ev Ep] := F1 L; rewrite Zz L.
Qed.
Print Assumptions C80_fp_pow_full.

(** Over GF(16), m = 4.  Exponents 1 and 3: D = 2, the shift is 2 and the sum is exact; exponents
    0 and 8: D = 8 exceeds m and the operand with the smaller exponent is lost. X^3 * 1 is corrected by
    2*3-3 = 3, 1 * X^3 is not; (X + 1)^5 by 1 and 3; X^3 / X, where X has the inverse X^3 + 1, by 3+3-3. *)
Local Notation z2 l := [seq in_modp P2 z | z <- l].
Example C78_float_example :
  rmap fp_show (fp_add g16 4 (Fp (z2 [:: 1; 1]%Z) (z2 [:: 1]%Z) 0%Z 0%Z) (Fp (z2 [:: 1]%Z) (z2 [:: 1; 1]%Z) 0%Z 1%Z))
        = Ok ([:: 1; 1; 1], [:: 1], 0, 1)%Z /\
      rmap fp_show (fp_add g16 4 (Fp (z2 [:: 1; 1]%Z) [::] 0%Z 0%Z) (Fp (z2 [:: 1]%Z) (z2 [:: 0; 0; 0; 1]%Z) 0%Z 1%Z))
        = Ok ([:: 1], [:: 0; 0; 0; 1], 0, 1)%Z /\
      rmap fp_show (fp_mul g16 4 (Fp (z2 [:: 0; 0; 0; 1]%Z) [::] 0%Z 0%Z) one_fp) = Ok ([:: 0; 0; 0; 1], [:: 1; 1], 0, 0)%Z /\
      rmap fp_show (fp_mul g16 4 one_fp (Fp (z2 [:: 0; 0; 0; 1]%Z) [::] 0%Z 0%Z)) = Ok ([:: 0; 0; 0; 1], [::], 0, 0)%Z /\
      rmap fp_show (fp_pow g16 4 20 (Fp (z2 [:: 1; 1]%Z) (z2 [:: 1]%Z) 0%Z 1%Z) (Fp (z2 [:: 1; 0; 1]%Z) [::] 0%Z 0%Z))
        = Ok ([:: 0; 1; 1], [:: 1; 1], 0, 1)%Z /\
      rmap fp_show (fp_div g16 4 (Fp (z2 [:: 0; 0; 0; 1]%Z) [::] 0%Z 0%Z) (Fp (z2 [:: 0; 1]%Z) [::] 0%Z 0%Z))
        = Ok ([:: 0; 0; 1], [:: 1; 1], 0, 0)%Z.
Proof. by vm_compute. Qed.
