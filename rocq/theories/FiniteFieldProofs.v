From mathcomp Require Import zify ssrZ.
From Verif Require Import Prelude BaseProofs PolyModel PolyProofs FftProofs FinFld QField Pocklington
  ModpModel ModpField IrredModel IrredProofs FiniteFieldModel.
Set Implicit Arguments.
Unset Strict Implicit.
Unset Printing Implicit Defensive.
Import GRing.Theory.
Local Open Scope ring_scope.
Local Open Scope py_scope.

Section Fq.
Variable F : finFieldType.
Variable g : seq F.
Hypothesis Ng : normal g.
Hypothesis Hirr : irreducible_poly (Poly g).
Let h := IrrP Hirr.

Definition fq_valid (x : seq F) : bool := normal x && (size x < size g)%N.
Definition toQ (x : seq F) : qp h := in_q h (Poly x).

Lemma g_size : size g = size (Poly g). Proof. exact: size_normal. Qed.
Lemma g_gt1 : (1 < size g)%N. Proof. by rewrite g_size; case: Hirr. Qed.
Lemma g_nil : g != [::]. Proof. by case: g g_gt1. Qed.

Lemma fq_polyE a : normal a -> fq_poly g a = Ok (polyseq (Poly a %% Poly g)).
Proof. by move=> Na; rewrite /fq_poly pmodE // g_nil. Qed.

Lemma valid_mod (a : {poly F}) : fq_valid (polyseq (a %% Poly g)).
Proof. by rewrite /fq_valid normal_polyseq g_size ltn_modp -size_poly_gt0 -g_size (ltn_trans _ g_gt1). Qed.

Lemma valid_small x : fq_valid x -> Poly x %% Poly g = Poly x.
Proof. by move=> /andP [Nx Hx]; rewrite modp_small // -g_size -size_normal. Qed.

Lemma fq_poly_valid a : normal a -> exists z, [/\ fq_poly g a = Ok z, fq_valid z & Poly z = Poly a %% Poly g].
Proof. by move=> Na; eexists; rewrite fq_polyE //; split=> //; [exact: valid_mod | rewrite polyseqK]. Qed.

Lemma toQ_poly a z : fq_poly g a = Ok z -> normal a -> toQ z = in_q h (Poly a).
Proof.
move=> E Na; move: E; rewrite fq_polyE // => -[<-]; apply/in_q_eq.
by rewrite polyseqK modp_mod.
Qed.

Lemma toQ_inj x y : fq_valid x -> fq_valid y -> toQ x = toQ y -> x = y.
Proof.
move=> Vx Vy /in_q_eq; rewrite [ip h]/= !valid_small // => E.
by case/andP: Vx => Nx _; case/andP: Vy => Ny _; apply: Poly_inj.
Qed.

Lemma toQ_onto (y : qp h) : fq_valid (polyseq (qval y)) /\ toQ (polyseq (qval y)) = y.
Proof.
split; first by rewrite /fq_valid normal_polyseq g_size; exact: (qvalP y).
by rewrite /toQ polyseqK qvalK.
Qed.

Lemma fq_add_ok x y : fq_valid x -> fq_valid y ->
  exists z, [/\ fq_add g x y = Ok z, fq_valid z, Poly z = Poly x + Poly y & toQ z = toQ x + toQ y].
Proof.
move=> Vx Vy; have [z [E Vz Pz]] := fq_poly_valid (normal_padd x y).
exists z; split=> //; first by rewrite Pz Poly_padd modpD !valid_small.
by rewrite (toQ_poly E) ?normal_padd // Poly_padd in_qD.
Qed.
Lemma fq_sub_ok x y : fq_valid x -> fq_valid y ->
  exists z, [/\ fq_sub g x y = Ok z, fq_valid z, Poly z = Poly x - Poly y & toQ z = toQ x - toQ y].
Proof.
move=> Vx Vy; have [z [E Vz Pz]] := fq_poly_valid (normal_psub x y).
exists z; split=> //; first by rewrite Pz Poly_psub modpD modpN !valid_small.
by rewrite (toQ_poly E) ?normal_psub // Poly_psub in_qB.
Qed.
Lemma fq_neg_ok x : fq_valid x ->
  exists z, [/\ fq_neg g x = Ok z, fq_valid z, Poly z = - Poly x & toQ z = - toQ x].
Proof.
move=> Vx; have [z [E Vz Pz]] := fq_poly_valid (normal_pneg x).
exists z; split=> //; first by rewrite Pz Poly_pneg modpN valid_small.
by rewrite (toQ_poly E) ?normal_pneg // Poly_pneg in_qN.
Qed.
Lemma fq_mul_ok x y : 
  exists z, [/\ fq_mul g x y = Ok z, fq_valid z, Poly z = (Poly x * Poly y) %% Poly g & toQ z = toQ x * toQ y].
Proof.
have [z [E Vz Pz]] := fq_poly_valid (normal_pmul x y).
exists z; split=> //; first by rewrite Pz Poly_pmul.
by rewrite (toQ_poly E) ?normal_pmul // Poly_pmul in_qM.
Qed.
Lemma fq_list_ok l : exists z, [/\ fq_list g l = Ok z, fq_valid z, Poly z = Poly l %% Poly g & toQ z = in_q h (Poly l)].
Proof.
have [z [E Vz Pz]] := fq_poly_valid (normal_pmk l).
exists z; split=> //; first by rewrite Pz Poly_pmk.
by rewrite (toQ_poly E) ?normal_pmk // Poly_pmk.
Qed.
Lemma fq_divmod_ok x y : fq_valid x -> fq_valid y -> y <> [::] ->
  exists q r, [/\ fq_divmod g x y = Ok (q, r), fq_valid q, fq_valid r,
      Poly x = Poly q * Poly y + Poly r & (size r < size y)%N].
Proof.
move=> /andP[Nx Sx] /andP[Ny Sy] /eqP ny.
have Hq : (size (Poly x %/ Poly y)%R < size g)%N.
  rewrite size_divp -?nil_Poly //; apply: leq_ltn_trans Sx.
  by rewrite -(size_normal Nx) leq_subr.
have Hr : (size (Poly x %% Poly y)%R < size y)%N.
  by rewrite [X in (_ < X)%N](size_normal Ny) ltn_modp -nil_Poly.
have [q [Eq Vq Pq]] := fq_poly_valid (normal_polyseq (Poly x %/ Poly y)).
have [r [Er Vr Pr]] := fq_poly_valid (normal_polyseq (Poly x %% Poly y)).
have Pq' : Poly q = Poly x %/ Poly y.
  by rewrite Pq polyseqK modp_small // -(size_normal Ng).
have Pr' : Poly r = Poly x %% Poly y.
  by rewrite Pr polyseqK modp_small // -(size_normal Ng); apply: ltn_trans Sy.
exists q, r; split=> //.
- by rewrite /fq_divmod pdivmodE // bind_ok Eq bind_ok Er.
- by rewrite Pq' Pr' -divp_eq.
- by rewrite (size_normal (proj1 (andP Vr))) Pr'.
Qed.
Lemma fq_const_ok c : fq_valid (fq_const c) /\ Poly (fq_const c) = c%:P.
Proof.
split; last exact: Poly_pconst.
rewrite /fq_valid normal_pmk (size_normal (normal_pmk _)) -[pmk _]/(pconst c) Poly_pconst.
by rewrite (leq_ltn_trans (size_polyC_leq1 c)) // g_gt1.
Qed.
Lemma fq_eqE x y : fq_valid x -> fq_valid y -> fq_eq x y = (toQ x == toQ y).
Proof.
move=> Vx Vy; rewrite /fq_eq peqE; apply/eqP/eqP => [-> //|]; exact: toQ_inj.
Qed.

Lemma Poly1 : Poly [:: (1 : F)] = 1.
Proof. by rewrite -(Poly_pmk [:: 1]) -[pmk _]/(pconst (1 : F)) Poly_pconst. Qed.

Lemma fq_powS f x n : fq_pow g f.+1 x n =
    if (n =? 0)%Z then fq_list g [:: 1]
    else if (n =? 1)%Z then Ok x
    else if (n mod 2 =? 0)%Z then
      let* sqrut := fq_pow g f x (n / 2)%Z in fq_mul g sqrut sqrut
    else let* r := fq_pow g f x (n - 1)%Z in fq_mul g r x.
Proof. by []. Qed.

Lemma fq_pow_ok k fuel x n : fq_valid x -> (0 <= n)%Z -> (n < 2 ^ (Z.of_nat k))%Z -> (2 * k < fuel)%N ->
  exists z, [/\ fq_pow g fuel x n = Ok z, fq_valid z & toQ z = toQ x ^+ Z.to_nat n].
Proof.
move=> Vx; elim: k fuel n => [|k IH] [//|f] n H0 Hn Hf.
  have -> : n = 0%Z by lia.
  have [z [E Vz _ Tz]] := fq_list_ok [:: 1].
  by exists z; split=> //; rewrite Tz Poly1 in_q1 expr0.
rewrite fq_powS.
case: (Z.eqb_spec n 0) => [->|Hn0].
  have [z [E Vz _ Tz]] := fq_list_ok [:: 1].
  by exists z; split=> //; rewrite Tz Poly1 in_q1 expr0.
case: (Z.eqb_spec n 1) => [->|Hn1].
  by exists x; rewrite expr1.
have Hp : (2 ^ Z.of_nat k.+1 = 2 * 2 ^ Z.of_nat k)%Z by rewrite Nat2Z.inj_succ Z.pow_succ_r; lia.
have even_case : forall f' n', (n' mod 2 = 0)%Z -> (2 <= n')%Z -> (n' < 2 ^ (Z.of_nat k.+1))%Z ->
   (2 * k < f')%N ->
   exists z, [/\ (let* s := fq_pow g f' x (n' / 2)%Z in fq_mul g s s) = Ok z, fq_valid z & toQ z = toQ x ^+ Z.to_nat n'].
  move=> f' n' Hm H2 Hlt Hf'; have Hd := Z.div_mod n' 2.
  have [|||s [-> Vs Ts]] := IH f' (n' / 2)%Z; [lia|lia|lia|].
  rewrite bind_ok; have [z [E Vz _ Tz]] := fq_mul_ok s s.
  exists z; split=> //; rewrite Tz Ts -exprD; congr (_ ^+ _); lia.
case: Z.eqb_spec => Hm; first by apply: even_case; lia.
case: f Hf => [|f] Hf; first by lia.
have Hm1 : ((n - 1) mod 2 = 0)%Z.
  rewrite Zminus_mod; have := Z.mod_pos_bound n 2; move: Hm; move: (n mod 2)%Z => r; clear; move=> H1 H2.
  by have -> : (r = 1)%Z by lia.
rewrite fq_powS.
rewrite (proj2 (Z.eqb_neq (n - 1) 0)); last by lia.
have [E1|E1] := Z.eqb_spec (n - 1) 1.
  exfalso; move: Hm1; rewrite E1; done.
rewrite (proj2 (Z.eqb_eq _ _) Hm1).
have [||||s [-> Vs Ts]] := even_case f (n - 1)%Z; [done|lia|lia|lia|].
rewrite bind_ok; have [z [E Vz _ Tz]] := fq_mul_ok s x.
exists z; split=> //; rewrite Tz Ts -exprSr; congr (_ ^+ _); lia.
Qed.

Lemma fq_pow_neg fuel x n : (n < 0)%Z -> fq_pow g fuel x n = Err RecursionError.
Proof.
elim: fuel n => [//|f IH] n Hn; rewrite fq_powS.
rewrite (proj2 (Z.eqb_neq n 0)); last by clear -Hn; lia.
rewrite (proj2 (Z.eqb_neq n 1)); last by clear -Hn; lia.
have Hd := Z.div_mod n 2; have Hb := Z.mod_pos_bound n 2.
by case: ifP => _; rewrite IH //; clear -Hn Hd Hb; lia.
Qed.

Lemma normal_nil : normal ([::] : seq F). Proof. by have := normal_polyseq (0 : {poly F}); rewrite polyseq0. Qed.

Lemma toQ_nil : toQ [::] = 0.
Proof. by rewrite /toQ -(in_q0 h). Qed.

Lemma toQ_eq0 x : fq_valid x -> (toQ x == 0) = (x == [::]).
Proof.
move=> Vx; apply/eqP/eqP => [|->]; last exact: toQ_nil.
rewrite -toQ_nil; apply: toQ_inj => //.
by rewrite /fq_valid normal_nil (ltn_trans _ g_gt1).
Qed.

Lemma fq_const0 : fq_const (0 : F) = [::].
Proof. by apply: Poly_inj; rewrite ?normal_pmk ?normal_nil // -[fq_const _]/(pconst (0 : F)) Poly_pconst. Qed.

Lemma fq_inverse_zero : fq_inverse g [::] = Err ZeroDivisionError.
Proof. by rewrite /fq_inverse fq_const0 /fq_eq peqE eqxx. Qed.

Lemma fq_inverse_ok x : fq_valid x -> x != [::] ->
  exists z, [/\ fq_inverse g x = Ok z, fq_valid z & toQ z = (toQ x)^-1].
Proof.
move=> Vx Hx; have [Nx Sx] := andP Vx.
rewrite /fq_inverse fq_const0 /fq_eq peqE (negPf Hx).
have [a [b [d [-> [Na Nb Nd] B S]]]] := peea_spec Nx Ng.
rewrite bind_ok.
have Px : Poly x != 0 by rewrite -size_poly_gt0 -size_normal // lt0n size_eq0.
have Sd : size (Poly d) = 1%N.
  have := S (Poly d); rewrite dvdpp => /esym /andP [Dx Dg].
  apply/eqP; apply: contraTT (Dx) => Hd.
  have := Hirr.2 _ Hd Dg => /eqp_dvdl ->; apply/negP => /(dvdp_leq Px).
  by rewrite -g_size -size_normal // leqNgt Sx.
have [c Ed] : exists c, d = [:: c].
  by move: Sd; rewrite -size_normal //; case: d {Nd B S} => [//|c [|//]] _; exists c.
have Pd : Poly d = c%:P by rewrite Ed; apply/polyP => -[|[|i]]; rewrite coef_Poly coefC.
have Hc : c != 0 by apply: contra_eqN Sd => /eqP E0; rewrite Pd E0 size_poly0.
rewrite Ed (_ : pdegree [:: c] = 0%Z) // (_ : (0 =? 0)%Z = true) // (_ : ~~ true = false) // bind_ok /finv (negPf Hc) bind_ok.
have [z1 [E1 V1 P1]] := fq_poly_valid Na; rewrite E1 bind_ok.
have [z [E2 V2 _ T2]] := fq_mul_ok z1 (fq_const c^-1).
exists z; split=> //.
have Ha : toQ x * toQ z1 = in_q h c%:P.
  rewrite (toQ_poly E1 Na) -in_qM -Pd -B in_qD in_qM.
  have -> : in_q h (Poly g * Poly b) = 0 by apply/eqP; rewrite in_q_eq0 dvdp_mulr.
  by rewrite addr0.
have Hxz : toQ x * toQ z = 1.
  rewrite T2 mulrA Ha /toQ (fq_const_ok _).2 -in_qM -polyCM divff // in_q1 //.
have Hn : toQ x != 0 by rewrite toQ_eq0.
by apply: (mulfI Hn); rewrite Hxz divff.
Qed.

Lemma fq_div_ok x y : fq_valid x -> fq_valid y -> y != [::] ->
  exists z, [/\ fq_div g x y = Ok z, fq_valid z & toQ z = toQ x / toQ y].
Proof.
move=> Vx Vy Hy; have [i [Ei Vi Ti]] := fq_inverse_ok Vy Hy.
have [z [E Vz _ Tz]] := fq_mul_ok x i.
by exists z; rewrite /fq_div Ei bind_ok Tz Ti.
Qed.

Lemma fq_div_zero x : fq_div g x [::] = Err ZeroDivisionError.
Proof. by rewrite /fq_div fq_inverse_zero. Qed.

(** the result of [**] in terms of plain polynomials *)
Lemma toQ_Poly z a : fq_valid z -> toQ z = in_q h a -> Poly z = a %% Poly g.
Proof. by move=> Vz /in_q_eq; rewrite [ip h]/= valid_small. Qed.

Lemma fq_pow_poly k fuel x n : fq_valid x -> (0 <= n)%Z -> (n < 2 ^ (Z.of_nat k))%Z -> (2 * k < fuel)%N ->
  exists z, [/\ fq_pow g fuel x n = Ok z, fq_valid z & Poly z = (Poly x ^+ Z.to_nat n) %% Poly g].
Proof.
move=> Vx H0 Hn Hf; have [z [E Vz Tz]] := fq_pow_ok Vx H0 Hn Hf.
by exists z; split=> //; apply: toQ_Poly => //; rewrite Tz in_qX.
Qed.

Lemma fq_inverse_poly x : fq_valid x -> x != [::] ->
  exists z, [/\ fq_inverse g x = Ok z, fq_valid z & (Poly x * Poly z) %% Poly g = 1].
Proof.
move=> Vx Hx; have [z [E Vz Tz]] := fq_inverse_ok Vx Hx; exists z; split=> //.
have : toQ x * toQ z = in_q h 1 by rewrite Tz divff ?in_q1 // toQ_eq0.
rewrite -in_qM => /in_q_eq ->; rewrite modp_small // size_poly1 -g_size; exact: g_gt1.
Qed.

Lemma fq_div_poly x y : fq_valid x -> fq_valid y -> y != [::] ->
  exists z, [/\ fq_div g x y = Ok z, fq_valid z & (Poly z * Poly y) %% Poly g = Poly x].
Proof.
move=> Vx Vy Hy; have [z [E Vz Tz]] := fq_div_ok Vx Vy Hy; exists z; split=> //.
have Hn : toQ y != 0 by rewrite toQ_eq0.
have : toQ z * toQ y = in_q h (Poly x) by rewrite Tz mulfVK.
by rewrite -in_qM => /in_q_eq; rewrite [ip h]/= => ->; rewrite valid_small.
Qed.

(** the elements are the [#|F| ^ deg g] lists *)
Lemma fq_field :
  exists (K : finFieldType) (phi : seq F -> K),
  [/\ #|{: K}| = (#|{: F}| ^ (size g).-1)%N,
      (forall x y, fq_valid x -> fq_valid y -> phi x = phi y -> x = y),
      (forall k : K, exists2 x, fq_valid x & phi x = k),
      (forall c, phi (fq_const c) = 0 <-> c = 0) /\ phi (fq_const 1) = 1 &
      forall x y, fq_valid x -> fq_valid y ->
      exists za zs zm zn,
      [/\ [/\ fq_add g x y = Ok za, fq_valid za & phi za = phi x + phi y],
          [/\ fq_sub g x y = Ok zs, fq_valid zs & phi zs = phi x - phi y],
          [/\ fq_mul g x y = Ok zm, fq_valid zm & phi zm = phi x * phi y],
          [/\ fq_neg g x = Ok zn, fq_valid zn & phi zn = - phi x] &
          (fq_eq x y = (phi x == phi y)) /\ fq_ne x y = (phi x != phi y)]].
Proof.
exists (qp_finFieldType h), toQ; split.
- by rewrite (card_qp h) -[ip h]/(Poly g) g_size.
- exact: toQ_inj.
- by move=> k; have [V E] := toQ_onto k; exists (polyseq (qval k)).
- split; last by rewrite /toQ (fq_const_ok _).2 in_q1.
  move=> c; have [V Pc] := fq_const_ok c; split=> [/eqP|->]; last by rewrite fq_const0 toQ_nil.
  rewrite toQ_eq0 // => /eqP E; move: Pc; rewrite E => /esym/eqP; rewrite polyC_eq0; by move/eqP.
move=> x y Vx Vy.
have [za [Ea Va _ Ta]] := fq_add_ok Vx Vy; have [zs [Es Vs _ Ts]] := fq_sub_ok Vx Vy.
have [zm [Em Vm _ Tm]] := fq_mul_ok x y; have [zn [En Vn _ Tn]] := fq_neg_ok Vx.
by exists za, zs, zm, zn; split=> //; rewrite /fq_ne fq_eqE.
Qed.
Lemma fq_enum : exists s : seq (seq F),
  [/\ uniq s, (forall x, (x \in s) = fq_valid x) & size s = (#|{: F}| ^ (size g).-1)%N].
Proof.
exists [seq polyseq (qval y) | y <- enum [set: qp h]]; split.
- rewrite map_inj_uniq ?enum_uniq // => a b E; apply: qval_inj; exact: val_inj.
- move=> x; apply/mapP/idP => [[y _ ->]|Vx]; first by case: (toQ_onto y).
  exists (toQ x); first by rewrite mem_enum inE.
  have [V1 E1] := toQ_onto (toQ x); apply: toQ_inj => //.
- by rewrite size_map -cardE cardsT (card_qp h) -[ip h]/(Poly g) g_size.
Qed.
End Fq.

Lemma py_nth_ok (A : Type) (d : A) (l : seq A) i : (i < size l)%N -> py_nth l (Z.of_nat i) = Ok (nth d l i).
Proof.
move=> Hi; apply: py_nth_nat.
by elim: l i Hi => [//|a l IH] [|i] Hi //=; exact: IH.
Qed.

Lemma modp_natr (P : primeZ) n : (n%:R : modp_fieldType P) = in_modp P (Z.of_nat n).
Proof.
elim: n => [|n IH]; first by apply: mval_inj.
rewrite mulrSr IH; apply: mval_inj; rewrite [LHS]/= Nat2Z.inj_succ [RHS]/=.
by rewrite -Zplus_mod.
Qed.

Lemma modp_char (P : primeZ) : #|{: modp P}| \in [char modp_fieldType P].
Proof.
rewrite card_modp inE; apply/andP; split; first by apply: prime_Z_nat; exact: pz_prime.
apply/eqP; rewrite modp_natr Z2Nat.id; last by have := p_gt1 P; lia.
by apply: mval_inj; rewrite /= Z.mod_same ?Zmod_0_l //; have := p_gt1 P; lia.
Qed.

Lemma add_top (K : fieldType) (x y z : seq K) : normal z -> z != [::] -> Poly z = Poly x + Poly y ->
  exists k, [/\ size z = k.+1, nth 0 x k + nth 0 y k != 0 &
    forall i, (k < i)%N -> nth 0 x i + nth 0 y i = 0].
Proof.
move=> Nz Hz Pz.
have Hcoef i : nth 0 z i = nth 0 x i + nth 0 y i by have := congr1 (fun q : {poly K} => q`_i) Pz; rewrite coefD !coef_Poly.
have [k Hk] : exists k, size z = k.+1 by case: z Hz {Hcoef Pz Nz} => [//|c z] _; exists (size z).
exists k; split=> //.
  by rewrite -Hcoef; move: Nz; rewrite /normal -nth_last Hk /= (set_nth_default 0) ?Hk.
by move=> i Hi; rewrite -Hcoef nth_default // Hk.
Qed.

Section BinaryP.
Variable P : primeZ.
Hypothesis P2 : pz P = 2%Z.
Local Notation F := (modp_finFieldType P).

(** the integer whose base-two digits are the coefficients *)
Definition bits_val (x : seq (modp P)) : Z := foldr (fun c acc => (mval c + 2 * acc)%Z) 0%Z x.

Lemma bits_cons c x : bits_val (c :: x) = (mval c + 2 * bits_val x)%Z. Proof. by []. Qed.

Lemma bitP (c : modp P) : (mval c = 0 \/ mval c = 1)%Z.
Proof. have := mvalP c; rewrite P2; lia. Qed.

Lemma digit0E (c : modp P) : digit0 c = mval c.
Proof. by rewrite /digit0; case: (bitP c) => ->. Qed.

Lemma bits_ge0 x : (0 <= bits_val x)%Z.
Proof. elim: x => [//|c x IH]; rewrite bits_cons; case: (bitP c) => ->; lia. Qed.

Lemma bits_lt x : (bits_val x < 2 ^ Z.of_nat (size x))%Z.
Proof.
elim: x => [//|c x IH]; rewrite [size _]/= Nat2Z.inj_succ Z.pow_succ_r; last by lia.
rewrite bits_cons; case: (bitP c) => ->; lia.
Qed.

Lemma bits_nth_lt d x y : size x = size y -> (d < size x)%N ->
  (forall i, (d < i)%N -> nth 0 x i = nth 0 y i :> modp P) ->
  mval (nth (0 : modp P) x d) = 0%Z -> mval (nth (0 : modp P) y d) = 1%Z -> (bits_val x < bits_val y)%Z.
Proof.
elim: x y d => [//|a x IH] [//|b y] [|d] [Hs] Hd Hi Hx Hy; rewrite !bits_cons.
  have -> : x = y by apply: (eq_from_nth (x0 := 0)) => // i Hix; exact: (Hi i.+1).
  have {Hx} -> : mval a = 0%Z by []. have {Hy} -> : mval b = 1%Z by []. lia.
have H := IH y d Hs Hd (fun i Hlt => Hi i.+1 Hlt) Hx Hy.
by case: (bitP a) => ->; case: (bitP b) => ->; lia.
Qed.

Lemma bits_lead x : normal x -> x != [::] -> (2 ^ Z.of_nat (size x).-1 <= bits_val x)%Z.
Proof.
elim: x => [//|a [|b x] IH] N _; rewrite bits_cons.
  case: (bitP a) => Ha; last by rewrite Ha.
  by move: N; rewrite /normal /=; case/eqP; apply: mval_inj.
have := IH N isT; rewrite (_ : (size [:: a, b & x]).-1 = (size (b :: x)).-1.+1) //.
rewrite Nat2Z.inj_succ Z.pow_succ_r; last by lia.
by case: (bitP a) => ->; lia.
Qed.

Lemma bits_inj x y : normal x -> normal y -> bits_val x = bits_val y -> x = y.
Proof.
elim: x y => [|a x IH] [|b y] Nx Ny //.
- by have := bits_lead Ny isT; have := Z.pow_pos_nonneg 2 (Z.of_nat (size (b :: y)).-1) ltac:(lia) ltac:(lia); move: (2 ^ _)%Z => t; change (bits_val [::]) with 0%Z; lia.
- by have := bits_lead Nx isT; have := Z.pow_pos_nonneg 2 (Z.of_nat (size (a :: x)).-1) ltac:(lia) ltac:(lia); move: (2 ^ _)%Z => t; change (bits_val [::]) with 0%Z; lia.
rewrite !bits_cons => E.
have Eab : mval a = mval b by case: (bitP a) (bitP b) => [] Ha [] Hb; lia.
rewrite (mval_inj Eab); congr (_ :: _).
case: x IH Nx E => [|a' x] IH Nx E; case: y Ny E => [|b' y] Ny E //.
- by apply: IH => //; [rewrite /normal /= oner_eq0|lia].
- by apply: IH => //; [rewrite /normal /= oner_eq0|lia].
- by apply: IH => //; lia.
Qed.

Section WithG.
Variable g : seq F.
Hypothesis Ng : normal g.
Hypothesis Hirr : irreducible_poly (Poly g).

Lemma char2 (a b : modp P) : (a + b = 0 -> a = b).
Proof.
move=> /(congr1 (@mval P)) /=; rewrite P2 => H; apply: mval_inj; move: H.
by case: (bitP a) (bitP b) => -> [] ->.
Qed.
Lemma char2_neq (a b : modp P) : (a + b != 0 -> mval a <> mval b).
Proof.
by move=> H E; case/eqP: H; apply: mval_inj; rewrite /= P2 E; case: (bitP b) => ->.
Qed.

Lemma pdegreeE (x : seq F) : pdegree x = (Z.of_nat (size x) - 1)%Z.
Proof. by []. Qed.

Lemma fq_LT_spec x y : fq_valid g x -> fq_valid g y ->
  fq_LT g x y = Ok (if (bits_val x <=? bits_val y)%Z then 1%Z else 0%Z).
Proof.
move=> Vx Vy; have [Nx Sx] := andP Vx; have [Ny Sy] := andP Vy.
have big a b : normal a -> (size b < size a)%N -> (bits_val b < bits_val a)%Z.
  move=> Na Hs; have Ha : a != [::] by case: a Hs {Na}.
  have H1 := bits_lead Na Ha; have H2 := bits_lt b.
  have H3 : (2 ^ Z.of_nat (size b) <= 2 ^ Z.of_nat (size a).-1)%Z.
    by apply: Z.pow_le_mono_r => //; move: Hs; move: (size a) (size b) => m n; lia.
  lia.
rewrite /fq_LT !pdegreeE; case: Z.ltb_spec => H1.
  rewrite (proj2 (Z.leb_gt _ _)) //; apply: big => //; move: H1; move: (size x) (size y) => m n; lia.
case: Z.ltb_spec => H2.
  rewrite (proj2 (Z.leb_le _ _)) //; apply: Z.lt_le_incl; apply: big => //; move: H2; move: (size x) (size y) => m n; lia.
have Es : size x = size y by move: H1 H2; move: (size x) (size y) => m n; lia.
have [z [-> Vz Pz _]] := fq_add_ok Ng Hirr Vx Vy; rewrite bind_ok.
rewrite fq_const0 /fq_eq peqE; have [Ez|Hz] := boolP (z == [::]).
  rewrite (_ : x = y) ?Z.leb_refl //.
  case/andP: Vx => ? _; case/andP: Vy => ? _; apply: Poly_inj => //.
  apply/polyP => i; move: Pz; rewrite (eqP Ez) => /polyP/(_ i); rewrite coefD coef0 => /esym.
  exact: char2.
have [Nz _] := andP Vz.
have [k [Hk Hkd Hab0]] := add_top Nz Hz Pz.
have Hd : pdegree z = Z.of_nat k by rewrite pdegreeE Hk; clear; lia.
have Hkx : (k < size x)%N.
  by rewrite ltnNge; apply: contraNN Hkd => Hle; rewrite !nth_default ?addr0 // -?Es.
have Hab i : (k < i)%N -> nth (0 : modp P) x i = nth 0 y i.
  by move=> Hi; exact: char2 (Hab0 i Hi).
rewrite Hd (py_nth_ok 0) // bind_ok (py_nth_ok 0) -?Es // bind_ok !digit0E.
have := char2_neq Hkd.
case: (bitP (nth (0 : F) x k)) => Ha; case: (bitP (nth (0 : F) y k)) => Hb; rewrite Ha Hb // => _.
  have H := bits_nth_lt Es Hkx Hab Ha Hb.
  by rewrite (proj2 (Z.leb_le _ _)) //; lia.
have H := bits_nth_lt (esym Es) _ (fun i Hi => esym (Hab i Hi)) Hb Ha.
by rewrite (proj2 (Z.leb_gt _ _)) //; apply: H; rewrite -Es.
Qed.

(** strings of binary digits, least significant first *)
Definition bval (l : seq bool) : Z := foldr (fun b acc => ((if b then 1 else 0) + 2 * acc)%Z) 0%Z l.

Lemma bval_cons b l : bval (b :: l) = ((if b then 1 else 0) + 2 * bval l)%Z. Proof. by []. Qed.

Lemma bval_cat l r : bval (l ++ r) = (bval l + 2 ^ Z.of_nat (size l) * bval r)%Z.
Proof.
elim: l => [|b l IH]; first by rewrite cat0s /=; case: (bval r).
rewrite cat_cons !bval_cons IH [size _]/= Nat2Z.inj_succ Z.pow_succ_r; last by clear; lia.
move: (2 ^ _)%Z => t; nia.
Qed.

Lemma bval_nseq n : bval (nseq n false) = 0%Z.
Proof. by elim: n => [//|n IH]; rewrite [nseq _ _]/= bval_cons IH. Qed.

Lemma bval_rev_zfill n s : bval (rev (zfill n s)) = bval (rev s).
Proof. by rewrite /zfill rev_cat bval_cat rev_nseq bval_nseq Z.mul_0_r Z.add_0_r. Qed.

Lemma size_zfill n s : (size s <= n)%N -> size (zfill n s) = n.
Proof. by move=> H; rewrite /zfill size_cat size_nseq subnK. Qed.

Definition add_step (x y : seq bool) (st : seq bool * nat) (i : nat) : seq bool * nat :=
  let r := (st.2 + nth false x i + nth false y i)%N in
  (odd r :: st.1, if (r < 2)%N then 0%N else 1%N).

Lemma add_fold x y : size x = size y ->
  let: (res, carry) := foldl (add_step x y) ([::], 0%N) (rev (iota 0 (size x))) in
  [/\ size res = size x, (carry <= 1)%N &
     (bval (rev res) + Z.of_nat carry * 2 ^ Z.of_nat (size x) = bval (rev x) + bval (rev y))%Z].
Proof.
elim: x y => [|a x IH] [|b y] // [Hs].
rewrite [iota _ _]/= -[1%N]/(1 + 0)%N iotaDl rev_cons -map_rev foldl_rcons.
have E : foldl (add_step (a :: x) (b :: y)) ([::], 0%N) [seq (1 + i)%N | i <- rev (iota 0 (size x))] =
   foldl (add_step x y) ([::], 0%N) (rev (iota 0 (size x))).
  move: (rev _) ([::], 0%N); elim=> [//|i l IHl] st; rewrite [map _ _]/= [LHS]/= [RHS]/=; exact: IHl.
rewrite E; have := IH y Hs; case: (foldl _ _ _) => res c [H1 H2 H3].
rewrite /add_step [nth _ _ _]/= [nth _ (b :: y) _]/= [fst _]/= [snd _]/=; split.
- by rewrite /= H1.
- by case: ifP.
rewrite !rev_cons -!cats1 !bval_cat !size_rev H1 -Hs [size (a :: x)]/= Nat2Z.inj_succ Z.pow_succ_r; last by clear; lia.
rewrite !bval_cons; move: H3; change (bval [::]) with 0%Z; move: (2 ^ _)%Z (bval _) (bval _) (bval _) => t u v w.
have : ((if odd (c + a + b)%N then 1 else 0) + 2 * Z.of_nat (if (c + a + b < 2)%N then 0%N else 1%N) =
        Z.of_nat c + (if a then 1 else 0) + (if b then 1 else 0))%Z.
  by case: c H2 => [|[|//]] _; case: a {IH E}; case: b.
move: (if odd _ then _ else _) (Z.of_nat (if _ then _ else _)) (if a then 1 else 0)%Z (if b then 1 else 0)%Z => o d a' b'.
move: (Z.of_nat c) => c' H H3; clear -H H3.
have := congr1 (Z.mul t) H; rewrite !Z.mul_add_distr_l; move: H3; nia.
Qed.

Lemma add_binary_val x y : bval (add_binary_nums x y) = (bval (rev x) + bval (rev y))%Z.
Proof.
rewrite /add_binary_nums -/(add_step _ _).
set n := maxn _ _; have Hx : size (zfill n x) = n by rewrite size_zfill // leq_maxl.
have Hy : size (zfill n y) = n by rewrite size_zfill // leq_maxr.
have := @add_fold (zfill n x) (zfill n y); rewrite Hx Hy => /(_ erefl).
rewrite -/(add_step _ _); case: (foldl _ _ _) => res c [H1 H2 H3].
rewrite bval_rev_zfill -(bval_rev_zfill n x) -(bval_rev_zfill n y) -H3.
case: c H2 {H3} => [|[|//]] _.
  by rewrite Z.mul_0_l Z.add_0_r.
by rewrite [_ != _]/= rev_cons -cats1 bval_cat size_rev H1 Z.mul_1_l /= Z.mul_1_r.
Qed.

Definition bit_el (b : bool) : modp P := in_modp P (if b then 1 else 0)%Z.
Lemma mval_bit b : mval (bit_el b) = (if b then 1 else 0)%Z.
Proof. by rewrite /= P2; case: b. Qed.

Lemma bits_map l : bits_val [seq bit_el b | b <- l] = bval l.
Proof. by elim: l => [//|b l IH]; rewrite [map _ _]/= bits_cons bval_cons IH mval_bit. Qed.

Lemma bval_str (x : seq (modp P)) : bval [seq (digit0 c =? 1)%Z | c <- x] = bits_val x.
Proof.
elim: x => [//|c x IH]; rewrite [map _ _]/= bits_cons bval_cons IH digit0E.
by case: (bitP c) => ->.
Qed.

(** [Regular_Binary_Addition] is the binary expansion of the integer sum, reduced *)
Lemma regular_add_spec x y : fq_valid g x -> fq_valid g y ->
  exists (l : seq (modp P)) z,
  [/\ bits_val l = (bits_val x + bits_val y)%Z, regular_binary_addition g x y = Ok z,
      fq_valid g z & Poly z = Poly (l : seq F) %% Poly g].
Proof.
move=> Vx Vy; rewrite /regular_binary_addition.
set l := add_binary_nums _ _.
have Hl : bval l = (bits_val x + bits_val y)%Z by rewrite add_binary_val !revK !bval_str.
have [z [E Vz Pz _]] := fq_list_ok Ng Hirr [seq bit_el b | b <- l].
by exists [seq bit_el b | b <- l], z; split=> //; rewrite bits_map.
Qed.

Lemma bits_pmk (l : seq F) : bits_val (pmk l) = bits_val l.
Proof.
rewrite pmkE; elim: l => [|c l IH]; first by rewrite polyseq0.
rewrite bits_cons -IH [Poly _]/= polyseq_cons; case: ifP => [//|/nilP H]; rewrite H polyseqC.
have [->|Hc] := eqVneq c 0; first by [].
by rewrite bits_cons.
Qed.

Lemma regular_add_small x y : fq_valid g x -> fq_valid g y ->
  (bits_val x + bits_val y < 2 ^ Z.of_nat (size g).-1)%Z ->
  exists z, [/\ regular_binary_addition g x y = Ok z, fq_valid g z & bits_val z = (bits_val x + bits_val y)%Z].
Proof.
move=> Vx Vy Hlt; have [l [z [Hl E Vz Pz]]] := regular_add_spec Vx Vy.
exists z; split=> //; rewrite -Hl -(bits_pmk l); congr (bits_val _).
have [Nz _] := andP Vz; apply: Poly_inj; rewrite ?normal_pmk // Poly_pmk Pz modp_small //.
have [E0|H0] := eqVneq (pmk (l : seq F)) [::].
  by rewrite -(Poly_pmk l) E0 polyseq0 size_poly_gt0; case: Hirr => H _; rewrite -size_poly_gt0 (ltn_trans _ H).
rewrite -(Poly_pmk l) -!size_normal ?normal_pmk //.
have H1 := bits_lead (normal_pmk _) H0; move: H1; rewrite bits_pmk Hl => H1.
have H2 : (2 ^ Z.of_nat (size (pmk (l : seq F))).-1 < 2 ^ Z.of_nat (size g).-1)%Z by exact: Z.le_lt_trans H1 Hlt.
move/(Z.pow_lt_mono_r_iff 2 _ _ ltac:(done) (Nat2Z.is_nonneg _)): H2.
have := g_gt1 Ng Hirr; move: (size g) (size (pmk _)) => m n; clear; lia.
Qed.

Lemma Poly_pow k : Poly (num_to_binary_list_pow P k : seq F) = 'X^k.
Proof.
apply/polyP => i; rewrite coef_Poly coefXn /num_to_binary_list_pow nth_cat size_nseq.
have [Hi|Hi] := ltnP i k; first by rewrite nth_nseq Hi (ltn_eqF Hi).
have [->|Hn] := eqVneq i k; first by rewrite subnn.
have : (0 < i - k)%N by rewrite subn_gt0 ltn_neqAle eq_sym Hn Hi.
by case: (i - k)%N => [//|[|j]].
Qed.

(** the exponent [two_pow] computes *)
Definition two_pow_exp (x : seq F) : nat := \sum_(0 <= i < size x | nth 0 x i == 1) i.+1.

Lemma two_pow_spec x : exists z, [/\ two_pow g x = Ok z, fq_valid g z &
  Poly z = 'X^(two_pow_exp x) %% Poly g].
Proof.
rewrite /two_pow; have [z0 [-> V0 _ T0]] := fq_list_ok Ng Hirr [:: 1]; rewrite bind_ok.
move: T0; rewrite Poly1 -[1]/('X^0) => T0.
suff loop l z e : (forall i, i \in l -> (i < size x)%N) -> fq_valid g z -> toQ Hirr z = in_q (IrrP Hirr) 'X^e ->
  exists z', [/\ foldM (fun num i =>
    let* c := py_nth x (Z.of_nat i) in
    if (digit0 c =? 1)%Z then
      let* l := fq_list g (num_to_binary_list_pow P i.+1) in
      fq_mul g num l
    else Ok num) l z = Ok z', fq_valid g z' & toQ Hirr z' = in_q (IrrP Hirr) 'X^(e + \sum_(i <- l | nth 0 x i == 1) i.+1)].
  have [|z [E V T]] := loop (iota 0 (size x)) z0 0%N _ V0 T0; first by move=> i; rewrite mem_iota.
  exists z; split=> //; apply: (toQ_Poly Ng V); rewrite T add0n /two_pow_exp /index_iota subn0 //.
elim: l z e => [|i l IH] z e Hl V T.
  by exists z; split=> //; rewrite big_nil addn0.
have Hi := Hl i (mem_head _ _).
have Hl' j : j \in l -> (j < size x)%N by move=> Hj; apply: Hl; rewrite inE Hj orbT.
rewrite [foldM _ _ _]/= (py_nth_ok 0 Hi) bind_ok digit0E big_cons.
have Hb : (mval (nth (0%R : F) x i) =? 1)%Z = (nth 0 x i == 1).
  apply/Z.eqb_spec/eqP => [H|->]; first by apply: mval_inj; rewrite H /= P2.
  by rewrite /= P2.
rewrite Hb; case: ifP => _; last exact: IH.
have [l1 [-> V1 _ T1]] := fq_list_ok Ng Hirr (num_to_binary_list_pow P i.+1); rewrite bind_ok.
have [z1 [-> V2 _ T2]] := fq_mul_ok Ng Hirr z l1.
have [|z' [E V' T']] := IH z1 (e + i.+1)%N Hl' V2.
  by rewrite T2 T T1 Poly_pow -in_qM exprD.
by exists z'; split=> //; rewrite T' addnA.
Qed.

(** the number four: the code's 2^4 is [x^3], never [x^4] *)
Lemma two_pow_four : (3 < size g)%N ->
  exists z z4, [/\ two_pow g [:: 0; 0; 1] = Ok z, fq_pow g 7 [:: 0; 1] 4 = Ok z4 & z <> z4].
Proof.
move=> Hg; have [z [E V Pz]] := two_pow_spec [:: 0; 0; 1].
have Vx : fq_valid g [:: 0; 1] by rewrite /fq_valid (ltn_trans _ Hg) // /normal /= oner_eq0.
have [|||z4 [E4 V4 P4]] := @fq_pow_poly _ g Ng Hirr 3 7 [:: 0; 1] 4 Vx => //.
exists z, z4; split=> // Ez; move: Pz P4; rewrite Ez.
have -> : two_pow_exp [:: 0; 0; 1] = 3%N.
  rewrite /two_pow_exp /= !big_cons big_nil /= eqxx.
  by rewrite ![0 == 1]eq_sym oner_eq0.
have -> : Poly ([:: 0; 1] : seq F) = 'X.
  by apply/polyP => -[|[|i]]; rewrite coef_Poly coefX // /= nth_nil.
move=> -> /eqP; rewrite -[Z.to_nat 4]/4%N eq_sym -subr_eq0 -modpN -modpD => /eqP/modp_eq0P.
rewrite (_ : 'X^4 - 'X^3 = 'X^3 * ('X - 1)); last by rewrite mulrBr mulr1 -exprSr.
have Hnd (q : {poly F}) : q != 0 -> (size q <= 2)%N -> ~~ (Poly g %| q).
  by move=> Hq Hs; apply/negP => /(dvdp_leq Hq); rewrite -g_size // leqNgt (leq_ltn_trans Hs) // ltnW.
have HX : coprimep (Poly g) 'X.
  apply: contraT => Hc; have HgX : ~~ (Poly g %| 'X) by rewrite Hnd ?polyX_eq0 ?size_polyX.
  by rewrite -(eqp_dvdl _ (Hirr.2 _ Hc (dvdp_gcdl _ _))) dvdp_gcdr in HgX.
rewrite Gauss_dvdpr; last by apply: coprimep_expr.
by apply/negP; apply: Hnd; rewrite ?polyXsubC_eq0 ?size_XsubC.
Qed.
End WithG.
End BinaryP.

(** Statements over Z/p *)
Section OverZp.
Variable P : primeZ.
Local Notation F := (modp_finFieldType P).
Let p := pz P.

Lemma card_p : p = Z.of_nat #|F|.
Proof. by rewrite card_modp Z2Nat.id //; have := p_gt1 P; rewrite /p; lia. Qed.

Lemma zp_is_irreducible (f : seq F) : normal f -> (1 < size f)%N ->
  exists b, is_irreducible f p = Ok b /\ (b <-> irreducible_poly (Poly f)).
Proof. by apply: is_irreducible_spec; [exact: modp_char | exact: card_p]. Qed.

Lemma zp_is_primitive (factorint : Z -> seq Z) (f : seq F) (m : nat) :
  normal f -> size f = m.+1 -> (0 < m)%N -> ~~ (Poly f %| 'X) ->
  (forall n q, (1 <= n)%Z -> reflect (Znumtheory.prime q /\ (q | n)%Z) (q \in factorint n)) ->
  exists b, is_primitive factorint f p (Z.of_nat m) = Ok b /\
    (b <-> [/\ irreducible_poly (Poly f), Poly f %| 'X^((Z.to_nat p ^ m).-1) - 1 &
              forall k, (0 < k < (Z.to_nat p ^ m).-1)%N -> ~~ (Poly f %| 'X^k - 1)]).
Proof.
rewrite -[Z.to_nat p](card_modp P); apply: is_primitive_spec; [exact: modp_char | exact: card_p].
Qed.

Lemma zp_is_primitive_X (factorint : Z -> seq Z) :
  (forall n q, (1 <= n)%Z -> reflect (Znumtheory.prime q /\ (q | n)%Z) (q \in factorint n)) ->
  is_primitive factorint (poly_x F) p 1 = Ok true.
Proof. exact: is_primitive_X card_p. Qed.

Lemma zp_generate fuel k j factorint draw draw2 d (f : seq F) : (0 < d)%N ->
  (generate_irreducible fuel k draw p d = Ok f \/ generate_primitive fuel j factorint draw2 p d = Ok f) ->
  [/\ normal f, size f = d.+1, last 0 f = 1 & irreducible_poly (Poly f)].
Proof.
move=> Hd H.
have [Nf Hs Hl Hi] : [/\ normal f, size f = d.+1, last 0 f = 1 & is_irreducible f p = Ok true].
  by case: H => [/generate_irreducible_spec [] | /generate_primitive_spec []].
split=> //; have [|b [E Hb]] := @zp_is_irreducible f Nf; first by rewrite Hs ltnS.
by apply/Hb; move: E; rewrite Hi => -[<-].
Qed.

Lemma zp_finite_field m (g : seq F) gen : normal g -> (1 < size g)%N -> m <> 1%Z ->
  (irreducible_poly (Poly g) -> finite_field p m (Some g) gen = Ok (CFq g)) /\
  (~ irreducible_poly (Poly g) -> finite_field p m (Some g) gen = Err ValueError).
Proof.
move=> Ng Hg Hm; have [b [E Hb]] := zp_is_irreducible Ng Hg.
rewrite /finite_field E bind_ok; split=> H.
  by move/Hb: H => ->; rewrite bind_ok (proj2 (Z.eqb_neq _ _) Hm).
by case: b E Hb => // _ [Hb _]; case: H; exact: Hb.
Qed.

Lemma zp_finite_field_size m (g : seq F) gen : normal g -> irreducible_poly (Poly g) -> (0 <= m)%Z -> m <> 1%Z ->
  finite_field p m (Some g) gen = Ok (CFq g) /\
  exists s : seq (seq F), [/\ uniq s, (forall x, (x \in s) = fq_valid g x) &
     (Z.of_nat (size s) = field_size p m <-> m = pdegree g)].
Proof.
move=> Ng Hirr H0 Hm; have Hg := g_gt1 Ng Hirr.
split; first by apply: (proj1 (@zp_finite_field m g gen Ng Hg Hm)).
have [s [U M S]] := fq_enum Ng Hirr; exists s; split=> //; rewrite {}S card_modp /field_size /pdegree /pabs.
have Hp := p_gt1 P; have Ep : Z.of_nat (Z.to_nat p) = p by rewrite Z2Nat.id // /p; lia.
move: Hg Ep; rewrite -/p; move: (size g) (Z.to_nat p) => k n Hk Ep.
have -> : Z.of_nat (n ^ k.-1)%N = (p ^ (Z.of_nat k - 1))%Z.
  rewrite -Ep (_ : (Z.of_nat k - 1)%Z = Z.of_nat k.-1); last by move: Hk; clear; lia.
  elim: k.-1 => [//|j IH]; rewrite expnS Nat2Z.inj_mul IH Nat2Z.inj_succ Z.pow_succ_r //; lia.
split=> [|->] //; move/Z.pow_inj_r; rewrite -/p in Hp; move=> H; rewrite H //; move: Hk; clear; lia.
Qed.

Lemma zp_finite_field_const m (c : F) gen : c != 0 -> m <> 1%Z ->
  finite_field p m (Some [:: c]) gen = Ok (CFq [:: c]) /\
  forall l : seq F, fq_list [:: c] l = Ok [::].
Proof.
move=> Hc Hm; rewrite /finite_field is_irreducible_small // bind_ok bind_ok (proj2 (Z.eqb_neq _ _) Hm); split=> // l.
rewrite /fq_list pmodE ?normal_pmk // ?/normal //.
have -> : Poly [:: c] = c%:P by apply/polyP => -[|[|i]]; rewrite coef_Poly coefC.
by rewrite modpC // polyseq0.
Qed.
End OverZp.
