(** Proofs about starks/rationals_modp.py. *)
From mathcomp Require Import zify.
From Verif Require Import Prelude BaseProofs EuclidModel EuclidProofs PowModel PowProofs
  ModpModel ModpField Pocklington FftProofs RationalModel.
Set Implicit Arguments.
Unset Strict Implicit.
Unset Printing Implicit Defensive.
Import GRing.Theory.
Local Open Scope ring_scope.
Local Open Scope py_scope.

Section Rat.
Variable P : primeZ.
Let p := pz P.
Local Notation F := (modp_fieldType P).

(** an element the class can hold with a denominator that is non-zero mod p *)
Definition rat_ok (x : rat) : Prop :=
  (0 <= x.1 < pz P)%Z /\ (0 < x.2 < pz P)%Z /\ Z.gcd x.1 x.2 = 1%Z.
(** the residue it denotes *)
Definition frac (x : rat) : F := in_modp P x.1 / in_modp P x.2.

Lemma in_modpD (a b : Z) : in_modp P (a + b) = (in_modp P a + in_modp P b).
Proof. by apply: mval_inj; rewrite /= -Zplus_mod. Qed.
Lemma in_modpN (a : Z) : in_modp P (- a) = - in_modp P a.
Proof.
apply: mval_inj; rewrite /= -(Zminus_mod_idemp_r 0) //.
Qed.
Lemma in_modpB (a b : Z) : in_modp P (a - b) = (in_modp P a - in_modp P b).
Proof. by rewrite -in_modpN -in_modpD. Qed.
Lemma in_modp_mod (a : Z) : in_modp P (a mod pz P) = in_modp P a.
Proof. by apply: mval_inj; rewrite /= Zmod_mod. Qed.
Lemma in_modp_eq0 (a : Z) : (in_modp P a == 0) = (a mod pz P =? 0)%Z.
Proof.
apply/eqP/Z.eqb_spec => [/(congr1 (@mval P)) /=|H]; first by rewrite Zmod_0_l.
by apply: mval_inj; rewrite /= Zmod_0_l.
Qed.
Lemma in_modp_neq0 (a : Z) : (0 < a < pz P)%Z -> in_modp P a != 0.
Proof. by move=> H; rewrite in_modp_eq0 Z.mod_small; lia. Qed.

Lemma floordiv_ok a b : (0 < b)%Z -> floordiv a b = Ok (a / b)%Z.
Proof. by move=> H; rewrite /floordiv; case: Z.eqb_spec => // E; lia. Qed.

Lemma reduce_parts num den : (0 <= num < pz P)%Z -> (0 < den < pz P)%Z ->
  let g := Z.gcd num den in
  [/\ (0 < g < pz P)%Z, gcd_int num den = Ok g, rat_ok (num / g, den / g)%Z &
      frac (num / g, den / g)%Z = frac (num, den)].
Proof.
move=> Hn Hd g.
have Hg : (0 < g)%Z.
  by have := Z.gcd_nonneg num den; have := Z.gcd_eq_0_r num den; rewrite -/g; lia.
have [a Ea] := Z.gcd_divide_l num den; have [b Eb] := Z.gcd_divide_r num den.
rewrite -/g in Ea Eb.
have Da : (num / g = a)%Z by rewrite Ea Z.div_mul //; lia.
have Db : (den / g = b)%Z by rewrite Eb Z.div_mul //; lia.
have Hb : (0 < b <= den)%Z by nia.
have Ha : (0 <= a <= num)%Z by nia.
have Hgd : (g <= den)%Z by nia.
have Hgp : (0 < g < pz P)%Z by lia.
split=> //; first by rewrite gcd_int_nonneg //; lia.
  rewrite /rat_ok Da Db /=; split; first by lia.
  split; first by lia.
  by rewrite -Da -Db Z.gcd_div_gcd //; lia.
rewrite /frac Da Db [(num, den).1]/= [(num, den).2]/= Ea Eb !in_modpM [RHS]/=.
by rewrite invfM mulrACA divff ?mulr1 // in_modp_neq0.
Qed.

Lemma rat_mk_ok m n : (n mod pz P <> 0)%Z ->
  exists z, [/\ rat_mk (pz P) m n = Ok z, rat_ok z & frac z = in_modp P m / in_modp P n].
Proof.
move=> Hn; have Hp := p_gt1 P; rewrite /rat_mk.
have -> : (pz P =? 0)%Z = false by lia.
have Hm := Z.mod_pos_bound m (pz P) ltac:(lia); have Hn' := Z.mod_pos_bound n (pz P) ltac:(lia).
have [Hg Eg Hok Hf] := @reduce_parts (m mod pz P)%Z (n mod pz P)%Z Hm ltac:(lia).
rewrite /rat_reduce Eg bind_ok (_ : (Z.gcd _ _ =? 0)%Z = false); last by lia.
rewrite !floordiv_ok ?bind_ok ?[let* _ := Ok _ in _]bind_ok; try by lia.
eexists; split; first by []; first exact: Hok.
by rewrite Hf /frac !in_modp_mod.
Qed.

Lemma reduce_mk num den : (0 <= num < pz P)%Z -> (0 < den < pz P)%Z ->
  exists z, [/\ (let* common := gcd_int num den in
     let* a := floordiv num common in
     let* b := floordiv den common in
     rat_mk (pz P) a b) = Ok z, rat_ok z & frac z = in_modp P num / in_modp P den].
Proof.
move=> Hn Hd; have [Hg -> [H1 [H2 H3]] Hf] := reduce_parts Hn Hd.
rewrite bind_ok floordiv_ok ?bind_ok ?floordiv_ok ?bind_ok; try by lia.
have [|z [E Hz Fz]] := @rat_mk_ok (num / Z.gcd num den)%Z (den / Z.gcd num den)%Z.
  by rewrite Z.mod_small; move: H2; rewrite /=; lia.
by exists z; split=> //; rewrite Fz; exact: Hf.
Qed.

Lemma den_neq0 x : rat_ok x -> in_modp P x.2 != 0.
Proof. by move=> [_ [H _]]; exact: in_modp_neq0. Qed.

Lemma den_mul x y : rat_ok x -> rat_ok y -> (0 < (x.2 * y.2) mod pz P < pz P)%Z.
Proof.
move=> Hx Hy; have Hp := p_gt1 P.
have Hb := Z.mod_pos_bound (x.2 * y.2) (pz P) ltac:(lia).
suff : ((x.2 * y.2) mod pz P <> 0)%Z by lia.
move=> E; have : in_modp P (x.2 * y.2) == 0 by rewrite in_modp_eq0; apply/Z.eqb_spec.
by rewrite in_modpM mulf_eq0 (negPf (den_neq0 Hx)) (negPf (den_neq0 Hy)).
Qed.

Lemma rat_add_ok x y : rat_ok x -> rat_ok y ->
  exists z, [/\ rat_add (pz P) x y = Ok z, rat_ok z & frac z = frac x + frac y].
Proof.
move=> Hx Hy; have Hp := p_gt1 P.
have Hn := Z.mod_pos_bound (x.1 * y.2 + y.1 * x.2) (pz P) ltac:(lia).
have [z [E Hz Fz]] := reduce_mk Hn (den_mul Hx Hy).
exists z; split=> //; rewrite Fz !in_modp_mod in_modpD !in_modpM /frac.
have := den_neq0 Hx; have := den_neq0 Hy.
move: (in_modp P x.1) (in_modp P x.2) (in_modp P y.1) (in_modp P y.2) => a b c d Hd Hb.
by rewrite addf_div.
Qed.

Lemma rat_sub_ok x y : rat_ok x -> rat_ok y ->
  exists z, [/\ rat_sub (pz P) x y = Ok z, rat_ok z & frac z = frac x - frac y].
Proof.
move=> Hx Hy; have Hp := p_gt1 P.
have Hn := Z.mod_pos_bound (x.1 * y.2 - y.1 * x.2) (pz P) ltac:(lia).
have [z [E Hz Fz]] := reduce_mk Hn (den_mul Hx Hy).
exists z; split=> //; rewrite Fz !in_modp_mod in_modpB !in_modpM /frac.
have := den_neq0 Hx; have := den_neq0 Hy.
move: (in_modp P x.1) (in_modp P x.2) (in_modp P y.1) (in_modp P y.2) => a b c d Hd Hb.
by rewrite -[- (c / d)]mulNr addf_div // mulNr.
Qed.

Lemma mod_neq0 a : (0 < a < pz P)%Z -> (a mod pz P <> 0)%Z.
Proof. by move=> H; rewrite Z.mod_small; lia. Qed.

Lemma rat_mul_ok x y : rat_ok x -> rat_ok y ->
  exists z, [/\ rat_mul (pz P) x y = Ok z, rat_ok z & frac z = frac x * frac y].
Proof.
move=> Hx Hy; rewrite /rat_mul.
have [z [E Hz Fz]] := @rat_mk_ok ((x.1 * y.1) mod pz P)%Z _ (mod_neq0 (den_mul Hx Hy)).
exists z; split=> //; rewrite Fz !in_modp_mod !in_modpM /frac.
by rewrite invfM mulrACA.
Qed.

Lemma rat_neg_ok x : rat_ok x ->
  exists z, [/\ rat_neg (pz P) x = Ok z, rat_ok z & frac z = - frac x].
Proof.
move=> [H1 [H2 H3]]; have [z [E Hz Fz]] := @rat_mk_ok (- x.1)%Z x.2 (mod_neq0 H2).
by exists z; split=> //; rewrite Fz in_modpN mulNr.
Qed.

Lemma frac_eq0 x : rat_ok x -> (frac x == 0) = (x.1 =? 0)%Z.
Proof.
move=> Hx; rewrite /frac mulf_eq0 invr_eq0 (negPf (den_neq0 Hx)) orbF in_modp_eq0 Z.mod_small //.
by case: Hx => H _; lia.
Qed.

Lemma rat_eqE x y : rat_ok x -> rat_ok y -> rat_eq (pz P) x y = (frac x == frac y).
Proof.
move=> Hx Hy; rewrite /frac eqr_div ?den_neq0 // -!in_modpM /rat_eq.
apply/Z.eqb_spec/eqP => [E|/in_modp_eq //]; exact/in_modp_eq.
Qed.

(** == is not just compatible: equal elements have equal attributes up to the
    choice of representative; inverse *)
Lemma rat_inverse_ok x : rat_ok x -> frac x != 0 ->
  exists z, [/\ rat_inverse (pz P) x = Ok z, rat_ok z & frac z = (frac x)^-1].
Proof.
move=> Hx H0; rewrite /rat_inverse -frac_eq0 // (negPf H0).
have H1 : (0 < x.1 < pz P)%Z by move: H0; rewrite frac_eq0 //; case: Hx => H _; lia.
have [z [E Hz Fz]] := @rat_mk_ok x.2 x.1 (mod_neq0 H1).
by exists z; split=> //; rewrite Fz /frac invf_div.
Qed.

Lemma rat_inverse_zero x : rat_ok x -> frac x = 0 -> rat_inverse (pz P) x = Err GenericException.
Proof. by move=> Hx /eqP; rewrite frac_eq0 // /rat_inverse => ->. Qed.

Lemma rat_div_ok x y : rat_ok x -> rat_ok y -> frac y != 0 ->
  exists z, [/\ rat_div (pz P) x y = Ok z, rat_ok z & frac z = frac x / frac y].
Proof.
move=> Hx Hy H0; have [i [E Hi Fi]] := rat_inverse_ok Hy H0; rewrite /rat_div E bind_ok.
by have [z [Ez Hz Fz]] := rat_mul_ok Hx Hi; exists z; split=> //; rewrite Fz Fi.
Qed.

Lemma rat_pow_ok x n : rat_ok x -> (0 <= n)%Z ->
  exists z, [/\ rat_pow (pz P) x n = Ok z, rat_ok z & frac z = frac x ^+ Z.to_nat n].
Proof.
move=> Hx Hn; have Hp := p_gt1 P; rewrite /rat_pow.
have [|one [E1 H1 F1]] := @rat_mk_ok 1 1; first by rewrite Z.mod_small; lia.
rewrite E1 bind_ok.
have [|||z [Ez [Hz Fz]]] := @pow_gen_spec rat one (rat_mul (pz P))
   (fun z k => rat_ok z /\ frac z = frac x ^+ Z.to_nat k) _ x n Hn.
- move=> a b j k Hj Hk [Ha Fa] [Hb Fb]; have [z [Ez Hz Fz]] := rat_mul_ok Ha Hb.
  by exists z; split=> //; split=> //; rewrite Fz Fa Fb -exprD; congr (_ ^+ _); lia.
- by rewrite expr1.
- by split=> //; rewrite F1 divff ?expr0 // in_modp_neq0; lia.
by exists z.
Qed.

(** every residue has a representation *)
Lemma rat_onto (v : F) : exists x, rat_mk (pz P) (mval v) 1 = Ok x /\ rat_ok x /\ frac x = v.
Proof.
have Hp := p_gt1 P; have [|z [E Hz Fz]] := @rat_mk_ok (mval v) 1; first by rewrite Z.mod_small; lia.
exists z; split=> //; split=> //; rewrite Fz (_ : in_modp P 1 = 1); last exact: mval_inj.
by rewrite divr1; apply: mval_inj; rewrite /= mval_small.
Qed.
End Rat.

Lemma reduce_coprime a b : (0 <= a)%Z -> (0 <= b)%Z -> Z.gcd a b = 1%Z -> rat_reduce a b = Ok (a, b).
Proof.
move=> Ha Hb Hg; rewrite /rat_reduce gcd_int_nonneg // Hg bind_ok.
by rewrite /floordiv [(1 =? 0)%Z]/= !bind_ok !Z.div_1_r.
Qed.

Lemma rat_bytes x : (0 <= x.1 < 2 ^ 256)%Z -> (0 <= x.2 < 2 ^ 256)%Z -> Z.gcd x.1 x.2 = 1%Z ->
  exists b, [/\ rat_to_bytes x = Ok b, length b = 64%nat & rat_of_bytes b = Ok x].
Proof.
case: x => m n /= Hm Hn Hg; rewrite /rat_to_bytes /=.
have [|b1 [-> [L1 F1]]] := to_bytes_be_ok 32 m _; first by lia.
have [|b2 [-> [L2 F2]]] := to_bytes_be_ok 32 n _; first by lia.
rewrite !bind_ok; exists (b1 ++ b2)%list; split=> //; first by rewrite List.app_length L1 L2.
have E1 : List.firstn 32 (b1 ++ b2)%list = b1.
  by rewrite -L1 List.firstn_app Nat.sub_diag List.firstn_all List.firstn_O List.app_nil_r.
have E2 : List.skipn 32 (b1 ++ b2)%list = b2.
  by rewrite -L1 List.skipn_app Nat.sub_diag List.skipn_all.
rewrite /rat_of_bytes E1 E2 F1 F2.
by rewrite reduce_coprime //; lia.
Qed.

(** zero denominators *)
Lemma rat_mk_zero_den p m n : (1 < p)%Z -> (n mod p = 0)%Z ->
  rat_mk p m n = Ok (if (m mod p =? 0)%Z then 0 else 1, 0)%Z.
Proof.
move=> Hp Hn; rewrite /rat_mk (_ : (p =? 0)%Z = false); last by lia.
have Hm := Z.mod_pos_bound m p ltac:(lia).
rewrite Hn /rat_reduce gcd_int_nonneg ?Z.gcd_0_r ?Z.abs_eq; try by lia.
rewrite bind_ok; case: Z.eqb_spec => [->|H] //.
by rewrite /floordiv (_ : (m mod p =? 0)%Z = false) ?bind_ok ?Z.div_same ?Zdiv_0_l //; lia.
Qed.

Lemma rat_of_bytes_any b :
  let num := from_bytes_be (List.firstn 32 b) in
  let den := from_bytes_be (List.skipn 32 b) in
  exists a c, rat_of_bytes b = Ok (a, c) /\ exists g, (num = a * g)%Z /\ (den = c * g)%Z /\
    (num = 0 -> den = 0 -> a = 0 /\ c = 0)%Z /\ (num <> 0 \/ den <> 0 -> Z.gcd a c = 1)%Z.
Proof.
move=> num den.
have Hn : (0 <= num)%Z by have [] := from_bytes_be_range (List.firstn 32 b).
have Hd : (0 <= den)%Z by have [] := from_bytes_be_range (List.skipn 32 b).
rewrite /rat_of_bytes -/num -/den /rat_reduce gcd_int_nonneg // bind_ok.
have [G0|G0] := Z.eq_dec (Z.gcd num den) 0.
  have [N0 D0] : (num = 0 /\ den = 0)%Z by apply/Z.gcd_eq_0.
  by rewrite G0 /= N0 D0; exists 0%Z, 0%Z; split=> //; exists 0%Z; do ![split=> //]; case.
have Gp : (0 < Z.gcd num den)%Z by have := Z.gcd_nonneg num den; lia.
have Gz : (Z.gcd num den =? 0)%Z = false by apply/Z.eqb_neq.
rewrite /floordiv !Gz /=; exists (num / Z.gcd num den)%Z, (den / Z.gcd num den)%Z; split=> //.
have [En Ed] : ((num = num / Z.gcd num den * Z.gcd num den) /\ (den = den / Z.gcd num den * Z.gcd num den))%Z.
  by split; rewrite Z.mul_comm; apply: Znumtheory.Zdivide_Zdiv_eq => //; [exact: Z.gcd_divide_l | exact: Z.gcd_divide_r].
exists (Z.gcd num den); split=> //; split=> //; split.
  by move=> n0 d0; case: G0; rewrite n0 d0.
by move=> _; rewrite Z.gcd_div_gcd.
Qed.

(** 0/0 is equal to everything *)
Lemma rat_eq_00 p x : rat_eq p x (0, 0)%Z /\ rat_eq p (0, 0)%Z x.
Proof. by rewrite /rat_eq /= !Z.mul_0_r Zmod_0_l. Qed.

(** adding two elements of denominator 0 raises *)
Lemma rat_add_zero_den p x y : (1 < p)%Z -> (x.2 = 0)%Z -> (y.2 = 0)%Z ->
  rat_add p x y = Err ZeroDivisionError /\ rat_sub p x y = Err ZeroDivisionError.
Proof. by case: x y => [a b] [c d] /= Hp -> ->; rewrite /rat_add /rat_sub /= !Z.mul_0_r Zmod_0_l. Qed.
