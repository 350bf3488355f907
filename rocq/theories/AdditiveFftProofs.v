(** Proofs about AdditiveFftModel.v. *)
From Coq Require Import Ring.
From mathcomp Require Import zify ssrZ.
From Verif Require Import Prelude BaseProofs PolyModel PolyProofs FftProofs FinFld QField Pocklington
  ModpModel ModpField IrredModel IrredProofs FiniteFieldModel FiniteFieldProofs InterpProofs AirProofs StarkProofs
  AdditiveFftModel.
Set Implicit Arguments.
Unset Strict Implicit.
Unset Printing Implicit Defensive.
Import GRing.Theory.
Local Open Scope ring_scope.
Local Open Scope py_scope.

(** The value of a digit string, most significant digit first. *)
Definition digits_val (s : seq bool) : nat := foldl (fun v (b : bool) => 2 * v + b)%N 0%N s.

Lemma digits_cons b s : digits_val (b :: s) = (b * 2 ^ size s + digits_val s)%N.
Proof.
rewrite /digits_val /=; move: (2 * 0 + b)%N (erefl : (2 * 0 + b)%N = b :> nat).
have H v : foldl (fun v (b : bool) => 2 * v + b)%N v s = (v * 2 ^ size s + foldl (fun v (b : bool) => 2 * v + b)%N 0%N s)%N.
  elim: s v => [|c s IH] v /=; first by rewrite muln1 addn0.
  rewrite IH (IH (_ + c)%N) expnS; move: (2 ^ _)%N (foldl _ _ _) => a d; clear; lia.
by move=> v ->; exact: H.
Qed.

Lemma bin_loopE fuel i s : (i <= fuel)%N ->
  digits_val (bin_loop fuel i s) = (i * 2 ^ size s + digits_val s)%N /\
  (0 < i -> exists s', bin_loop fuel i s = true :: s')%N.
Proof.
elim: fuel i s => [|f IH] i s Hi; first by have -> : i = 0%N by lia.
rewrite /=; case: eqP => [->|/eqP Hn]; first by [].
have [|H1 H2] := IH i./2 (odd i :: s); first by move: Hn Hi; clear; lia.
split=> [|_].
  rewrite H1 digits_cons /= expnS -{2}(odd_double_half i) -mul2n; move: (2 ^ _)%N => a; clear; lia.
have [Hh|Hh] := posnP i./2; last exact: H2.
have -> : odd i by move: Hn Hh; clear; lia.
by exists s; rewrite Hh; case: (f).
Qed.

Lemma bin_stringE i : digits_val (int_to_bin_string i) = i /\
  (if i == 0%N then int_to_bin_string i = [:: false] else exists s, int_to_bin_string i = true :: s).
Proof.
rewrite /int_to_bin_string; case: eqP => [->|/eqP Hi] //.
have [H1 H2] := @bin_loopE i i [::] (leqnn i); split; first by rewrite H1 muln1 addn0.
by apply: H2; rewrite lt0n.
Qed.

Section PlainRing.
Variables (T : Type) (zero one : T) (add mul sub : T -> T -> T) (opp : T -> T).
Hypothesis Th : ring_theory zero one add mul sub opp eq.
Add Ring T_ring : Th.
Local Infix "+" := add.
Local Infix "*" := mul.
Lemma taylor_id_plain (X a b c : T) (z := X * b + X * c + X * X * c) :
  (a + X * X * b + X * (X * X) * c) + (z + z) = a + X * (b + c) + (X * X + X) * (b + c + X * c).
Proof. by rewrite /z; ring. Qed.
End PlainRing.

Lemma comring_theory (R : comRingType) :
  @ring_theory R 0 1 (@GRing.add R) (@GRing.mul R) (fun x y => x - y) (@GRing.opp R) eq.
Proof.
split; [exact: add0r|exact: addrC|exact: addrA|exact: mul1r|exact: mulrC|exact: mulrA|
        exact: mulrDl|by []|exact: subrr].
Qed.

Lemma taylor_id (R : comRingType) (X a b c : R) : (forall z : R, z + z = 0) ->
  a + X ^+ 2 * b + X ^+ 3 * c = a + X * (b + c) + (X ^+ 2 + X) * (b + c + X * c).
Proof.
move=> H; rewrite -[LHS]addr0 -(H (X * b + X * c + X * X * c)) !exprS !expr0 !mulr1.
exact: (taylor_id_plain (comring_theory R)).
Qed.

Section Additive.
Variable P : primeZ.
Hypothesis P2 : pz P = 2%Z.
Local Notation F := (modp_finFieldType P).
Variable g : seq F.
Hypothesis Ng : normal g.
Hypothesis Hirr : irreducible_poly (Poly g).
Local Notation valid := (fq_valid g).
Local Notation inq := (in_q (IrrP Hirr)).

Lemma field_ofE l : exists z, [/\ field_of g l = Ok z, valid z &
  Poly z = Poly ([seq in_modp P c | c <- l] : seq F) %% Poly g].
Proof.
have [z [E V Pz]] := fq_poly_valid Ng Hirr (normal_pmk ([seq in_modp P c | c <- l] : seq F)).
by exists z; split=> //; rewrite Pz Poly_pmk.
Qed.

Lemma valid_nil : valid [::].
Proof. by rewrite /fq_valid normal_nil (ltn_trans _ (g_gt1 Ng Hirr)). Qed.

Lemma Poly_nil z : valid z -> Poly z = 0 -> z = [::].
Proof.
by move=> /andP [Nz _] E; apply: Poly_inj; rewrite ?normal_nil.
Qed.

Lemma field_of0 : field_of g [:: 0%Z] = Ok [::].
Proof.
have [z [-> V E]] := field_ofE [:: 0%Z]; congr Ok; apply: Poly_nil => //; rewrite E.
have -> : Poly ([seq in_modp P c | c <- [:: 0%Z]] : seq F) = 0.
  by rewrite /= cons_poly_def mul0r add0r -[in_modp P 0]/(0 : F) polyC0.
by rewrite mod0p.
Qed.

Lemma digitE (c : F) : (digit0 c =? 1)%Z = (c == 1).
Proof.
rewrite digit0E //; apply/Z.eqb_spec/eqP => [H|->]; first by apply: mval_inj; rewrite H /= P2.
by rewrite /= P2.
Qed.

Lemma bit01 (c : F) : c != 1 -> c = 0.
Proof.
move=> /eqP Hc; apply: mval_inj; case: (bitP P2 c) => [-> //|H1]; case: Hc; apply: mval_inj.
by rewrite H1 /= P2.
Qed.

Lemma pow_iE b i : valid b -> exists z, [/\ pow_i g b i = Ok z, valid z & toQ Hirr z = toQ Hirr b ^+ i].
Proof.
move=> Vb; have [||z [E V T]] := @fq_pow_ok _ g Ng Hirr i (2 * i).+2 b (Z.of_nat i) Vb (Nat2Z.is_nonneg i).
- have := Z.pow_gt_lin_r 2 (Z.of_nat i); lia.
- lia.
by exists z; split=> //; rewrite T Nat2Z.id.
Qed.

Lemma sum_comp (x : seq F) (b : {poly F}) : \sum_(i < size x) x`_i *: b ^+ i = Poly x \Po b.
Proof.
rewrite /comp_poly (@horner_coef_wide _ (size x)); last first.
  by rewrite size_map_polyC size_Poly.
by apply: eq_bigr => i _; rewrite coef_map coef_Poly /= mul_polyC.
Qed.

Lemma eval_loopE x b : valid b -> exists z, [/\ eval_loop g x (Ok b) = Ok z, valid z &
  Poly z = (Poly x \Po Poly b) %% Poly g].
Proof.
move=> Vb; rewrite /eval_loop field_of0 bind_ok.
suff loop l z a : valid z -> toQ Hirr z = inq a ->
  exists z', [/\ foldM (fun f i => if (digit0 (nth 0%R x i) =? 1)%Z then
                      let* bv := Ok b in let* t := pow_i g bv i in fq_add g f t
                    else Ok f) l z = Ok z', valid z' &
     toQ Hirr z' = inq (a + \sum_(i <- l) x`_i *: Poly b ^+ i)].
  have [|z [E V T]] := loop (iota 0 (size x)) [::] 0 valid_nil; first exact: toQ_nil.
  exists z; split=> //; apply: (toQ_Poly Ng V); rewrite T add0r -sum_comp.
  by rewrite -(big_mkord xpredT (fun i => x`_i *: Poly b ^+ i)) /index_iota subn0.
elim: l z a => [|i l IH] z a V T; first by exists z; split=> //; rewrite big_nil addr0.
rewrite [foldM _ _ _]/= digitE big_cons; case: ifP => [/eqP ->|/negbT /bit01 ->].
  have [t [-> Vt Tt]] := pow_iE i Vb; rewrite bind_ok.
  have [z1 [-> V1 _ T1]] := fq_add_ok Ng Hirr V Vt.
  have [|z' [E V' T']] := IH z1 (a + Poly b ^+ i) V1.
    by rewrite T1 Tt T /toQ -in_qX -in_qD.
  by exists z'; split=> //; rewrite T' scale1r addrA.
by have [z' [E V' T']] := IH z a V T; exists z'; split=> //; rewrite T' scale0r add0r.
Qed.

(** ** Taylor expansion *)
Lemma blockE x off len : [seq in_modp P z | z <- block x off len] = mkseq (fun i => x`_(off + i)) len.
Proof.
rewrite /block /mkseq -map_comp; apply: eq_map => i /=.
case: Z.ltb_spec => H.
  by rewrite nth_default //; move: H; rewrite /pdegree /pabs; move: (size x); clear; lia.
by apply: mval_inj; rewrite digit0E // [LHS]/= Z.mod_small //; have := mvalP x`_(off + i).
Qed.

Lemma fieldE l z : field_of g l = Ok z ->
  (size l < size g)%N -> Poly z = Poly ([seq in_modp P c | c <- l] : seq F).
Proof.
have [z' [-> V E]] := field_ofE l => -[<-] H; rewrite E modp_small // -(g_size Ng).
by apply: leq_ltn_trans H; apply: leq_trans (size_Poly _) _; rewrite size_map.
Qed.

Lemma char2P (a : {poly F}) : a + a = 0.
Proof.
rewrite -mulr2n -mulr_natl; suff -> : (2%:R : {poly F}) = 0 by rewrite mul0r.
have -> : (2%:R : {poly F}) = (2%:R : F)%:P by rewrite rmorph_nat.
suff -> : (2%:R : F) = 0 by rewrite polyC0.
by apply: mval_inj; rewrite /= P2.
Qed.

Lemma Poly2 (a b : F) : Poly [:: a; b] = a%:P + 'X * b%:P.
Proof. by rewrite /= !cons_poly_def mul0r add0r addrC mulrC. Qed.

Lemma Poly4 (x : seq F) : Poly (take 4 x) = Poly [:: x`_0; x`_1] + 'X^2 * (x`_2)%:P + 'X^3 * (x`_3)%:P.
Proof.
apply/polyP => i; rewrite !coefD !coefXnM !coefC !coef_Poly; case: (ltnP i 4) => Hi; last first.
  rewrite [(take 4 x)`_i]nth_default; last by rewrite size_take; case: ifP; move: (size x); move: Hi; clear; lia.
  by case: i Hi => [|[|[|[|i]]]] //= _; rewrite nth_nil !addr0.
rewrite nth_take //; case: i Hi => [|[|[|[|i]]]] //= _; rewrite ?addr0 ?add0r //.
Qed.

(** Lines 53-88 for [k = 0] and a field of degree at least 2. *)
Lemma taylor_small x n : (2 < size g)%N -> (n = 3 \/ n = 4)%Z ->
  exists g0 g1, [/\ taylor g x n = Ok (Pair (Single g0) (Single g1)), valid g0, valid g1,
    (size g0 <= 2)%N /\ (size g1 <= 2)%N &
    Poly (take 4 x) = Poly g0 + ('X^2 + 'X) * Poly g1].
Proof.
move=> Sg Hn.
have Hk : taylor_k (Z.to_nat n) = Some 0%N by case: Hn => ->.
have H2 : (n <=? 2)%Z = false by case: Hn => ->.
have H4 : (n <=? 4)%Z by case: Hn => ->.
rewrite /taylor H2 Hk /taylor_half H4 bind_ok.
have [f0 [E0 V0 _]] := field_ofE (block x 0 (2 ^ 1)).
have P0 := fieldE E0 Sg; rewrite E0 bind_ok.
have [f1 [E1 V1 _]] := field_ofE (block x (2 ^ 1) (2 ^ 0)).
have P1 := fieldE E1 (ltnW Sg); rewrite E1 bind_ok.
have [f2 [E2 V2 _]] := field_ofE (block x (2 ^ 1 + 2 ^ 0) (2 ^ 0)).
have P2' := fieldE E2 (ltnW Sg); rewrite E2 bind_ok.
have [h [-> Vh Ph _]] := fq_add_ok Ng Hirr V1 V2; rewrite bind_ok.
have [tk [Et Vt _]] := field_ofE (nseq (2 ^ 0) 0%Z ++ [:: 1%Z]).
have Pt := fieldE Et Sg; rewrite Et bind_ok.
have [m0 [-> Vm0 Pm0 _]] := fq_mul_ok Ng Hirr tk h; rewrite bind_ok.
have [g0 [-> Vg0 Pg0 _]] := fq_add_ok Ng Hirr V0 Vm0; rewrite bind_ok.
have [m1 [-> Vm1 Pm1 _]] := fq_mul_ok Ng Hirr tk f2; rewrite bind_ok.
have [g1 [-> Vg1 Pg1 _]] := fq_add_ok Ng Hirr Vh Vm1; rewrite !bind_ok.
have {}P0 : Poly f0 = Poly [:: x`_0; x`_1] by rewrite P0 blockE.
have C1 (c : F) : Poly [:: c] = c%:P by rewrite /= cons_poly_def mul0r add0r.
have {}P1 : Poly f1 = (x`_2)%:P by rewrite P1 blockE C1.
have {}P2' : Poly f2 = (x`_3)%:P by rewrite P2' blockE C1.
have {}Pt : Poly tk = 'X.
  rewrite Pt -[map _ _]/([:: (0 : F); 1]) /= !cons_poly_def mul0r !add0r polyC0 addr0.
  by rewrite polyC1 mul1r.
have sz (c : F) : (size ('X * c%:P)%R <= 2)%N.
  apply: leq_trans (size_mul_leq _ _) _; rewrite size_polyX /=; exact: (leq_trans (size_polyC_leq1 _)).
have md (c : F) : ('X * c%:P) %% Poly g = 'X * c%:P.
  by rewrite modp_small // -(g_size Ng); apply: leq_ltn_trans Sg; exact: sz.
have {}Pm0 : Poly m0 = 'X * (x`_2 + x`_3)%:P by rewrite Pm0 Pt Ph P1 P2' -polyCD md.
have {}Pm1 : Poly m1 = 'X * (x`_3)%:P by rewrite Pm1 Pt P2' md.
exists g0, g1; split=> //.
  split.
  - rewrite (size_normal (proj1 (andP Vg0))) Pg0 Pm0 P0; apply: leq_trans (size_add _ _) _; rewrite geq_max sz andbT.
    exact: size_Poly.
  - rewrite (size_normal (proj1 (andP Vg1))) Pg1 Pm1 Ph P1 P2' -polyCD; apply: leq_trans (size_add _ _) _; rewrite geq_max sz andbT.
    by apply: leq_trans (size_polyC_leq1 _) _.
rewrite Poly4 Pg0 Pg1 P0 Pm0 Pm1 Ph P1 P2' polyCD.
move: (Poly [:: _; _]) (x`_2)%:P (x`_3)%:P => a b c.
exact: taylor_id char2P.
Qed.

Lemma foldl_last (p : pred nat) l k :
  k != None \/ has p l -> foldl (fun k x => if p x then Some x else k) k l != None.
Proof.
elim: l k => [|x l IH] k /=; first by case.
by case=> [Hk|/orP [Hx|Hl]]; apply: IH; [left; case: ifP|left; rewrite Hx|right].
Qed.

Lemma taylor_kE n : (2 < n)%N -> exists k, taylor_k n = Some k.
Proof.
move=> Hn; rewrite /taylor_k.
pose p x := (2 ^ x.+1 < n)%N && (n <= 2 ^ x.+2)%N.
have : has p (iota 0 n).
  have Hl : (0 < trunc_log 2 n.-1)%N by apply: trunc_log_max => //; move: Hn; clear; lia.
  have H1 : (2 ^ trunc_log 2 n.-1 <= n.-1)%N by apply: trunc_logP => //; move: Hn; clear; lia.
  have H2 : (n.-1 < 2 ^ (trunc_log 2 n.-1).+1)%N by exact: trunc_log_ltn.
  have H3 := ltn_expl (trunc_log 2 n.-1) (erefl : 1 < 2)%N.
  apply/hasP; exists (trunc_log 2 n.-1).-1; last first.
    by rewrite /p prednK //; move: H1 H2 Hn; clear; lia.
  by rewrite mem_iota add0n /=; move: H1 H3 Hn; clear; lia.
move=> H; have := @foldl_last p (iota 0 n) None (or_intror H).
by rewrite /p; case: foldl => // k _; exists k.
Qed.

Lemma taylor_large x n : (4 < n)%Z -> taylor g x n = Err TypeError.
Proof.
move=> Hn; rewrite /taylor.
have -> : (n <=? 2)%Z = false by apply/Z.leb_gt; lia.
have [k ->] := @taylor_kE (Z.to_nat n) ltac:(lia); rewrite bind_ok.
have [f0 [-> V0 _]] := field_ofE (block x 0 (2 ^ k.+1)); rewrite bind_ok.
have [f1 [-> V1 _]] := field_ofE (block x (2 ^ k.+1) (2 ^ k)); rewrite bind_ok.
have [f2 [-> V2 _]] := field_ofE (block x (2 ^ k.+1 + 2 ^ k) (2 ^ k)); rewrite bind_ok.
have [h [-> Vh _ _]] := fq_add_ok Ng Hirr V1 V2; rewrite bind_ok.
have [tk [-> Vt _]] := field_ofE (nseq (2 ^ k) 0%Z ++ [:: 1%Z]); rewrite bind_ok.
have [m0 [-> Vm0 _ _]] := fq_mul_ok Ng Hirr tk h; rewrite bind_ok.
have [g0 [-> Vg0 _ _]] := fq_add_ok Ng Hirr V0 Vm0; rewrite bind_ok.
have [m1 [-> Vm1 _ _]] := fq_mul_ok Ng Hirr tk f2; rewrite bind_ok.
have [g1 [-> Vg1 _ _]] := fq_add_ok Ng Hirr Vh Vm1; rewrite bind_ok.
by rewrite /taylor_half; have -> : (n <=? 4)%Z = false by apply/Z.leb_gt.
Qed.

(** ** The transform *)
Lemma Poly_X : (2 < size g)%N -> exists z, [/\ field_of g [:: 0; 1]%Z = Ok z, valid z & Poly z = 'X].
Proof.
move=> Sg; have [z [E V _]] := field_ofE [:: 0; 1]%Z; exists z; split=> //.
rewrite (fieldE E) // -[map _ _]/([:: (0 : F); 1]) /= !cons_poly_def mul0r !add0r polyC0 addr0.
by rewrite polyC1 mul1r.
Qed.

Lemma adfft1 x b bs : valid b ->
  exists z, [/\ adfft g 0 x (b :: bs) = Ok [:: z; [::]], valid z & Poly z = (Poly x \Po Poly b) %% Poly g].
Proof.
move=> Vb; have [z [E V Pz]] := eval_loopE x Vb; exists z; split=> //.
by rewrite /adfft -[py_nth _ _]/(Ok b) E bind_ok field_of0 bind_ok.
Qed.

Lemma adfftS m x beta : adfft g m.+1 x beta =
  let m' := m.+1 in
  let m1 := m'.+1 in
  let* f1 := eval_loop g x (py_nth beta 0) in
  let* f2 := field_of g [:: 0%Z] in
  let* X := field_of g [:: 0%Z; 1%Z] in
  let* beta_m := py_nth beta (Z.of_nat m1 - 1) in
  let* Xb := fq_mul g X beta_m in
  let* gx := eval_loop g x (Ok Xb) in
  let* V := taylor g gx (2 ^ Z.of_nat m1) in
  let* (g0, g1) := (match V with
                       | Pair (Single g0) (Single g1) => Ok (g0, g1)
                       | Pair _ _ => Err AttributeError
                       | Single _ => Err TypeError
                       end) in
  let* beta_m_I := fq_inverse g beta_m in
  let* gamma := mapM (fun i => let* b := py_nth beta (Z.of_nat i) in fq_mul g b beta_m_I) (iota 0 m') in
  let* delta := mapM (fun i => let* c := py_nth gamma (Z.of_nat i) in
                                 let* s := pow_i g c 2 in fq_sub g s c) (iota 0 m') in
  let* G := mapM (fun i => subset_sum g gamma (int_to_bin_string i)) (iota 0 (2 ^ m')) in
  let* u := adfft g m g0 delta in
  let* v := adfft g m g1 delta in
  let* w := mapM (fun i =>
        let* ui := py_nth u (Z.of_nat i) in
        let* Gi := py_nth G (Z.of_nat i) in
        let* vi := py_nth v (Z.of_nat i) in
        let* t := fq_mul g Gi vi in
        let* w1 := fq_add g ui t in
        let* w2 := fq_add g w1 vi in Ok (w1, w2)) (iota 0 (2 ^ m')) in
  Ok ([seq p.1 | p <- w] ++ [seq p.2 | p <- w]).
Proof. by []. Qed.

Lemma adfft_large m x beta : (1 < m)%N -> (m < size beta)%N -> all valid beta ->
  adfft g m x beta = Err TypeError.
Proof.
case: m => [//|m] Hm Hs Vb; rewrite adfftS; cbv zeta.
have Vi i : (i < size beta)%N -> valid (nth [::] beta i) by move=> Hi; exact: (all_nthP [::] Vb).
have E0 : py_nth beta 0 = Ok (nth [::] beta 0) by rewrite (@py_nth_ok _ [::] beta 0) //; apply: leq_trans Hs.
rewrite E0; have [|f1 [-> _ _]] := @eval_loopE x (nth [::] beta 0); first by apply: Vi; apply: leq_trans Hs.
rewrite bind_ok field_of0 bind_ok.
have [X [-> VX _]] := field_ofE [:: 0; 1]%Z; rewrite bind_ok.
have -> : (Z.of_nat m.+2 - 1 = Z.of_nat m.+1)%Z by lia.
rewrite (@py_nth_ok _ [::]) // bind_ok.
have [Xb [-> VXb _ _]] := fq_mul_ok Ng Hirr X (nth [::] beta m.+1); rewrite bind_ok.
have [gx [-> Vgx _]] := eval_loopE x VXb; rewrite bind_ok.
rewrite taylor_large //.
have -> : (Z.of_nat m.+2 = 3 + Z.of_nat m.-1)%Z by lia.
by rewrite Z.pow_add_r; lia.
Qed.

Lemma Poly_nil0 : Poly ([::] : seq F) = 0. Proof. by []. Qed.

(** [m = 2]: only the even positions can be non-zero. *)
Lemma adfft2 x b0 b1 bs : (2 < size g)%N -> valid b0 -> valid b1 -> b1 != [::] ->
  exists gx g0 g1 c d a e,
  [/\ adfft g 1 x [:: b0, b1 & bs] = Ok [:: a; [::]; e; [::]],
      Poly gx = (Poly x \Po ('X * Poly b1)) %% Poly g /\
      [/\ Poly (take 4 gx) = Poly g0 + ('X^2 + 'X) * Poly g1, (size g0 <= 2)%N & (size g1 <= 2)%N],
      (Poly c * Poly b1) %% Poly g = Poly b0 /\ Poly d = (Poly c ^+ 2 - Poly c) %% Poly g,
      Poly a = (Poly g0 \Po Poly d) %% Poly g &
      Poly e = ((Poly g0 \Po Poly d) + (Poly g1 \Po Poly d)) %% Poly g].
Proof.
move=> Sg V0 V1 N1; rewrite adfftS /=.
rewrite -[py_nth [:: b0, b1 & bs] 0]/(Ok b0).
have [f1 [-> _ _]] := eval_loopE x V0; rewrite bind_ok field_of0 bind_ok.
have [X [-> VX PX]] := Poly_X Sg; rewrite bind_ok.
rewrite [py_nth [:: b0, b1 & bs] _](@py_nth_ok _ [::] [:: b0, b1 & bs] 1 erefl) bind_ok.
have [Xb [-> VXb PXb _]] := fq_mul_ok Ng Hirr X b1; rewrite bind_ok.
have [gx [-> Vgx Pgx]] := eval_loopE x VXb; rewrite bind_ok.
have [|g0 [g1 [-> Vg0 Vg1 [S0 S1] Pg]]] := taylor_small gx Sg (n := 2 ^ 2); first by right.
rewrite !bind_ok.
have [i1 [-> Vi1 Pi]] := fq_inverse_poly Ng Hirr V1 N1; rewrite bind_ok.
have [c [-> Vc Pc Tc]] := fq_mul_ok Ng Hirr b0 i1; rewrite !bind_ok.
rewrite ?bind_ok.
have [s [-> Vs Ts]] := pow_iE 2 Vc; rewrite bind_ok.
have [d [-> Vd Pd Td]] := fq_sub_ok Ng Hirr Vs Vc; rewrite !bind_ok.
rewrite /subset_sum field_of0 /= ?bind_ok.
rewrite ?bind_ok.
have [z1 [-> Vz1 _ _]] := fq_add_ok Ng Hirr valid_nil Vc; rewrite !bind_ok.
have [a [-> Va Pa]] := eval_loopE g0 Vd; rewrite ?bind_ok.
have [b [-> Vb Pb]] := eval_loopE g1 Vd; rewrite !bind_ok.
rewrite ?bind_ok.
have [t [-> Vt Pt _]] := fq_mul_ok Ng Hirr [::] b; rewrite bind_ok.
have {Pt} Et : t = [::] by apply: Poly_nil => //; rewrite Pt Poly_nil0 mul0r mod0p.
have [a' [-> Va' Pa' _]] := fq_add_ok Ng Hirr Va Vt; rewrite bind_ok.
have {Pa'} Ea : a' = a.
  by apply: Poly_inj; [case/andP: Va'|case/andP: Va|rewrite Pa' Et Poly_nil0 addr0].
rewrite {}Ea in Va' *.
have [e [-> Ve Pe _]] := fq_add_ok Ng Hirr Va Vb; rewrite !bind_ok.
rewrite ?bind_ok.
have [t' [-> Vt' Pt' _]] := fq_mul_ok Ng Hirr z1 [::]; rewrite bind_ok.
have {Pt'} Et' : t' = [::] by apply: Poly_nil => //; rewrite Pt' Poly_nil0 mulr0 mod0p.
rewrite Et'.
have [n1 [-> Vn1 Pn1 _]] := fq_add_ok Ng Hirr valid_nil valid_nil; rewrite bind_ok.
have {Pn1} En1 : n1 = [::] by apply: Poly_nil => //; rewrite Pn1 Poly_nil0 addr0.
rewrite En1.
have [n2 [-> Vn2 Pn2 _]] := fq_add_ok Ng Hirr valid_nil valid_nil; rewrite !bind_ok.
have {Pn2} En2 : n2 = [::] by apply: Poly_nil => //; rewrite Pn2 Poly_nil0 addr0.
exists gx, g0, g1, c, d, a, e; split=> //.
- by rewrite /= En2.
- split=> //; rewrite Pgx PXb PX.
  apply/(in_q_eq (IrrP Hirr)).
  rewrite -!sum_comp !in_q_sum; apply: eq_bigr => i _.
  rewrite -!mul_polyC !in_qM; congr (_ * _); rewrite !in_qX; congr (_ ^+ _).
  by apply/(in_q_eq (IrrP Hirr)); rewrite modp_mod.
- split.
    rewrite Pc -[RHS](valid_small Ng V0); apply/(in_q_eq (IrrP Hirr)).
    rewrite !in_qM.
    have -> : inq ((Poly b0 * Poly i1) %% Poly g) = inq (Poly b0) * inq (Poly i1).
      by rewrite -in_qM; apply/(in_q_eq (IrrP Hirr)); rewrite modp_mod.
    rewrite -mulrA -!in_qM; apply/(in_q_eq (IrrP Hirr)).
    by rewrite [Poly i1 * _]mulrC -polydiv.Pdiv.Field.modp_mul Pi mulr1.
  by apply: (toQ_Poly Ng Vd); rewrite Td Ts /toQ -in_qX -in_qB.
- by rewrite Pe Pa Pb modpD.
Qed.

(** ** The inverse transform *)
Lemma inverse1 x0 x1 xs y0 y1 ys : valid x0 -> valid x1 -> valid y0 -> valid y1 ->
  adfft_inverse g 0 [:: x0, x1 & xs] [:: y0, y1 & ys] = if x0 == x1 then Ok x0 else Err UnboundLocalError.
Proof.
move=> Vx0 Vx1 Vy0 Vy1; rewrite /adfft_inverse.
rewrite [py_nth [:: x0, x1 & xs] 0](@py_nth_ok _ [::] [:: x0, x1 & xs] 0 erefl) bind_ok.
rewrite [py_nth [:: x0, x1 & xs] 1](@py_nth_ok _ [::] [:: x0, x1 & xs] 1 erefl) bind_ok.
rewrite [nth _ _ _]/= [nth _ _ 1]/= (fq_eqE Ng Hirr Vx0 Vx1).
have -> : (toQ Hirr x0 == toQ Hirr x1) = (x0 == x1).
  by apply/eqP/eqP => [/(toQ_inj Ng Vx0 Vx1)|->].
case: eqP => // Hne.
rewrite [py_nth [:: y0, y1 & ys] 1](@py_nth_ok _ [::] [:: y0, y1 & ys] 1 erefl) bind_ok.
rewrite [py_nth [:: y0, y1 & ys] 0](@py_nth_ok _ [::] [:: y0, y1 & ys] 0 erefl) bind_ok.
have [dy [-> Vdy _ _]] := fq_sub_ok Ng Hirr Vy1 Vy0; rewrite bind_ok.
have [dx [-> Vdx _ Tdx]] := fq_sub_ok Ng Hirr Vx1 Vx0; rewrite bind_ok.
have Ndx : dx != [::].
  rewrite -(@toQ_eq0 _ g Ng Hirr dx Vdx) Tdx subr_eq0; apply/eqP => /(toQ_inj Ng Vx1 Vx0) E.
  by apply: Hne.
by have [q [-> _ _]] := fq_div_poly Ng Hirr Vdy Vdx Ndx.
Qed.

Section InverseStep.
Variables (m' : nat) (G y : seq (seq F)).
Hypothesis SG : size G = (2 ^ m')%N.
Hypothesis Sy : (2 ^ m'.+1 <= size y)%N.
Hypothesis Vy : all valid y.

Lemma inverse_vu : exists vu, [/\ mapM (fun i =>
        let* a := py_nth y (Z.of_nat (i + 2 ^ m')) in
        let* b := py_nth y (Z.of_nat i) in
        let* v := fq_sub g a b in
        let* Gi := py_nth G (Z.of_nat i) in
        let* t := fq_mul g Gi v in
        let* u := fq_sub g b t in Ok (v, u)) (iota 0 (2 ^ m')) = Ok vu, size vu = (2 ^ m')%N &
        all valid [seq p.1 | p <- vu] /\ all valid [seq p.2 | p <- vu]].
Proof.
have Vi i : (i < size y)%N -> valid (nth [::] y i) by move=> Hi; exact: (all_nthP [::] Vy).
have [i|ys [E S H]] := @mapM_nth _ _ 0%N ([::], [::]) (fun i =>
        let* a := py_nth y (Z.of_nat (i + 2 ^ m')) in
        let* b := py_nth y (Z.of_nat i) in
        let* v := fq_sub g a b in
        let* Gi := py_nth G (Z.of_nat i) in
        let* t := fq_mul g Gi v in
        let* u := fq_sub g b t in Ok (v, u)) (fun _ p => valid p.1 && valid p.2) (iota 0 (2 ^ m')).
  rewrite size_iota => Hi; rewrite nth_iota // add0n.
  have H2 : (2 ^ m'.+1 = 2 ^ m' + 2 ^ m')%N by rewrite expnS mul2n addnn.
  have Ha : (i + 2 ^ m' < size y)%N by move: Sy Hi; rewrite H2; move: (2 ^ m')%N (size y); clear; lia.
  have Hb : (i < size y)%N by apply: leq_ltn_trans Ha; apply: leq_addr.
  rewrite (py_nth_ok [::] Ha) bind_ok (py_nth_ok [::] Hb) bind_ok.
  have [v [-> Vv _ _]] := fq_sub_ok Ng Hirr (Vi _ Ha) (Vi _ Hb); rewrite bind_ok.
  rewrite (@py_nth_ok _ [::]) ?SG // bind_ok.
  have [t [-> Vt _ _]] := fq_mul_ok Ng Hirr (nth [::] G i) v; rewrite bind_ok.
  have [u [-> Vu _ _]] := fq_sub_ok Ng Hirr (Vi _ Hb) Vt.
  by exists (v, u); rewrite bind_ok /= Vv Vu.
move: S H; rewrite size_iota => S H; exists ys; split=> //.
by split; apply/(all_nthP [::]) => i; rewrite size_map S => Hi;
   rewrite (nth_map ([::], [::])) ?S //; case/andP: (H i Hi).
Qed.
End InverseStep.

Lemma mapM_size (A B : Type) (f : A -> result B) l r : mapM f l = Ok r -> size r = size l.
Proof.
elim: l r => [|a l IH] r /=; first by case=> <-.
by case: (f a) => //= b; case E: (mapM f l) => [s|] //= [<-] /=; rewrite (IH s).
Qed.

Lemma subset_10 (delta : seq (seq F)) :
  subset_sum g delta (int_to_bin_string 2) = subset_sum g delta (int_to_bin_string 1).
Proof.
rewrite /subset_sum field_of0 /= ?bind_ok.
by case: (py_nth delta 0) => //= c; case: (fq_add g _ c).
Qed.

Lemma inverse_base (x : seq F) u : valid x -> adfft_inverse g 0 [:: x; x] u = Ok x.
Proof.
by move=> Vx; rewrite /adfft_inverse !bind_ok (fq_eqE Ng Hirr Vx Vx) eqxx.
Qed.

Lemma mapM_all (A B : Type) (Q : pred B) (f : A -> result B) l r :
  (forall a b, f a = Ok b -> Q b) -> mapM f l = Ok r -> all Q r.
Proof.
move=> H; elim: l r => [|a l IH] r /=; first by case=> <-.
by case E: (f a) => [b|] //=; case E': (mapM f l) => [s|] //= [<-] /=; rewrite (H a b E) IH.
Qed.

Lemma py_nth_valid (l : seq (seq F)) i z : all valid l -> py_nth l i = Ok z -> valid z.
Proof.
move=> Vl; rewrite /py_nth; case: ifP => // _.
case E: (List.nth_error l _) => [c|] // [<-].
by apply: (allP Vl); apply: In_mem; exact: (List.nth_error_In _ _ E).
Qed.

Lemma subset_valid (l : seq (seq F)) s z : all valid l -> subset_sum g l s = Ok z -> valid z.
Proof.
rewrite /subset_sum field_of0 /= ?bind_ok => Vl.
elim: (iota 0 (size s)) [::] valid_nil => [|j js IH] t Vt /=; first by case=> <-.
case: (nth false s j); last exact: IH.
case E: (py_nth l _) => [c|] //=; rewrite ?bind_ok.
have Vc := py_nth_valid Vl E.
have [t' [-> Vt' _ _]] := fq_add_ok Ng Hirr Vt Vc.
exact: IH.
Qed.

Lemma bind_congr (A B : Type) (e : result A) (f f' : A -> result B) :
  (forall a, e = Ok a -> f a = f' a) -> (let* a := e in f a) = (let* a := e in f' a).
Proof. by case: e => [a|] //= H; exact: H. Qed.

Lemma inverseS m'' x y : adfft_inverse g m''.+1 x y =
    let* beta := mapM (fun i => py_nth x (Z.of_nat (2 ^ i))) (iota 0 m''.+2) in
    let* last := py_nth beta (-1) in
    let* Ibeta := fq_inverse g last in
    let* gamma := mapM (fun i => let* b := py_nth beta (Z.of_nat i) in fq_mul g b Ibeta) (iota 0 m''.+1) in
    let* delta := mapM (fun i => let* c := py_nth gamma (Z.of_nat i) in
                                 let* s := fq_mul g c c in fq_sub g s c) (iota 0 m''.+1) in
    let* G := mapM (fun i => subset_sum g gamma (int_to_bin_string i)) (iota 0 (2 ^ m''.+1)) in
    let* vu := mapM (fun i =>
        let* a := py_nth y (Z.of_nat (i + 2 ^ m''.+1)) in
        let* b := py_nth y (Z.of_nat i) in
        let* v := fq_sub g a b in
        let* Gi := py_nth G (Z.of_nat i) in
        let* t := fq_mul g Gi v in
        let* u := fq_sub g b t in Ok (v, u)) (iota 0 (2 ^ m''.+1)) in
    let v := [seq p.1 | p <- vu] in
    let u := [seq p.2 | p <- vu] in
    let* x1 := mapM (fun i => subset_sum g delta (int_to_bin_string i.+1)) (iota 0 (2 ^ m''.+1)) in
    let* g_0 := adfft_inverse g m'' x1 u in
    let* g_1 := adfft_inverse g m'' x1 v in
    let* zero := field_of g [:: 0%Z] in
    let* one := field_of g [:: 1%Z] in
    let* X := field_of g [:: 0%Z; 1%Z] in
    let* grt := fq_mul g X Ibeta in
    let* sq := fq_mul g grt grt in
    let* gr := fq_sub g sq grt in
    let* op := fq_add g one grt in
    let multiplier := [:: zero; grt; one; op] in
    let* g_right := foldM (fun l _ => let* e := py_nth l (-1) in
                                      let* t := fq_mul g e gr in Ok (l ++ [:: t]))
                          (iota 0 (2 ^ m''.+1)) [:: one] in
    foldM (fun acc i =>
        let* c := py_nth multiplier (coef_int g_0 i + 2 ^ coef_int g_1 i) in
        let* r := py_nth g_right (Z.of_nat i) in
        let* t := fq_mul g c r in fq_add g acc t) (iota 0 (2 ^ m''.+1)) zero.
Proof. by []. Qed.

Lemma inverse_ignores m x y y' : (2 ^ m.+2 <= size y)%N -> (2 ^ m.+2 <= size y')%N ->
  all valid y -> all valid y' ->
  adfft_inverse g m.+1 x y = adfft_inverse g m.+1 x y'.
Proof.
have gamma_valid l r I b : mapM (fun i => let* b := py_nth b (Z.of_nat i) in fq_mul g b I) l = Ok r -> all valid r.
  apply: mapM_all => a z /=; case: py_nth => //= c.
  by have [t [-> Vt _ _]] := fq_mul_ok Ng Hirr c I; case=> <-.
have delta_valid l r c : all valid c -> mapM (fun i => let* c := py_nth c (Z.of_nat i) in
                  let* s := fq_mul g c c in fq_sub g s c) l = Ok r -> all valid r.
  move=> Vc; apply: mapM_all => a z /=; case E: py_nth => [d|] //=.
  have Vd := py_nth_valid Vc E.
  have [t [-> Vt _ _]] := fq_mul_ok Ng Hirr d d; rewrite /=.
  by have [u [-> Vu _ _]] := fq_sub_ok Ng Hirr Vt Vd; case=> <-.
elim: m x y y' => [|m IH] x y y' Sy Sy' Vy Vy'; rewrite 2!inverseS;
  apply: bind_congr => beta _; apply: bind_congr => last _; apply: bind_congr => Ib _;
  apply: bind_congr => gamma Eg; apply: bind_congr => delta Ed; apply: bind_congr => G EG;
  move/gamma_valid: Eg => Vg; move/(delta_valid _ _ _ Vg): Ed => Vd;
  move/mapM_size: EG; rewrite size_iota => SG;
  have [vu [-> Svu [V1 V2]]] := inverse_vu SG Sy Vy;
  have [vu' [-> Svu' [V1' V2']]] := inverse_vu SG Sy' Vy'; rewrite !bind_ok;
  apply: bind_congr => x1 Ex1.
- have : exists2 d, valid d & x1 = [:: d; d].
    move: Ex1; rewrite [iota 0 _]/= [mapM _ _]/= subset_10.
    case E: (subset_sum g delta _) => [d|] //= [<-]; exists d => //; exact: subset_valid E.
  by case=> d Vd' ->; rewrite /= ?bind_ok (fq_eqE Ng Hirr Vd' Vd') eqxx.
by rewrite (IH x1 _ [seq p.2 | p <- vu']) ?(IH x1 _ [seq p.1 | p <- vu']) ?size_map ?Svu ?Svu'.
Qed.

Lemma coef_intE (d : seq F) i : coef_int d i = mval d`_i.
Proof.
rewrite /coef_int; case: Z.leb_spec => // H; rewrite nth_default //.
by move: H; rewrite /pdegree /pabs; move: (size d); clear; lia.
Qed.

(** the inverse on four points *)
Lemma inverse4 x0 x1 x2 xs y : valid x1 -> valid x2 -> x2 != [::] -> (4 <= size y)%N -> all valid y ->
  exists c d s r, [/\ adfft_inverse g 1 [:: x0, x1, x2 & xs] y = Ok r, valid r,
    (Poly c * Poly x2) %% Poly g = Poly x1 /\ Poly d = (Poly c ^+ 2 - Poly c) %% Poly g,
    (Poly s * Poly x2) %% Poly g = 'X %% Poly g &
    Poly r = ((Poly s + (d`_0)%:P) + (Poly s + (d`_1)%:P) * (Poly s ^+ 2 - Poly s)) %% Poly g].
Proof.
move=> V1 V2 N2 Sy Vy; rewrite inverseS.
have Q a b : valid a -> toQ Hirr a = inq b -> Poly a = b %% Poly g by move=> Va E; apply: (toQ_Poly Ng Va).
have -> : mapM (fun i => py_nth [:: x0, x1, x2 & xs] (Z.of_nat (2 ^ i))) (iota 0 2) = Ok [:: x1; x2].
  by rewrite [iota 0 2]/= [mapM _ _]/= (@py_nth_ok _ [::] [:: x0, x1, x2 & xs] 1 erefl) bind_ok
             (@py_nth_ok _ [::] [:: x0, x1, x2 & xs] 2 erefl).
rewrite bind_ok -[py_nth [:: x1; x2] (-1)]/(Ok x2) bind_ok.
have [i2 [-> Vi2 Ti2]] := fq_inverse_ok Ng Hirr V2 N2; rewrite bind_ok.
have [c [Ec Vc Pc Tc]] := fq_mul_ok Ng Hirr x1 i2.
have -> : mapM (fun i => let* b := py_nth [:: x1; x2] (Z.of_nat i) in fq_mul g b i2) (iota 0 1) = Ok [:: c].
  by rewrite /= Ec.
rewrite bind_ok.
have [cc [Ecc Vcc Pcc Tcc]] := fq_mul_ok Ng Hirr c c.
have [d [Ed Vd Pd Td]] := fq_sub_ok Ng Hirr Vcc Vc.
have -> : mapM (fun i => let* c0 := py_nth [:: c] (Z.of_nat i) in
    let* s := fq_mul g c0 c0 in fq_sub g s c0) (iota 0 1) = Ok [:: d].
  by rewrite /= Ecc /= Ed.
rewrite bind_ok.
have [z1 [Ez1 Vz1 _ _]] := fq_add_ok Ng Hirr valid_nil Vc.
have -> : mapM (fun i => subset_sum g [:: c] (int_to_bin_string i)) (iota 0 (2 ^ 1)) = Ok [:: [::]; z1].
  by rewrite /= /subset_sum field_of0 /= Ez1.
rewrite bind_ok.
have [vu [-> Svu [Vv Vu]]] := @inverse_vu 1 [:: [::]; z1] y erefl Sy Vy; rewrite bind_ok.
cbv zeta.
have [d' [Ed' Vd' Pd' Td']] := fq_add_ok Ng Hirr valid_nil Vd.
have {}Ed' : fq_add g [::] d = Ok d.
  rewrite Ed'; congr Ok; apply: Poly_inj; [by case/andP: Vd'|by case/andP: Vd|by rewrite Pd' Poly_nil0 add0r].
have -> : mapM (fun i => subset_sum g [:: d] (int_to_bin_string i.+1)) (iota 0 (2 ^ 1)) = Ok [:: d; d].
  by rewrite [iota 0 _]/= [mapM _ _]/= subset_10 /subset_sum field_of0 /= Ed'.
rewrite bind_ok !inverse_base // !bind_ok field_of0 bind_ok.
have [one [-> V1' P1]] := field_ofE [:: 1%Z]; rewrite bind_ok.
have {P1} T1 : toQ Hirr one = 1.
  rewrite /toQ P1 -(in_q1 (IrrP Hirr)); apply/(in_q_eq (IrrP Hirr)); rewrite modp_mod.
  congr (_ %% _); rewrite /= cons_poly_def mul0r add0r.
  by rewrite -polyC1.
have [X [-> VX PX]] := field_ofE [:: 0%Z; 1%Z]; rewrite bind_ok.
have {}PX : Poly X = 'X %% Poly g.
  rewrite PX; congr (_ %% _).
  rewrite -[map _ _]/([:: (0 : F); 1]) /= !cons_poly_def mul0r !add0r polyC0 addr0.
  by rewrite polyC1 mul1r.
have [s [-> Vs Ps Ts]] := fq_mul_ok Ng Hirr X i2; rewrite bind_ok.
have [sq [-> Vsq Psq Tsq]] := fq_mul_ok Ng Hirr s s; rewrite bind_ok.
have [gr [-> Vgr Pgr Tgr]] := fq_sub_ok Ng Hirr Vsq Vs; rewrite bind_ok.
have [op [-> Vop Pop Top]] := fq_add_ok Ng Hirr V1' Vs; rewrite bind_ok.
have [e1 [E1 Ve1 Pe1 Te1]] := fq_mul_ok Ng Hirr one gr.
have [e2 [E2 Ve2 Pe2 Te2]] := fq_mul_ok Ng Hirr e1 gr.
have -> : foldM (fun l _ => let* e := py_nth l (-1) in let* t := fq_mul g e gr in Ok (l ++ [:: t]))
                (iota 0 (2 ^ 1)) [:: one] = Ok [:: one; e1; e2].
  by rewrite /= E1 /= E2.
rewrite bind_ok.
have M i : exists w, [/\ py_nth [:: [::]; s; one; op] (coef_int d i + 2 ^ coef_int d i) = Ok w, valid w &
    toQ Hirr w = toQ Hirr s + inq (d`_i)%:P].
  rewrite coef_intE; case: (bitP P2 d`_i) => H; rewrite H.
    have -> : d`_i = 0 by apply: mval_inj.
    by exists s; split=> //; rewrite polyC0 in_q0 addr0.
  have -> : d`_i = 1 by apply: mval_inj; rewrite H /= P2.
  by exists op; split=> //; rewrite Top T1 polyC1 in_q1 addrC.
have [w0 [Ew0 Vw0 Tw0]] := M 0%N; have [w1 [Ew1 Vw1 Tw1]] := M 1%N.
have [t0 [Et0 Vt0 _ Tt0]] := fq_mul_ok Ng Hirr w0 one.
have [a0 [Ea0 Va0 Pa0 Ta0]] := fq_add_ok Ng Hirr valid_nil Vt0.
have [t1 [Et1 Vt1 _ Tt1]] := fq_mul_ok Ng Hirr w1 e1.
have [a1 [Ea1 Va1 _ Ta1]] := fq_add_ok Ng Hirr Va0 Vt1.
rewrite [iota 0 _]/= [foldM _ _ _]/= Ew0 bind_ok.
rewrite Et0 bind_ok Ea0 bind_ok Ew1 bind_ok Et1 bind_ok Ea1 bind_ok.
have U2 : toQ Hirr x2 != 0 by rewrite toQ_eq0.
exists c, d, s, a1; split=> //.
- split; last by apply: Q => //; rewrite Td Tcc /toQ -in_qM -in_qB expr2.
  symmetry; apply: Q => //; rewrite in_qM -/(toQ Hirr c) -/(toQ Hirr x2) Tc Ti2.
  by rewrite divfK.
- apply/(in_q_eq (IrrP Hirr)); rewrite in_qM -/(toQ Hirr s) -/(toQ Hirr x2) Ts Ti2 divfK //.
  by rewrite /toQ PX; apply/(in_q_eq (IrrP Hirr)); rewrite modp_mod.
- apply: Q => //; rewrite Ta1 Ta0 Tt0 Tt1 Te1 Tw0 Tw1 Tgr Tsq T1 mulr1 mul1r.
  by rewrite in_qD in_qM !in_qD in_qX in_qN -/(toQ Hirr s) expr2 {1}/toQ Poly_nil0 in_q0 add0r.
Qed.
End Additive.
