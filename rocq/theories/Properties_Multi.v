(** Property theorems C41-C45: starks/multivariate_polynomial.py and the
    multivariate part of starks/poly_utils.py and starks/utils.py.

    Vocabulary (MultiProofs.v): [wf n p]: the dict p has no repeated key, its keys
    have length n and its coefficients are not zero;
    [meval phi v p] is the sum over the entries (k, c) of p of
    phi(c) * v(0)^k_0 * ... * v(n-1)^k_{n-1}, in any commutative ring R into which
    the coefficient field is mapped by the ring morphism phi. *)
From mathcomp Require Import zify ssrZ.
From Verif Require Import Prelude BaseProofs PolyModel PolyProofs ModpModel ModpField FinFld
  FftProofs FiniteFieldProofs MultiModel MultiProofs MultiUtilsProofs.
Set Implicit Arguments.
Unset Strict Implicit.
Unset Printing Implicit Defensive.
Import GRing.Theory.
Local Open Scope ring_scope.
Local Open Scope py_scope.

Local Notation F5 := (modp_finFieldType P5).
Local Notation z5 := (in_modp P5).
Local Notation show p := [seq (kc.1, mval kc.2) | kc <- p].
Local Notation rd l := [seq (kc.1, in_modp P5 kc.2) | kc <- l].

(** ** C41 *)
Theorem C41_constructor : forall (F : fieldType) n (d : mpoly F),
  uniq (mkeys d) -> (forall k, k \in mkeys d -> size k = n) ->
  wf n (mmk d) /\ forall (R : comRingType) (phi : {rmorphism F -> R}) v,
    meval phi v (mmk d) = meval phi v d.
Proof. by move=> F n d U S; split; [exact: wf_mmk | move=> R phi v; exact: meval_mmk]. Qed.
Print Assumptions C41_constructor.

Theorem C41_ring_operations : forall (F : fieldType) n (a b : mpoly F), wf n a -> wf n b ->
  [/\ wf n (madd a b), wf n (msub a b), wf n (mneg a) & wf n (mmul a b)] /\
  forall (R : comRingType) (phi : {rmorphism F -> R}) (v : nat -> R),
    [/\ meval phi v (madd a b) = meval phi v a + meval phi v b,
        meval phi v (msub a b) = meval phi v a - meval phi v b,
        meval phi v (mneg a) = - meval phi v a &
        meval phi v (mmul a b) = meval phi v a * meval phi v b].
Proof.
move=> F n a b Wa Wb; split.
  by split; [exact: wf_add|exact: wf_sub|exact: wf_neg|exact: wf_mul].
move=> R phi v; split.
- exact: meval_addE Wa Wb.
- exact: meval_sub Wa Wb.
- exact/meval_neg/(wf_uniq Wa).
by have [_ ->] := mul_spec Wa Wb.
Qed.
Print Assumptions C41_ring_operations.

Theorem C41_power : forall (F : fieldType) n (a : mpoly F) d, wf n a ->
  exists r, mpow n a d = Ok r /\ wf n r /\
    forall (R : comRingType) (phi : {rmorphism F -> R}) (v : nat -> R),
      meval phi v r = meval phi v a ^+ d.
Proof. by move=> F n a d; exact: mpow_spec. Qed.
Print Assumptions C41_power.

(** [==] decides equality of polynomials: same values in every extension *)
Theorem C41_eq : forall (F : fieldType) n (a b : mpoly F), wf n a -> wf n b ->
  (meq a b <-> forall (R : comRingType) (phi : {rmorphism F -> R}) (v : nat -> R),
                 meval phi v a = meval phi v b) /\
  (meq a b <-> perm_eq a b).
Proof.
move=> F n a b Wa Wb; split; split.
- by move=> /(meqP Wa Wb) E R phi v; apply: meval_perm; apply: wf_ext Wa Wb E.
- by move=> E; apply/(meqP Wa Wb); apply: (meval_inj Wa Wb) => v; exact: E.
- by move=> /(meqP Wa Wb) E; exact: wf_ext Wa Wb E.
by move=> P; apply/(meqP Wa Wb) => k; exact: get_perm (wf_uniq Wa) P.
Qed.
Print Assumptions C41_eq.

(** The result does not depend on the order of the entries of the operands, up to
    the order of its own entries.  Python iterates over a set in [__add__]. *)
Theorem C41_order_irrelevant : forall (F : fieldType) n (a a' b b' : mpoly F),
  wf n a -> wf n b -> perm_eq a a' -> perm_eq b b' ->
  perm_eq (madd a b) (madd a' b') /\ mmul a b = mmul a' b' /\ mneg a = mneg a'.
Proof.
move=> F n a a' b b' Wa Wb Pa Pb; split; first exact: madd_perm Wa Wb Pa Pb.
rewrite /mmul /mneg /mis_zero (miter_perm (wf_uniq Wa) Pa) (miter_perm (wf_uniq Wb) Pb).
by rewrite (perm_size Pa) (perm_size Pb).
Qed.
Print Assumptions C41_order_irrelevant.

(** degree() is the total degree *)
Theorem C41_degree : forall (F : fieldType) (p : mpoly F),
  mdegree p = (\max_(k <- mkeys p) \sum_(e <- k) e)%N.
Proof. exact mdegreeE. Qed.
Print Assumptions C41_degree.

(** The deviation: power tuples of different lengths are added wrongly
    (multivariate_polynomial.py:41, 44), so the product X * (X Y^2) is X^2 Y. *)
Theorem C41_mixed_lengths_refuted : exists a b : mpoly F5,
  wf 1 a /\ wf 2 b /\ exists v : nat -> F5,
    meval [rmorphism of idfun] v (mmul a b)
      <> meval [rmorphism of idfun] v a * meval [rmorphism of idfun] v b.
Proof.
exists [:: ([:: 1%N], 1)], [:: ([:: 1%N; 2%N], 1)]; split=> //; split=> //.
exists (fun i => if i is 0 then 1 else z5 2).
rewrite /mmul [mis_zero _ || _]/= meval_mmk /miter /mmul_step /= add0r mul1r.
rewrite /meval !big_seq1 /mon /= !big_ord_recl !big_ord0 /=.
by rewrite !expr1n !mul1r !mulr1 !expr1 => /(congr1 (@mval P5)); vm_compute.
Qed.
Print Assumptions C41_mixed_lengths_refuted.

(** In general: the exponents that follow the common part are taken from the beginning of
    the longer tuple. *)
Theorem C41_add_power_tuples : forall (a b : key),
  let long := if (size a <= size b)%N then b else a in
  let m := minn (size a) (size b) in
  size (add_power_tuples a b) = size long /\
  forall i, (i < size long)%N -> nth 0%N (add_power_tuples a b) i =
    if (i < m)%N then (nth 0 a i + nth 0 b i)%N else nth 0%N long (i - m).
Proof.
move=> a b /=; rewrite /add_power_tuples.
have -> : (size a == minn (size a) (size b)) = (size a <= size b)%N by rewrite eq_sym; apply/eqP/idP => [<-|/minn_idPl //]; exact: geq_minr.
case: ifP => Hs.
  rewrite !size_cat !size_map !size_iota (minn_idPl Hs); split; first by rewrite subnKC.
  move=> i Hi; rewrite nth_cat size_map size_iota; case: ifP => Hm.
    by rewrite (nth_map 0%N) ?size_iota // nth_iota.
  have Hd : (i - size a < size b - size a)%N by move: Hm Hi; clear; lia.
  by rewrite (nth_map 0%N) ?size_iota // nth_iota.
have Hs' : (size b <= size a)%N by move: Hs; clear; lia.
rewrite !size_cat !size_map !size_iota (minn_idPr Hs'); split; first by rewrite subnKC.
move=> i Hi; rewrite nth_cat size_map size_iota; case: ifP => Hm.
  by rewrite (nth_map 0%N) ?size_iota // nth_iota.
have Hd : (i - size b < size a - size b)%N by move: Hm Hi; clear; lia.
by rewrite (nth_map 0%N) ?size_iota // nth_iota.
Qed.
Print Assumptions C41_add_power_tuples.

(** (X + 2Y)(X + 3Y) = X^2 + Y^2 over Z/5: the XY terms cancel *)
Example C41_example :
  show (mmul (rd [:: ([:: 1; 0]%N, 1); ([:: 0; 1]%N, 2)]%Z : mpoly F5)
             (rd [:: ([:: 0; 1]%N, 3); ([:: 1; 0]%N, 1)]%Z)) =
    [:: ([:: 0; 2]%N, 1); ([:: 2; 0]%N, 1)]%Z /\
  show (madd (rd [:: ([:: 1; 0]%N, 1); ([:: 0; 1]%N, 2)]%Z : mpoly F5)
             (rd [:: ([:: 0; 1]%N, 3); ([:: 2; 0]%N, 4)]%Z)) =
    [:: ([:: 1; 0]%N, 1); ([:: 2; 0]%N, 4)]%Z /\
  rmap (fun r => show r) (mpow 2 (rd [:: ([:: 1; 0]%N, 1); ([:: 0; 1]%N, 1)]%Z : mpoly F5) 5) =
    Ok [:: ([:: 0; 5]%N, 1); ([:: 5; 0]%N, 1)]%Z /\
  mdegree (rd [:: ([:: 1; 3]%N, 1); ([:: 0; 1]%N, 2)]%Z : mpoly F5) = 4%N.
Proof. by vm_compute. Qed.

(** ** C42 *)
Theorem C42_call : forall (F : fieldType) n (p : mpoly F) (vals : seq F), wf n p ->
  mcall n p vals =
    if size vals == n then Ok (\sum_(kc <- p) kc.2 * \prod_(i < n) vals`_i ^+ nth 0%N kc.1 i)
    else Err AssertionError.
Proof.
move=> F n p vals W; case: eqP => [S|/eqP S]; last exact: mcall_gen_size.
rewrite mcallE //; congr Ok; rewrite /meval big_seq [RHS]big_seq; apply: eq_bigr => kc K.
by congr (_ * _); rewrite (@mon_wide _ _ n) // (wf_size W) // map_f.
Qed.
Print Assumptions C42_call.

(** calling with multivariate polynomials in n' variables is substitution *)
Theorem C42_compose : forall (F : fieldType) n n' (p : mpoly F) (vals : seq (mpoly F)), wf n p ->
  (size vals != n -> mcompose n n' p vals = Err AssertionError) /\
  (size vals = n -> (forall q, List.In q vals -> wf n' q) ->
   exists r, mcompose n n' p vals = Ok r /\ wf n' r /\
    forall (R : comRingType) (phi : {rmorphism F -> R}) v,
      meval phi v r = meval phi (fun i => meval phi v (nth [::] vals i)) p).
Proof.
move=> F n n' p vals W; split; first exact: mcall_gen_size.
by move=> S Wv; exact: mcompose_spec.
Qed.
Print Assumptions C42_compose.

(** calling with univariate polynomials *)
Theorem C42_call_poly : forall (F : fieldType) n (p : mpoly F) (vals : seq (seq F)), wf n p ->
  (size vals != n -> mcall_poly n p vals = Err AssertionError) /\
  (size vals = n -> (forall q, List.In q vals -> normal q) ->
   mcall_poly n p vals =
     Ok (polyseq (meval [rmorphism of polyC] (fun i => Poly (nth [::] vals i)) p))).
Proof.
move=> F n p vals W; split; first exact: mcall_gen_size.
by move=> S Nv; exact: mcall_polyE.
Qed.
Print Assumptions C42_call_poly.

Theorem C42_generators : forall (F : fieldType) n (vals : seq F) i, size vals = n -> (i < n)%N ->
  size (generate_Xi_s F n) = n /\
  wf n (nth [::] (generate_Xi_s F n) i) /\
  mcall n (nth [::] (generate_Xi_s F n) i) vals = Ok vals`_i.
Proof.
move=> F n vals i S Hi; rewrite /generate_Xi_s size_map size_iota; split=> //.
rewrite (nth_map 0%N) ?size_iota // nth_iota // add0n; split; first exact: wf_mvar.
by rewrite mcallE ?wf_mvar // meval_mvar.
Qed.
Print Assumptions C42_generators.

Example C42_example :
  rmap (@mval P5) (mcall 2 (rd [:: ([:: 1; 2]%N, 3); ([:: 0; 0]%N, 4)]%Z : mpoly F5) [:: z5 2; z5 3])
    = Ok 3%Z /\
  rmap (@mval P5) (mcall 2 (rd [:: ([:: 1; 2]%N, 3)]%Z : mpoly F5) [:: z5 2]) = Err AssertionError /\
  rmap (fun r => [seq mval x | x <- r])
    (mcall_poly 2 (rd [:: ([:: 1; 2]%N, 3); ([:: 0; 0]%N, 4)]%Z : mpoly F5)
      [:: [:: z5 2]; [:: z5 0; z5 1]]) = Ok [:: 4; 0; 1]%Z /\
  [seq show p | p <- generate_Xi_s F5 2] = [:: [:: ([:: 1; 0]%N, 1%Z)]; [:: ([:: 0; 1]%N, 1%Z)]].
Proof. by vm_compute. Qed.

(** ** C43: over every finite field F, with q = |F| *)
Lemma delta_factor (F : finFieldType) (x y : F) :
  1 - (x - y) ^+ (#|F| - 1) = (if x == y then 1 else 0).
Proof.
have H := card_gt1 F; case: eqP => [->|/eqP N].
  by rewrite subrr expr0n; case: (#|F| - 1)%N (subn_gt0 1 #|F|) => [|k]; rewrite ?H // subr0.
by rewrite subn1 fermat ?subrr // subr_eq0.
Qed.

Lemma prod_delta (F : finFieldType) (x y : nat -> F) m :
  \prod_(i < m) (if x i == y i then 1 else 0) =
  (if all (fun i => x i == y i) (iota 0 m) then 1 else 0) :> F.
Proof.
elim: m => [|m IH]; first by rewrite big_ord0.
have -> : iota 0 m.+1 = iota 0 m ++ [:: m] by rewrite -addn1 iotaD.
rewrite all_cat /= andbT big_ord_recr /= IH.
by case: all; rewrite ?mul1r ?mul0r.
Qed.

Theorem C43_dirac_delta : forall (F : finFieldType) (y x : seq F) n,
  (size y <= n)%N -> size x = n ->
  exists r, dirac_delta #|F| n y = Ok r /\ wf n r /\
    mcall n r x = Ok (if y == take (size y) x then 1 else 0).
Proof.
move=> F y x n Hy Sx; have [r [-> [W E]]] := dirac_spec #|F| Hy.
exists r; split=> //; split=> //; rewrite mcallE // E; congr Ok.
under eq_bigr do rewrite delta_factor.
rewrite prod_delta; congr (if _ then _ else _); apply/allP/eqP => [H|H].
  apply: (@eq_from_nth _ 0) => [|i Hi]; first by rewrite size_takel ?Sx.
  by rewrite nth_take //; apply/esym/eqP/H; rewrite mem_iota.
by move=> i; rewrite mem_iota => /andP [_ Hi]; rewrite H nth_take.
Qed.
Print Assumptions C43_dirac_delta.

Theorem C43_too_many_values : forall (F : fieldType) q n (y : seq F), (n < size y)%N ->
  dirac_delta q n y = Err IndexError.
Proof. by move=> F q n y; exact: dirac_too_long. Qed.
Print Assumptions C43_too_many_values.

Example C43_example :
  rmap (fun r => show r) (dirac_delta 5 1 [:: z5 2]) =
    Ok [:: ([:: 1]%N, 2); ([:: 2]%N, 1); ([:: 3]%N, 3); ([:: 4]%N, 4)]%Z /\
  (let* r := dirac_delta 5 2 [:: z5 2] in rmap (@mval P5) (mcall 2 r [:: z5 2; z5 4])) = Ok 1%Z /\
  (let* r := dirac_delta 5 2 [:: z5 2] in rmap (@mval P5) (mcall 2 r [:: z5 3; z5 4])) = Ok 0%Z.
Proof. by vm_compute. Qed.

(** ** C44 *)
(** The general formula: over a finite field of characteristic p, with m index
    coordinates, the polynomial at (x_0, ..., x_{n-1}) is f(x_0, ..., x_{m-1}) when
    these coordinates all lie in the prime subfield and 0 otherwise. *)
Theorem C44_general_value : forall (F : finFieldType) (p m n : nat) (f : seq F -> F) (x : seq F),
  p \in [char F] -> (m <= n)%N -> size x = n ->
  exists r, construct_multivariate_coefficients p m #|F| (fun l => Ok (f l)) n = Ok r /\ wf n r /\
    ((forall i, (i < m)%N -> exists c : nat, x`_i = c%:R) -> mcall n r x = Ok (f (take m x))) /\
    (forall i, (i < m)%N -> (forall c : nat, x`_i <> c%:R) -> mcall n r x = Ok 0).
Proof.
move=> F p m n f x Cp Hm Sx.
have [r [-> [W E]]] := construct_spec p #|F| f Hm.
exists r; split=> //; split=> //.
have P0 : (0 < p)%N by apply: prime_gt0; apply: charf_prime Cp.
have Emod c : (c%:R : F) = (c %% p)%N%:R by rewrite {1}(divn_eq c p) natrD natrM (charf0 Cp) mulr0 add0r.
have inj a b : (a < p)%N -> (b < p)%N -> (a%:R == b%:R :> F) = (a == b).
  move=> Ha Hb; wlog L : a b Ha Hb / (a <= b)%N.
    by move=> H; case/orP: (leq_total a b) => L; [exact: H|rewrite eq_sym [RHS]eq_sym; exact: H].
  rewrite eq_sym -subr_eq0 -natrB // -(dvdn_charf Cp); apply/idP/eqP => [D|->]; last by rewrite subnn.
  have : (b - a < p)%N by lia.
  case: (posnP (b - a)%N) => [|P L2]; first by lia.
  by have := dvdn_leq P D; lia.
rewrite mcallE // E.
have term l : l \in int_product p m ->
  \prod_(i < m) (1 - (x`_i - (nth 0%N l i)%:R) ^+ (#|F| - 1)) =
  (if all (fun i => x`_i == (nth 0%N l i)%:R) (iota 0 m) then 1 else 0) :> F.
  by move=> _; under eq_bigr do rewrite delta_factor; exact: (prod_delta (nth 0 x) (fun i => (nth 0%N l i)%:R)).
split=> [H|i Hi H]; congr Ok.
- have [l0 [S0 A0 E0]] : exists l0, [/\ size l0 = m, all (fun i => i < p)%N l0 &
      forall i, (i < m)%N -> x`_i = (nth 0%N l0 i)%:R].
    clear -H P0 Emod; elim: m H => [|k IH] H; first by exists [::].
    have [i Hi|l [Sl Al El]] := IH; first by apply: H; lia.
    have [c Ec] := H k (ltnSn k); exists (rcons l (c %% p)%N).
    rewrite size_rcons all_rcons Sl Al ltn_mod P0; split=> // i Hi.
    rewrite nth_rcons Sl; case: (ltngtP i k) => [L|L|->]; [exact: El|by lia|].
    by rewrite Ec Emod.
  have I0 : l0 \in int_product p m by rewrite int_productP S0 eqxx A0.
  rewrite (bigD1_seq l0) ?int_product_uniq //= term //.
  have -> : all (fun i => x`_i == (nth 0%N l0 i)%:R) (iota 0 m).
    by apply/allP => i; rewrite mem_iota => /andP [_ Hi]; rewrite E0.
  rewrite mulr1 big1_seq ?addr0 => [|l /andP [N Il]].
    congr (f _); apply: (@eq_from_nth _ 0); first by rewrite size_map size_takel ?S0 ?Sx.
    by move=> i; rewrite size_map S0 => Hi; rewrite (nth_map 0%N) ?S0 // nth_take // E0.
  rewrite term //; case: ifP => [A|_]; last by rewrite mulr0.
  case/eqP: N; move: Il; rewrite int_productP => /andP [/eqP Sl Al].
  apply: (@eq_from_nth _ 0%N) => [|i]; rewrite Sl ?S0 // => Hi.
  apply/eqP; rewrite -inj; first last.
  - by move/all_nthP: A0; apply; rewrite S0.
  - by move/all_nthP: Al; apply; rewrite Sl.
  move/allP: A => /(_ i); rewrite mem_iota => /(_ Hi) /eqP <-; rewrite E0 //.
- rewrite big1_seq // => l /andP [_ Il]; rewrite term //; case: ifP => [A|_]; last by rewrite mulr0.
  move/allP: A => /(_ i); rewrite mem_iota => /(_ Hi) /eqP.
  by move=> K; case: (H _ K).
Qed.
Print Assumptions C44_general_value.

Lemma modp_val (P : primeZ) (x : modp_finFieldType P) : x = (Z.to_nat (mval x))%:R.
Proof.
rewrite modp_natr Z2Nat.id; last by have := mvalP x; lia.
by apply: mval_inj; rewrite /= mval_small.
Qed.

(** Over Z/p and for one variable every function is represented. *)
Theorem C44_univariate_modp : forall (P : primeZ) (f : seq (modp_finFieldType P) -> modp_finFieldType P)
   (x : modp_finFieldType P),
  exists r, construct_multivariate_coefficients (Z.to_nat (pz P)) 1 (Z.to_nat (pz P))
              (fun l => Ok (f l)) 1 = Ok r /\ wf 1 r /\ mcall 1 r [:: x] = Ok (f [:: x]).
Proof.
move=> P f x.
have [|r [E [W [H _]]]] := @C44_general_value (modp_finFieldType P) (Z.to_nat (pz P)) 1 1 f [:: x] _ (leqnn 1) erefl.
  by have := modp_char P; rewrite card_modp.
exists r; move: E; rewrite card_modp => ->; split=> //; split=> //.
rewrite H // => -[|i] // _; exists (Z.to_nat (mval x)).
exact: modp_val.
Qed.
Print Assumptions C44_univariate_modp.

(** The deviation: for n >= 2 over Z/p the result depends on the first coordinate
    only, and the function is only called at one-element lists. *)
Theorem C44_first_coordinate_only : forall (P : primeZ)
   (f : seq (modp_finFieldType P) -> modp_finFieldType P) n (x : seq (modp_finFieldType P)),
  size x = n.+1 ->
  exists r, construct_multivariate_coefficients (Z.to_nat (pz P)) 1 (Z.to_nat (pz P))
              (fun l => Ok (f l)) n.+1 = Ok r /\ mcall n.+1 r x = Ok (f [:: x`_0]).
Proof.
move=> P f n x S.
have [|r [E [W [H _]]]] := @C44_general_value (modp_finFieldType P) (Z.to_nat (pz P)) 1 n.+1 f x _ isT S.
  by have := modp_char P; rewrite card_modp.
exists r; move: E; rewrite card_modp => ->; split=> //.
rewrite H; first by case: x S {H W} => [|y [|z x]].
by move=> [|i] // _; exists (Z.to_nat (mval x`_0)); exact: modp_val.
Qed.
Print Assumptions C44_first_coordinate_only.

(** so the sum of two variables is not represented *)
Theorem C44_two_variables_refuted : forall P : primeZ,
  exists (f : seq (modp_finFieldType P) -> modp_finFieldType P) r x, size x = 2%N /\
    construct_multivariate_coefficients (Z.to_nat (pz P)) 1 (Z.to_nat (pz P))
      (fun l => Ok (f l)) 2 = Ok r /\ mcall 2 r x <> Ok (f x).
Proof.
move=> P; pose f (l : seq (modp_finFieldType P)) := l`_0 + l`_1.
have [r [E H]] := @C44_first_coordinate_only P f 1 [:: 0; 1] erefl.
exists f, r, [:: 0; 1]; split; first by []; split; first exact: E.
rewrite H /f [[:: 0; 1]`_0]/= [[:: 0; 1]`_1]/= [[:: 0]`_0]/= [[:: 0]`_1]/= !add0r.
have Ok_inj (a b : modp_finFieldType P) : Ok a = Ok b -> a = b by case.
by move=> /Ok_inj /esym; apply/eqP; exact: oner_neq0.
Qed.
Print Assumptions C44_two_variables_refuted.

Example C44_example :
  rmap (fun r => show r) (construct_multivariate_coefficients 5 1 5
      (fun l : seq F5 => Ok (l`_0 * l`_0 + z5 3)) 1) = Ok [:: ([:: 0]%N, 3); ([:: 2]%N, 1)]%Z.
Proof. by vm_compute. Qed.

(** ** C45 *)
Theorem C45_make_multivar : forall (F : fieldType) (p : seq F) i n (vals : seq F),
  (i < n)%N -> size vals = n ->
  exists r, make_multivar p i n = Ok r /\ wf n r /\ mcall n r vals = Ok (Poly p).[vals`_i].
Proof.
move=> F p i n vals Hi S; have [r [-> [W E]]] := make_multivar_spec p Hi.
exists r; split=> //; split=> //; rewrite mcallE // E; congr Ok.
rewrite (horner_coef_wide _ (size_Poly p)); apply: eq_bigr => j _.
by rewrite coef_Poly.
Qed.
Print Assumptions C45_make_multivar.

(** [bump i l] is l for l < i and l + 1 for l >= i: the remaining variables *)
Theorem C45_project_to_univariate : forall (F : fieldType) (q : mpoly F) i n, wf n q -> (i < n)%N ->
  exists r, project_to_univariate q i n = Ok r /\ all (wf n.-1) r /\
    forall (R : comRingType) (phi : {rmorphism F -> R}) (v : nat -> R),
      \sum_(j < size r) meval phi (fun l => v (bump i l)) (nth [::] r j) * v i ^+ j = meval phi v q.
Proof. by move=> F q i n W Hi; rewrite -subn1; exact: project_spec. Qed.
Print Assumptions C45_project_to_univariate.

(** 3 X0 X1^2 + 2 X0 + X1^2 seen in X1: (2 X0) + (3 X0 + 1) X1^2 *)
Example C45_example :
  rmap (fun r => [seq show p | p <- r]) (project_to_univariate
     (rd [:: ([:: 1; 2]%N, 3); ([:: 1; 0]%N, 2); ([:: 0; 2]%N, 1)]%Z : mpoly F5) 1 2) =
  Ok [:: [:: ([:: 1]%N, 2)]; [::]; [:: ([:: 0]%N, 1); ([:: 1]%N, 3)]]%Z /\
  rmap (fun r => show r) (make_multivar [:: z5 1; z5 0; z5 4] 1 3) =
    Ok [:: ([:: 0; 0; 0]%N, 1); ([:: 0; 2; 0]%N, 4)]%Z.
Proof. by vm_compute. Qed.
