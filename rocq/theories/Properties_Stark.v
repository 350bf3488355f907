(** Property theorems C49-C52 and C86-C89: starks/stark.py.

    Vocabulary.  [order_is g n] (FftProofs.v): g^n = 1 and g^i <> 1 for 0 < i < n.
    [fft_size n] (FftProofs.v): n = m * 2^k with 1 <= m <= 4.
    [polys_ok w ps], [peval p s] (AirProofs.v): the first w polynomials of ps are
    well formed in w variables; the value of p at s as an explicit sum.
    [row wit i]: the state (wit_0[i], ..., wit_{w-1}[i]) at step i.
    [valid_step w ps wit i]: wit_j[i+1] = peval ps_j (row wit i) for all j < w.
    [bnd_ok w n wit bnd]: wit has w registers of n values each and bnd at least w
    entries.  [honest n w ps wit bnd] (StarkVerifyProofs.v): bnd_ok, all n-1
    transitions are valid, the boundary values are the initial values and the
    final values are not 0.
    [z2 l] is (X - 1)(X - l).  The FRI part of a proof is not modelled. *)
From Coq.Strings Require Import Byte.
From mathcomp Require Import zify ssrZ.
From Verif Require Import Prelude BaseProofs PolyModel PolyProofs MerkleModel ModpModel ModpField FinFld
  InterpModel InterpProofs FftModel FftProofs FiniteFieldProofs MultiModel MultiProofs MultiUtilsProofs AirProofs
  UtilsModel UtilsProofs StarkModel StarkProofs StarkVerifyProofs.
Set Implicit Arguments.
Unset Strict Implicit.
Unset Printing Implicit Defensive.
Import GRing.Theory.
Local Open Scope ring_scope.
Local Open Scope py_scope.

Local Notation z17 := (in_modp P17).
Local Notation F17 := (modp_fieldType P17).

(** x |-> x^2 + 1 over Z/17, from 1: 1, 2, 5, 9; and a wrong trace *)
Definition sq1 : seq (mpoly F17) := [:: [:: ([:: 2%N], z17 1); ([:: 0%N], z17 1)]].
Definition wit17 : seq (seq F17) := [:: [seq z17 x | x <- [:: 1; 2; 5; 9]%Z]].
Definition bad17 : seq (seq F17) := [:: [seq z17 x | x <- [:: 1; 2; 6; 9]%Z]].
Definition bnd17 : seq (nat * nat * F17) := [:: (0%N, 0%N, z17 1)].
Definition bad_bnd17 : seq (nat * nat * F17) := [:: (0%N, 0%N, z17 3)].
(** a 32-byte toy hash *)
Definition toyH (x : bytes) : bytes :=
  be_digits 32 (List.fold_left (fun a b => (a * 257 + Z.of_N (Coq.Strings.Byte.to_N b) + 1) mod 2 ^ 255)%Z x 7%Z).

Lemma toyH32 x : length (toyH x) = 32%nat.
Proof. by []. Qed.

Lemma order_7_17 : order_is (z17 7 : F17) 16.
Proof.
split=> //; first by apply: mval_inj; vm_compute.
have H : all (fun i => mval ((z17 7 : F17) ^+ i) != 1%Z) (iota 1 15) by vm_compute.
move=> i /andP [Hi1 Hi2]; apply: contra (allP H i _); last by rewrite mem_iota Hi1.
by move=> /eqP ->.
Qed.

(** ** C49 *)
Theorem C49_trace_polynomials : forall (F : fieldType) fuel (p n : nat) g wit,
  p \in [char F] -> fft_size n -> order_is g n -> (n <= fuel)%N -> all (fun r => size r == n) wit ->
  exists ts, construct_trace_polynomials fuel (Z.of_nat p) wit g = Ok ts /\ size ts = size wit /\
    forall j, (j < size wit)%N ->
      (size (nth [::] ts j) <= n)%N /\
      (forall i, (i < n)%N -> (Poly (nth [::] ts j) : {poly F}).[g ^+ i] = (nth [::] wit j)`_i) /\
      (* and it is the only one *)
      (forall q : {poly F}, (size q <= n)%N -> (forall i, (i < n)%N -> q.[g ^+ i] = (nth [::] wit j)`_i) ->
         polyseq q = nth [::] ts j).
Proof.
move=> F fuel p n g wit Hp Hn Ho Hf Hs; have [ts [E [St Q]]] := trace_ok Hp Hn Ho Hf Hs.
exists ts; split=> //; split=> // j Hj; have [Nj Sj Ej] := Q j Hj; split=> //.
have Ev i : (i < n)%N -> (Poly (nth [::] ts j) : {poly F}).[g ^+ i] = (nth [::] wit j)`_i.
  by move=> Hi; rewrite -pcallE Ej.
split=> // q Sq Eq; suff -> : q = Poly (nth [::] ts j) by exact: PolyK_normal.
apply/eqP; rewrite -subr_eq0; apply/eqP.
apply: (@roots_geq_poly_eq0 _ _ [seq g ^+ i | i <- iota 0 n]).
- apply/allP => x /mapP [i]; rewrite mem_iota add0n => /andP [_ Hi] ->.
  by rewrite rootE hornerD hornerN Eq // Ev // subrr.
- rewrite map_inj_in_uniq ?iota_uniq // => a b; rewrite !mem_iota !add0n => /andP [_ Ha] /andP [_ Hb].
  exact: order_inj Ho Ha Hb.
- rewrite size_map size_iota (leq_trans (size_add _ _)) // geq_max Sq size_opp (leq_trans (size_Poly _)) //.
Qed.
Print Assumptions C49_trace_polynomials.

Example C49_example :
  rmap (map (map (@mval P17))) (construct_trace_polynomials 100 17 wit17 (z17 4)) = Ok [:: [:: 0; 6; 3; 9]%Z].
Proof. by vm_compute. Qed.

(** ** C50 *)
(** The constraint polynomials are t_j(gX) - step_j(t_0, ..., t_{w-1}). *)
Definition constraint (F : fieldType) (g : F) (ts : seq (seq F)) (step : mpoly F) (j : nat) : {poly F} :=
  (Poly (nth [::] ts j) \Po (g *: 'X)) -
  \sum_(kc <- step) kc.2 *: \prod_(i < size kc.1) Poly (nth [::] ts i) ^+ nth 0%N kc.1 i.

Lemma constraintE (F : fieldType) (g : F) ts ps j : constraint g ts (nth [::] ps j) j = cpoly g ts ps j.
Proof.
by rewrite /constraint /cpoly /meval; congr (_ - _); apply: eq_bigr => kc _; rewrite -mul_polyC.
Qed.

Theorem C50_quotient_iff_valid : forall (F : fieldType) fuel (p n w : nat) (g : F) wit ps,
  p \in [char F] -> fft_size n -> order_is g n -> (n <= fuel)%N ->
  size wit = w -> all (fun r => size r == n) wit -> polys_ok w ps ->
  (forall j, (j < w)%N -> nth [::] ps j <> [::]) ->
  exists ts cs,
    construct_trace_polynomials fuel (Z.of_nat p) wit g = Ok ts /\
    construct_constraint_polynomials ps ts g w = Ok cs /\
    ((forall i, (i < n.-1)%N -> valid_step w ps wit i) ->
       exists ds, construct_remainder_polynomials cs n (g ^+ n.-1) = Ok ds /\ size ds = w /\
         forall j, (j < w)%N ->
           Poly (nth [::] ds j) * \prod_(i < n.-1) ('X - (g ^+ i)%:P) = constraint g ts (nth [::] ps j) j) /\
    (~ (forall i, (i < n.-1)%N -> valid_step w ps wit i) ->
       construct_remainder_polynomials cs n (g ^+ n.-1) = Err AssertionError).
Proof.
move=> F fuel p n w g wit ps Hp Hn Ho Hf Sw Hs O Hps; have [n0 _ _] := Ho.
have [ts [E T]] := trace_ok Hp Hn Ho Hf Hs; have [St Q] := T; rewrite Sw in St.
have [cs [Ec Sc Qc]] := constraint_ok g O St (trace_normal T).
exists ts, cs; split=> //; split=> //.
have Ne j : (j < size cs)%N -> ~~ pelt (nth (PElt 0) cs j).
  by rewrite Sc => Hj; have [_ _ ->] := Qc j Hj; apply/negP => /andP [_ /eqP]; exact: Hps.
have [|R1 R2 _] := remainder_cases (cs := cs) Ho; first by move=> j; rewrite Sc => Hj; have [] := Qc j Hj.
have [V1 V2] := valid_dvd Ho T Sw O; split=> V.
  have D := V1 V.
  eexists; split; first by apply: R1 => j Hj; rewrite Ne //; move: Hj; rewrite Sc => Hj; have [-> _ _] := Qc j Hj; exact: D.
  split; first by rewrite size_map.
  move=> j Hj; rewrite (nth_map (PElt 0)) ?Sc // polyseqK; have [-> _ _] := Qc j Hj.
  by rewrite divpK ?constraintE //; exact: D.
apply: R2 => //; case: (boolP (all (fun j => zpart g n %| cpoly g ts ps j) (iota 0 w))) => [/allP A|].
  by case: V; apply: V2 => j Hj; apply: A; rewrite mem_iota.
rewrite -has_predC => /hasP [j]; rewrite mem_iota add0n => /andP [_ Hj] Hd.
by exists j; rewrite ?Sc //; have [-> _ _] := Qc j Hj.
Qed.
Print Assumptions C50_quotient_iff_valid.

(** A step polynomial without terms: on a valid trace (then constant 0 after the
    first step) with a constant trace polynomial for it, the constraint is a field
    element, and the code raises TypeError. *)
Theorem C50_empty_step_refuted : forall (F : fieldType) fuel (p n w : nat) (g : F) wit ps j,
  p \in [char F] -> fft_size n -> order_is g n -> (n <= fuel)%N ->
  size wit = w -> all (fun r => size r == n) wit -> polys_ok w ps ->
  (forall i, (i < n.-1)%N -> valid_step w ps wit i) ->
  (j < w)%N -> nth [::] ps j = [::] -> (forall i, (i < n)%N -> (nth [::] wit j)`_i = 0) ->
  exists ts cs,
    construct_trace_polynomials fuel (Z.of_nat p) wit g = Ok ts /\
    construct_constraint_polynomials ps ts g w = Ok cs /\
    construct_remainder_polynomials cs n (g ^+ n.-1) = Err TypeError.
Proof.
move=> F fuel p n w g wit ps j Hp Hn Ho Hf Sw Hs O V Hj Ep Z0; have [n0 _ _] := Ho.
have [ts [E T]] := trace_ok Hp Hn Ho Hf Hs; have [St Q] := T; rewrite Sw in St.
have [cs [Ec Sc Qc]] := constraint_ok g O St (trace_normal T).
exists ts, cs; split=> //; split=> //.
have [|_ _ R3] := remainder_cases (cs := cs) Ho; first by move=> i; rewrite Sc => Hi; have [] := Qc i Hi.
apply: R3 => [i|].
  by rewrite Sc => Hi; have [-> _ _] := Qc i Hi; rewrite ((valid_dvd Ho T Sw O).1 V) ?orbT.
exists j; rewrite ?Sc //; have [_ _ ->] := Qc j Hj; rewrite Ep eqxx andbT.
have [ts' [E' [S' H']]] := C49_trace_polynomials Hp Hn Ho Hf Hs; move: E'; rewrite E => -[?]; subst ts'.
have Hj' : (j < size wit)%N by rewrite Sw.
have [_ [_ U]] := H' j Hj'; rewrite -(U 0) ?size_poly0 ?polyseq0 //.
by move=> i Hi; rewrite horner0 Z0.
Qed.
Print Assumptions C50_empty_step_refuted.

Example C50_example :
  rmap (map (map (@mval P17))) (
    let* ts := construct_trace_polynomials 100 17 wit17 (z17 4) in
    let* cs := construct_constraint_polynomials sq1 ts (z17 4) 1 in
    construct_remainder_polynomials cs 4 (z17 13)) = Ok [:: [:: 4; 7; 13; 4]%Z] /\
  rmap (map (map (@mval P17))) (
    let* ts := construct_trace_polynomials 100 17 bad17 (z17 4) in
    let* cs := construct_constraint_polynomials sq1 ts (z17 4) 1 in
    construct_remainder_polynomials cs 4 (z17 13)) = Err AssertionError.
Proof. by split; vm_compute. Qed.

(** ** C51 *)
Theorem C51_boundary_quotient : forall (F : fieldType) (n w : nat) (g : F) wit bnd ts,
  order_is g n -> (1 < n)%N -> bnd_ok w n wit bnd -> size ts = w ->
  (forall j i, (j < w)%N -> (i < n)%N -> (Poly (nth [::] ts j)).[g ^+ i] = (nth [::] wit j)`_i) ->
  (forall j, (j < w)%N -> (nth (0%N, 0%N, 0) bnd j).2 = (nth [::] wit j)`_0) ->
  (forall j, (j < w)%N -> (nth [::] wit j)`_n.-1 != 0) ->
  exists bs, construct_boundary_polynomials ts wit bnd (g ^+ n.-1) w = Ok bs /\ size bs = w /\
    forall j, (j < w)%N -> exists line : {poly F},
      [/\ (size line <= 2)%N, line.[1] = (nth [::] wit j)`_0, line.[g ^+ n.-1] = (nth [::] wit j)`_n.-1 &
          Poly (nth [::] bs j) * (('X - 1) * ('X - (g ^+ n.-1)%:P)) + line = Poly (nth [::] ts j)].
Proof.
move=> F n w g wit bnd ts Ho n1 Bo St Ev B0 Bl; have [Sw Sb Sr] := Bo.
have n0 : (0 < n)%N by exact: ltnW.
have l0 : g ^+ n.-1 != 0 by rewrite expf_neq0 // (order_unit Ho).
have l1 : g ^+ n.-1 != 1 by have [_ _ H1] := Ho; apply: H1; lia.
have Lw j : (j < w)%N -> last 0 (nth [::] wit j) = (nth [::] wit j)`_n.-1.
  by move=> Hj; rewrite -nth_last (eqP (all_nthP [::] Sr _ _)) ?Sw.
eexists; split; first by apply: (boundary_ok Bo n0 St l0 l1) => j Hj; rewrite Lw // Bl.
split; first by rewrite size_map size_iota.
move=> j Hj; exists (line (g ^+ n.-1) (nth [::] wit j)`_0 (nth [::] wit j)`_n.-1).
have [S0 E0 E1] := line_spec (nth [::] wit j)`_0 (nth [::] wit j)`_n.-1 l1.
split=> //; rewrite nth_bquots // B0 // Lw //; apply: (bquot_exact l1); rewrite pcallE.
  by rewrite -(Ev j 0%N) // expr0.
by rewrite Ev //; lia.
Qed.
Print Assumptions C51_boundary_quotient.

(** an output value 0 *)
Theorem C51_zero_output_refuted : forall (F : fieldType) (n w : nat) (g : F) wit bnd ts j,
  order_is g n -> (1 < n)%N -> bnd_ok w n wit bnd -> (j < w)%N -> (nth [::] wit j)`_n.-1 = 0 ->
  construct_boundary_polynomials ts wit bnd (g ^+ n.-1) w = Err IndexError.
Proof.
move=> F n w g wit bnd ts j Ho n1 Bo Hj Ez; have [Sw Sb Sr] := Bo.
apply: (boundary_zero _ Bo); first exact: ltnW.
- by rewrite expf_neq0 // (order_unit Ho).
- by have [_ _ H1] := Ho; apply: H1; lia.
by exists j => //; rewrite -nth_last (eqP (all_nthP [::] Sr _ _)) ?Sw // Ez.
Qed.
Print Assumptions C51_zero_output_refuted.

(** A boundary value that is not the initial value of the trace goes unnoticed by
    the prover, but then the check of the verifier fails at every x except the
    last point of the trace (where it raises). *)
Theorem C51_wrong_input : forall (F : fieldType) (n w : nat) (g : F) wit bnd ts ps j,
  order_is g n -> (1 < n)%N -> bnd_ok w n wit bnd -> size ts = w -> polys_ok w ps ->
  (forall j i, (j < w)%N -> (i < n)%N -> (Poly (nth [::] ts j)).[g ^+ i] = (nth [::] wit j)`_i) ->
  (forall j, (j < w)%N -> (nth [::] wit j)`_n.-1 != 0) ->
  (j < w)%N -> (nth (0%N, 0%N, 0) bnd j).2 <> (nth [::] wit j)`_0 ->
  exists bs, construct_boundary_polynomials ts wit bnd (g ^+ n.-1) w = Ok bs /\
    forall x pg d, x != g ^+ n.-1 -> size pg = w -> size d = w ->
      check_values w n (g ^+ n.-1) ps wit bnd x [seq (Poly t).[x] | t <- ts] pg d [seq (Poly b).[x] | b <- bs]
        = Err AssertionError.
Proof.
move=> F n w g wit bnd ts ps j Ho n1 Bo St O Ev Bl Hj Hne; have [Sw Sb Sr] := Bo.
have n0 : (0 < n)%N by exact: ltnW.
have l0 : g ^+ n.-1 != 0 by rewrite expf_neq0 // (order_unit Ho).
have l1 : g ^+ n.-1 != 1 by have [_ _ H1] := Ho; apply: H1; lia.
have Lw i : (i < w)%N -> last 0 (nth [::] wit i) = (nth [::] wit i)`_n.-1.
  by move=> Hi; rewrite -nth_last (eqP (all_nthP [::] Sr _ _)) ?Sw.
eexists; split; first by apply: (boundary_ok Bo n0 St l0 l1) => i Hi; rewrite Lw // Bl.
move=> x pg d xl Sp Sd; rewrite (check_valuesE n O Bo n0 l1 xl) ?size_map ?size_iota //.
rewrite (_ : all (fun _ => _ - _ * (z2 _).[x] - _ == 0) _ = false) ?andbF //.
apply/negbTE/negP => /allP /(_ j); rewrite mem_iota add0n => /(_ Hj).
rewrite !(nth_map [::]) ?size_map ?size_iota ?St // nth_bquots // => /eqP E.
have := bquot_wrong l1 (t := nth [::] ts j) (y0 := (nth (0%N, 0%N, 0) bnd j).2) (y1 := last 0 (nth [::] wit j)) _ _ xl.
case/(_ _ _)/negP.
- by rewrite pcallE -(expr0 g) Ev // eq_sym; apply/eqP.
- by rewrite pcallE Ev ?Lw //; lia.
by rewrite !hornerD !hornerN hornerM; apply/eqP.
Qed.
Print Assumptions C51_wrong_input.

Example C51_example :
  rmap (map (map (@mval P17))) (construct_boundary_polynomials
    [:: [seq z17 x | x <- [:: 0; 6; 3; 9]%Z]] wit17 bnd17 (z17 13) 1) = Ok [:: [:: 10; 9]%Z] /\
  (* 9 x^3 + 3 x^2 + 6 x = (9 x + 10) (x - 1) (x - 13) + (5 x + 13) mod 17 *)
  rmap (map (map (@mval P17))) (construct_boundary_polynomials
    [:: [seq z17 x | x <- [:: 0; 6; 3; 9]%Z]] wit17 bad_bnd17 (z17 13) 1) = Ok [:: [:: 10; 9]%Z] /\
  rmap (map (map (@mval P17))) (construct_boundary_polynomials
    [:: [seq z17 x | x <- [:: 0; 6; 3; 9]%Z]] [:: [seq z17 x | x <- [:: 1; 2; 5; 0]%Z]] bnd17 (z17 13) 1) = Err IndexError.
Proof. by split; [|split]; vm_compute. Qed.

(** ** C52 *)
(** The polynomials built for an honest witness pass the checks of the verifier
    at every point except the last point of the trace, where it raises. *)
Theorem C52_spot_checks : forall (P : primeZ) fuel (n e w : nat) (g : modp_fieldType P) ps wit bnd,
  order_is g (n * e) -> fft_size n -> (1 < n)%N -> (n <= fuel)%N -> polys_ok w ps ->
  honest n w ps wit bnd -> (forall j, (j < w)%N -> mdegree (nth [::] ps j) <= e.+1)%N ->
  exists ts cs ds bs,
    [/\ construct_trace_polynomials fuel (pz P) wit (g ^+ e) = Ok ts,
        construct_constraint_polynomials ps ts (g ^+ e) w = Ok cs,
        construct_remainder_polynomials cs n (g ^+ (n.-1 * e)) = Ok ds,
        construct_boundary_polynomials ts wit bnd (g ^+ (n.-1 * e)) w = Ok bs &
        let vals (q : seq (seq (modp_fieldType P))) x := [seq (Poly t).[x] | t <- q] in
        (forall x, x != g ^+ (n.-1 * e) ->
          check_values w n (g ^+ (n.-1 * e)) ps wit bnd x (vals ts x) (vals ts (g ^+ e * x)) (vals ds x) (vals bs x)
            = Ok tt) /\
        (forall p pg d b, check_values w n (g ^+ (n.-1 * e)) ps wit bnd (g ^+ (n.-1 * e)) p pg d b
            = Err InverseError) /\
        all (fun q => size q <= n * e)%N (ts ++ ds ++ bs)].
Proof.
move=> P fuel n e w g ps wit bnd Ho Hn n1 Hf O Hh Hd.
have [ts [cs [ds [bs [Et Ec Ed Eb [_ Ss Cv]]]]]] := polys_built Ho Hn n1 Hf O Hh Hd.
exists ts, cs, ds, bs; split=> //; split; last by split=> // p pg d b; exact: check_values_last.
move=> x Hx; rewrite -[RHS](Cv x Hx).
have Ev q y : [seq (Poly t).[y] | t <- q] = evals q y by apply: eq_map => t; rewrite pcallE.
by rewrite !Ev.
Qed.
Print Assumptions C52_spot_checks.

(** End to end: for every 32-byte hash function, prime p <> 2, trace length and
    extension factor that are powers of two, at most 9 registers, step polynomials
    of degree at most ext + 1 and honest witness, the constructor and the prover
    return, and the verifier accepts.  The hypothesis on 7 is what the code takes
    for granted: that 7^((p-1)/N) has order N. *)
Theorem C52_completeness : forall (P : primeZ) H fuel (n e w k : nat) ps wit bnd samples,
  (forall x, length (H x) = 32%nat) -> (pz P <= 256 ^ 32)%Z -> pz P <> 2%Z ->
  order_is ((in_modp P 7 : modp_fieldType P) ^+ Z.to_nat ((pz P - 1) / Z.of_nat (n * e))) (n * e) ->
  (n * e = 2 ^ k)%N -> (1 < n)%N -> (1 < e)%N -> (k < 24)%N -> (n * e <= fuel)%N -> (10 <= fuel)%N ->
  (0 < w < 10)%N -> polys_ok w ps -> honest n w ps wit bnd ->
  (forall j, (j < w)%N -> mdegree (nth [::] ps j) <= e.+1)%N -> (samples <= 80)%Z ->
  exists (st : stark P) pf, mk_stark fuel n e w ps samples = Ok st /\
    mk_proof H fuel st wit bnd = Ok pf /\ verify_proof H fuel st pf wit bnd = Ok true.
Proof.
move=> P H fuel n e w k ps wit bnd samples H32 p32 p2 Ho Ek n1 e1 Hk Hf Hf10 w10 O Hh Hd Hs.
have [xs Es] := mk_stark_ok (fuel := fuel) w ps samples p2 Ho Hf.
have [pf [Ep V _]] := honest_verifies H32 p32 samples xs Ho Ek n1 e1 Hk Hf Hf10 w10 O Hh Hd.
by eexists; exists pf; split; [exact: Es|split; [exact: Ep|exact: V]].
Qed.
Print Assumptions C52_completeness.

Example C52_example :
  (let* st := mk_stark 100 4 4 1 sq1 1 in
   let* pf := mk_proof toyH 100 st wit17 bnd17 in verify_proof toyH 100 st pf wit17 bnd17) = Ok true /\
  (* the wrong boundary value *)
  (let* st := mk_stark 100 4 4 1 sq1 1 in
   let* pf := mk_proof toyH 100 st wit17 bad_bnd17 in verify_proof toyH 100 st pf wit17 bad_bnd17) = Err AssertionError.
Proof. by split; vm_compute. Qed.

(** ** C86 *)
(** The linear combination, with [k i] the i-th pseudorandom coefficient and the
    constant c = g^(steps * (degree - 1)) where a power of X is expected. *)
Theorem C86_linear_combination : forall (F : fieldType) H entropy (w n N : nat) (g : F) ts ds bs,
  (1 < N)%N -> (0 < w < 10)%N -> size ts = w -> size ds = w -> size bs = w ->
  let k (i : nat) : F := (Z.to_nat (from_bytes_be (H (entropy ++ hex_suffix i))))%:R in
  let c := g ^+ (n * N.-1) in
  exists l, lincomb H entropy ts ds bs g N n (Z.of_nat w) = Ok (Some l) /\ normal l /\
    Poly l = \sum_(j < w) (1 + k (if (w <= 4)%N then j.+1 else j) * c) *:
      (Poly (nth [::] ds j) + (k 1%N + k 2%N * c) *: Poly (nth [::] ts j) +
       (k 3%N + k 4%N * c) *: Poly (nth [::] bs j)).
Proof.
move=> F H en w n N g ts ds bs N1 Hw St Sd Sb k c.
have [l [E Nl El]] := lincombE H en n g N1 Hw St Sd Sb; exists l; split=> //; split=> //.
have Ek i : kk F H en i = k i.
  by rewrite /kk int_eltE //; have [] := from_bytes_be_range (H (en ++ hex_suffix i)).
by rewrite El; apply: eq_bigr => j _; rewrite /lk /lcomb1 !Ek; case: ifP.
Qed.
Print Assumptions C86_linear_combination.

(** ten registers or more *)
Theorem C86_wide : forall (F : fieldType) H entropy (w : Z) (n N : nat) (g : F) ts ds bs,
  (1 < N)%N -> (10 <= w)%Z -> size ts = size ds -> size ds = size bs ->
  lincomb H entropy ts ds bs g N n w = Err TypeError.
Proof. move=> F H en w n N g ts ds bs; exact: lincomb_wide. Qed.
Print Assumptions C86_wide.

(** A domain with at most one point: the loop variable [i] of lines 151-154 is never bound. *)
Theorem C86_one_point : forall (F : fieldType) H entropy (w : Z) (n N : nat) (g : F) t d b ts ds bs,
  (N <= 1)%N ->
  lincomb H entropy (t :: ts) (d :: ds) (b :: bs) g N n w = Err UnboundLocalError.
Proof.
by move=> F H en w n N g t d b ts ds bs N1; rewrite /lincomb /lincomb_1d /get_pseudorandom_ks /= power_i_unbound.
Qed.
Print Assumptions C86_one_point.

Example C86_one_point_example :
  lincomb toyH [:: x01] [:: [:: z17 0; z17 1]] [:: [:: z17 5]] [:: [:: z17 2]] (z17 1) 1 1 1 = Err UnboundLocalError.
Proof. by vm_compute. Qed.

Example C86_example :
  rmap (omap (map (@mval P17)))
    (lincomb toyH [:: x01] [:: [:: z17 0; z17 1]] [:: [:: z17 5]] [:: [:: z17 2]] (z17 7) 16 4 1) =
  Ok (Some [:: 5; 4]%Z).
Proof. by vm_compute. Qed.

(** ** C87 *)
(** The comment at stark.py:141-144 announces a combination of P, P x^steps, B,
    B x^steps and D.  What is returned is a combination of P, B and D alone: its
    degree is at most theirs, ... *)
Theorem C87_degree : forall (F : fieldType) H entropy (w n N m : nat) (g : F) ts ds bs,
  (1 < N)%N -> size ts = w -> size ds = w -> size bs = w ->
  all (fun q => size q <= m)%N (ts ++ ds ++ bs) ->
  exists ls, lincomb_1d H entropy ts ds bs g n N = Ok ls /\ size ls = w /\ all (fun q => size q <= m)%N ls.
Proof.
move=> F H en w n N m g ts ds bs N1 St Sd Sb; rewrite !all_cat => /and3P [At Ad Ab].
rewrite (lincomb_1dE H en n g N1 St Sd Sb); eexists; split=> //; split; first by rewrite size_map size_iota.
apply/allP => q /mapP [j]; rewrite mem_iota add0n => /andP [_ Hj] ->; rewrite /lcomb1.
have Sq (r : seq (seq F)) : all (fun q => size q <= m)%N r -> size r = w -> (size (Poly (nth [::] r j)) <= m)%N.
  by move=> Ar Sr; apply: leq_trans (size_Poly _) _; apply: (all_nthP [::] Ar); rewrite Sr.
rewrite (leq_trans (size_add _ _)) // geq_max (leq_trans (size_scale_leq _ _)) ?Sq // andbT.
by rewrite (leq_trans (size_add _ _)) // geq_max (leq_trans (size_scale_leq _ _)) ?Sq.
Qed.
Print Assumptions C87_degree.

(** ... so it is not the announced one as soon as that has a term P x^steps that
    is not hidden by the others. *)
Theorem C87_announced_combination_refuted : forall (F : fieldType) H entropy (n N : nat) (g : F) t d b,
  (1 < N)%N -> (0 < n)%N -> normal t -> t <> [::] -> (size b < size t)%N -> (size d < size t + n)%N ->
  let k (i : nat) : F := (Z.to_nat (from_bytes_be (H (entropy ++ hex_suffix i))))%:R in
  k 2%N != 0 ->
  exists l : seq F, lincomb_1d H entropy [:: t] [:: d] [:: b] g n N = Ok [:: l] /\
   Poly l != Poly d + k 1%N *: Poly t + k 2%N *: (Poly t * 'X^n) + k 3%N *: Poly b + k 4%N *: (Poly b * 'X^n).
Proof.
move=> F H en n N g t d b N1 n0 Nt t0 Sb Sd k k2.
have [|ls [E [S A]]] := @C87_degree F H en 1 n N (size t + n.-1) g [:: t] [:: d] [:: b] N1 erefl erefl erefl.
  by rewrite /= leq_addr /= andbT; apply/andP; split; [move: Sd|move: Sb]; move: n0; clear; lia.
case: ls E S A => [|l []] //= E _; rewrite andbT => A; exists l; split=> //.
have Pt : Poly t != 0 by rewrite -nil_Poly //; apply/eqP.
have St : size (Poly t) = size t by rewrite -size_normal.
have t1 : (0 < size t)%N by rewrite lt0n size_eq0; apply/eqP.
have C1 : (Poly t)`_(size t).-1 != 0 by rewrite -[in X in X.-1]St lead_coef_eq0.
have Z (q : {poly F}) i : (size q <= i)%N -> q`_i = 0 by exact: nth_default.
apply/eqP => /(congr1 (fun q : {poly F} => q`_((size t).-1 + n))).
rewrite !coefD !coefZ !coefMXn !ltnNge leq_addl /= addnK.
rewrite [(Poly l)`_ _]Z; last by apply: leq_trans (size_Poly _) _; move: A n0 t1; move: (size l) (size t); clear; lia.
rewrite [(Poly d)`_ _]Z; last by apply: leq_trans (size_Poly _) _; move: Sd n0 t1; move: (size d) (size t); clear; lia.
rewrite [(Poly t)`_(_ + _)]Z; last by rewrite St; move: n0 t1; move: (size t); clear; lia.
rewrite [(Poly b)`_(_ + _)]Z; last by apply: leq_trans (size_Poly _) _; move: Sb n0 t1; move: (size b) (size t); clear; lia.
rewrite [(Poly b)`_ _]Z; last by apply: leq_trans (size_Poly _) _; move: Sb t1; move: (size b) (size t); clear; lia.
rewrite !mulr0 !addr0 add0r => /esym /eqP; rewrite mulf_eq0 (negbTE k2) (negbTE C1).
by [].
Qed.
Print Assumptions C87_announced_combination_refuted.

Example C87_example :
  rmap (map (map (@mval P17)))
    (lincomb_1d toyH [:: x01] [:: [:: z17 0; z17 1]] [:: [:: z17 5]] [:: [::]] (z17 7) 4 16) = Ok [:: [:: 5; 15]%Z].
Proof. by vm_compute. Qed.

(** ** C88 *)
(** Soundness fails.  The value [l_of_x] opened from the second tree is not
    compared with anything (the check is commented out at stark.py:374-382), so
    the tree whose low degree FRI checks is unrelated to the tree of the trace.
    For ANY committed register columns [t], any second tree [es] (for instance
    that of a low degree polynomial) and any witness, valid or not, there are
    columns [d] and [b] for which verification succeeds. *)
Theorem C88_soundness_refuted : forall (P : primeZ) H fuel (n e w k : nat) ps wit bnd samples
    (t : seq (seq (modp_fieldType P))) (es : seq (modp_fieldType P)),
  (forall x, length (H x) = 32%nat) -> (pz P <= 256 ^ 32)%Z -> pz P <> 2%Z ->
  order_is ((in_modp P 7 : modp_fieldType P) ^+ Z.to_nat ((pz P - 1) / Z.of_nat (n * e))) (n * e) ->
  (n * e = 2 ^ k)%N -> (1 < n)%N -> (1 < e)%N -> (k < 24)%N -> (n * e <= fuel)%N -> (10 <= fuel)%N ->
  (0 < w)%N -> polys_ok w ps -> bnd_ok w n wit bnd -> (samples <= 80)%Z ->
  size t = w -> all (fun c => size c == n * e)%N t -> size es = (n * e)%N ->
  exists (st : stark P) d b mtree m_root l_mtree l_root branches,
    mk_stark fuel n e w ps samples = Ok st /\
   merkelize_polynomial_evaluations H (Z.of_nat w) [seq map (@elt_bytes P) c | c <- t ++ d ++ b] = Ok mtree /\
   py_nth mtree 1 = Ok m_root /\
   merkelize H [seq LObj (elt_bytes v) | v <- es] = Ok l_mtree /\ py_nth l_mtree 1 = Ok l_root /\
   verify_proof H fuel st (m_root, l_root, branches) wit bnd = Ok true.
Proof.
move=> P H fuel n e w k ps wit bnd samples t es H32 p32 p2 Ho Ek n1 e1 Hk Hf Hf10 w0 O Bo Hs St Sc Se.
have [xs Es] := mk_stark_ok (fuel := fuel) w ps samples p2 Ho Hf.
have [d [b [mtree [m_root [l_mtree [l_root [branches [E1 E2 E3 E4 E5]]]]]]]] :=
  forged_verifies H32 p32 xs Ho Ek n1 e1 Hk Hf10 w0 O Bo Hs St Sc Se.
by eexists; exists d, b, mtree, m_root, l_mtree, l_root, branches; split; first exact: Es.
Qed.
Print Assumptions C88_soundness_refuted.

(** the wrong trace and the wrong boundary value above *)
Example C88_example :
  ~ valid_step 1 sq1 bad17 1 /\ (nth (0%N, 0%N, 0) bad_bnd17 0).2 <> (nth [::] bad17 0)`_0 /\
  exists st pf, mk_stark 100 4 4 1 sq1 80 = Ok st /\ verify_proof toyH 100 st pf bad17 bad_bnd17 = Ok true.
Proof.
split; [|split].
- move=> /(_ 0%N isT) /(congr1 (@mval P17)); rewrite /peval /= !big_cons big_nil /= !big_ord_recl !big_ord0.
  by vm_compute.
- by move/(congr1 (@mval P17)); vm_compute.
have [||||||||||||||||st [d [b [mtree [m_root [l_mtree [l_root [branches [E1 [_ [_ [_ [_ E2]]]]]]]]]]]]] :=
  @C88_soundness_refuted P17 toyH 100 4 4 1 4 sq1 bad17 bad_bnd17 80 [:: nseq 16 0] (nseq 16 0) toyH32.
- by vm_compute.
- by vm_compute.
- exact: order_7_17.
- by [].
- by [].
- by [].
- by [].
- by [].
- by [].
- by [].
- by vm_compute.
- by split.
- by vm_compute.
- by [].
- by [].
- by [].
exists st, (m_root, l_root, branches); split; [exact: E1|exact: E2].
Qed.

(** ** C89 *)
(** The prover always opens 80 positions (the default of
    [compute_merkle_spot_checks], stark.py:266); a verifier configured with a
    larger security factor raises IndexError on every honest proof. *)
Theorem C89_samples_refuted : forall (P : primeZ) H fuel (n e w k : nat) ps wit bnd samples,
  (forall x, length (H x) = 32%nat) -> (pz P <= 256 ^ 32)%Z -> pz P <> 2%Z ->
  order_is ((in_modp P 7 : modp_fieldType P) ^+ Z.to_nat ((pz P - 1) / Z.of_nat (n * e))) (n * e) ->
  (n * e = 2 ^ k)%N -> (1 < n)%N -> (1 < e)%N -> (k < 24)%N -> (n * e <= fuel)%N -> (10 <= fuel)%N ->
  (0 < w < 10)%N -> polys_ok w ps -> honest n w ps wit bnd ->
  (forall j, (j < w)%N -> mdegree (nth [::] ps j) <= e.+1)%N ->
  (80 < samples)%Z -> (4 * samples <= 32 * Z.of_nat fuel)%Z ->
  exists (st : stark P) pf, mk_stark fuel n e w ps samples = Ok st /\
   mk_proof H fuel st wit bnd = Ok pf /\ verify_proof H fuel st pf wit bnd = Err IndexError.
Proof.
move=> P H fuel n e w k ps wit bnd samples H32 p32 p2 Ho Ek n1 e1 Hk Hf Hf10 w10 O Hh Hd Hs Hs'.
have [xs Es] := mk_stark_ok (fuel := fuel) w ps samples p2 Ho Hf.
have [pf [Ep _ V]] := honest_verifies H32 p32 samples xs Ho Ek n1 e1 Hk Hf Hf10 w10 O Hh Hd.
by eexists; exists pf; split; [exact: Es|split; [exact: Ep|exact: V]].
Qed.
Print Assumptions C89_samples_refuted.

(** With an extension factor of 1 there is no admissible position at all. *)
Theorem C89_extension_one : forall (P : primeZ) H fuel (st : stark P) mtree l_mtree l_root,
  (forall x, length (H x) = 32%nat) -> st_ext st = 1%N -> (Z.of_nat (st_precision st) < 2 ^ 24)%Z ->
  (10 <= fuel)%N -> py_nth l_mtree 1 = Ok l_root ->
  compute_merkle_spot_checks H fuel st mtree l_mtree 80 = Err ZeroDivisionError.
Proof.
move=> P H fuel st mtree l_mtree l_root H32 Ee HN Hf Er; rewrite /compute_merkle_spot_checks Er bind_ok Ee.
by rewrite indices_exclude_one //; lia.
Qed.
Print Assumptions C89_extension_one.

(** The constructor fails over Z/2 (the name BinaryFFT is not defined) and when one of the two
    sizes is 0.  Without registers the constructor returns and the prover fails: it reads the
    root of an empty tree, or, when columns are passed nevertheless, the coefficients of the
    int 0 that [sum] returns. *)
Theorem C89_constructor_errors : forall (P : primeZ) fuel (n e w : nat) ps samples,
  (pz P = 2%Z -> mk_stark (P := P) fuel n e w ps samples = Err NameError) /\
  (pz P <> 2%Z -> n = 0%N \/ e = 0%N -> mk_stark (P := P) fuel n e w ps samples = Err ZeroDivisionError).
Proof.
move=> P fuel n e w ps samples; rewrite /mk_stark; split=> [->|/Z.eqb_neq -> [] ->] //=.
by rewrite muln0.
Qed.
Print Assumptions C89_constructor_errors.

(** [verify_proof_at_position] unpacks four coefficients: TypeError for None, ValueError for
    any other number of them, before anything else is looked at. *)
Theorem C89_position_arguments : forall (P : primeZ) H (st : stark P) wit bnd ks pf i pos,
  (ks = None -> verify_proof_at_position H st wit bnd ks pf i pos = Err TypeError) /\
  (forall l, ks = Some l -> size l <> 4%N ->
     verify_proof_at_position H st wit bnd ks pf i pos = Err ValueError).
Proof.
move=> P H st wit bnd ks pf i pos; split=> [->|l -> Sl] //; rewrite /verify_proof_at_position.
by case: l Sl => [|k1 [|k2 [|k3 [|k4 []]]]].
Qed.
Print Assumptions C89_position_arguments.

Theorem C89_no_registers : forall (P : primeZ) H fuel (n e k : nat) wit bnd samples,
  (pz P <= 256 ^ 32)%Z -> pz P <> 2%Z ->
  order_is ((in_modp P 7 : modp_fieldType P) ^+ Z.to_nat ((pz P - 1) / Z.of_nat (n * e))) (n * e) ->
  (n * e = 2 ^ k)%N -> (1 < n)%N -> (1 < e)%N -> (n * e <= fuel)%N ->
  all (fun r => size r == n) wit ->
  exists st : stark P, mk_stark fuel n e 0 [::] samples = Ok st /\
    mk_proof H fuel st wit bnd = Err (if wit is [::] then IndexError else AttributeError).
Proof.
move=> P H fuel n e k wit bnd samples p32 p2 Ho Ek n1 e1 Hf Sr.
have [xs Es] := mk_stark_ok (fuel := fuel) 0 [::] samples p2 Ho Hf.
eexists; split; first exact: Es.
exact: (no_registers H p32 bnd samples xs Ho Ek n1 e1 Hf Sr).
Qed.
Print Assumptions C89_no_registers.

Example C89_no_registers_example :
  (let* st := mk_stark (P := P17) 100 4 4 0 [::] 1 in mk_proof toyH 100 st wit17 bnd17) = Err AttributeError /\
  (let* st := mk_stark (P := P17) 100 4 4 0 [::] 1 in mk_proof toyH 100 st [::] [::]) = Err IndexError /\
  mk_stark (P := P17) 100 0 4 1 sq1 1 = Err ZeroDivisionError.
Proof. by repeat split; vm_compute. Qed.

Example C89_example :
  rmap size (get_pseudorandom_indices toyH 100 [:: x01] 16 80 4) = Ok 80%N /\
  get_pseudorandom_indices toyH 100 [:: x01] 16 80 1 = Err ZeroDivisionError.
Proof. by split; vm_compute. Qed.
