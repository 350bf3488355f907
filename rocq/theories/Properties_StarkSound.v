(** Property theorems C130: what acceptance by the STARK verifier (starks/stark.py:283-372)
    means when the committed columns are values of polynomials of low degree, which is what
    the missing FRI check would have to guarantee (without it see C88).

    Vocabulary.  Polynomials are given by their coefficients.
    [vals q x] (StarkSound.v): the values of the polynomials of q at x.
    [trace n g ts]: the values of the polynomials ts at 1, g, ..., g^(n-1).
    [columns N g2 q]: the values of the polynomials of q at 1, g2, ..., g2^(N-1).
    [shaped w k branches]: the branches opened in the first tree have k siblings and
    leaves of 96 w bytes (the verifier does not check that).
    The other names are those of Properties_Stark.v. *)
From Coq.Strings Require Import Byte.
From mathcomp Require Import zify ssrZ.
From Verif Require Import Prelude BaseProofs PolyModel PolyProofs MerkleModel ModpModel ModpField FinFld
  InterpModel InterpProofs FftModel FftProofs FiniteFieldProofs MultiModel MultiProofs MultiUtilsProofs AirProofs
  UtilsModel UtilsProofs StarkModel StarkProofs StarkVerifyProofs StarkSound Properties_UtilsCount Properties_Stark.
Set Implicit Arguments.
Unset Strict Implicit.
Unset Printing Implicit Defensive.
Import GRing.Theory.
Local Open Scope ring_scope.
Local Open Scope py_scope.

(** Over any field: polynomials of degree at most m for the registers, D - n + 1 for the
    constraint quotients and D - 2 for the boundary quotients, step polynomials of degree at
    most dg with dg * m <= D.  If the arithmetic checks succeed at more than D points, the trace
    is valid, starts with the boundary values and ends with the outputs. *)
Theorem C130_points : forall (F : fieldType) (n w m dg D : nat) (g : F) ps wit bnd ts ds bs (xs : seq F),
  order_is g n -> (1 < n)%N -> polys_ok w ps -> bnd_ok w n wit bnd ->
  size ts = w -> size ds = w -> size bs = w ->
  all (fun t => size t <= m.+1)%N ts -> all (fun d => size d + n.-1 <= D.+1)%N ds ->
  all (fun b => size b + 2 <= D.+1)%N bs -> (forall j, (j < w)%N -> mdegree (nth [::] ps j) <= dg)%N ->
  (m <= D)%N -> (dg * m <= D)%N ->
  uniq xs -> (D < size xs)%N ->
  (forall x, x \in xs -> x != g ^+ n.-1 /\
     check_values w n (g ^+ n.-1) ps wit bnd x (vals ts x) (vals ts (g * x)) (vals ds x) (vals bs x) = Ok tt) ->
  (forall i, (i < n.-1)%N -> valid_step w ps (trace n g ts) i) /\
  (forall j, (j < w)%N -> (Poly (nth [::] ts j)).[1] = (nth (0%N, 0%N, 0) bnd j).2 /\
                         (Poly (nth [::] ts j)).[g ^+ n.-1] = last 0 (nth [::] wit j)).
Proof.
move=> F n w m dg D g ps wit bnd ts ds bs xs Ho n1 O Bo St Sd Sb dt dd db dk mD kD U Sx A.
apply: (points_sound Ho n1 O Bo St Sd Sb dt dd db dk mD kD U _ Sx).
by apply/allP => x /A [xl E]; rewrite /passes xl E.
Qed.
Print Assumptions C130_points.

(** The verifier itself.  The columns of such polynomials are committed to.  Then there is a set
    of positions, fixed by these columns, of at most D elements unless the trace is valid and
    matches the boundary, such that every accepted proof draws all its positions from this set
    or exhibits a collision of the hash function. *)
Theorem C130_soundness : forall (P : primeZ) H fuel (n e w k m dg D : nat) ps wit bnd samples
    (ts ds bs : seq (seq (modp_fieldType P))),
  let F := modp_fieldType P in
  let g2 : F := (in_modp P 7 : F) ^+ Z.to_nat ((pz P - 1) / Z.of_nat (n * e)) in
  let g := g2 ^+ e in
  (forall x, length (H x) = 32%nat) -> (pz P <= 256 ^ 32)%Z -> pz P <> 2%Z -> order_is g2 (n * e) ->
  (n * e = 2 ^ k)%N -> (1 < n)%N -> (1 < e)%N -> (k < 24)%N -> (n * e <= fuel)%N ->
  (0 < w)%N -> polys_ok w ps -> bnd_ok w n wit bnd ->
  size ts = w -> size ds = w -> size bs = w ->
  all (fun t => size t <= m.+1)%N ts -> all (fun d => size d + n.-1 <= D.+1)%N ds ->
  all (fun b => size b + 2 <= D.+1)%N bs -> (forall j, (j < w)%N -> mdegree (nth [::] ps j) <= dg)%N ->
  (m <= D)%N -> (dg * m <= D)%N ->
  exists (st : stark P) mtree m_root (good : seq Z),
   [/\ mk_stark fuel n e w ps samples = Ok st,
       merkelize_polynomial_evaluations H (Z.of_nat w)
         [seq map (@elt_bytes P) c | c <- columns (n * e) g2 (ts ++ ds ++ bs)] = Ok mtree,
       py_nth mtree 1 = Ok m_root &
   [/\ uniq good,
       (forall pos, pos \in good -> (0 <= pos < Z.of_nat (n * e))%Z /\ (pos mod Z.of_nat e <> 0)%Z),
       (size good <= D)%N \/
       (forall i, (i < n.-1)%N -> valid_step w ps (trace n g ts) i) /\
       (forall j, (j < w)%N -> (Poly (nth [::] ts j)).[1] = (nth (0%N, 0%N, 0) bnd j).2 /\
                              (Poly (nth [::] ts j)).[g ^+ n.-1] = last 0 (nth [::] wit j)) &
       forall l_root branches,
         (4 * samples <= Z.of_nat (size l_root) + 32 * Z.of_nat fuel)%Z -> shaped w k branches ->
         verify_proof H fuel st (m_root, l_root, branches) wit bnd = Ok true ->
         (exists x y, x <> y /\ H x = H y) \/
         exists2 positions, get_pseudorandom_indices H fuel l_root (Z.of_nat (n * e)) samples (Z.of_nat e) = Ok positions &
           {subset positions <= good}]].
Proof.
move=> P H fuel n e w k m dg D ps wit bnd samples ts ds bs F g2 g H32 p32.
exact: soundness.
Qed.
Print Assumptions C130_soundness.

(** Counting second roots.  At most 8 positions are drawn from the root itself.  If the trace is
    not valid, the roots of 32 bytes that can be accepted with any branches are in a list of at
    most (2^32 - (n e - n - D) floor(2^32 / (n e - n)))^s 256^(32 - 4 s) of the 256^32 strings,
    about (D / (n e - n))^s of them, unless the hash has a collision. *)
Theorem C130_roots : forall (P : primeZ) H fuel (n e w k m dg D s : nat) ps wit bnd
    (ts ds bs : seq (seq (modp_fieldType P))),
  let F := modp_fieldType P in
  let g2 : F := (in_modp P 7 : F) ^+ Z.to_nat ((pz P - 1) / Z.of_nat (n * e)) in
  let g := g2 ^+ e in
  (forall x, length (H x) = 32%nat) -> (pz P <= 256 ^ 32)%Z -> pz P <> 2%Z -> order_is g2 (n * e) ->
  (n * e = 2 ^ k)%N -> (1 < n)%N -> (1 < e)%N -> (k < 24)%N -> (n * e <= fuel)%N ->
  (0 < w)%N -> polys_ok w ps -> bnd_ok w n wit bnd ->
  size ts = w -> size ds = w -> size bs = w ->
  all (fun t => size t <= m.+1)%N ts -> all (fun d => size d + n.-1 <= D.+1)%N ds ->
  all (fun b => size b + 2 <= D.+1)%N bs -> (forall j, (j < w)%N -> mdegree (nth [::] ps j) <= dg)%N ->
  (m <= D)%N -> (dg * m <= D)%N -> (s <= 8)%N ->
  ~ ((forall i, (i < n.-1)%N -> valid_step w ps (trace n g ts) i) /\
     (forall j, (j < w)%N -> (Poly (nth [::] ts j)).[1] = (nth (0%N, 0%N, 0) bnd j).2 /\
                            (Poly (nth [::] ts j)).[g ^+ n.-1] = last 0 (nth [::] wit j))) ->
  exists (st : stark P) mtree m_root (S : seq bytes),
   [/\ mk_stark fuel n e w ps (Z.of_nat s) = Ok st,
       merkelize_polynomial_evaluations H (Z.of_nat w)
         [seq map (@elt_bytes P) c | c <- columns (n * e) g2 (ts ++ ds ++ bs)] = Ok mtree,
       py_nth mtree 1 = Ok m_root &
   [/\ List.NoDup S,
       let M := Z.of_nat (n * e - n) in
       (Z.of_nat (size S) <= (2 ^ 32 - (M - Z.of_nat D) * (2 ^ 32 / M)) ^ Z.of_nat s * 256 ^ Z.of_nat (32 - 4 * s))%Z &
       forall l_root branches, size l_root = 32%N -> shaped w k branches ->
         verify_proof H fuel st (m_root, l_root, branches) wit bnd = Ok true ->
         (exists x y, x <> y /\ H x = H y) \/ List.In l_root S]].
Proof.
move=> P H fuel n e w k m dg D s ps wit bnd ts ds bs F g2 g H32 p32 p2 Ho Ek n1 e1 Hk Hf w0 O Bo St Sd Sb dt dd db dk mD kD s8 NV.
have [st [mtree [m_root [good [Es Em Er [Ug Rg Cg Ag]]]]]] :=
  C130_soundness (Z.of_nat s) H32 p32 p2 Ho Ek n1 e1 Hk Hf w0 O Bo St Sd Sb dt dd db dk mD kD.
have {NV} Hg : (size good <= D)%N by case: Cg => // V; case: NV.
pose all_pos := [seq Z.of_nat i | i <- iota 0 (n * e) & ~~ (e %| i)%N].
pose bad := [seq pos <- all_pos | pos \notin good].
have Ua : uniq all_pos by rewrite map_inj_uniq ?filter_uniq ?iota_uniq //; exact: Nat2Z.inj.
have HN : (Z.of_nat (n * e) < 2 ^ 24)%Z.
  by rewrite Ek expn_pow Nat2Z.inj_pow; apply: Z.pow_lt_mono_r; move: Hk; clear; lia.
have N4 : (4 <= n * e)%N by apply: (@leq_trans (2 * 2)%N) => //; exact: leq_mul.
have M1 : (n < n * e)%N by rewrite -{1}(muln1 n) ltn_pmul2l //; lia.
have Sa : size all_pos = (n * e - n)%N by rewrite size_map count_positions //; lia.
have Sbad : (n * e - n - D <= size bad <= n * e - n)%N.
  have G : (size [seq pos <- all_pos | pos \in good] <= D)%N.
    apply: leq_trans Hg; apply: uniq_leq_size; first by rewrite filter_uniq.
    by move=> y; rewrite mem_filter => /andP [].
  have := count_predC (mem good) all_pos; rewrite Sa -!size_filter.
  have -> : [seq x <- all_pos | predC (mem good) x] = bad by apply: eq_filter.
  by move: (size bad) G; rewrite -[filter (mem good) _]/[seq pos <- all_pos | pos \in good]; move: (size (filter _ _)); clear; lia.
have Rb y : List.In y bad -> (0 <= y < Z.of_nat (n * e))%Z /\ (Z.of_nat e <> 0%Z -> (y mod Z.of_nat e)%Z <> 0%Z).
  move=> /In_mem; rewrite mem_filter => /andP [_ /mapP [i]]; rewrite mem_filter mem_iota add0n => /andP [Hd /andP [_ Hi]] ->.
  split; first by move: Hi; clear; lia.
  move=> _; rewrite modnZ => Z0; case/negP: Hd; rewrite /dvdn; apply/eqP.
  by move: Z0; move: (i %% e)%N; clear; lia.
have NDb : List.NoDup bad by apply: uniq_NoDup; rewrite filter_uniq.
have Hm : (0 < Z.of_nat (n * e) < 2 ^ 24)%Z by move: N4 HN; clear; lia.
have He : Z.of_nat e = 0%Z \/ (2 <= Z.of_nat e)%Z /\ (2 <= Z.of_nat (n * e))%Z by right; move: N4 e1; clear; lia.
have [S [NS IS _ LS]] := C129_missing H fuel (Z.of_nat (n * e)) (Z.of_nat e) bad s (32 - 4 * s) Hm He NDb Rb.
exists st, mtree, m_root, S; split=> //; split=> //.
  have EM : (if (Z.of_nat e =? 0)%Z then Z.of_nat (n * e) else Z.of_nat (n * e) * (Z.of_nat e - 1) / Z.of_nat e)%Z =
            Z.of_nat (n * e - n).
    case: Z.eqb_spec => [E|_]; first by move: E e1; clear; lia.
    rewrite (_ : Z.of_nat (n * e) * (Z.of_nat e - 1) = Z.of_nat (n * e - n) * Z.of_nat e)%Z; last first.
      by rewrite Nat2Z.inj_sub -?multE ?Nat2Z.inj_mul; [ring | apply/leP; exact: ltnW].
    by rewrite Z.div_mul //; move: e1; clear; lia.
  rewrite EM in LS; cbv zeta; apply: Z.le_trans LS _.
  apply: Z.mul_le_mono_nonneg_r; first by apply: Z.pow_nonneg.
  set M := Z.of_nat (n * e - n); have M0 : (0 < M)%Z by rewrite /M; move: M1; clear; lia.
  have Q := Z.mul_div_le (2 ^ 32) M M0; set q := (2 ^ 32 / M)%Z in Q *.
  have q0 : (0 <= q)%Z by apply: Z.div_pos.
  have [B1 B2] : (M - Z.of_nat D <= Z.of_nat (length bad) /\ Z.of_nat (length bad) <= M)%Z.
    by rewrite -[length bad]/(size bad) /M; case/andP: Sbad; clear; move: (size bad) (n * e - n)%N; lia.
  by apply: Z.pow_le_mono_l; exact: base_bounds.
move=> l_root branches Sl Sh V; case: (Ag l_root branches _ Sh V) => [|C|[positions Ep Sub]].
- by rewrite Sl; move: s8; clear; lia.
- by left.
right; apply/IS; split; first by rewrite -[length l_root]/(size l_root) Sl; move: s8; clear; lia.
exists positions; split=> // y /In_mem /Sub Hy /In_mem; rewrite mem_filter Hy //.
Qed.
Print Assumptions C130_roots.

(** n = e = 4 over Z/17 with the step x^2 + 1, so m = 3, dg = 2 and D = 6.  The polynomials of the
    valid trace 1, 2, 5, 9 pass at all 12 positions; for the polynomial of 1, 2, 6, 9 no quotient
    passes at more than 6, the one below at 5. *)
Local Notation z17 x := (in_modp P17 x : modp_fieldType P17).
Definition passing17 (t d b : seq Z) : seq nat :=
  let f q := [seq z17 x | x <- q] in
  [seq pos <- iota 0 16 | (pos %% 4 != 0)%N &
    let x := z17 (7 ^ Z.of_nat pos) in
    if check_values 1 4 (z17 13) sq1 wit17 bnd17 x [:: pcall (f t) x] [:: pcall (f t) (z17 4 * x)]
         [:: pcall (f d) x] [:: pcall (f b) x] is Ok _ then true else false].

Example C130_example :
  passing17 [:: 0; 6; 3; 9]%Z [:: 4; 7; 13; 4]%Z [:: 10; 9]%Z = [:: 1; 2; 3; 5; 6; 7; 9; 10; 11; 13; 14; 15]%N /\
  passing17 [:: 13; 10; 16; 13]%Z [:: 12; 5; 10; 9]%Z [:: 11; 13]%Z = [:: 1; 2; 3; 5; 7]%N /\
  [seq mval (pcall [seq z17 x | x <- [:: 13; 10; 16; 13]%Z] (z17 x)) | x <- [:: 1; 4; 16; 13]%Z] = [:: 1; 2; 6; 9]%Z.
Proof. by vm_compute. Qed.
