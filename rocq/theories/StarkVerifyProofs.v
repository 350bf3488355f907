(** Completeness of the STARK prover and verifier (StarkModel.v) over Z/p. *)
From Verif Require Import Prelude PowModel PowProofs PolyModel PolyProofs InterpModel InterpProofs
  FftModel FftProofs FiniteFieldProofs MultiModel MultiProofs MultiUtilsProofs AirProofs
  BaseProofs MerkleModel MerkleProofs UtilsModel UtilsProofs ModpModel ModpField StarkModel StarkProofs.
From mathcomp Require Import zify ssrZ.
Set Implicit Arguments.
Unset Strict Implicit.
Unset Printing Implicit Defensive.
Import GRing.Theory.
Local Open Scope ring_scope.
Local Open Scope py_scope.

Lemma expn_pow (k : nat) : (2 ^ k)%N = Nat.pow 2 k.
Proof. by elim: k => //= k <-; rewrite expnS; lia. Qed.

Lemma mem_In (T : eqType) (x : T) l : x \in l -> List.In x l.
Proof. by elim: l => //= y l IH; rewrite in_cons => /orP [/eqP ->|/IH]; [left|right]. Qed.

Lemma nth_List (T : Type) (d : T) l i : List.nth i l d = nth d l i.
Proof. by elim: l i => [|x l IH] [|i] //=. Qed.

Lemma LmapE (A B : Type) (f : A -> B) l : List.map f l = map f l.
Proof. by []. Qed.

(** [foldM] collecting three values per element *)
Lemma foldM_triples (A B : Type) (a : A) (b : B) (f : seq B -> A -> result (seq B)) (Q : A -> B -> B -> B -> Prop) l :
  (forall i, (i < size l)%N -> exists b1 b2 b3, Q (nth a l i) b1 b2 b3 /\
     forall acc, f acc (nth a l i) = Ok (acc ++ [:: b1; b2; b3])) ->
  forall acc, exists bs, [/\ foldM f l acc = Ok (acc ++ bs), size bs = (size l * 3)%N &
    forall i, (i < size l)%N -> Q (nth a l i) (nth b bs (i * 3)) (nth b bs (i * 3 + 1)) (nth b bs (i * 3 + 2))].
Proof.
elim: l => [|x l IH] Hl acc; first by exists [::]; rewrite /= cats0.
have [b1 [b2 [b3 [Qx Ex]]]] := Hl 0%N erefl.
have [|bs [E S H]] := IH _ (acc ++ [:: b1; b2; b3]); first by move=> i Hi; exact: (Hl i.+1).
exists ([:: b1; b2; b3] ++ bs); split.
- by move: Ex => /= ->; rewrite bind_ok E -catA.
- by rewrite size_cat S /=; lia.
- by case=> // i Hi; exact: H.
Qed.

Lemma order_pow (F : fieldType) (g : F) (n e : nat) : order_is g (n * e) -> order_is (g ^+ e) n.
Proof.
move=> [ne0 g1 Hi]; have [n0 e0] : (0 < n)%N /\ (0 < e)%N by apply/andP; rewrite -muln_gt0.
split=> //; first by rewrite -exprM mulnC.
move=> i /andP [i0 Hin]; rewrite -exprM; apply: Hi.
by rewrite muln_gt0 e0 i0 mulnC ltn_pmul2r.
Qed.

Lemma modnZ (a b : nat) : (Z.of_nat a mod Z.of_nat b)%Z = Z.of_nat (a %% b).
Proof.
case: (posnP b) => [->|b0]; first by rewrite modn0 Zmod_0_r.
apply/esym; apply: (Z.mod_unique _ _ (Z.of_nat (a %/ b))); first by have := ltn_pmod a b0; lia.
by rewrite -Nat2Z.inj_mul -Nat2Z.inj_add; congr Z.of_nat; rewrite {1}(divn_eq a b) mulnC.
Qed.

Lemma fft_size_dvd (n e k : nat) : (n * e = 2 ^ k)%N -> fft_size n.
Proof.
move=> E; have : (n %| 2 ^ k)%N by rewrite -E dvdn_mulr.
by case/(dvdn_pfactor _ _ (isT : prime 2)) => m _ ->; exists 1%N, m; rewrite mul1n.
Qed.

Lemma nth_bquots (F : fieldType) (f : nat -> seq F) w j : (j < w)%N -> nth [::] [seq f j | j <- iota 0 w] j = f j.
Proof. by move=> Hj; rewrite (nth_map 0%N) ?size_iota // nth_iota. Qed.

Section Verify.
Variables (P : primeZ) (H : bytes -> bytes) (fuel : nat).
Notation F := (modp_fieldType P).
Notation p := (pz P).
Hypothesis H32 : forall x, length (H x) = 32%nat.
Hypothesis p32 : (p <= 256 ^ 32)%Z.

Lemma in_modp_mval (x : modp P) : in_modp P (mval x) = x.
Proof. by apply: mval_inj; exact: mval_small. Qed.

Lemma mtree_ok (w k : nat) (evals : seq (seq F)) :
  all (fun r => size r == 2 ^ k)%N evals -> (2 <= k)%N -> size evals = (3 * w)%N -> (0 < w)%N ->
  exists tree root, [/\
    merkelize_polynomial_evaluations H (Z.of_nat w) [seq map (@elt_bytes P) e | e <- evals] = Ok tree,
    py_nth tree 1 = Ok root &
    forall i, (i < 2 ^ k)%N -> exists br leaf, [/\ mk_branch tree (Z.of_nat i) = Ok br,
      verify_branch H root (Z.of_nat i) br = Ok leaf &
      [seq elt_of_bytes P b | b <- unpack_merkle_leaf leaf w 3] = [seq e`_i | e <- evals]]].
Proof.
move=> Ha Hk Hs Hw; pose rows := [seq map (@mval P) e | e <- evals].
have [||||//|tree [root [E1 E2 E3]]] := packed_ok H w 3 rows k.
- move=> r /List.in_map_iff [e [<- /In_mem He]]; rewrite List.map_length -expn_pow.
  exact/eqP/(allP Ha).
- by apply/leP.
- by rewrite List.map_length; exact: Hs.
- by lia.
- move=> r z /List.in_map_iff [e [<- _]] /List.in_map_iff [x [<- _]].
  by have := mvalP x; move: p32; lia.
exists tree, root; split=> //.
  rewrite -E1; congr merkelize_polynomial_evaluations.
  by rewrite LmapE /rows -map_comp; apply: eq_map => e /=; rewrite LmapE -map_comp.
move=> i Hi; have [|br [leaf [B1 B2 B3]]] := E3 i; first by apply/leP; rewrite -expn_pow.
exists br, leaf; split=> //.
rewrite /elt_of_bytes (map_comp (in_modp P) from_bytes_be) -[map from_bytes_be _]LmapE B3.
rewrite LmapE /rows -!map_comp.
have Sz e : e \in evals -> (i < size e)%N by move=> He; rewrite (eqP (allP Ha _ He)).
apply/eq_in_map => e He /=; rewrite nth_List (nth_map 0) ?Sz // in_modp_mval //.
Qed.

Lemma ltree_ok (k : nat) (es : seq F) : size es = (2 ^ k)%N -> (2 <= k)%N ->
  exists tree root, [/\ merkelize H [seq LObj (@elt_bytes P v) | v <- es] = Ok tree,
    py_nth tree 1 = Ok root &
    forall i, (i < 2 ^ k)%N -> exists br, mk_branch tree (Z.of_nat i) = Ok br /\
      verify_branch_int H root (Z.of_nat i) br = Ok (mval es`_i)].
Proof.
move=> Hs Hk.
pose lv := [seq be_digits 32 (mval v) | v : modp P <- es].
have El (v : modp P) : to_bytes_be 32 (mval v) = Ok (be_digits 32 (mval v)).
  by apply: to_bytes_digits; have := mvalP v; move: p32; lia.
have Em : mapM leaf_bytes [seq LObj (@elt_bytes P v) | v <- es] = Ok lv.
  by rewrite /lv; elim: (es) => //= v s ->; rewrite /elt_bytes El.
have Hs' : length [seq LObj (@elt_bytes P v) | v <- es] = Nat.pow 2 k by rewrite List.map_length -expn_pow.
have [|tree [root [E1 E2 E3]]] := merkle_complete H _ _ _ Hs' _ Em; first by apply/leP.
exists tree, root; split=> // i Hi.
have [|br [B1 _ B2]] := E3 i (be_digits 32 (mval es`_i)).
  by rewrite (nth_error_size [::]) ?size_map ?Hs // (nth_map 0) ?Hs.
exists br; split=> //; rewrite /verify_branch_int B2 /rmap; congr Ok.
rewrite from_be_digits Z.mod_small //; have := mvalP es`_i; move: p32; lia.
Qed.

(** ** The constructor *)
Lemma mk_stark_ok (n e w : nat) ps samples (g := (in_modp P 7 : F) ^+ Z.to_nat ((p - 1) / Z.of_nat (n * e))) :
  p <> 2%Z -> order_is g (n * e) -> (n * e <= fuel)%N ->
  exists xs, mk_stark fuel n e w ps samples =
    Ok (Stark w n ps e (n * e) samples g (g ^+ e) xs (g ^+ (n.-1 * e))).
Proof.
move=> p2 Ho Hf; have [ne0 _ _] := Ho.
rewrite /mk_stark; have -> : (p =? 2)%Z = false by lia.
rewrite (negbTE (_ : (n * e)%N != 0%N)) -?lt0n //.
have Eg : dom_pow 1 *%R (in_modp P 7 : F) ((p - 1) / Z.of_nat (n * e))%Z = Ok g.
  rewrite -(dom_pow_nat (in_modp P 7 : F)) Z2Nat.id //; apply: Z.div_pos; last by lia.
  by have := p_gt1 P; lia.
rewrite Eg bind_ok dom_pow_nat bind_ok.
have [xs [-> Sx _ Nx]] := get_power_cycle_spec Ho Hf; rewrite bind_ok.
have [n0 e0] : (0 < n)%N /\ (0 < e)%N by apply/andP; rewrite -muln_gt0.
have -> : ((Z.of_nat n - 1) * Z.of_nat e)%Z = Z.of_nat (n.-1 * e) by rewrite -multE Nat2Z.inj_mul; congr (_ * _)%Z; lia.
have Hl : (n.-1 * e < n * e)%N by rewrite ltn_pmul2r // prednK.
by exists xs; rewrite (py_nth_ok 0) ?Sx // bind_ok Nx.
Qed.

Definition honest (n w : nat) (ps : seq (mpoly F)) (wit : seq (seq F)) (bnd : seq (nat * nat * F)) :=
  [/\ bnd_ok w n wit bnd, forall i, (i < n.-1)%N -> valid_step w ps wit i,
      forall j, (j < w)%N -> (nth (0%N, 0%N, 0) bnd j).2 = (nth [::] wit j)`_0 &
      forall j, (j < w)%N -> last 0 (nth [::] wit j) != 0].

Definition evals (q : seq (seq F)) (x : F) : seq F := [seq pcall t x | t <- q].

Lemma charP : exists q : nat, q \in [char F] /\ Z.of_nat q = p.
Proof.
exists #|{: modp P}|; split; first exact: modp_char.
by rewrite card_modp Z2Nat.id //; have := p_gt1 P; lia.
Qed.

Lemma polys_built (n e w : nat) (g : F) ps wit bnd :
  order_is g (n * e) -> fft_size n -> (1 < n)%N -> (n <= fuel)%N -> polys_ok w ps -> honest n w ps wit bnd ->
  (forall j, (j < w)%N -> mdegree (nth [::] ps j) <= e.+1)%N ->
  let G1 := g ^+ e in let l := g ^+ (n.-1 * e) in
  exists ts cs ds bs,
   [/\ construct_trace_polynomials fuel p wit G1 = Ok ts,
       construct_constraint_polynomials ps ts G1 w = Ok cs,
       construct_remainder_polynomials cs n l = Ok ds,
       construct_boundary_polynomials ts wit bnd l w = Ok bs &
    [/\ [/\ size ts = w, size ds = w & size bs = w],
       all (fun q => size q <= n * e)%N (ts ++ ds ++ bs) &
       forall x, x != l -> check_values w n l ps wit bnd x (evals ts x) (evals ts (G1 * x)) (evals ds x) (evals bs x) = Ok tt]].
Proof.
move=> Ho Hn n1 Hf O [Bo V B0 Bl] Hd G1 l; have [Sw Sb Sr] := Bo.
have [ne0 _ _] := Ho; have [n0 e0] : (0 < n)%N /\ (0 < e)%N by apply/andP; rewrite -muln_gt0.
have Ho1 : order_is G1 n := order_pow Ho.
have El : l = G1 ^+ n.-1 by rewrite /l /G1 -exprM mulnC.
have l1 : l != 1.
  have [_ _ H1] := Ho1; rewrite El; apply: H1; lia.
have l0 : l != 0 by rewrite expf_neq0 // (order_unit Ho).
have [q [Hq Eq]] := charP.
have [ts [Et T]] := trace_ok Hq Hn Ho1 Hf Sr; rewrite {}Eq in Et.
have [St Qt] := T; rewrite Sw in St Qt.
have Nt := trace_normal T.
have [cs [Ec Sc Qc]] := constraint_ok G1 O St Nt.
have Dv := (valid_dvd Ho1 T Sw O).1 V.
have Lw j : (j < w)%N -> last 0 (nth [::] wit j) = (nth [::] wit j)`_n.-1.
  by move=> Hj; rewrite -nth_last (eqP (all_nthP [::] Sr _ _)) ?Sw.
have Ne j : (j < w)%N -> ~~ pelt (nth (PElt 0) cs j).
  move=> Hj; have [_ _ ->] := Qc j Hj; apply/negP => /andP [_ /eqP Ep].
  have Hn2 : (n.-2 < n.-1)%N by lia.
  have := V n.-2 Hn2 j Hj; rewrite Ep /peval big_nil (ltn_predK Hn2) => E.
  by move: (Bl j Hj); rewrite Lw // E eqxx.
have [|R1 _ _] := remainder_cases (cs := cs) Ho1.
  by move=> j; rewrite Sc => Hj; have [] := Qc j Hj.
rewrite -El in R1; set ds := map _ cs in R1.
have Ed : construct_remainder_polynomials cs n l = Ok ds.
  apply: R1 => j; rewrite Sc => Hj; rewrite (Ne j Hj); have [-> _ _] := Qc j Hj; exact: Dv.
have Sd : size ds = w by rewrite size_map.
have Nd j : (j < w)%N -> nth [::] ds j = polyseq (cpoly G1 ts ps j %/ zpart G1 n).
  by move=> Hj; rewrite (nth_map (PElt 0)) ?Sc //; have [-> _ _] := Qc j Hj.
have Eb := boundary_ok Bo n0 St l0 l1 Bl; set bs := map _ _ in Eb.
have Sbs : size bs = w by rewrite size_map size_iota.
have Nb j : (j < w)%N -> nth [::] bs j = bquot l (nth [::] ts j) (nth (0%N, 0%N, 0) bnd j).2 (last 0 (nth [::] wit j)).
  by move=> Hj; rewrite /bs nth_bquots.
exists ts, cs, ds, bs; split=> //; split=> //.
- rewrite !all_cat; have nle : (n <= n * e)%N by rewrite leq_pmulr.
  apply/and3P; split; apply/(all_nthP [::]) => j.
  + by rewrite St => Hj; have [_ S _] := Qt j Hj; exact: leq_trans S nle.
  + rewrite Sd => Hj; rewrite Nd //; apply: (leq_trans (size_dquot Ho1 T Sw O Hj)).
    apply: (leq_trans (_ : _ <= (e * n.-1).+1)%N); first by rewrite ltnS leq_mul2r; apply/orP; right; have := Hd j Hj; move: (mdegree _) => d; clear; lia.
    by rewrite -(prednK n0) mulnC mulSn /= -addn1 addnC leq_add2r.
  + rewrite Sbs => Hj; rewrite Nb //; apply: (leq_trans (size_bquot _ _ _ _)).
    by have [_ S _] := Qt j Hj; exact: leq_trans S nle.
move=> x xl; rewrite (check_valuesE n O Bo n0 l1 xl) ?size_map ?size_iota //.
set c := (X in assert_ X); suff -> : c = true by [].
rewrite /c; apply/andP; split; apply/allP => j; rewrite mem_iota add0n => /andP [_ Hj]; apply/eqP.
- rewrite !(nth_map [::]) ?St ?Sd // Nd // pcallE [in X in _ - _ * X]pcallE polyseqK.
  rewrite -pcallE -(cpoly_eval G1 x O St Hj) -{1}(divpK (Dv j Hj)) hornerM.
  have -> : (x ^+ n - 1) / (x - l) = (zpart G1 n).[x]; last by rewrite mulrC subrr.
  have := congr1 (fun u : {poly F} => u.[x]) (zpart_last Ho1).
  rewrite /= hornerM hornerXsubC hornerD hornerN hornerXn hornerC -El => <-.
  by rewrite mulfK // subr_eq0.
- rewrite !(nth_map [::]) ?St ?Sbs // Nb // !pcallE.
  have [_ _ Qj] := Qt j Hj.
  have E0 : pcall (nth [::] ts j) 1 = (nth (0%N, 0%N, 0) bnd j).2 by rewrite B0 // -(Qj 0%N) ?expr0.
  have E1 : pcall (nth [::] ts j) l = last 0 (nth [::] wit j) by rewrite Lw // El Qj // prednK.
  have E := bquot_exact l1 E0 E1.
  by rewrite -{1}E hornerD hornerM [X in X - _ - _ = _]addrC addrK subrr.
Qed.

(** The values committed to at position [m] of the columns [cols] *)
Definition at_pos (cols : seq (seq F)) (m : nat) : seq F := [seq c`_m | c <- cols].

Lemma at_cat c1 c2 m : at_pos (c1 ++ c2) m = at_pos c1 m ++ at_pos c2 m.
Proof. exact: map_cat. Qed.

Lemma slices (T : Type) (w : nat) (t d b : seq T) : size t = w -> size d = w ->
  [/\ take w (t ++ d ++ b) = t, take w (drop w (t ++ d ++ b)) = d & drop (2 * w) (t ++ d ++ b) = b].
Proof.
move=> St Sd; split; first by rewrite -St take_size_cat.
  by rewrite -{2}St drop_size_cat // -Sd take_size_cat.
by rewrite catA drop_size_cat // size_cat St Sd; lia.
Qed.

Lemma foldM_enum (A : Type) (d : A) (f : unit -> nat * A -> result unit) (l : seq A) :
  (forall i, (i < size l)%N -> f tt (i, nth d l i) = Ok tt) -> foldM f (enumerate l) tt = Ok tt.
Proof.
move=> H0; apply: (@foldM_unit_ok _ (0%N, d)) => i; rewrite /enumerate size_zip size_iota minnn => Hi.
by rewrite nth_zip ?size_iota // nth_iota // add0n; exact: H0.
Qed.

Lemma foldM_catE (A B : Type) (f : B -> A -> result B) l1 l2 a :
  foldM f (l1 ++ l2) a = let* b := foldM f l1 a in foldM f l2 b.
Proof. by elim: l1 a => //= x l1 IH a; case: (f a x) => //= c. Qed.

Lemma foldM_enum_err (A : Type) (d : A) (f : unit -> nat * A -> result unit) (l : seq A) (n : nat) er :
  (forall i, (i < n)%N -> f tt (i, nth d l i) = Ok tt) -> (n < size l)%N -> f tt (n, nth d l n) = Err er ->
  foldM f (enumerate l) tt = Err er.
Proof.
move=> H0 Hn He; rewrite /enumerate.
have Ez : zip (iota 0 (size l)) l = zip (iota 0 n) (take n l) ++ zip (iota n (size l - n)) (drop n l).
  rewrite -zip_cat ?size_iota ?size_take ?Hn // cat_take_drop -iotaD subnKC //; exact: ltnW.
rewrite Ez foldM_catE.
have -> : foldM f (zip (iota 0 n) (take n l)) tt = Ok tt.
  apply: (@foldM_unit_ok _ (0%N, d)) => i; rewrite size_zip size_iota size_take Hn minnn => Hi.
  by rewrite nth_zip ?size_iota ?size_take ?Hn // nth_iota // add0n nth_take //; exact: H0.
rewrite bind_ok (drop_nth d Hn); case E: (size l - n)%N => [|m]; first by move: E Hn; clear; lia.
by rewrite /= He.
Qed.

(** Committing to columns [t d b] of [N] values each and to [es]: the proof opened
    at the prover's positions verifies as soon as the arithmetic checks hold at
    every position that is not a multiple of the extension factor. *)
Lemma spot_ok (n e w k : nat) (st : stark P) (t d b : seq (seq F)) (es : seq F) :
  st_width st = w -> st_steps st = n -> st_ext st = e -> st_precision st = (n * e)%N ->
  (n * e = 2 ^ k)%N -> (2 <= k)%N -> (1 < e)%N -> (k < 24)%N -> (10 <= fuel)%N -> (0 < w)%N ->
  size t = w -> size d = w -> size b = w -> all (fun c => size c == n * e)%N (t ++ d ++ b) -> size es = (n * e)%N ->
  exists mtree m_root l_mtree l_root branches,
  [/\ merkelize_polynomial_evaluations H (Z.of_nat w) [seq map (@elt_bytes P) c | c <- t ++ d ++ b] = Ok mtree,
      py_nth mtree 1 = Ok m_root,
      merkelize H [seq LObj (@elt_bytes P v) | v <- es] = Ok l_mtree,
      py_nth l_mtree 1 = Ok l_root &
  [/\ compute_merkle_spot_checks H fuel st mtree l_mtree 80 = Ok branches,
      size branches = 240%N &
      forall wit bnd,
      (forall m, (m < n * e)%N -> ~~ (e %| m)%N ->
         check_values w n (st_last st) (st_step_polys st) wit bnd (st_G2 st ^+ m) (at_pos t m)
           (at_pos t ((m + e) %% (n * e))) (at_pos d m) (at_pos b m) = Ok tt) ->
      ((st_samples st <= 80)%Z -> verify_proof H fuel st (m_root, l_root, branches) wit bnd = Ok true) /\
      ((80 < st_samples st)%Z -> (4 * st_samples st <= 32 * Z.of_nat fuel)%Z ->
         verify_proof H fuel st (m_root, l_root, branches) wit bnd = Err IndexError)]].
Proof.
move=> Ew En Ee EN Ek k2 e1 Hk Hf10 w0 St Sd Sb Sc Se.
have [|//||//|mtree [m_root [Em Er Ot]]] := @mtree_ok w k (t ++ d ++ b).
- by apply/allP=> r Hr; rewrite -Ek (eqP (allP Sc _ Hr)).
- by rewrite !size_cat St Sd Sb; lia.
have [||l_mtree [l_root [Elm Elr Olt]]] := @ltree_ok k es; [by rewrite Se|by []|].
have N4 : (4 <= n * e)%N by rewrite Ek -(@leq_exp2l 2 2 k isT) in k2 *.
have He : (2 <= Z.of_nat e)%Z by lia.
have HN : (Z.of_nat (n * e) < 2 ^ 24)%Z.
  by rewrite Ek expn_pow Nat2Z.inj_pow; apply: Z.pow_lt_mono_r; move: Hk; clear; lia.
have HN2 : (2 <= Z.of_nat (n * e))%Z by lia.
have [|positions [Ep [Lp Fp]]] := indices_exclude H fuel l_root (Z.of_nat (n * e)) 80 (Z.of_nat e) H32 HN He HN2.
  by lia.
have Sp : size positions = 80%N by move: Lp; rewrite -[length _]/(size _); lia.
exists mtree, m_root, l_mtree, l_root.
rewrite /compute_merkle_spot_checks EN Ee Elr bind_ok Ep bind_ok.
set f := (X in foldM X).
pose opened (pos : Z) (b1 b2 b3 : seq bytes) := forall wit bnd,
  (forall m, (m < n * e)%N -> ~~ (e %| m)%N ->
         check_values w n (st_last st) (st_step_polys st) wit bnd (st_G2 st ^+ m) (at_pos t m)
           (at_pos t ((m + e) %% (n * e))) (at_pos d m) (at_pos b m) = Ok tt) ->
  forall ks branches (i : nat), (i * 3 + 2 < size branches)%N ->
    nth [::] branches (i * 3) = b1 -> nth [::] branches (i * 3 + 1) = b2 -> nth [::] branches (i * 3 + 2) = b3 ->
    size ks = 4%N ->
    verify_proof_at_position H st wit bnd (Some ks) (m_root, l_root, branches) i pos = Ok tt.
have [|branches [Ebr Sbr Qbr]] := @foldM_triples _ _ 0%Z [::] f opened positions _ [::].
  move=> i Hi; set pos := nth 0%Z positions i.
  have [[P0 P1] P2] : (0 <= pos < Z.of_nat (n * e))%Z /\ (pos mod Z.of_nat e <> 0)%Z.
    by move/List.Forall_forall: Fp; apply; apply: mem_In; exact: mem_nth.
  have [m Em'] : exists m : nat, pos = Z.of_nat m by exists (Z.to_nat pos); lia.
  rewrite {}Em' in P0 P1 P2 *.
  have Hm : (m < 2 ^ k)%N by lia.
  have Em' : ((Z.of_nat m + Z.of_nat e) mod Z.of_nat (n * e))%Z = Z.of_nat ((m + e) %% (n * e)).
    by rewrite -modnZ; congr Z.modulo; lia.
  have Hm' : ((m + e) %% (n * e) < 2 ^ k)%N by rewrite -Ek ltn_mod; lia.
  have [b1 [leaf1 [B1 V1 U1]]] := Ot _ Hm.
  have [b2 [leaf2 [B2 V2 U2]]] := Ot _ Hm'.
  have [b3 [B3 V3]] := Olt _ Hm.
  exists b1, b2, b3; split; last by move=> acc; rewrite /f Em' B1 bind_ok B2 bind_ok B3.
  move=> wit bnd Cv ks br j Hj E1 E2 E3 Sks; rewrite /verify_proof_at_position.
  case: ks Sks => [|k1 [|k2' [|k3 [|k4 []]]]] // _.
  rewrite dom_pow_nat bind_ok.
  have Z1 : (Z.of_nat j * 3)%Z = Z.of_nat (j * 3) by lia.
  have Z2 : (Z.of_nat j * 3 + 1)%Z = Z.of_nat (j * 3 + 1) by lia.
  have Z3 : (Z.of_nat j * 3 + 2)%Z = Z.of_nat (j * 3 + 2) by lia.
  rewrite Z2 Z3 Z1 (py_nth_ok [::]); last by lia.
  rewrite E1 bind_ok V1 bind_ok (py_nth_ok [::]); last by lia.
  rewrite E2 bind_ok EN Ee Em' V2 bind_ok (py_nth_ok [::]) // E3 bind_ok V3 bind_ok.
  rewrite -Ek in Hm Hm'; rewrite -/(at_pos _ _) in U1; rewrite -/(at_pos _ _) in U2.
  rewrite Ew En !map_take !map_drop U1 U2 !at_cat.
  have Sev (q : seq (seq F)) x : size q = w -> size (at_pos q x) = w by rewrite size_map.
  have [-> -> ->] := slices (at_pos b m) (Sev _ m St) (Sev _ m Sd).
  pose y := ((m + e) %% (n * e))%N.
  have [-> _ _] := slices (at_pos b y) (Sev _ y St) (Sev _ y Sd); rewrite /y.
  apply: Cv => //; apply/negP => /dvdnP [q E]; apply: P2; rewrite {}E.
  by rewrite -multE Nat2Z.inj_mul Z.mod_mul //; lia.
rewrite /= in Ebr.
exists branches; rewrite Ebr; split=> //; split=> //; first by rewrite Sbr Sp.
move=> wit bnd Cv; have Ek4 : exists2 ks, get_pseudorandom_ks H m_root 4 = Some ks & size ks = 4%N.
  by rewrite /get_pseudorandom_ks /=; eexists.
have [ks Eks Sks] := Ek4.
have Op i : (i < 80)%N ->
    verify_proof_at_position H st wit bnd (Some ks) (m_root, l_root, branches) i (nth 0%Z positions i) = Ok tt.
  by move=> Hi; apply: (Qbr i) => //; rewrite ?Sp ?Sbr ?Sp //; lia.
split=> Hs; rewrite /verify_proof EN Ee.
- have [|pos' [Ep' [Lp' _]]] := indices_exclude H fuel l_root (Z.of_nat (n * e)) (st_samples st) (Z.of_nat e) H32 HN He HN2.
    by lia.
  have Hf : (4 * 80 <= Z.of_nat (length l_root) + 32 * Z.of_nat fuel)%Z by lia.
  have [r Er'] := indices_prefix H fuel _ _ _ _ _ _ _ H32 HN He HN2 Hs Hf Ep' Ep.
  rewrite Ep' bind_ok Eks (@foldM_enum _ 0%Z) // => i Hi /=.
  have := congr1 size Er'; rewrite size_cat Sp => E80.
  have <- : nth 0%Z positions i = nth 0%Z pos' i by rewrite Er' nth_cat Hi.
  by apply: Op; rewrite E80 (leq_trans Hi) // leq_addr.
- move=> Hf.
  have [|pos' [Ep' [Lp' Fp']]] := indices_exclude H fuel l_root (Z.of_nat (n * e)) (st_samples st) (Z.of_nat e) H32 HN He HN2.
    by lia.
  have Hf' : (4 * st_samples st <= Z.of_nat (length l_root) + 32 * Z.of_nat fuel)%Z by lia.
  have Hs' : (80 <= st_samples st)%Z by lia.
  have [r Er'] := indices_prefix H fuel _ _ _ _ _ _ _ H32 HN He HN2 Hs' Hf' Ep Ep'.
  rewrite Ep' bind_ok Eks (@foldM_enum_err _ 0%Z _ _ 80 IndexError) //.
  + by move=> i Hi /=; rewrite Er' nth_cat Sp Hi; exact: Op.
  + by move: Lp'; rewrite -[length _]/(size _); lia.
  rewrite /verify_proof_at_position; case: (ks) Sks => [|k1 [|k2' [|k3 [|k4 []]]]] // _.
  have P80 : (0 <= nth 0 pos' 80)%Z.
    have H80 : (80 < size pos')%N by move: Lp'; rewrite -[length _]/(size _); lia.
    have [[]] // : (0 <= nth 0 pos' 80 < Z.of_nat (n * e))%Z /\ (nth 0%Z pos' 80 mod Z.of_nat e <> 0)%Z.
    by move/List.Forall_forall: Fp'; apply; apply: mem_In; exact: mem_nth.
  rewrite -[nth _ _ _]Z2Nat.id // dom_pow_nat bind_ok.
  have -> : (Z.of_nat (80%N, nth 0%Z pos' 80).1 * 3)%Z = Z.of_nat 240 by [].
  by rewrite py_nth_err // Sbr Sp.
Qed.

(** ** The honest prover *)
Lemma honest_verifies (n e w k : nat) (g : F) ps wit bnd samples xs :
  order_is g (n * e) -> (n * e = 2 ^ k)%N -> (1 < n)%N -> (1 < e)%N -> (k < 24)%N ->
  (n * e <= fuel)%N -> (10 <= fuel)%N -> (0 < w < 10)%N ->
  polys_ok w ps -> honest n w ps wit bnd ->
  (forall j, (j < w)%N -> mdegree (nth [::] ps j) <= e.+1)%N ->
  let st := Stark w n ps e (n * e) samples g (g ^+ e) xs (g ^+ (n.-1 * e)) in
  exists pf, [/\ mk_proof H fuel st wit bnd = Ok pf,
    (samples <= 80)%Z -> verify_proof H fuel st pf wit bnd = Ok true &
    (80 < samples)%Z -> (4 * samples <= 32 * Z.of_nat fuel)%Z -> verify_proof H fuel st pf wit bnd = Err IndexError].
Proof.
move=> Ho Ek n1 e1 Hk Hf Hf10 w10 O Hh Hd st.
have Hn := fft_size_dvd Ek; have HN : fft_size (n * e) by exists 1%N, k; rewrite mul1n.
have n_le : (n <= n * e)%N by rewrite leq_pmulr // ltnW.
have N4 : (4 <= n * e)%N by exact: (leq_mul n1 e1).
have k2 : (2 <= k)%N by case: k {Hk} Ek => [|[|k]] // E; move: N4; rewrite E.
have w0 : (0 < w)%N by case/andP: w10.
have N1 : (1 < n * e)%N by apply: leq_trans N4.
have [ts [cs [ds [bs [Et Ec Ed Eb [[St Sd Sb] Ss Cv]]]]]] :=
  polys_built Ho Hn n1 (leq_trans n_le Hf) O Hh Hd.
rewrite /mk_proof /= Et bind_ok Ec bind_ok Ed bind_ok Eb bind_ok.
pose ev q := [seq pcall q (g ^+ i) | i <- iota 0 (n * e)].
have -> : mapM (nb_fft fuel p g) (ts ++ ds ++ bs) = Ok (map ev ts ++ map ev ds ++ map ev bs).
  rewrite -!map_cat; apply: mapM_ok_in => q Hq; rewrite (nb_fft_spec _ HN Ho Hf) //; exact: (allP Ss).
rewrite bind_ok.
have Sl m_root l : normal l -> Poly l = \sum_(j < w) (1 + lk F H m_root w j * g ^+ (n * (n * e).-1)) *:
      lcomb1 H m_root (g ^+ (n * (n * e).-1)) (nth [::] ts j) (nth [::] ds j) (nth [::] bs j) -> (size l <= n * e)%N.
  move=> Nl El.
  rewrite size_normal // El; apply: (leq_trans (size_sum _ _ _)); apply/bigmax_leqP => j _.
  apply: (leq_trans (size_scale_leq _ _)); rewrite /lcomb1.
  have Sq q : q \in ts ++ ds ++ bs -> (size (Poly q) <= n * e)%N.
    by move=> Hq; exact: leq_trans (size_Poly _) (allP Ss _ Hq).
  have Mt : nth [::] ts j \in ts ++ ds ++ bs by rewrite mem_cat mem_nth ?St.
  have Md : nth [::] ds j \in ts ++ ds ++ bs by rewrite !mem_cat [_ \in ds]mem_nth ?Sd ?orbT.
  have Mb : nth [::] bs j \in ts ++ ds ++ bs by rewrite !mem_cat [_ \in bs]mem_nth ?Sb ?orbT.
  rewrite (leq_trans (size_add _ _)) // geq_max (leq_trans (size_scale_leq _ _)) ?Sq // andbT.
  by rewrite (leq_trans (size_add _ _)) // geq_max (leq_trans (size_scale_leq _ _)) ?Sq.
have Sev q : size (ev q) = (n * e)%N by rewrite size_map size_iota.
have Sall : all (fun c => size c == n * e)%N (map ev ts ++ map ev ds ++ map ev bs).
  by rewrite -!map_cat all_map; apply/allP => q _ /=; rewrite Sev.
have Sm (q : seq (seq F)) : size q = w -> size (map ev q) = w by rewrite size_map.
have spot es := @spot_ok n e w k st _ _ _ es erefl erefl erefl erefl Ek k2 e1 Hk Hf10 w0
  (Sm _ St) (Sm _ Sd) (Sm _ Sb) Sall.
have [|mtree [m_root [_ [_ [_ [Em Er _ _ _]]]]]] := spot (nseq (n * e) 0); first by rewrite size_nseq.
have [l [El Nl Pl]] := lincombE H m_root n g N1 w10 St Sd Sb.
have [|mtree' [m_root' [l_mtree [l_root [branches [Em' Er' Elm Elr [Esp _ Vf]]]]]]] := spot (ev l); first exact: Sev.
move: Em'; rewrite Em; case=> ?; subst mtree'; move: Er'; rewrite Er; case=> ?; subst m_root'.
rewrite bind_ok Er bind_ok El bind_ok (nb_fft_spec _ HN Ho Hf (Sl _ _ Nl Pl)) bind_ok.
rewrite -/(ev l) Elm bind_ok Esp bind_ok Elr bind_ok.
exists (m_root, l_root, branches).
have [|V1 V2] := Vf wit bnd; last by split.
move=> m Hm Hem /=.
have Ea q i : (i < n * e)%N -> at_pos (map ev q) i = evals q (g ^+ i).
  move=> Hi; rewrite /at_pos -map_comp; apply: eq_map => c /=.
  by rewrite (nth_map 0%N) ?size_iota // nth_iota.
rewrite !Ea //; last by rewrite ltn_mod; exact: ltnW.
have -> : g ^+ ((m + e) %% (n * e)) = g ^+ e * g ^+ m.
  by have [_ g1 _] := Ho; rewrite -exprD (addnC e m) [in RHS](divn_eq (m + e) (n * e)) exprD [(_ %/ _ * _)%N]mulnC exprM g1 expr1n mul1r.
apply: Cv; apply/eqP => /(order_inj Ho Hm) E; move: Hem; rewrite {}E ?dvdn_mull // ltn_pmul2r; lia.
Qed.

(** ** A forger: columns [t] and [es] are arbitrary *)
Lemma forged_verifies (n e w k : nat) (g : F) ps wit bnd samples xs t es :
  order_is g (n * e) -> (n * e = 2 ^ k)%N -> (1 < n)%N -> (1 < e)%N -> (k < 24)%N ->
  (10 <= fuel)%N -> (0 < w)%N -> polys_ok w ps -> bnd_ok w n wit bnd -> (samples <= 80)%Z ->
  size t = w -> all (fun c => size c == n * e)%N t -> size es = (n * e)%N ->
  let st := Stark w n ps e (n * e) samples g (g ^+ e) xs (g ^+ (n.-1 * e)) in
  exists d b mtree m_root l_mtree l_root branches,
  [/\ merkelize_polynomial_evaluations H (Z.of_nat w) [seq map (@elt_bytes P) c | c <- t ++ d ++ b] = Ok mtree,
      py_nth mtree 1 = Ok m_root,
      merkelize H [seq LObj (@elt_bytes P v) | v <- es] = Ok l_mtree,
      py_nth l_mtree 1 = Ok l_root &
      verify_proof H fuel st (m_root, l_root, branches) wit bnd = Ok true].
Proof.
move=> Ho Ek n1 e1 Hk Hf10 w0 O Bo Hs St Sc Se st.
have N4 : (4 <= n * e)%N by exact: (leq_mul n1 e1).
have k2 : (2 <= k)%N by case: k {Hk} Ek => [|[|k]] // E; move: N4; rewrite E.
pose l := g ^+ (n.-1 * e).
pose dv j m := if (e %| m)%N then 0 else
  ((at_pos t ((m + e) %% (n * e)))`_j - peval (nth [::] ps j) (at_pos t m)) / (((g ^+ m) ^+ n - 1) / (g ^+ m - l)).
pose bv j m := if (e %| m)%N then 0 else
  ((at_pos t m)`_j - (line l (nth (0%N, 0%N, 0) bnd j).2 (last 0 (nth [::] wit j))).[g ^+ m]) / (z2 l).[g ^+ m].
pose col (f : nat -> nat -> F) := [seq [seq f j m | m <- iota 0 (n * e)] | j <- iota 0 w].
have Sco f : size (col f) = w by rewrite size_map size_iota.
have Sca f : all (fun c => size c == n * e)%N (col f).
  by rewrite all_map; apply/allP => j _ /=; rewrite size_map size_iota.
have Eco f j m : (j < w)%N -> (m < n * e)%N -> (at_pos (col f) m)`_j = f j m.
  move=> Hj Hm; rewrite /at_pos (nth_map [::]) ?Sco // (nth_map 0%N) ?size_iota // (nth_map 0%N) ?size_iota //.
  by rewrite !nth_iota.
have Sall : all (fun c => size c == n * e)%N (t ++ col dv ++ col bv) by rewrite !all_cat Sc !Sca.
have [mtree [m_root [l_mtree [l_root [branches [Em Er Elm Elr [_ _ Vf]]]]]]] :=
  @spot_ok n e w k st t (col dv) (col bv) es erefl erefl erefl erefl Ek k2 e1 Hk Hf10 w0 St (Sco _) (Sco _) Sall Se.
exists (col dv), (col bv), mtree, m_root, l_mtree, l_root, branches; split=> //.
have [|V1 _] := Vf wit bnd; last exact: V1.
move=> m Hm Hem /=; rewrite -/l.
have n0 : (0 < n)%N by exact: ltnW.
have l1 : l != 1.
  by have [_ _ H1] := Ho; apply: H1; rewrite muln_gt0 ltn_pmul2r; lia.
have xl : g ^+ m != l.
  by apply/eqP => /(order_inj Ho Hm) E; move: Hem; rewrite {}E ?dvdn_mull // ltn_pmul2r; lia.
have x1 : g ^+ m != 1.
  have [_ _ H1] := Ho; apply: H1; rewrite Hm andbT lt0n; apply: contraNneq Hem => ->; exact: dvdn0.
have xn : (g ^+ m) ^+ n != 1.
  apply/eqP => E; case/negP: Hem; have [ne0 g1 _] := Ho.
  have : g ^+ ((m * n) %% (n * e)) = g ^+ 0.
    by rewrite expr0 -E -exprM [in RHS](divn_eq (m * n) (n * e)) exprD [(_ %/ _ * _)%N]mulnC exprM g1 expr1n mul1r.
  move/(order_inj Ho); rewrite ltn_mod ne0 => /(_ isT isT) /eqP.
  by move=> E0; have : (n * e %| m * n)%N by []; rewrite mulnC dvdn_pmul2r.
have Sat q x : size q = w -> size (at_pos q x) = w by rewrite size_map.
rewrite (check_valuesE n O Bo n0 l1 xl) ?Sat ?Sco //.
set c := (X in assert_ X); suff -> : c = true by [].
rewrite /c; apply/andP; split; apply/allP => j; rewrite mem_iota add0n => /andP [_ Hj]; rewrite Eco // subr_eq0.
- rewrite /dv (negbTE Hem) mulrC divfK // mulf_neq0 ?invr_eq0 ?subr_eq0 //.
- rewrite /bv (negbTE Hem) divfK ?subKr //.
  by rewrite /z2 hornerM !hornerXsubC mulf_neq0 // subr_eq0.
Qed.
(** ** Without registers *)
Lemma no_registers (n e k : nat) (g : F) wit bnd samples xs :
  order_is g (n * e) -> (n * e = 2 ^ k)%N -> (1 < n)%N -> (1 < e)%N -> (n * e <= fuel)%N ->
  all (fun r => size r == n) wit ->
  mk_proof H fuel (Stark 0 n [::] e (n * e) samples g (g ^+ e) xs (g ^+ (n.-1 * e))) wit bnd =
    Err (if wit is [::] then IndexError else AttributeError).
Proof.
move=> Ho Ek n1 e1 Hf Sr.
have Hn := fft_size_dvd Ek; have HN : fft_size (n * e) by exists 1%N, k; rewrite mul1n.
have n_le : (n <= n * e)%N by rewrite leq_pmulr // ltnW.
have N4 : (4 <= n * e)%N by exact: (leq_mul n1 e1).
have k2 : (2 <= k)%N by case: k Ek => [|[|k]] // E; move: N4; rewrite E.
have Ho1 : order_is (g ^+ e) n := order_pow Ho.
have [q [Hq Eq]] := charP.
have [ts [Et [St Qt]]] := trace_ok Hq Hn Ho1 (leq_trans n_le Hf) Sr; rewrite {}Eq in Et.
have Er : construct_remainder_polynomials ([::] : seq (pval F)) n (g ^+ (n.-1 * e)) = Ok [::].
  have [|R1 _ _] := remainder_cases (cs := [::]) Ho1; first by [].
  by rewrite mulnC exprM; apply: R1.
have Eb : construct_boundary_polynomials ts wit bnd (g ^+ (n.-1 * e)) 0 = Ok [::].
  by rewrite /construct_boundary_polynomials /=; case: (ts).
rewrite /mk_proof /= Et bind_ok /construct_constraint_polynomials.
rewrite (_ : zip _ [::] = [::]); last by case: (ts).
rewrite [mapM _ [::]]/= bind_ok Er bind_ok Eb bind_ok cats0.
pose ev q := [seq pcall q (g ^+ i) | i <- iota 0 (n * e)].
have Ee : mapM (nb_fft fuel p g) ts = Ok (map ev ts).
  apply: mapM_ok_in => t /(nthP [::]) [j]; rewrite St => Hj <-.
  by rewrite (nb_fft_spec _ HN Ho Hf) //; have [_ /leq_trans -> //] := Qt j Hj.
rewrite Ee bind_ok; case: wit {Et Qt Eb} Sr St => [|r wit] Sr St.
  by move/eqP: St; rewrite size_eq0 => /eqP ->.
have [tree [root [E1 E2]]] : exists tree root,
    merkelize_polynomial_evaluations H 0 [seq map (@elt_bytes P) c | c <- map ev ts] = Ok tree /\
    py_nth tree 1 = Ok root.
  pose rows := [seq map (@mval P) c | c <- map ev ts].
  have [||||c z|tree [root [E1 E2 _]]] := packed_ok H (size ts) 1 rows k.
  - move=> c /List.in_map_iff [c' [<- /In_mem /mapP [t Ht ->]]].
    by rewrite List.map_length -[length _]/(size _) size_map size_iota -expn_pow.
  - exact/leP.
  - by rewrite List.map_length -[length _]/(size _) size_map; lia.
  - by rewrite St /=; lia.
  - move=> /List.in_map_iff [c' [<- _]] /List.in_map_iff [x [<- _]].
    by have := mvalP x; move: p32; lia.
  exists tree, root; split=> //; rewrite -E1; rewrite -[RHS]/(merkelize_polynomial_evaluations H 0 _).
  congr merkelize_polynomial_evaluations.
  by rewrite LmapE /rows -!map_comp; apply: eq_map => c /=; rewrite LmapE -map_comp.
rewrite E1 bind_ok E2 bind_ok.
have -> : lincomb H root ts [::] [::] g (n * e) n 0 = Ok None; last by [].
by rewrite /lincomb /lincomb_1d /get_pseudorandom_ks (_ : zip (zip ts [::]) [::] = [::]) //; case: (ts).
Qed.
End Verify.
