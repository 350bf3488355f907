(** What the spot checks of the STARK verifier imply for columns of low degree. *)
From mathcomp Require Import zify ssrZ.
From Verif Require Import Prelude BaseProofs PolyModel PolyProofs MerkleModel MerkleProofs ModpModel ModpField FinFld
  InterpModel InterpProofs FftModel FftProofs FiniteFieldProofs MultiModel MultiProofs MultiUtilsProofs AirProofs
  UtilsModel UtilsProofs StarkModel StarkProofs StarkVerifyProofs.
Set Implicit Arguments.
Unset Strict Implicit.
Unset Printing Implicit Defensive.
Import GRing.Theory.
Local Open Scope ring_scope.
Local Open Scope py_scope.

Section Points.
Variable F : fieldType.

(** the values of the polynomials with coefficients [q] at [x] *)
Definition vals (q : seq (seq F)) (x : F) : seq F := [seq (Poly t).[x] | t <- q].

(** the trace that the polynomials describe *)
Definition trace (n : nat) (g : F) (ts : seq (seq F)) : seq (seq F) :=
  [seq [seq (Poly t).[g ^+ i] | i <- iota 0 n] | t <- ts].

Lemma assert_true b : assert_ b = Ok tt -> b.
Proof. by case: b. Qed.

Lemma size_comp_gX (g : F) (q : {poly F}) : (size (q \Po (g *: 'X)) <= (size q).-1.+1)%N.
Proof.
apply: (leq_trans (size_comp_poly_leq _ _)); rewrite ltnS.
have S1 : ((size (g *: 'X : {poly F})).-1 <= 1)%N.
  by have := size_scale_leq g ('X : {poly F}); rewrite size_polyX; lia.
by apply: (leq_trans (leq_mul (leqnn _) S1)); rewrite muln1.
Qed.

Variables (n w m k D : nat) (g : F) (ps : seq (mpoly F)) (wit : seq (seq F)) (bnd : seq (nat * nat * F)).
Variables (ts ds bs : seq (seq F)).
Hypotheses (Ho : order_is g n) (n1 : (1 < n)%N) (O : polys_ok w ps) (Bo : bnd_ok w n wit bnd).
Hypotheses (St : size ts = w) (Sd : size ds = w) (Sb : size bs = w).
Hypothesis dt : all (fun t => size t <= m.+1)%N ts.
Hypothesis dd : all (fun d => size d + n.-1 <= D.+1)%N ds.
Hypothesis db : all (fun b => size b + 2 <= D.+1)%N bs.
Hypothesis dk : forall j, (j < w)%N -> (mdegree (nth [::] ps j) <= k)%N.
Hypotheses (mD : (m <= D)%N) (kD : (k * m <= D)%N).

Let l := g ^+ n.-1.

Definition passes (x : F) : bool :=
  (x != l) &&
  if check_values w n l ps wit bnd x (vals ts x) (vals ts (g * x)) (vals ds x) (vals bs x) is Ok _ then true else false.

Lemma l_neq1 : l != 1.
Proof. by have [_ _ H1] := Ho; apply: H1; lia. Qed.

(** the differences that the verifier compares with 0, as polynomials *)
Definition tdiff (j : nat) : {poly F} := cpoly g ts ps j - zpart g n * Poly (nth [::] ds j).
Definition bdiff (j : nat) : {poly F} := Poly (nth [::] ts j) - Poly (nth [::] bs j) * z2 l -
  line l (nth (0%N, 0%N, 0) bnd j).2 (last 0 (nth [::] wit j)).

Lemma nth_size (q : seq (seq F)) (a : pred (seq F)) j : size q = w -> all a q -> (j < w)%N -> a (nth [::] q j).
Proof. by move=> Sq /(all_nthP [::]) A Hj; apply: A; rewrite Sq. Qed.

Lemma size_tdiff j : (j < w)%N -> (size (tdiff j) <= D.+1)%N.
Proof.
move=> Hj; have n0 : (0 < n)%N by lia.
have Hs i : (i < w)%N -> (size (Poly (nth [::] ts i)) <= m.+1)%N.
  by move=> Hi; apply: leq_trans (size_Poly _) _; exact: nth_size dt Hi.
rewrite /tdiff (leq_trans (size_add _ _)) // geq_max size_opp; apply/andP; split; last first.
  apply: leq_trans (size_mul_leq _ _) _; rewrite size_zpart //.
  have := nth_size Sd dd Hj; have := size_Poly (nth [::] ds j).
  by move: (size (Poly _)) (size (nth _ _ _)) n0; clear; lia.
rewrite /cpoly (leq_trans (size_add _ _)) // geq_max size_opp; apply/andP; split.
  apply: leq_trans (size_comp_gX _ _) _; rewrite ltnS; apply: leq_trans mD.
  by have := Hs j Hj; move: (size _); clear; lia.
apply: (leq_trans (size_meval (polys_wf O Hj) Hs)); rewrite ltnS; apply: leq_trans kD.
by rewrite leq_mul2r dk // orbT.
Qed.

Lemma size_bdiff j : (j < w)%N -> (size (bdiff j) <= D.+1)%N.
Proof.
move=> Hj; have [S2 _ _] := line_spec (nth (0%N, 0%N, 0) bnd j).2 (last 0 (nth [::] wit j)) l_neq1.
have B2 := nth_size Sb db Hj.
rewrite /bdiff (leq_trans (size_add _ _)) // geq_max size_opp; apply/andP; split; last first.
  by apply: leq_trans S2 _; move: B2; clear; lia.
rewrite (leq_trans (size_add _ _)) // geq_max size_opp; apply/andP; split.
  by apply: leq_trans (size_Poly _) _; apply: leq_trans (nth_size St dt Hj) _.
apply: leq_trans (size_mul_leq _ _) _; rewrite size_z2.
by have := size_Poly (nth [::] bs j); move: B2; move: (size (Poly _)) (size (nth _ _ _)); clear; lia.
Qed.

Lemma passes_root x j : passes x -> (j < w)%N -> root (tdiff j) x && root (bdiff j) x.
Proof.
case/andP=> xl; have n0 : (0 < n)%N by lia.
rewrite (check_valuesE n O Bo n0 l_neq1 xl) ?size_map //.
case E: (_ && _) => // _ Hj; case/andP: E => /allP A /allP B.
have Mj : j \in iota 0 w by rewrite mem_iota.
have V (q : seq (seq F)) y : size q = w -> (vals q y)`_j = (Poly (nth [::] q j)).[y].
  by move=> Sq; rewrite (nth_map [::]) ?Sq.
have := A j Mj; have := B j Mj; rewrite !V // => /eqP B1 /eqP A1.
apply/andP; split; apply/rootP.
  rewrite /tdiff hornerD hornerN hornerM (cpoly_eval _ _ O) // pcallE.
  have -> : [seq pcall t x | t <- ts] = vals ts x by apply: eq_map => t; rewrite pcallE.
  have E : (zpart g n).[x] = (x ^+ n - 1) / (x - l).
    have xl0 : x - l != 0 by rewrite subr_eq0.
    apply: (mulIf xl0); rewrite mulfVK //.
    have := congr1 (fun q : {poly F} => q.[x]) (zpart_last Ho).
    by rewrite hornerM hornerXsubC hornerD hornerN hornerXn hornerC.
  by rewrite E.
by rewrite /bdiff !hornerD !hornerN hornerM.
Qed.

Lemma points_sound xs : uniq xs -> all passes xs -> (D < size xs)%N ->
  (forall i, (i < n.-1)%N -> valid_step w ps (trace n g ts) i) /\
  (forall j, (j < w)%N -> (Poly (nth [::] ts j)).[1] = (nth (0%N, 0%N, 0) bnd j).2 /\
                         (Poly (nth [::] ts j)).[l] = last 0 (nth [::] wit j)).
Proof.
move=> U A Sx.
have Z (q : nat -> {poly F}) j : (j < w)%N -> (forall x, passes x -> root (q j) x) -> (size (q j) <= D.+1)%N -> q j = 0.
  move=> Hj R S; apply: (roots_geq_poly_eq0 _ U); last by apply: leq_trans S _.
  by apply/allP => x /(allP A); exact: R.
have T0 j : (j < w)%N -> tdiff j = 0.
  by move=> Hj; apply: Z (size_tdiff Hj) => // x /passes_root /(_ Hj) /andP [].
have B0 j : (j < w)%N -> bdiff j = 0.
  by move=> Hj; apply: Z (size_bdiff Hj) => // x /passes_root /(_ Hj) /andP [].
split=> [i Hi j Hj|j Hj].
  have W t : (t < w)%N -> forall a, (a < n)%N -> (nth [::] (trace n g ts) t)`_a = (Poly (nth [::] ts t)).[g ^+ a].
    by move=> Ht a Ha; rewrite (nth_map [::]) ?St // (nth_map 0%N) ?size_iota // nth_iota.
  rewrite W //; last by move: Hi n1; clear; lia.
  have -> : row (trace n g ts) i = [seq pcall t (g ^+ i) | t <- ts].
    apply: (@eq_from_nth _ 0); first by rewrite !size_map.
    move=> t; rewrite !size_map St => Ht; rewrite (nth_map [::]) ?size_map ?St // W //; last by move: Hi; clear; lia.
    by rewrite (nth_map [::]) ?St // pcallE.
  apply/eqP; rewrite -subr_eq0 exprS -pcallE -(cpoly_eval _ _ O) //.
  have := T0 j Hj => /eqP; rewrite subr_eq0 => /eqP ->; rewrite hornerM.
  have := dvd_zpart (zpart g n) Ho => /(elimT) /(_ (dvdpp _)) -> //.
  by rewrite mul0r.
have [_ L1 L2] := line_spec (nth (0%N, 0%N, 0) bnd j).2 (last 0 (nth [::] wit j)) l_neq1.
have E : Poly (nth [::] ts j) = Poly (nth [::] bs j) * z2 l + line l (nth (0%N, 0%N, 0) bnd j).2 (last 0 (nth [::] wit j)).
  by apply/eqP; rewrite -subr_eq0 opprD addrA; apply/eqP; exact: B0.
by rewrite E !hornerD !hornerM L1 L2 !hornerXsubC !subrr mul0r !mulr0 !add0r.
Qed.
End Points.

Section Opened.
Variables (P : primeZ) (H : bytes -> bytes) (fuel : nat).
Notation F := (modp_fieldType P).
Notation p := (pz P).
Hypothesis H32 : forall x, length (H x) = 32%nat.
Hypothesis p32 : (p <= 256 ^ 32)%Z.

Lemma elt_bytes_ok (x : F) : exists2 b, elt_bytes x = Ok b & length b = 32%nat.
Proof.
exists (be_digits 32 (mval x)); last exact: be_digits_length.
by apply: to_bytes_digits; have := mvalP x; move: p32; lia.
Qed.

(** the leaves under the root of the columns *)
Lemma columns_leaves (w k : nat) (evals : seq (seq F)) tree :
  all (fun r => size r == 2 ^ k)%N evals -> size evals = (3 * w)%N -> (0 < w)%N ->
  merkelize_polynomial_evaluations H (Z.of_nat w) [seq map (@elt_bytes P) e | e <- evals] = Ok tree ->
  exists leaves, [/\ merkelize H (map LBytes leaves) = Ok tree, length leaves = Nat.pow 2 k &
    forall x, List.In x leaves -> length x = (96 * w)%nat].
Proof.
move=> Ha Hs Hw; rewrite /merkelize_polynomial_evaluations.
rewrite (zip_star_ok (@elt_bytes P 0) _ (Nat.pow 2 k)); first last.
- move=> r /List.in_map_iff [e [<- /In_mem He]]; rewrite List.map_length -expn_pow; exact/eqP/(allP Ha).
- by case: (evals) Hs Hw => //=; clear; lia.
case E: (mapM _ _) => [leaves|//] /= Em; exists leaves; split=> //.
  by have [-> _] := MerkleProofs.mapM_nth _ _ _ E; rewrite List.map_length List.seq_length.
move=> x /(List.In_nth_error _ _) [i Hi].
have [LL N] := MerkleProofs.mapM_nth _ _ _ E.
have Hl := nth_error_in_lt _ _ _ Hi; rewrite LL in Hl.
have [col Hc] := nth_error_lt _ _ Hl; have [b [Eb Nb]] := N _ _ Hc; move: Nb; rewrite Hi => -[?]; subst b.
have [y [Ec _]] := proj1 (List.in_map_iff _ _ _) (List.nth_error_In _ _ Hc); move: Eb; rewrite -{}Ec LmapE -map_comp /=.
have G q : exists2 bs, mapM id [seq List.nth y (List.map (@elt_bytes P) e) (elt_bytes (0 : F)) | e <- q] = Ok bs &
    length (List.concat bs) = (32 * size q)%nat.
  elim: q => [|e q [bs Eq Lq]]; first by exists [::].
  rewrite /= List.map_nth; have [b0 -> L0] := elt_bytes_ok (List.nth y e 0); rewrite /= Eq /=.
  by exists (b0 :: bs) => //; rewrite [List.concat _]/= List.app_length L0 Lq; move: (size q); clear; lia.
have [bs -> Lb] := G evals; rewrite /= => -[<-]; rewrite Lb Hs; lia.
Qed.

(** a branch of the right depth and leaf size opens the committed values *)
Lemma opened_values (w k : nat) (evals : seq (seq F)) tree root (i : nat) pf leaf :
  all (fun r => size r == 2 ^ k)%N evals -> (2 <= k)%N -> size evals = (3 * w)%N -> (0 < w)%N ->
  merkelize_polynomial_evaluations H (Z.of_nat w) [seq map (@elt_bytes P) e | e <- evals] = Ok tree ->
  py_nth tree 1 = Ok root -> (i < 2 ^ k)%N ->
  verify_branch H root (Z.of_nat i) pf = Ok leaf -> length pf = k.+1 -> length leaf = (96 * w)%nat ->
  (exists x y, x <> y /\ H x = H y) \/ [seq elt_of_bytes P b | b <- unpack_merkle_leaf leaf w 3] = at_pos evals i.
Proof.
move=> Ha Hk Hs Hw E R Hi V Lp Ll.
have [t [r [E' R' Q]]] := mtree_ok H p32 Ha Hk Hs Hw; move: E'; rewrite E => -[?]; subst t.
move: R'; rewrite R => -[?]; subst r; have [br [leaf' [B1 B2 B3]]] := Q i Hi.
have [leaves [T L2 L3]] := columns_leaves Ha Hs Hw E.
have M : mapM leaf_bytes (List.map LBytes leaves) = Ok leaves by elim: (leaves) => //= x l ->.
have SL : length (List.map LBytes leaves) = Nat.pow 2 k by rewrite List.map_length.
have Hk' : (2 <= k)%coq_nat by apply/leP.
have [t [r [T' R' C]]] := merkle_complete H _ _ k SL Hk' M; move: T'; rewrite T => -[?]; subst t.
move: R'; rewrite R => -[?]; subst r.
have [v Hv] : exists v, List.nth_error leaves i = Some v by apply: nth_error_lt; rewrite L2 -expn_pow; apply/ltP.
have [br' [C1 C2 C3]] := C i v Hv; move: C1; rewrite B1 => -[?]; subst br'.
move: C3; rewrite B2 => -[?]; subst leaf'.
case: (bytes_dec leaf v) => [->|Ne]; first by right; exact: B3.
left; have [|||x [y [_ _ Nxy Exy]]] := merkle_binding H root (Z.of_nat i) pf br leaf v H32 V B2.
- by rewrite Lp C2.
- by rewrite Ll (L3 v) //; apply: List.nth_error_In Hv.
- exact: Ne.
by exists x, y.
Qed.

Lemma foldM_unit_inv (A : Type) (d : A) (f : unit -> A -> result unit) (l : seq A) :
  foldM f l tt = Ok tt -> forall i, (i < size l)%N -> f tt (nth d l i) = Ok tt.
Proof.
elim: l => [|a l IH] //=; case E: (f tt a) => [[]|//] /= /IH {}IH [|i] Hi //=; exact: IH.
Qed.

Lemma bind_inv (A B : Type) (x : result A) (f : A -> result B) b : bind x f = Ok b -> exists2 a, x = Ok a & f a = Ok b.
Proof. by case: x => [a|//] E; exists a. Qed.

Lemma py_nth_inv (A : Type) (d : A) (l : seq A) (i : nat) a : py_nth l (Z.of_nat i) = Ok a -> (i < size l)%N /\ nth d l i = a.
Proof.
case: (ltnP i (size l)) => Hi; first by rewrite (py_nth_ok d) // => -[].
by rewrite py_nth_err //.
Qed.

(** the shape of the opened branches that the verifier does not check *)
Definition shaped (w k : nat) (branches : seq (seq bytes)) :=
  forall i, (i < size branches)%N -> (i %% 3 != 2)%N ->
    size (nth [::] branches i) = k.+1 /\ size (head [::] (nth [::] branches i)) = (96 * w)%N.

Lemma verify_head root i pf leaf : verify_branch H root i pf = Ok leaf -> leaf = head [::] pf.
Proof. by move=> /verify_branch_inv [sibs [idx [-> _ _ _]]]. Qed.

Lemma accepted_positions (n e w k : nat) (st : stark P) (t d b : seq (seq F)) mtree m_root l_root branches wit bnd :
  st_width st = w -> st_steps st = n -> st_ext st = e -> st_precision st = (n * e)%N ->
  (n * e = 2 ^ k)%N -> (2 <= k)%N -> (1 < e)%N -> (k < 24)%N -> (0 < w)%N ->
  (4 * st_samples st <= Z.of_nat (size l_root) + 32 * Z.of_nat fuel)%Z ->
  size t = w -> size d = w -> size b = w -> all (fun c => size c == n * e)%N (t ++ d ++ b) ->
  merkelize_polynomial_evaluations H (Z.of_nat w) [seq map (@elt_bytes P) c | c <- t ++ d ++ b] = Ok mtree ->
  py_nth mtree 1 = Ok m_root -> shaped w k branches ->
  verify_proof H fuel st (m_root, l_root, branches) wit bnd = Ok true ->
  exists positions,
    get_pseudorandom_indices H fuel l_root (Z.of_nat (n * e)) (st_samples st) (Z.of_nat e) = Ok positions /\
    ((exists x y, x <> y /\ H x = H y) \/
     forall pos, pos \in positions -> exists m : nat, [/\ pos = Z.of_nat m, (m < n * e)%N, ~~ (e %| m)%N &
       check_values w n (st_last st) (st_step_polys st) wit bnd (st_G2 st ^+ m) (at_pos t m)
           (at_pos t ((m + e) %% (n * e))) (at_pos d m) (at_pos b m) = Ok tt]).
Proof.
move=> Ew En Ee EN Ek k2 e1 Hk w0 Hf St Sd Sb Sc Em Er Sh.
rewrite /verify_proof EN Ee => Hv; have [positions Ep {}Hv] := bind_inv Hv; have [[] Ef _] := bind_inv Hv.
exists positions; split=> //.
have He : (2 <= Z.of_nat e)%Z by lia.
have N4 : (4 <= n * e)%N by rewrite Ek -(@leq_exp2l 2 2 k isT) in k2 *.
have HN : (Z.of_nat (n * e) < 2 ^ 24)%Z.
  by rewrite Ek expn_pow Nat2Z.inj_pow; apply: Z.pow_lt_mono_r; move: Hk; clear; lia.
have HN2 : (2 <= Z.of_nat (n * e))%Z by lia.
have [p' [Ep' [_ Fp]]] := indices_exclude H fuel l_root (Z.of_nat (n * e)) (st_samples st) (Z.of_nat e) H32 HN He HN2 Hf.
move: Ep'; rewrite Ep => -[?]; subst p'.
have Ss : size (t ++ d ++ b) = (3 * w)%N by rewrite !size_cat St Sd Sb; lia.
have Sc' : all (fun r => size r == 2 ^ k)%N (t ++ d ++ b) by rewrite -Ek.
pose coll := exists x y, x <> y /\ H x = H y.
pose good (pos : Z) := exists m : nat, [/\ pos = Z.of_nat m, (m < n * e)%N, ~~ (e %| m)%N &
       check_values w n (st_last st) (st_step_polys st) wit bnd (st_G2 st ^+ m) (at_pos t m)
           (at_pos t ((m + e) %% (n * e))) (at_pos d m) (at_pos b m) = Ok tt].
suff G i : (i < size positions)%N -> coll \/ good (nth 0%Z positions i).
  have {}G : forall s, (s <= size positions)%N -> coll \/ forall i, (i < s)%N -> good (nth 0%Z positions i).
    elim=> [|s IH] Hs; first by right.
    case: (IH (ltnW Hs)) => [C|Q]; first by left.
    case: (G s Hs) => [C|g]; first by left.
    by right=> i; rewrite ltnS leq_eqVlt => /orP [/eqP ->|/Q].
  case: (G _ (leqnn _)) => [C|Q]; [by left|right=> pos Hp].
  by have := Q (index pos positions); rewrite index_mem nth_index //; apply.
move=> Hi; set pos := nth 0%Z positions i.
have [[P0 P1] P2] : (0 <= pos < Z.of_nat (n * e))%Z /\ (pos mod Z.of_nat e <> 0)%Z.
  by move/List.Forall_forall: Fp; apply; apply: mem_In; exact: mem_nth.
have Hz : (i < size (enumerate positions))%N by rewrite /enumerate size_zip size_iota minnn.
have := foldM_unit_inv (0%N, 0%Z) Ef Hz; move: (get_pseudorandom_ks _ _ _) => ks.
rewrite /enumerate nth_zip ?size_iota // nth_iota // add0n -/pos /=.
have [m Em'] : exists m : nat, pos = Z.of_nat m by exists (Z.to_nat pos); lia.
rewrite {}Em' in P0 P1 P2 *.
have Hm : (m < 2 ^ k)%N by lia.
have Em' : ((Z.of_nat m + Z.of_nat e) mod Z.of_nat (n * e))%Z = Z.of_nat ((m + e) %% (n * e)).
  by rewrite -modnZ; congr Z.modulo; lia.
have Hm' : ((m + e) %% (n * e) < 2 ^ k)%N by rewrite -Ek ltn_mod; lia.
rewrite /verify_proof_at_position; case: ks => // -[|k1 [|k2' [|k3 [|k4 []]]]] //.
rewrite dom_pow_nat bind_ok.
have Z1 : (Z.of_nat i * 3)%Z = Z.of_nat (i * 3) by lia.
have Z2 : (Z.of_nat i * 3 + 1)%Z = Z.of_nat (i * 3 + 1) by lia.
have Z3 : (Z.of_nat i * 3 + 2)%Z = Z.of_nat (i * 3 + 2) by lia.
rewrite Z2 Z3 Z1 EN Ee Em'.
move=> {}Hv; have [br1 /(py_nth_inv [::]) [Hb1 Eb1] {}Hv] := bind_inv Hv; have [leaf1 V1 {}Hv] := bind_inv Hv.
have [br2 /(py_nth_inv [::]) [Hb2 Eb2] {}Hv] := bind_inv Hv; have [leaf2 V2 {}Hv] := bind_inv Hv.
have [br3 _ {}Hv] := bind_inv Hv; have [lx _ {Hv}] := bind_inv Hv.
have M1 : (i * 3 %% 3 != 2)%N by rewrite modnMl.
have M2 : ((i * 3 + 1) %% 3 != 2)%N by rewrite modnMDl.
have [L1 L1'] := Sh _ Hb1 M1; have [L2 L2'] := Sh _ Hb2 M2; rewrite {}Eb1 in L1 L1'; rewrite {}Eb2 in L2 L2'.
rewrite -(verify_head V1) in L1'; rewrite -(verify_head V2) in L2'.
case: (opened_values Sc' k2 Ss w0 Em Er Hm V1 L1 L1') => [C|U1]; first by left.
case: (opened_values Sc' k2 Ss w0 Em Er Hm' V2 L2 L2') => [C|U2]; first by left.
rewrite Ew En !map_take !map_drop U1 U2 !at_cat.
have Sev (q : seq (seq F)) x : size q = w -> size (at_pos q x) = w by rewrite size_map.
have [-> -> ->] := slices (at_pos b m) (Sev _ m St) (Sev _ m Sd).
pose y := ((m + e) %% (n * e))%N.
have [-> _ _] := slices (at_pos b y) (Sev _ y St) (Sev _ y Sd); rewrite /y => Cv.
right; exists m; split=> //; first by rewrite Ek.
apply/negP => /dvdnP [q E]; apply: P2; rewrite {}E.
by rewrite -multE Nat2Z.inj_mul Z.mod_mul //; lia.
Qed.
End Opened.

Section Sound.
Variables (P : primeZ) (H : bytes -> bytes) (fuel : nat).
Notation F := (modp_fieldType P).
Notation p := (pz P).
Hypothesis H32 : forall x, length (H x) = 32%nat.
Hypothesis p32 : (p <= 256 ^ 32)%Z.

(** the values of the polynomials on the whole domain *)
Definition columns (N : nat) (g2 : F) (q : seq (seq F)) : seq (seq F) :=
  [seq [seq (Poly t).[g2 ^+ i] | i <- iota 0 N] | t <- q].

Lemma at_columns N g2 q i : (i < N)%N -> at_pos (columns N g2 q) i = vals q (g2 ^+ i).
Proof.
by move=> Hi; rewrite /at_pos /columns -map_comp; apply: eq_map => t /=; rewrite (nth_map 0%N) ?size_iota // nth_iota.
Qed.

Lemma columns_cat N g2 q r : columns N g2 (q ++ r) = columns N g2 q ++ columns N g2 r.
Proof. exact: map_cat. Qed.

Lemma soundness (n e w k m dg D : nat) ps wit bnd samples ts ds bs
    (g2 := (in_modp P 7 : F) ^+ Z.to_nat ((p - 1) / Z.of_nat (n * e))) (g := g2 ^+ e) :
  p <> 2%Z -> order_is g2 (n * e) ->
  (n * e = 2 ^ k)%N -> (1 < n)%N -> (1 < e)%N -> (k < 24)%N -> (n * e <= fuel)%N ->
  (0 < w)%N -> polys_ok w ps -> bnd_ok w n wit bnd ->
  size ts = w -> size ds = w -> size bs = w ->
  all (fun t => size t <= m.+1)%N ts -> all (fun d => size d + n.-1 <= D.+1)%N ds ->
  all (fun b => size b + 2 <= D.+1)%N bs -> (forall j, (j < w)%N -> mdegree (nth [::] ps j) <= dg)%N ->
  (m <= D)%N -> (dg * m <= D)%N ->
  exists (st : stark P) mtree m_root (good : seq Z),
   [/\ mk_stark fuel n e w ps samples = Ok st,
       merkelize_polynomial_evaluations H (Z.of_nat w)
         [seq map (@elt_bytes P) c | c <- columns (n * e) g2 (ts ++ ds ++ bs)] = Ok mtree,
       py_nth mtree 1 = Ok m_root &
   [/\ uniq good,
       (forall pos, pos \in good -> (0 <= pos < Z.of_nat (n * e))%Z /\ (pos mod Z.of_nat e <> 0)%Z),
       (size good <= D)%N \/
       (forall i, (i < n.-1)%N -> valid_step w ps (trace n g ts) i) /\
       (forall j, (j < w)%N -> (Poly (nth [::] ts j)).[1] = (nth (0%N, 0%N, 0) bnd j).2 /\
                              (Poly (nth [::] ts j)).[g ^+ n.-1] = last 0 (nth [::] wit j)) &
       forall l_root branches,
         (4 * samples <= Z.of_nat (size l_root) + 32 * Z.of_nat fuel)%Z -> shaped w k branches ->
         verify_proof H fuel st (m_root, l_root, branches) wit bnd = Ok true ->
         (exists x y, x <> y /\ H x = H y) \/
         exists2 positions, get_pseudorandom_indices H fuel l_root (Z.of_nat (n * e)) samples (Z.of_nat e) = Ok positions &
           {subset positions <= good}]].
Proof.
move=> p2 Ho Ek n1 e1 Hk Hf w0 O Bo St Sd Sb dt dd db dk mD kD.
have [xs Es] := mk_stark_ok (fuel := fuel) w ps samples p2 Ho Hf; rewrite -/g2 in Es.
have Hg : order_is g n by exact: order_pow Ho.
have k2 : (2 <= k)%N.
  by rewrite -(@leq_exp2l 2) // -Ek; apply: (@leq_trans (2 * 2)%N) => //; exact: leq_mul.
have Sc : all (fun c => size c == n * e)%N (columns (n * e) g2 ts ++ columns (n * e) g2 ds ++ columns (n * e) g2 bs).
  by rewrite -!columns_cat; apply/allP => c /mapP [t _ ->]; rewrite size_map size_iota.
have [|//||//|mtree [m_root [Em Er _]]] := @mtree_ok P H p32 w k (columns (n * e) g2 (ts ++ ds ++ bs)).
- by rewrite -Ek !columns_cat.
- by rewrite size_map !size_cat St Sd Sb; lia.
pose ok i := ~~ (e %| i)%N && passes n w g ps wit bnd ts ds bs (g2 ^+ i).
pose good := [seq Z.of_nat i | i <- iota 0 (n * e) & ok i].
have Inj : {in [seq i <- iota 0 (n * e) | ok i] &, injective (fun i => g2 ^+ i)}.
  move=> a b; rewrite !mem_filter !mem_iota !add0n => /andP [_ /andP [_ Ha]] /andP [_ /andP [_ Hb]].
  exact: order_inj Ho Ha Hb.
exists (Stark w n ps e (n * e) samples g2 g xs (g2 ^+ (n.-1 * e))), mtree, m_root, good; split=> //; split.
- by rewrite map_inj_uniq ?filter_uniq ?iota_uniq //; exact: Nat2Z.inj.
- move=> pos /mapP [i]; rewrite mem_filter mem_iota add0n => /andP [/andP [Hd _] /andP [_ Hi]] ->.
  split; first by lia.
  move=> E; case/negP: Hd; apply/dvdnP; exists (Z.to_nat (Z.of_nat i / Z.of_nat e)).
  have := Z.div_mod (Z.of_nat i) (Z.of_nat e); rewrite E => /(_ ltac:(lia)) Ei.
  have := Z.div_pos (Z.of_nat i) (Z.of_nat e) ltac:(lia) ltac:(lia); move: Ei; set q := (_ / _)%Z => Ei Hq.
  by apply: Nat2Z.inj; rewrite -multE Nat2Z.inj_mul Z2Nat.id //; lia.
- case: (leqP (size good) D) => Hs; [by left|right].
  apply: (@points_sound F n w m dg D g ps wit bnd ts ds bs Hg n1 O Bo St Sd Sb dt dd db dk mD kD
            [seq g2 ^+ i | i <- iota 0 (n * e) & ok i]).
  + by rewrite map_inj_in_uniq ?filter_uniq ?iota_uniq.
  + by apply/allP => x /mapP [i]; rewrite mem_filter => /andP [/andP [_ Hp] _] ->.
  + by move: Hs; rewrite !size_map.
move=> l_root branches Hf4 Sh V.
have Em2 : merkelize_polynomial_evaluations H (Z.of_nat w)
    [seq map (@elt_bytes P) c | c <- columns (n * e) g2 ts ++ columns (n * e) g2 ds ++ columns (n * e) g2 bs] = Ok mtree.
  by rewrite -!columns_cat.
have [||||||||positions [Ep]] := accepted_positions H32 p32 (n := n) (e := e) _ _ _ _ Ek k2 e1 Hk w0 _ _ _ _ Sc Em2 Er Sh V => //.
- by rewrite size_map.
- by rewrite size_map.
- by rewrite size_map.
case=> [C|Q]; [by left|right; exists positions => // pos /Q [i [-> Hi Hd Cv]]].
apply: map_f; rewrite mem_filter mem_iota add0n Hi /= andbT /ok Hd /=.
have El : g ^+ n.-1 = g2 ^+ (n.-1 * e) by rewrite /g -exprM mulnC.
apply/andP; split.
  rewrite El; apply/eqP => E; case/negP: Hd.
  have Hl : (n.-1 * e < n * e)%N by rewrite ltn_pmul2r; lia.
  by rewrite (order_inj Ho Hi Hl E) dvdn_mull.
move: Cv; rewrite /= El !at_columns //; last by rewrite ltn_mod; lia.
suff -> : g2 ^+ ((i + e) %% (n * e)) = g * g2 ^+ i by move=> ->.
have [_ g1 _] := Ho.
by rewrite /g -exprD (addnC e i) {2}(divn_eq (i + e) (n * e)) exprD (mulnC _ (n * e)%N) (exprM g2 (n * e)) g1 expr1n mul1r.
Qed.
End Sound.

(** the positions that are not multiples of the extension factor *)
Lemma count_positions (n e : nat) : (0 < e)%N -> size [seq i <- iota 0 (n * e) | ~~ (e %| i)%N] = (n * e - n)%N.
Proof.
move=> e0; rewrite size_filter; elim: n => [|n IH]; first by rewrite mul0n.
rewrite mulSn addnC iotaD count_cat {}IH add0n.
case: e e0 => // e _; rewrite [iota _ e.+1]/= [count _ (_ :: _)]/= dvdn_mull // add0n.
have -> : count (fun i => ~~ (e.+1 %| i)%N) (iota (n * e.+1).+1 e) = e.
  rewrite -[RHS](size_iota (n * e.+1).+1 e); apply/eqP; rewrite -all_count; apply/allP => i.
  rewrite mem_iota => /andP [H1 H2]; apply/negP => /dvdnP [q Eq]; rewrite {}Eq in H1 H2.
  have A : (n < q)%N by rewrite -(ltn_pmul2r (ltn0Sn e)).
  have B : (q < n.+1)%N by rewrite -(ltn_pmul2r (ltn0Sn e)) mulSn; move: H2; move: (n * _)%N (q * _)%N; clear; lia.
  by move: A B; clear; lia.
have : (n <= n * e.+1)%N by exact: leq_pmulr.
by move: (n * e.+1)%N; clear; lia.
Qed.

Lemma uniq_NoDup (T : eqType) (l : seq T) : uniq l -> List.NoDup l.
Proof.
elim: l => [|x l IH] /=; first by constructor.
by case/andP => Hx /IH ?; constructor=> // /In_mem; apply/negP.
Qed.

Lemma base_bounds (T M q L D : Z) : (M * q <= T)%Z -> (0 <= q)%Z -> (M - D <= L)%Z -> (L <= M)%Z ->
  (0 <= T - L * q <= T - (M - D) * q)%Z.
Proof. nia. Qed.
