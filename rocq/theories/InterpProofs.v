From mathcomp Require Import zify ssrZ.
From Verif Require Import Prelude RingTac ModpModel ModpField PolyModel PolyProofs InterpModel.
Set Implicit Arguments.
Unset Strict Implicit.
Unset Printing Implicit Defensive.
Import GRing.Theory.
Local Open Scope ring_scope.
Local Open Scope py_scope.

Section Field.
Variable F : fieldType.
Implicit Types (xs ys l : seq F).

Lemma iota_rcons k : iota 0 k.+1 = rcons (iota 0 k) k.
Proof. by rewrite -addn1 iotaD cats1. Qed.

(** ** zpoly *)
Lemma zpoly_inner (x : F) (c : seq F) k : (k < size c)%N ->
  let r := foldl (fun r j => set_nth 0 r j (nth 0 r j - nth 0 r j.+1 * x)) c (iota 0 k) in
  size r = size c /\
  forall i, nth 0 r i = if (i < k)%N then nth 0 c i - nth 0 c i.+1 * x else nth 0 c i.
Proof.
elim: k => [|k IH] Hk; first by [].
rewrite iota_rcons foldl_rcons.
have {IH} [IHs IH] := IH (ltnW Hk).
set r := foldl _ _ _ in IHs IH *; split.
  by rewrite size_set_nth IHs; apply/maxn_idPr; rewrite (ltn_trans _ Hk).
move=> i; rewrite nth_set_nth /= !IH ltnn ltnS ltnNge leqnSn /=.
by case: ltngtP => // ->.
Qed.

Lemma zpoly_stepP (r : seq F) x :
  size (zpoly_step r x) = (size r).+1 /\
  Poly (zpoly_step r x) = Poly r * ('X - x%:P).
Proof.
rewrite /zpoly_step; set c := 0 :: r.
have [|H1 H2] := @zpoly_inner x c (size c).-1; first by [].
split; first by rewrite H1.
apply/polyP=> i; rewrite coef_Poly H2 mulrBr coefB coefMX coefMC !coef_Poly.
have E j : nth 0 c j = if j == 0%N then 0 else nth 0 r j.-1 by case: j.
rewrite !E /=; case: ltnP => // Hi.
by rewrite [nth 0 r i]nth_default ?mul0r ?subr0 // -ltnS.
Qed.

Lemma zpoly_foldl (r : seq F) xs :
  size (foldl (@zpoly_step F) r xs) = (size r + size xs)%N /\
  Poly (foldl (@zpoly_step F) r xs) = Poly r * \prod_(x <- xs) ('X - x%:P).
Proof.
elim: xs r => [|x xs IH] r /=; first by rewrite addn0 big_nil mulr1.
have [H1 H2] := zpoly_stepP r x; have [-> ->] := IH (zpoly_step r x).
by rewrite H1 H2 addSnnS big_cons mulrA.
Qed.

Lemma zpolyE xs : zpoly xs = \prod_(x <- xs) ('X - x%:P) :> seq F.
Proof.
rewrite /zpoly pmkE; have [_ ->] := zpoly_foldl [:: 1] xs.
by rewrite /= cons_poly_def mul0r add0r mul1r.
Qed.

Lemma Poly_zpoly xs : Poly (zpoly xs) = \prod_(x <- xs) ('X - x%:P).
Proof. by rewrite zpolyE polyseqK. Qed.

Lemma size_zpoly xs : size (zpoly xs) = (size xs).+1.
Proof. by rewrite zpolyE size_prod_XsubC. Qed.

Lemma normal_zpoly xs : normal (zpoly xs).
Proof. by rewrite zpolyE normal_polyseq. Qed.

Lemma zpoly_spec xs :
  [/\ normal (zpoly xs), Poly (zpoly xs) = \prod_(x <- xs) ('X - x%:P),
      pdegree (zpoly xs) = Z.of_nat (size xs), plead (zpoly xs) = Ok 1 &
      forall x, (pcall (zpoly xs) x == 0) = (x \in xs)].
Proof.
split; first exact: normal_zpoly.
- exact: Poly_zpoly.
- by rewrite /pdegree /pabs size_zpoly; lia.
- have [||-> _] := @plead_lead F (zpoly xs); first exact: normal_zpoly.
    by rewrite -size_eq0 size_zpoly.
  by rewrite Poly_zpoly; congr Ok; apply/monicP/monic_prod_XsubC.
- by move=> x; rewrite pcallE Poly_zpoly; exact: root_prod_XsubC.
Qed.

(** ** multi_inv *)
Definition nz (v : F) : F := if v == 0 then 1 else v.
Lemma nz_neq0 v : nz v != 0.
Proof. by rewrite /nz; case: ifP => [_|->] //; exact: oner_neq0. Qed.

Definition partials_of (vs : seq F) : seq F :=
  foldl (fun ps v => rcons ps (last 1 ps * (if v == 0 then 1 else v))) [:: 1] vs.

Lemma partialsP vs : size (partials_of vs) = (size vs).+1 /\
  forall i, (i <= size vs)%N -> nth 0 (partials_of vs) i = \prod_(v <- take i vs) nz v.
Proof.
elim/last_ind: vs => [|vs v [IHs IH]].
  by split=> // -[|i] //= _; rewrite big_nil.
rewrite /partials_of foldl_rcons -/(partials_of vs) !size_rcons IHs; split=> // i Hi.
rewrite nth_rcons IHs ltnS; case: leqP => Hi'; first by rewrite IH // -cats1 takel_cat.
have -> : i = (size vs).+1 by apply/eqP; rewrite eqn_leq Hi.
rewrite eqxx (_ : last 1 _ = nth 0 (partials_of vs) (size vs)); last first.
  by rewrite -[size vs]/((size vs).+1.-1) -IHs nth_last; case: (partials_of vs) IHs.
rewrite IH // take_size -cats1 take_oversize ?size_cat ?addn1 //.
by rewrite big_cat big_seq1.
Qed.

Lemma multi_invE vs : multi_inv vs = Ok [seq (nz v)^-1 | v <- vs].
Proof.
rewrite /multi_inv -/(partials_of vs).
have [Hs HP] := partialsP vs; set ps := partials_of vs in Hs HP *.
have El : last 1 ps = \prod_(v <- vs) nz v.
  rewrite -[in RHS](take_size vs) -HP // -[size vs]/((size vs).+1.-1) -Hs nth_last.
  by case: ps Hs {HP}.
have Hne (l : seq F) : \prod_(v <- l) nz v != 0.
  by rewrite prodf_seq_neq0; apply/allP => v _; exact: nz_neq0.
rewrite El fdiv_ok //= mul1r; congr Ok.
pose f := fun (st : seq F * F) i =>
        (set_nth 0 st.1 i.-1 (nth 0 ps i.-1 * st.2),
         if nth 0 vs i.-1 != 0 then st.2 * nth 0 vs i.-1 else st.2).
have step k : (k <= size vs)%N ->
  let st := foldl f (nseq (size vs) 0, (\prod_(v <- vs) nz v)^-1)
                 (take k (rev (iota 1 (size vs)))) in
  [/\ size st.1 = size vs,
      st.2 = (\prod_(v <- take (size vs - k) vs) nz v)^-1 &
      forall i, (size vs - k <= i < size vs)%N -> nth 0 st.1 i = (nz (nth 0 vs i))^-1].
  elim: k => [|k IH] Hk.
    rewrite take0 /= size_nseq subn0 take_size; split=> // i /andP [H1 H2].
    by move: (leq_trans H2 H1); rewrite ltnn.
  have {IH} := IH (ltnW Hk).
  rewrite (take_nth 0%N) ?size_rev ?size_iota // foldl_rcons.
  set st := foldl _ _ _ => -[I1 I2 I3].
  rewrite nth_rev ?size_iota // nth_iota; last by lia.
  rewrite add1n /= /f /=.
  have E : (size vs - k = (size vs - k.+1).+1)%N by lia.
  have Hlt : (size vs - k.+1 < size vs)%N by lia.
  have Ht : take (size vs - k) vs = rcons (take (size vs - k.+1) vs) (nth 0 vs (size vs - k.+1)).
    by rewrite E (take_nth 0).
  have Hp : \prod_(v <- take (size vs - k) vs) nz v
     = \prod_(v <- take (size vs - k.+1) vs) nz v * nz (nth 0 vs (size vs - k.+1)).
    by rewrite Ht -cats1 big_cat big_seq1.
  have Hn := nz_neq0 (nth 0 vs (size vs - k.+1)).
  split.
  - by rewrite size_set_nth I1; apply/maxn_idPr; lia.
  - rewrite I2 Hp invfM; set A := (\prod_(v <- _) _)^-1.
    have [E0|E0] := eqVneq (nth 0 vs (size vs - k.+1)) 0.
      by rewrite E0 /= /nz eqxx invr1 mulr1.
    by rewrite /= /nz (negbTE E0) -mulrA mulVf ?mulr1.
  - move=> i Hi; rewrite nth_set_nth /=; case: eqP => [->|Hi']; last by rewrite I3 //; lia.
    rewrite HP; last by lia.
    rewrite I2 Hp invfM mulrA mulfV ?Hne // mul1r.
    by [].
have := step (size vs) (leqnn _).
rewrite take_oversize ?size_rev ?size_iota // subnn => -[S1 S2 S3].
apply: (@eq_from_nth _ 0); first by rewrite size_map S1.
move=> i; rewrite S1 => Hi; rewrite S3 // (nth_map 0) //.
Qed.

(** ** lagrange_interp *)
Lemma mapM_ok (A B : Type) (f : A -> result B) (g : A -> B) (l : seq A) :
  (forall x, f x = Ok (g x)) -> mapM f l = Ok [seq g x | x <- l].
Proof. by move=> H; elim: l => //= x l ->; rewrite H. Qed.

Lemma mapM_ok_in (A : eqType) (B : Type) (f : A -> result B) (g : A -> B) (l : seq A) :
  (forall x, x \in l -> f x = Ok (g x)) -> mapM f l = Ok [seq g x | x <- l].
Proof.
elim: l => //= x l IH H; rewrite H ?mem_head //= IH // => y Hy.
by rewrite H // inE Hy orbT.
Qed.

Lemma linE (x : F) : Poly [:: - x; 1] = 'X - x%:P.
Proof. by rewrite /= !cons_poly_def mul0r add0r polyC1 mul1r polyCN. Qed.

Definition num_of xs (x : F) : {poly F} := (\prod_(z <- xs) ('X - z%:P)) %/ ('X - x%:P).

Lemma lagrange_nums xs : mapM (fun x => pdiv (zpoly xs) (pmk [:: - x; 1])) xs
  = Ok [seq polyseq (num_of xs x) | x <- xs].
Proof.
apply: mapM_ok => x; rewrite pdivE ?normal_zpoly ?normal_pmk //.
  by rewrite Poly_zpoly Poly_pmk linE.
by rewrite nil_Poly ?normal_pmk // Poly_pmk linE polyXsubC_eq0.
Qed.

Lemma num_ofE xs x : x \in xs -> num_of xs x = \prod_(z <- rem x xs) ('X - z%:P).
Proof.
move=> Hx; rewrite /num_of (perm_big _ (perm_to_rem Hx)) /= big_cons mulrC mulpK //.
by rewrite polyXsubC_eq0.
Qed.

Lemma size_num_of xs x : x \in xs -> size (num_of xs x) = size xs.
Proof.
move=> Hx; rewrite num_ofE // size_prod_XsubC size_rem // prednK //.
by case: xs Hx.
Qed.

(** every [num_coefficients] has [len(xs)] entries *)
Lemma lagrange_nums_size xs nums : mapM (fun x => pdiv (zpoly xs) (pmk [:: - x; 1])) xs = Ok nums ->
  size nums = size xs /\ all (fun n => size n == size xs) nums.
Proof.
rewrite lagrange_nums => -[<-]; rewrite size_map; split=> //.
by apply/allP => n /mapP [x Hx ->]; rewrite size_num_of.
Qed.

Lemma inner_add (c nc : seq F) (y : F) k : (k <= size c)%N ->
  let r := foldl (fun b j => set_nth 0 b j (nth 0 b j + nth 0 nc j * y)) c (iota 0 k) in
  size r = size c /\
  forall i, nth 0 r i = nth 0 c i + (if (i < k)%N then nth 0 nc i * y else 0).
Proof.
elim: k => [|k IH] Hk; first by split=> //= i; rewrite addr0.
rewrite iota_rcons foldl_rcons; have {IH} [IHs IH] := IH (ltnW Hk).
set r := foldl _ _ _ in IHs IH *; split.
  by rewrite size_set_nth IHs; apply/maxn_idPr.
move=> i; rewrite nth_set_nth /= !IH ltnn addr0 ltnS.
by case: ltngtP => // ->.
Qed.

Definition lag (xs ys : seq F) : {poly F} :=
  \sum_(i < size xs) (ys`_i / nz (num_of xs xs`_i).[xs`_i]) *: num_of xs xs`_i.

Lemma lagrange_total xs ys : size xs = size ys ->
  lagrange_interp xs ys = Ok (polyseq (lag xs ys)).
Proof.
move=> Es; rewrite /lagrange_interp size_zpoly Es eqxx /= lagrange_nums /= multi_invE /=.
congr Ok; rewrite pmkE; congr polyseq; rewrite -Es.
set nums := [seq polyseq (num_of xs x) | x <- xs].
set den := [seq pcall _ _ | i <- _].
set inner := (fun b i => _).
suff H k : (k <= size xs)%N ->
   let r := foldl inner (nseq (size xs) 0) (iota 0 k) in
   size r = size xs /\
   Poly r = \sum_(i < k) (ys`_i / nz (num_of xs xs`_i).[xs`_i]) *: num_of xs xs`_i.
  by have [_ ->] := H _ (leqnn _).
elim: k => [|k IH] Hk.
  split; first by rewrite size_nseq.
  by rewrite big_ord0; apply/polyP=> i; rewrite coef_Poly coef0 nth_nseq if_same.
rewrite iota_rcons foldl_rcons; have {IH} [IHs IH] := IH (ltnW Hk).
set r := foldl _ _ _ in IHs IH *; rewrite /inner.
have Hsz : (size xs <= size r)%N by rewrite IHs.
have [H1 H2] := inner_add (nth [::] nums k) (ys`_k * nth 0 [seq (nz v)^-1 | v <- den] k) Hsz.
split; first by rewrite H1.
rewrite big_ord_recr /= -IH; apply/polyP=> i; rewrite coef_Poly H2 coefD coef_Poly coefZ.
congr (_ + _).
have -> : nth [::] nums k = num_of xs xs`_k by rewrite /nums (nth_map 0).
have -> : nth 0 [seq (nz v)^-1 | v <- den] k = (nz (num_of xs xs`_k).[xs`_k])^-1.
  rewrite (nth_map 0) ?size_map ?size_iota // (nth_map 0%N) ?size_iota // nth_iota // add0n.
  by rewrite /nums (nth_map 0) // pcallE polyseqK.
case: ltnP => Hi; first by rewrite mulrC.
by rewrite [X in _ = _ * X]nth_default ?mulr0 // size_num_of // mem_nth.
Qed.

Lemma num_of_diag xs x : uniq xs -> x \in xs -> (num_of xs x).[x] != 0.
Proof.
move=> Hu Hx; rewrite num_ofE //.
by rewrite -[_ == 0]/(root _ _) root_prod_XsubC mem_rem_uniq // !inE eqxx.
Qed.
Lemma num_of_off xs x z : uniq xs -> x \in xs -> z \in xs -> z != x -> (num_of xs x).[z] = 0.
Proof.
move=> Hu Hx Hz Hne; rewrite num_ofE //; apply/rootP.
by rewrite root_prod_XsubC mem_rem_uniq // !inE Hne.
Qed.

Lemma size_lag xs ys : (size (lag xs ys) <= size xs)%N.
Proof.
rewrite /lag; apply: (leq_trans (size_sum _ _ _)); apply/bigmax_leqP => i _.
by apply: (leq_trans (size_scale_leq _ _)); rewrite size_num_of // mem_nth.
Qed.

Lemma lag_eval xs ys i : uniq xs -> (i < size xs)%N -> (lag xs ys).[xs`_i] = ys`_i.
Proof.
move=> Hu Hi; rewrite /lag horner_sum (bigD1 (Ordinal Hi)) //= hornerZ.
have D := num_of_diag Hu (mem_nth 0 Hi).
rewrite /nz (negbTE D) -mulrA mulVf // mulr1 big1 ?addr0 // => j Hj.
rewrite hornerZ (@num_of_off xs xs`_j xs`_i) ?mulr0 ?mem_nth //.
apply: contraNneq Hj => /eqP; rewrite nth_uniq // => /eqP E.
by apply/eqP/val_inj; rewrite /= E.
Qed.

Lemma interp_unique xs (p q : {poly F}) : uniq xs -> (size p <= size xs)%N -> (size q <= size xs)%N ->
  (forall i, (i < size xs)%N -> p.[xs`_i] = q.[xs`_i]) -> p = q.
Proof.
move=> Hu Hp Hq H; apply/eqP; rewrite -subr_eq0; apply/eqP.
apply: (@roots_geq_poly_eq0 _ _ xs) => //.
  apply/allP => x Hx; rewrite /root hornerD hornerN -(nth_index 0 Hx) H ?subrr //.
  by rewrite index_mem.
by apply: leq_trans (size_add _ _) _; rewrite size_opp geq_max Hp.
Qed.

Lemma lagrange_spec xs ys : uniq xs -> size xs = size ys ->
  exists l, [/\ lagrange_interp xs ys = Ok l, normal l, (size l <= size xs)%N &
    forall i, (i < size xs)%N -> pcall l (nth 0 xs i) = nth 0 ys i].
Proof.
move=> Hu Es; exists (lag xs ys); rewrite lagrange_total //; split=> //.
- exact: normal_polyseq.
- exact: size_lag.
- by move=> i Hi; rewrite pcallE polyseqK lag_eval.
Qed.

Lemma lagrange_unique xs ys l : uniq xs -> size xs = size ys -> normal l -> (size l <= size xs)%N ->
  (forall i, (i < size xs)%N -> pcall l (nth 0 xs i) = nth 0 ys i) ->
  lagrange_interp xs ys = Ok l.
Proof.
move=> Hu Es Hl Hs H; rewrite lagrange_total //; congr Ok; rewrite -[RHS](PolyK_normal Hl).
congr polyseq; apply: (interp_unique Hu); rewrite ?size_lag -?size_normal // => i Hi.
by rewrite lag_eval // -H // pcallE.
Qed.

Lemma lagrange_mismatch xs ys : size xs <> size ys -> lagrange_interp xs ys = Err AssertionError.
Proof.
move=> H; rewrite /lagrange_interp size_zpoly eqSS; case: eqP => // /eqP E.
Qed.

Lemma lagrange_never_raises xs ys : size xs = size ys ->
  exists l, [/\ lagrange_interp xs ys = Ok l, normal l & (size l <= size xs)%N].
Proof.
move=> Es; exists (lag xs ys); rewrite lagrange_total // normal_polyseq size_lag; split=> //.
Qed.

(** ** the specialised versions *)
Add Ring Fring : (field_ring_theory F).
Add Ring Fring_r : (field_ring_theory_r F).
Add Ring Fring_z : (field_ring_theory_z F).

Lemma lagrange_pmk xs ys (c : seq F) : uniq xs -> size xs = size ys -> (size c <= size xs)%N ->
  (forall i, (i < size xs)%N -> pcall (pmk c) (nth 0 xs i) = nth 0 ys i) ->
  lagrange_interp xs ys = Ok (pmk c).
Proof.
move=> Hu Es Hs H; apply: lagrange_unique => //; first exact: normal_pmk.
by rewrite pmkE (leq_trans (size_Poly _)).
Qed.

Lemma pcall_pmk (c : seq F) x : pcall (pmk c) x = pcall c x.
Proof. by rewrite !pcallE Poly_pmk. Qed.

Lemma pcall2 (a b x : F) : pcall [:: a; b] x = a + b * x.
Proof. rewrite /pcall /=; fring. Qed.
Lemma pcall4 (a b c d x : F) : pcall [:: a; b; c; d] x = a + b * x + c * (x * x) + d * (x * x * x).
Proof. rewrite /pcall /=; fring. Qed.

Lemma pmk_monic (c : seq F) : pmk (rcons c 1) = rcons c 1.
Proof. by rewrite pmk_normal // /normal last_rcons oner_neq0. Qed.

Lemma interp2_ok (x0 x1 y0 y1 : F) xs' ys' : x0 != x1 ->
  lagrange_interp_2 (x0 :: x1 :: xs') (y0 :: y1 :: ys') = lagrange_interp [:: x0; x1] [:: y0; y1].
Proof.
move=> Hx; rewrite /lagrange_interp_2 /=.
rewrite (pmk_monic [:: - x1]) (pmk_monic [:: - x0]) /= !pcall2.
have E0 : - x1 + 1 * x0 = x0 - x1 by fring.
have E1 : - x0 + 1 * x1 = - (x0 - x1) by fring.
have D : x0 - x1 != 0 by rewrite subr_eq0.
rewrite E0 E1 fdiv_ok /=; last by rewrite mulf_neq0 // oppr_eq0.
symmetry; apply: lagrange_pmk => //=; first by rewrite inE Hx.
set v := 1 / _.
have Ev : v * (x0 - x1) * - (x0 - x1) = 1.
  by rewrite -mulrA /v mul1r mulVf // mulf_neq0 // oppr_eq0.
move=> [|[|i]] //= _; rewrite pcall_pmk pcall2.
- have -> : - x1 * (y0 * v * - (x0 - x1)) + - x0 * (y1 * v * (x0 - x1)) +
   (1 * (y0 * v * - (x0 - x1)) + 1 * (y1 * v * (x0 - x1))) * x0 =
   y0 * (v * (x0 - x1) * - (x0 - x1)) by fring.
  by rewrite Ev mulr1.
- have -> : - x1 * (y0 * v * - (x0 - x1)) + - x0 * (y1 * v * (x0 - x1)) +
   (1 * (y0 * v * - (x0 - x1)) + 1 * (y1 * v * (x0 - x1))) * x1 =
   y1 * (v * (x0 - x1) * - (x0 - x1)) by fring.
  by rewrite Ev mulr1.
Qed.

Lemma interp2_raises (x : F) xs' ys : lagrange_interp_2 (x :: x :: xs') ys = Err InverseError.
Proof.
rewrite /lagrange_interp_2 /= (pmk_monic [:: - x]) !pcall2 mul1r addNr mul0r.
by rewrite /fdiv /finv eqxx.
Qed.

Lemma interp2_short xs ys : (size xs < 2)%N -> lagrange_interp_2 xs ys = Err IndexError.
Proof. by case: xs => [|x [|]]. Qed.

Lemma interp2_short_ys (x0 x1 : F) xs' ys : x0 != x1 -> (size ys < 2)%N ->
  lagrange_interp_2 (x0 :: x1 :: xs') ys = Err IndexError.
Proof.
move=> Hx Hy; rewrite /lagrange_interp_2 /=.
rewrite (pmk_monic [:: - x1]) (pmk_monic [:: - x0]) /= !pcall2.
have E0 : - x1 + 1 * x0 = x0 - x1 by fring.
have E1 : - x0 + 1 * x1 = - (x0 - x1) by fring.
have D : x0 - x1 != 0 by rewrite subr_eq0.
rewrite E0 E1 fdiv_ok /=; last by rewrite mulf_neq0 // oppr_eq0.
by case: ys Hy => [|y [|]].
Qed.

(** evaluation of the cubic numerators *)
Definition cub (a b c : F) : seq F := [:: - (a * b) * c; a * b + a * c + b * c; - a - b - c; 1].
Lemma cub_eval a b c x : pcall (pmk (cub a b c)) x = (x - a) * (x - b) * (x - c).
Proof. rewrite pcall_pmk pcall4; fring. Qed.
Lemma pmk_cub a b c : pmk (cub a b c) = cub a b c.
Proof. exact: (pmk_monic [:: _; _; _]). Qed.

Lemma cubic4E (x0 x1 x2 x3 : F) : cubic4 x0 x1 x2 x3 =
  (pmk (cub x1 x2 x3), pmk (cub x0 x2 x3), pmk (cub x0 x1 x3), pmk (cub x0 x1 x2)).
Proof. by []. Qed.

Lemma combine4_eval q0 q1 q2 q3 (c0 c1 c2 c3 x : F) : size q0 = 4%N -> size q1 = 4%N ->
  size q2 = 4%N -> size q3 = 4%N ->
  pcall (combine4 q0 q1 q2 q3 c0 c1 c2 c3) x =
  pcall q0 x * c0 + pcall q1 x * c1 + pcall q2 x * c2 + pcall q3 x * c3.
Proof.
case: q0 => [|a0 [|a1 [|a2 [|a3 [|]]]]] // _; case: q1 => [|b0 [|b1 [|b2 [|b3 [|]]]]] // _.
case: q2 => [|d0 [|d1 [|d2 [|d3 [|]]]]] // _; case: q3 => [|e0 [|e1 [|e2 [|e3 [|]]]]] // _.
rewrite /combine4 pcall_pmk /= !pcall4; fring.
Qed.

Lemma combine4_interp (x0 x1 x2 x3 y0 y1 y2 y3 c0 c1 c2 c3 : F) : uniq [:: x0; x1; x2; x3] ->
  pcall (pmk (cub x1 x2 x3)) x0 * c0 = y0 -> pcall (pmk (cub x0 x2 x3)) x1 * c1 = y1 ->
  pcall (pmk (cub x0 x1 x3)) x2 * c2 = y2 -> pcall (pmk (cub x0 x1 x2)) x3 * c3 = y3 ->
  lagrange_interp [:: x0; x1; x2; x3] [:: y0; y1; y2; y3] =
  Ok (combine4 (pmk (cub x1 x2 x3)) (pmk (cub x0 x2 x3)) (pmk (cub x0 x1 x3)) (pmk (cub x0 x1 x2))
        c0 c1 c2 c3).
Proof.
move=> Hu H0 H1 H2 H3; apply: lagrange_pmk => // i Hi; rewrite -/(combine4 _ _ _ _ _ _ _ _).
rewrite combine4_eval; try by rewrite pmk_cub.
by case: i Hi => [|[|[|[|i]]]] //= _; [rewrite -H0|rewrite -H1|rewrite -H2|rewrite -H3];
  rewrite !cub_eval !subrr ?(mulr0, mul0r, addr0, add0r).
Qed.

Lemma uniq4 (x0 x1 x2 x3 : F) : uniq [:: x0; x1; x2; x3] ->
  [/\ pcall (pmk (cub x1 x2 x3)) x0 != 0, pcall (pmk (cub x0 x2 x3)) x1 != 0,
      pcall (pmk (cub x0 x1 x3)) x2 != 0 & pcall (pmk (cub x0 x1 x2)) x3 != 0].
Proof.
rewrite /= !inE !negb_or => /and4P [/and3P [A B C] /andP [D E] G _].
by rewrite !cub_eval !mulf_neq0 // subr_eq0 // eq_sym.
Qed.

Lemma interp4_ok (x0 x1 x2 x3 y0 y1 y2 y3 : F) xs' ys' : uniq [:: x0; x1; x2; x3] ->
  lagrange_interp_4 [:: x0, x1, x2, x3 & xs'] [:: y0, y1, y2, y3 & ys'] =
  lagrange_interp [:: x0; x1; x2; x3] [:: y0; y1; y2; y3].
Proof.
move=> Hu; rewrite /lagrange_interp_4 /= -/(cub _ _ _) -/(cub x0 x2 x3) -/(cub x0 x1 x3) -/(cub x0 x1 x2).
have [] := uniq4 Hu.
set e0 := pcall _ x0; set e1 := pcall _ x1; set e2 := pcall _ x2; set e3 := pcall _ x3.
move=> N0 N1 N2 N3; rewrite fdiv_ok /=; last by rewrite !mulf_neq0.
symmetry; apply: combine4_interp => //; rewrite -/e0 -/e1 -/e2 -/e3; set v := 1 / _;
have Ev : v * (e0 * e1 * (e2 * e3)) = 1 by rewrite /v mul1r mulVf // !mulf_neq0.
- have -> : e0 * (y0 * v * e1 * (e2 * e3)) = y0 * (v * (e0 * e1 * (e2 * e3))) by fring.
  by rewrite Ev mulr1.
- have -> : e1 * (y1 * v * e0 * (e2 * e3)) = y1 * (v * (e0 * e1 * (e2 * e3))) by fring.
  by rewrite Ev mulr1.
- have -> : e2 * (y2 * v * (e0 * e1) * e3) = y2 * (v * (e0 * e1 * (e2 * e3))) by fring.
  by rewrite Ev mulr1.
- have -> : e3 * (y3 * v * (e0 * e1) * e2) = y3 * (v * (e0 * e1 * (e2 * e3))) by fring.
  by rewrite Ev mulr1.
Qed.

Lemma interp4_raises (x0 x1 x2 x3 : F) xs' ys : ~~ uniq [:: x0; x1; x2; x3] ->
  lagrange_interp_4 [:: x0, x1, x2, x3 & xs'] ys = Err InverseError.
Proof.
move=> Hu; rewrite /lagrange_interp_4 /= -/(cub _ _ _) -/(cub x0 x2 x3) -/(cub x0 x1 x3) -/(cub x0 x1 x2).
set d := _ * _ * (_ * _).
suff -> : d = 0 by rewrite /fdiv /finv eqxx.
rewrite /d !cub_eval; apply/eqP; apply: contraR Hu.
rewrite !mulf_eq0 !subr_eq0 !negb_or -!andbA /= !inE !negb_or.
by do ![move=> /andP [? ]]; move=> ?; do ![apply/andP; split=> //].
Qed.

(** ** multi_interp_4 *)
Lemma idx_ok (T : Type) (d : T) (l : seq T) i : (i < size l)%N -> idx l i = Ok (nth d l i).
Proof. by rewrite /idx; elim: l i => [|x l IH] [|i] //= /IH. Qed.

Lemma mapM_ext_in (A : eqType) (B : Type) (f g : A -> result B) (l : seq A) :
  (forall x, x \in l -> f x = g x) -> mapM f l = mapM g l.
Proof.
elim: l => //= x l IH H; rewrite H ?mem_head //= IH // => y Hy.
by rewrite H // inE Hy orbT.
Qed.

Lemma mapM_map (A B C : Type) (f : B -> result C) (g : A -> B) (l : seq A) :
  mapM f [seq g x | x <- l] = mapM (fun x => f (g x)) l.
Proof. by elim: l => //= x l ->. Qed.

Lemma mapM_enum_from (A B : Type) (d : A) (f : nat * A -> result B) (h : A -> result B) (l : seq A) k :
  (forall i, (i < size l)%N -> f ((k + i)%N, nth d l i) = h (nth d l i)) ->
  mapM f (zip (iota k (size l)) l) = mapM h l.
Proof.
elim: l k => //= x l IH k H; rewrite -{1}[k]addn0 (H 0%N) //= (IH k.+1) // => i Hi.
by rewrite addSnnS (H i.+1).
Qed.

Lemma mapM_enumerate (A B : Type) (d : A) (f : nat * A -> result B) (h : A -> result B) (l : seq A) :
  (forall i, (i < size l)%N -> f (i, nth d l i) = h (nth d l i)) -> mapM f (enumerate l) = mapM h l.
Proof. exact: (@mapM_enum_from _ _ d f h l 0). Qed.

Lemma slice_flatten4 (T : Type) (ss : seq (seq T)) i : all (fun s => size s == 4)%N ss ->
  slice (flatten ss) (i * 4) (i * 4 + 4) = nth [::] ss i.
Proof.
have -> : slice (flatten ss) (i * 4) (i * 4 + 4) = take 4 (drop (i * 4) (flatten ss)).
  rewrite /slice (_ : Nat.sub _ _ = 4%N); last by rewrite -[Nat.sub _ _]/(_ - _)%N addKn.
  have -> : forall n (l : seq T), List.skipn n l = drop n l by elim=> [|n IH] [|x l] //=.
  by have -> : forall n (l : seq T), List.firstn n l = take n l by elim=> [|n IH] [|x l] //=; rewrite IH.
elim: ss i => [|s ss IH] i //=; first by rewrite nth_nil.
move=> /andP [/eqP Hs H]; case: i => [|i].
  by rewrite mul0n drop0 takel_cat ?Hs // -Hs take_size.
by rewrite drop_cat Hs mulSn addnC /= ltnNge leq_addl /= addnK IH.
Qed.

Lemma multi4_ok (xsets ysets : seq (seq F)) :
  all (fun xy : seq F * seq F => [&& (4 <= size xy.1)%N, (4 <= size xy.2)%N & uniq (take 4 xy.1)]) (zip xsets ysets) ->
  multi_interp_4 xsets ysets =
  mapM (fun xy => lagrange_interp (take 4 xy.1) (take 4 xy.2)) (zip xsets ysets).
Proof.
rewrite /multi_interp_4; set zs := zip _ _ => Hz.
pose g (xy : seq F * seq F) :=
  let xs := xy.1 in
  let '(q0, q1, q2, q3) := cubic4 xs`_0 xs`_1 xs`_2 xs`_3 in
  ((xy.2, q0, q1, q2, q3), [:: pcall q0 xs`_0; pcall q1 xs`_1; pcall q2 xs`_2; pcall q3 xs`_3]).
have -> : mapM (fun xy : seq F * seq F => let* x0 := idx xy.1 0 in let* x1 := idx xy.1 1 in
      let* x2 := idx xy.1 2 in let* x3 := idx xy.1 3 in
      let '(eq0, eq1, eq2, eq3) := cubic4 x0 x1 x2 x3 in
      Ok ((xy.2, eq0, eq1, eq2, eq3),
          [:: pcall eq0 x0; pcall eq1 x1; pcall eq2 x2; pcall eq3 x3])) zs = Ok [seq g z | z <- zs].
  apply: mapM_ok_in => -[xs ys] /(allP Hz) /and3P [/= H1 _ _].
  by rewrite !(idx_ok 0) //=; apply: leq_trans H1.
rewrite /= multi_invE /=.
pose d0 := ([::], [::], [::], [::], [::], [::]) : (seq F * seq F * seq F * seq F * seq F) * seq F.
pose h := fun d : (seq F * seq F * seq F * seq F * seq F) * seq F =>
  let '((ys, q0, q1, q2, q3), es) := d in
  Ok (combine4 q0 q1 q2 q3 (ys`_0 * (nz es`_0)^-1) (ys`_1 * (nz es`_1)^-1)
         (ys`_2 * (nz es`_2)^-1) (ys`_3 * (nz es`_3)^-1)).
rewrite (@mapM_enumerate _ _ d0 _ h).
  rewrite mapM_map; apply: mapM_ext_in => -[xs ys] /(allP Hz) /and3P [/= H1 H2 Hu].
  case: xs H1 Hu => [|x0 [|x1 [|x2 [|x3 xs]]]] // _; case: ys H2 => [|y0 [|y1 [|y2 [|y3 ys]]]] // _ Hu.
  rewrite /= !take0 in Hu *; rewrite -/(cub _ _ _) -/(cub x0 x2 x3) -/(cub x0 x1 x3) -/(cub x0 x1 x2).
  have [N0 N1 N2 N3] := uniq4 Hu.
  symmetry; apply: combine4_interp => //; rewrite /nz ?(negbTE N0) ?(negbTE N1) ?(negbTE N2) ?(negbTE N3);
    by rewrite mulrC mulfVK.
move=> i; rewrite size_map => Hi; rewrite (nth_map ([::], [::])) //.
have := allP Hz _ (mem_nth ([::], [::]) Hi).
case Ez : (nth _ zs i) => [xs ys] /and3P [/= _ H2 _].
rewrite map_flatten slice_flatten4; last first.
  by rewrite -!map_comp all_map; apply/allP.
rewrite -!map_comp (nth_map ([::], [::])) //= Ez /=.
by rewrite !(idx_ok 0) //=; apply: leq_trans H2.
Qed.
End Field.

(** ** AffineSpace *)
Section Affine.
Variables (F : fieldType) (V : lmodType F).
Implicit Types (basis : seq V) (shift : V) (c : seq F).

Lemma cart_power_mem (T : eqType) (pool : seq T) n (vs : seq T) :
  (vs \in cart_power pool n) = (size vs == n) && all (mem pool) vs.
Proof.
elim: n vs => [|n IH] vs /=.
  by rewrite inE; case: vs.
apply/flatten_mapP/idP => [[v Hv /mapP [t Ht ->]]|] /=.
  by rewrite eqSS Hv /= -IH.
case: vs => //= v vs; rewrite eqSS andbCA => /andP [Hv Ht].
by exists v => //; apply/mapP; exists vs => //; rewrite IH.
Qed.

Lemma cart_power_uniq (T : eqType) (pool : seq T) n : uniq pool -> uniq (cart_power pool n).
Proof.
move=> Hu; elim: n => //= n IH.
by apply: allpairs_uniq => // -[x s] [y t] /= _ _ [-> ->].
Qed.

Lemma cart_power_size (T : Type) (pool : seq T) n : size (cart_power pool n) = (size pool ^ n)%N.
Proof. by elim: n => //= n IH; rewrite size_allpairs IH expnS. Qed.

Definition lin c basis : V := \sum_(i < size basis) nth 0 c i *: nth 0 basis i.

Lemma affine_fold shift c basis : size c = size basis ->
  foldl (fun elt (vb : F * V) => elt + vb.1 *: vb.2) shift (zip c basis) = shift + lin c basis.
Proof.
rewrite /lin; elim: basis c shift => [|b bs IH] [|x c] shift //=; first by rewrite big_ord0 addr0.
by move=> [/IH ->]; rewrite big_ord_recl /= addrA.
Qed.

Lemma affine_mem felts basis shift x :
  x \in affine_iter felts basis shift <->
  exists c, [/\ size c = size basis, all (mem felts) c & x = shift + lin c basis].
Proof.
rewrite /affine_iter; split=> [/mapP [c]|[c [Hs Ha ->]]].
  by rewrite cart_power_mem => /andP [/eqP Hs Ha] ->; exists c; rewrite affine_fold.
by apply/mapP; exists c; rewrite ?cart_power_mem ?Hs ?eqxx // affine_fold.
Qed.

Lemma affine_size felts basis shift :
  size (affine_iter felts basis shift) = (size felts ^ size basis)%N.
Proof. by rewrite size_map cart_power_size. Qed.

Definition independent basis := forall c, size c = size basis -> lin c basis = 0 -> all (pred1 0) c.

Lemma affine_uniq felts basis shift : uniq felts -> (forall x, x \in felts) ->
  (uniq (affine_iter felts basis shift) <-> independent basis).
Proof.
move=> Hu Hall.
have mem_all n c : (c \in cart_power felts n) = (size c == n).
  by rewrite cart_power_mem; case: eqP => //= _; apply/allP => x _ /=; exact: Hall.
rewrite /affine_iter; split=> [Hq c Hs Hl|Hi].
- have H0 : nseq (size basis) 0 \in cart_power felts (size basis) by rewrite mem_all size_nseq.
  have Hc : c \in cart_power felts (size basis) by rewrite mem_all Hs.
  set f := (fun vals => foldl _ shift _) in Hq.
  have Hinj : {in cart_power felts (size basis) &, injective f}.
    move=> u v Hu' Hv' Euv; move: Hq => /(uniqP shift) Hq.
    rewrite -(nth_index [::] Hu') -(nth_index [::] Hv').
    congr nth; apply: Hq; rewrite ?inE ?size_map ?index_mem //.
    by rewrite !(nth_map [::]) ?index_mem // !nth_index.
  have -> : c = nseq (size basis) 0.
    apply: Hinj => //; rewrite /f !affine_fold ?size_nseq // Hl; congr (_ + _).
    by rewrite /lin big1 // => i _; rewrite nth_nseq if_same scale0r.
  by rewrite all_nseq /= eqxx orbT.
- rewrite map_inj_in_uniq ?cart_power_uniq // => u v; rewrite !mem_all => /eqP Hsu /eqP Hsv.
  rewrite !affine_fold // => /addrI E.
  pose w := [seq xy.1 - xy.2 | xy <- zip u v].
  have Hsw : size w = size basis by rewrite size_map size_zip Hsu Hsv minnn.
  have Hw i : (i < size basis)%N -> nth 0 w i = nth 0 u i - nth 0 v i.
    move=> Hi'; rewrite (nth_map (0, 0)) ?size_zip ?Hsu ?Hsv ?minnn // nth_zip ?Hsu //.
  have : all (pred1 0) w.
    apply: Hi => //; apply/eqP; move: E => /eqP; rewrite -subr_eq0 /lin -sumrB.
    by under [in X in _ -> X]eq_bigr => i _ do rewrite Hw // scalerBl.
  move=> /all_nthP H; apply: (@eq_from_nth _ 0); first by rewrite Hsu.
  move=> i; rewrite Hsu => Hi'; have := H 0 i; rewrite Hsw Hw // => /(_ Hi') /=.
  by rewrite subr_eq0 => /eqP.
Qed.

End Affine.

Section ZpAffine.
Variable P : primeZ.

Lemma list_seqE k n : List.seq k n = iota k n.
Proof. by elim: n k => //= n IH k; rewrite IH. Qed.

Lemma zp_felts_all (x : modp P) : x \in zp_felts P.
Proof.
rewrite /zp_felts; apply/mapP; exists (mval x); last by apply: mval_inj; rewrite /= mval_small.
rewrite /modp_iter; have B := mvalP x.
have -> : mval x = modp_mk (pz P) (Z.of_nat (Z.to_nat (mval x))).
  by rewrite Z2Nat.id /modp_mk ?mval_small //; lia.
apply: (map_f (fun i => modp_mk (pz P) (Z.of_nat i))).
by rewrite list_seqE mem_iota; lia.
Qed.

Lemma zp_felts_size : size (zp_felts P) = Z.to_nat (pz P).
Proof.
rewrite /zp_felts size_map /modp_iter.
by rewrite -[size _]/(List.length _) List.map_length List.seq_length.
Qed.

Lemma zp_felts_uniq : uniq (zp_felts P).
Proof.
apply/card_uniqP; rewrite zp_felts_size -(card_modp P).
by apply: eq_card => x; rewrite zp_felts_all.
Qed.

Variable V : lmodType (modp_fieldType P).
Implicit Types (basis : seq V) (shift : V).

Lemma zp_affine_spec basis shift :
  [/\ forall x, x \in affine_iter (zp_felts P) basis shift <->
        exists c : seq (modp P), size c = size basis /\ x = shift + lin c basis,
      Z.of_nat (size (affine_iter (zp_felts P) basis shift)) = affine_len (pz P) 1 basis &
      uniq (affine_iter (zp_felts P) basis shift) <-> independent basis].
Proof.
split.
- move=> x; rewrite affine_mem; split=> -[c]; first by case=> H _ ->; exists c.
  move=> [H ->]; exists c; split=> //; apply/allP => y _; exact: zp_felts_all.
- rewrite affine_size zp_felts_size /affine_len Z.pow_1_r.
  have := p_gt1 P; move: (pz P) (size basis) => p n Hp.
  elim: n => [|n IH] //; rewrite expnS Nat2Z.inj_succ Z.pow_succ_r; last by lia.
  by rewrite -IH; lia.
- apply: affine_uniq; [exact: zp_felts_uniq | exact: zp_felts_all].
Qed.
End ZpAffine.

Lemma affine_vanishing_spec (F : fieldType) (felts : seq F) (basis : seq F^o) (shift : F^o) :
  [/\ normal (affine_vanishing felts basis shift),
      forall x : F, (pcall (affine_vanishing felts basis shift) x == 0) = (x \in affine_iter felts basis shift),
      pdegree (affine_vanishing felts basis shift) = Z.of_nat (size felts ^ size basis) &
      plead (affine_vanishing felts basis shift) = Ok 1].
Proof.
have [H1 H2 H3 H4 H5] := zpoly_spec (affine_iter felts basis shift : seq F).
split=> //; rewrite -(affine_size felts basis shift); exact: H3.
Qed.
