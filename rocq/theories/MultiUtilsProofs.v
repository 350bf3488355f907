(** Lemmas about the multivariate utilities of starks/poly_utils.py. *)
From Verif Require Import Prelude PowModel PowProofs PolyModel PolyProofs FftProofs FiniteFieldProofs FinFld MultiModel MultiProofs.
From mathcomp Require Import zify ssrZ.
Set Implicit Arguments.
Unset Strict Implicit.
Unset Printing Implicit Defensive.
Import GRing.Theory.
Local Open Scope ring_scope.
Local Open Scope py_scope.

Section MultiUtils.
Variable F : fieldType.


Lemma mconst0 n : mconst n (0 : F) = [::].
Proof. by rewrite /mconst /= eqxx. Qed.

(** ** make_multivar *)
Lemma make_multivar_spec (a : seq F) i width : (i < width)%N ->
  exists r, make_multivar a i width = Ok r /\ wf width r /\
    forall (R : comRingType) (phi : {rmorphism F -> R}) v,
      meval phi v r = \sum_(j < size a) phi a`_j * v i ^+ j.
Proof.
move=> Hi; rewrite /make_multivar /enumerate.
suff H : forall a j up, wf width up -> exists r, foldM (fun up (dc : nat * F) =>
    let* w := mpow width (mvar F width i) dc.1 in
    Ok (madd up (mmul (mconst width dc.2) w))) (zip (iota j (size a)) a) up = Ok r /\ wf width r /\
    forall (R : comRingType) (phi : {rmorphism F -> R}) v,
      meval phi v r = meval phi v up + \sum_(k < size a) phi a`_k * v i ^+ (j + k).
  have [r [E [W V]]] := H a 0%N _ (wf_const width 0); exists r; split=> //; split=> // R phi v.
  by rewrite V mconst0 {1}/meval big_nil add0r.
elim=> [|c b IH] j up Wu.
  by exists up; split=> //; split=> // R phi v; rewrite big_ord0 addr0.
rewrite [zip _ _]/= foldMS.
have [w [-> [Ww Ew]]] := mpow_spec j (wf_mvar F Hi); rewrite !bind_ok.
have [Wm Em] := mul_spec (wf_const width c) Ww.
have [r [-> [Wr Er]]] := IH j.+1 _ (wf_add Wu Wm).
exists r; split=> //; split=> // R phi v.
rewrite Er (meval_addE phi v Wu Wm) Em meval_const Ew meval_mvar // big_ord_recl addn0 addrA.
by congr (_ + _); apply: eq_bigr => k _; rewrite lift0 /= addnS addSn.
Qed.

(** ** The Dirac delta polynomial *)
Lemma set_unit i n : (i < n)%N -> set_nth 0%N (nseq n 0%N) i 1%N = unit_tuple i n.
Proof.
move=> H; apply: (@eq_from_nth _ 0%N); first by rewrite size_set_nth size_nseq wf_unit //; lia.
move=> j _; rewrite nth_set_nth /= nth_nseq if_same nth_cat size_nseq.
case: eqP => [->|N]; first by rewrite ltnn subnn.
case: (ltnP j i) => L; first by rewrite nth_nseq if_same.
have : (0 < j - i)%N by lia.
by case: (j - i)%N => // d _; rewrite /= nth_nseq if_same.
Qed.

Lemma unit_neq i n : (i < n)%N -> nseq n 0%N != unit_tuple i n.
Proof.
move=> H; apply/eqP => E; have := congr1 (fun k => nth 0%N k i) E.
by rewrite nth_nseq if_same nth_cat size_nseq ltnn subnn.
Qed.

Lemma dirac_spec q n (values : seq F) : (size values <= n)%N ->
  exists r, dirac_delta q n values = Ok r /\ wf n r /\
    forall (R : comRingType) (phi : {rmorphism F -> R}) v,
      meval phi v r = \prod_(i < size values) (1 - (v i - phi values`_i) ^+ (q - 1)).
Proof.
rewrite /dirac_delta /enumerate.
set f := (X in foldM X).
suff H : forall l j base, wf n base -> (j + size l <= n)%N ->
   exists r, foldM f (zip (iota j (size l)) l) base = Ok r /\ wf n r /\
     forall (R : comRingType) (phi : {rmorphism F -> R}) v,
      meval phi v r = meval phi v base *
        \prod_(i < size l) (1 - (v (j + i)%N - phi l`_i) ^+ (q - 1)).
  move=> S; have [r [E [W V]]] := H values 0%N _ (wf_const n 1) S.
  by exists r; split=> //; split=> // R phi v; rewrite V meval_const rmorph1 mul1r.
elim=> [|y l IH] j base Wb S.
  by exists base; split=> //; split=> // R phi v; rewrite big_ord0 mulr1.
have Hj : (j < n)%N by move: S => /=; lia.
rewrite [zip _ _]/= foldMS {1}/f Hj set_unit //; set term := mmk _.
have Ut : uniq (mkeys [:: (nseq n 0%N, - y); (unit_tuple j n, 1)]).
  by rewrite /= inE unit_neq.
have Wt : wf n term.
  apply: wf_mmk => // k; rewrite !inE => /orP [/eqP ->|/eqP ->]; first by rewrite size_nseq.
  exact: wf_unit.
have [w [-> [Ww Ew]]] := mpow_spec (q - 1) Wt; rewrite !bind_ok.
have Ws := wf_sub (wf_const n (1 : F)) Ww.
have [Wm Em] := mul_spec Wb Ws.
have [|r [-> [Wr Er]]] := IH j.+1 _ Wm; first by move: S => /=; lia.
exists r; split=> //; split=> // R phi v.
rewrite Er Em (meval_sub phi v (wf_const n 1) Ww) meval_const rmorph1 Ew big_ord_recl addn0 mulrA.
have -> : meval phi v term = v j - phi y.
  rewrite meval_mmk /meval !big_cons big_nil /= mon_0 mon_unit // rmorphN rmorph1 mulr1 mul1r addr0.
  by rewrite addrC.
by congr (_ * _); apply: eq_bigr => i _; rewrite lift0 /= addnS addSn.
Qed.

Lemma dirac_too_long q n (values : seq F) : (n < size values)%N ->
  dirac_delta q n values = Err IndexError.
Proof.
rewrite /dirac_delta /enumerate.
set f := (X in foldM X).
suff H : forall l j base, wf n base -> (n < j + size l)%N -> (j <= n)%N ->
   foldM f (zip (iota j (size l)) l) base = Err IndexError.
  by move=> S; apply: H; [exact: wf_const|lia|].
elim=> [|y l IH] j base Wb S Hn; first by move: S => /=; lia.
rewrite [zip _ _]/= foldMS {1}/f [(j, y).1]/= [(j, y).2]/=; case: ifP => // Hj; rewrite set_unit //; set term := mmk _.
have Wt : wf n term.
  apply: wf_mmk => [|k]; first by rewrite /= inE unit_neq.
  by rewrite !inE => /orP [/eqP ->|/eqP ->]; rewrite ?size_nseq // wf_unit.
have [w [-> [Ww Ew]]] := mpow_spec (q - 1) Wt; rewrite !bind_ok.
apply: IH; try (by move: S => /=; lia).
by apply: wf_mul => //; apply: wf_sub => //; exact: wf_const.
Qed.

(** ** construct_multivariate_coefficients *)
Lemma int_productP p m l : (l \in int_product p m) = (size l == m) && all (fun i => i < p)%N l.
Proof.
elim: m l => [|m IH] l; first by rewrite inE; case: l.
rewrite [int_product _ _]/=; apply/allpairsP/idP => [[[i l'] /= [Hi Hl ->]]|].
  by move: Hi Hl; rewrite mem_iota IH /= eqSS => -> /andP [-> ->].
case: l => [|i l] // /andP [/= S /andP [Hi Hl]].
by exists (i, l); rewrite mem_iota IH -eqSS S Hl.
Qed.

Lemma int_product_uniq p m : uniq (int_product p m).
Proof.
elim: m => [|m IH] //=; rewrite allpairs_uniq ?iota_uniq //.
by move=> [i l] [j k] _ _ /= [-> ->].
Qed.

Lemma construct_spec (p m q : nat) (g : seq F -> F) n : (m <= n)%N ->
  exists r, construct_multivariate_coefficients p m q (fun l => Ok (g l)) n = Ok r /\ wf n r /\
    forall (R : comRingType) (phi : {rmorphism F -> R}) v,
     meval phi v r = \sum_(l <- int_product p m)
        phi (g [seq i%:R | i <- l]) * \prod_(i < m) (1 - (v i - (nth 0%N l i)%:R) ^+ (q - 1)).
Proof.
move=> Hm; rewrite /construct_multivariate_coefficients; set f := (X in foldM X).
suff H : forall L acc, wf n acc -> all (fun l => size l == m) L ->
   exists r, foldM f L acc = Ok r /\ wf n r /\
     forall (R : comRingType) (phi : {rmorphism F -> R}) v,
      meval phi v r = meval phi v acc + \sum_(l <- L)
        phi (g [seq i%:R | i <- l]) * \prod_(i < m) (1 - (v i - (nth 0%N l i)%:R) ^+ (q - 1)).
  have [|r [E [W V]]] := H (int_product p m) _ (wf_const n 0).
    by apply/allP => l; rewrite int_productP => /andP [].
  by exists r; split=> //; split=> // R phi v; rewrite V meval_const rmorph0 add0r.
elim=> [|l L IH] acc Wa.
  by exists acc; split=> //; split=> // R phi v; rewrite big_nil addr0.
rewrite [all _ _]/= => /andP [/eqP Sl A]; rewrite foldMS {1}/f.
have [|t [-> [Wt Et]]] := @dirac_spec q n [seq i%:R | i <- l]; first by rewrite size_map Sl.
rewrite !bind_ok.
have [Wm Em] := mul_spec (wf_const n (g [seq i%:R | i <- l])) Wt.
have [r [-> [Wr Er]]] := IH _ (wf_add Wa Wm) A.
exists r; split=> //; split=> // R phi v.
rewrite Er (meval_addE phi v Wa Wm) Em meval_const Et big_cons addrA size_map Sl.
congr (_ + _ * _ + _); apply: eq_bigr => i _.
by rewrite (nth_map 0%N) ?Sl // rmorph_nat.
Qed.

(** ** project_to_univariate *)
Section Proj.
Variable w : nat.
Implicit Types (a b : seq (mpoly F)).
Definition qwf a : bool := all (wf w) a.

Lemma qwf_nth a j : qwf a -> wf w (nth [::] a j).
Proof.
move=> /allP H; case: (ltnP j (size a)) => L; first by apply: H; apply: mem_nth.
by rewrite nth_default // /wf.
Qed.

Section Q.
Variables (R : comRingType) (phi : {rmorphism F -> R}) (v : nat -> R) (t : R).
Definition qeval a : R := \sum_(j < size a) meval phi v (nth [::] a j) * t ^+ j.

Lemma meval_nil : meval phi v [::] = 0.
Proof. by rewrite /meval big_nil. Qed.

Lemma qeval_wide n a : (size a <= n)%N -> qeval a = \sum_(j < n) meval phi v (nth [::] a j) * t ^+ j.
Proof.
move=> H; rewrite /qeval -!(big_mkord xpredT (fun j => meval phi v (nth [::] a j) * t ^+ j)).
rewrite [RHS](big_cat_nat _ (n := size a)) //= [X in _ = _ + X]big1_seq ?addr0 //.
by move=> i; rewrite mem_index_iota => /andP [_ /andP [L _]]; rewrite nth_default // meval_nil mul0r.
Qed.

Lemma qstrip_le a k : (qstrip_from w a k <= k)%N.
Proof. by elim: k => //= k IH; case: ifP => // _; apply: leqW. Qed.

Lemma qeval_mk a : qwf a -> qeval (qmk w a) = qeval a.
Proof.
move=> W; have S := qstrip_le a (size a).
rewrite (@qeval_wide (size a)); last by rewrite size_takel.
rewrite /qeval.
have H : forall k j, (qstrip_from w a k <= j < k)%N -> meval phi v (nth [::] a j) = 0.
  elim=> [|k IH] j /=; first by lia.
  case: ifP => [M|_]; last by lia.
  case: (ltnP j k) => L /andP [H1 H2]; first by apply: IH; rewrite H1.
  have -> : j = k by lia.
  rewrite mconst0 in M; have /(meqP (qwf_nth k W) (isT : wf w [::])) E := M.
  have K := wf_ext (qwf_nth k W) (isT : wf w [::]) E.
  by rewrite (meval_perm _ _ K) meval_nil.
apply: eq_bigr => j _; rewrite /qmk.
case: (ltnP j (qstrip_from w a (size a))) => L; first by rewrite nth_take.
by rewrite (H (size a)) ?L //= nth_default ?meval_nil // size_takel.
Qed.

Lemma qeval_add a b : qwf a -> qwf b -> qeval (qadd w a b) = qeval a + qeval b.
Proof.
move=> Wa Wb; rewrite /qadd mconst0.
have Wi : forall i, wf w (madd (madd (nth [::] a i) [::]) (nth [::] b i)).
  by move=> i; apply: wf_add; [apply: wf_add|]; rewrite ?qwf_nth.
rewrite qeval_mk; last by apply/allP => q /mapP [i _ ->].
rewrite (@qeval_wide (maxn (size a) (size b)) a) ?leq_maxl //.
rewrite (@qeval_wide (maxn (size a) (size b)) b) ?leq_maxr //.
rewrite /qeval size_map size_iota -big_split /=; apply: eq_bigr => i _.
rewrite (nth_map 0%N) ?size_iota // nth_iota // add0n.
rewrite (@meval_addE _ w) ?qwf_nth //; last by apply: wf_add; rewrite ?qwf_nth.
by rewrite (@meval_addE _ w) ?qwf_nth // meval_nil addr0 mulrDl.
Qed.

Lemma qeval_incr a k q : qwf a -> wf w q -> (k < size a)%N ->
  qeval (set_nth [::] a k (madd (nth [::] a k) q)) = qeval a + meval phi v q * t ^+ k.
Proof.
move=> Wa Wq Hk.
have S : size (set_nth [::] a k (madd (nth [::] a k) q)) = size a by rewrite size_set_nth; apply/maxn_idPr.
rewrite /qeval S (bigD1 (Ordinal Hk)) //= [in RHS](bigD1 (Ordinal Hk)) //= nth_set_nth /= eqxx.
rewrite (@meval_addE _ w) ?qwf_nth // mulrDl addrAC; congr (_ + _ + _).
by apply: eq_bigr => j N; rewrite nth_set_nth /= -val_eqE /= in N *; rewrite (negbTE N).
Qed.
End Q.

Lemma qwf_mk a : qwf a -> qwf (qmk w a).
Proof. by move=> /allP H; apply/allP => q /mem_take; exact: H. Qed.

Lemma qwf_add a b : qwf a -> qwf b -> qwf (qadd w a b).
Proof.
move=> Wa Wb; apply: qwf_mk; rewrite mconst0; apply/allP => q /mapP [i _ ->].
by apply: wf_add; [apply: wf_add|]; rewrite ?qwf_nth.
Qed.

Lemma qwf_set a k q : qwf a -> wf w q -> qwf (set_nth [::] a k q).
Proof.
move=> Wa Wq; apply/allP => r /(nthP [::]) [i _ <-]; rewrite nth_set_nth /=.
by case: eqP => // _; apply: qwf_nth.
Qed.

Lemma qmul_row (x : mpoly F) i b : wf w x -> qwf b -> forall j nc, qwf nc ->
  (i + j + size b <= size nc)%N ->
  let r := foldl (fun nc (jy : nat * mpoly F) =>
      set_nth [::] nc (i + jy.1) (madd (nth [::] nc (i + jy.1)) (mmul x jy.2))) nc (zip (iota j (size b)) b) in
  [/\ qwf r, size r = size nc &
      forall (R : comRingType) (phi : {rmorphism F -> R}) v t,
        qeval phi v t r = qeval phi v t nc + meval phi v x * t ^+ (i + j) * qeval phi v t b].
Proof.
move=> Wx; elim: b => [|y b IH] Wb j nc Wn S.
  by split=> // R phi v t; rewrite {3}/qeval big_ord0 mulr0 addr0.
move: Wb => /= /andP [Wy Wb]; rewrite /=.
have [Wm Em] := mul_spec Wx Wy.
have Hk : (i + j < size nc)%N by move: S => /=; lia.
have Wq := wf_add (qwf_nth (i + j) Wn) Wm.
set nc' := set_nth _ _ _ _.
have S' : size nc' = size nc by rewrite size_set_nth; apply/maxn_idPr.
have [||W2 S2 E2] := IH Wb j.+1 nc'; [exact: qwf_set|by rewrite S'; move: S => /=; lia|].
split=> //; first by rewrite S2.
move=> R phi v t; rewrite E2 qeval_incr // Em -addrA; congr (_ + _).
rewrite [in RHS]/qeval big_ord_recl expr0 mulr1 mulrDr mulrAC; congr (_ + _).
rewrite [qeval _ _ _ b]/qeval !mulr_sumr; apply: eq_bigr => k _.
by rewrite lift0 /= addnS !exprS -!mulrA; congr (_ * _); rewrite mulrCA; congr (_ * _); rewrite mulrCA.
Qed.

Lemma qmul_rows b : qwf b -> forall a i nc, qwf a -> qwf nc ->
  (a = [::] \/ i + size a + size b <= (size nc).+1)%N ->
  let r := foldl (fun nc (ix : nat * mpoly F) =>
         foldl (fun nc (jy : nat * mpoly F) =>
           set_nth [::] nc (ix.1 + jy.1)
             (madd (nth [::] nc (ix.1 + jy.1)) (mmul ix.2 jy.2))) nc (enumerate b))
         nc (zip (iota i (size a)) a) in
  qwf r /\ forall (R : comRingType) (phi : {rmorphism F -> R}) v t,
        qeval phi v t r = qeval phi v t nc + t ^+ i * qeval phi v t a * qeval phi v t b.
Proof.
move=> Wb; elim=> [|x a IH] i nc Wa Wn S.
  by split=> // R phi v t; rewrite {3}/qeval big_ord0 mulr0 mul0r addr0.
move: Wa => /= /andP [Wx Wa].
have {}S : (i + (size a).+1 + size b <= (size nc).+1)%N by case: S.
have [|W1 S1 E1] := qmul_row (i := i) Wx Wb (j := 0%N) Wn; first by lia.
have [|W2 E2] := IH i.+1 _ Wa W1; first by right; rewrite S1; lia.
split=> // R phi v t; rewrite E2 E1 addn0 -addrA; congr (_ + _).
rewrite [qeval phi v t (x :: a)]/qeval big_ord_recl expr0 mulr1 mulrDr mulrDl; congr (_ + _).
  by rewrite [_ * t ^+ i]mulrC.
congr (_ * _); rewrite [qeval _ _ _ a]/qeval !mulr_sumr; apply: eq_bigr => k _.
by rewrite lift0 /= !exprS -!mulrA mulrCA; congr (_ * _); rewrite mulrCA.
Qed.

Lemma qmul_spec a b : qwf a -> qwf b -> qwf (qmul w a b) /\
  forall (R : comRingType) (phi : {rmorphism F -> R}) v t,
    qeval phi v t (qmul w a b) = qeval phi v t a * qeval phi v t b.
Proof.
move=> Wa Wb; rewrite /qmul mconst0; case Z: (_ || _).
  split; first exact: qwf_mk.
  move=> R phi v t; rewrite {1}/qeval big_ord0.
  by case/orP: Z => /nilP ->; rewrite [qeval _ _ _ [::]]/qeval big_ord0 ?mul0r ?mulr0.
have Wn : forall n, qwf (nseq n [::]) by move=> n; apply/allP => q /nseqP [->].
move: Z => /norP [Na Nb].
have [|W1 E1] := qmul_rows Wb (i := 0%N) Wa (Wn (size a + size b - 1)%N).
  by right; rewrite size_nseq; lia.
split; first exact: qwf_mk.
move=> R phi v t; rewrite qeval_mk // E1 expr0 mul1r {1}/qeval big1 ?add0r // => i _.
by rewrite nth_nseq if_same meval_nil mul0r.
Qed.

Lemma qpow_spec a d : qwf a -> exists r, qpow w a d = Ok r /\ qwf r /\
  forall (R : comRingType) (phi : {rmorphism F -> R}) v t,
    qeval phi v t r = qeval phi v t a ^+ d.
Proof.
move=> W; rewrite /qpow /dom_pow.
pose rep (y : seq (mpoly F)) (k : Z) := qwf y /\
  forall (R : comRingType) (phi : {rmorphism F -> R}) v t,
     qeval phi v t y = qeval phi v t a ^+ Z.to_nat k.
have W1 : qwf [:: mconst w (1 : F)] by rewrite /= wf_const.
have [] := @pow_gen_spec _ (qmk w [:: mconst w (1 : F)]) (fun p q => Ok (qmul w p q)) rep _ a (Z.of_nat d); try lia.
- move=> p q j l Hj Hk [Wx Ex] [Wy Ey]; exists (qmul w p q); split=> //.
  have [Wr Er] := qmul_spec Wx Wy; split=> // R phi v t.
  by rewrite Er Ex Ey -exprD; congr (_ ^+ _); lia.
- by split=> // R phi v t; rewrite expr1.
- split; first exact: qwf_mk.
  move=> R phi v t; rewrite qeval_mk // /qeval big_ord_recl big_ord0 addr0 expr0 mulr1.
  by rewrite [nth _ _ _]/= meval_const rmorph1.
by move=> r [E [Wr Er]]; exists r; split=> //; split=> // R phi v t; rewrite Er Nat2Z.id.
Qed.
End Proj.

Lemma size_minus (k : key) i : (i < size k)%N -> size (take i k ++ drop i.+1 k) = (size k).-1.
Proof. by move=> H; rewrite size_cat size_drop size_takel; lia. Qed.

Lemma mon_minus (R : comRingType) (v : nat -> R) (k : key) i : (i < size k)%N ->
  mon v k = mon (fun j => v (bump i j)) (take i k ++ drop i.+1 k) * v i ^+ nth 0%N k i.
Proof.
move=> H; rewrite /mon size_minus //.
rewrite -(big_mkord xpredT (fun j => v j ^+ nth 0%N k j)).
rewrite -(big_mkord xpredT (fun j => v (bump i j) ^+ nth 0%N (take i k ++ drop i.+1 k) j)).
rewrite (big_cat_nat _ (n := i)) //=; last by lia.
rewrite [X in _ = X * _](big_cat_nat _ (n := i)) //=; last by lia.
rewrite -mulrA; congr (_ * _).
  apply: eq_big_nat => j /andP [_ Hj].
  by rewrite /bump leqNgt Hj add0n nth_cat size_takel ?Hj ?nth_take // ltnW.
rewrite big_ltn // mulrC; congr (_ * _).
rewrite big_add1; apply: eq_big_nat => j /andP [Hj _].
rewrite /bump Hj add1n nth_cat size_takel; last by lia.
by rewrite ltnNge Hj /= nth_drop addSn subnKC.
Qed.

Lemma project_spec (p : mpoly F) i width : wf width p -> (i < width)%N ->
  exists r, project_to_univariate p i width = Ok r /\ qwf (width - 1) r /\
    forall (R : comRingType) (phi : {rmorphism F -> R}) (v : nat -> R),
      \sum_(j < size r) meval phi (fun l => v (bump i l)) (nth [::] r j) * v i ^+ j
        = meval phi v p.
Proof.
move=> Wp Hi; rewrite /project_to_univariate; set w := (width - 1)%N.
set X := qmk w _; set f := (Y in foldM Y).
have W0 : qwf w [:: mconst w (0 : F)] by rewrite /= wf_const.
have WX : qwf w [:: mconst w (0 : F); mconst w (1 : F)] by rewrite /= !wf_const.
have EX : forall (R : comRingType) (phi : {rmorphism F -> R}) v t, qeval phi v t X = t.
  move=> R phi v t; rewrite qeval_mk // /qeval !big_ord_recl big_ord0 addr0 lift0.
  by rewrite [nth _ _ _]/= [nth _ _ _.+1]/= !meval_const rmorph0 rmorph1 mul0r add0r mul1r expr1.
suff H : forall L out, qwf w out -> all (fun kc : key * F => (size kc.1 == width)) L ->
  exists r, foldM f L out = Ok r /\ qwf w r /\
    forall (R : comRingType) (phi : {rmorphism F -> R}) (v : nat -> R),
      qeval phi (fun l => v (bump i l)) (v i) r
        = qeval phi (fun l => v (bump i l)) (v i) out + meval phi v L.
  have [||r [E [W V]]] := H (miter p) (qmk w [:: mconst w (0 : F)]).
  - exact: qwf_mk.
  - by apply/allP => kc; rewrite (perm_mem (perm_iter (wf_uniq Wp))) => K; apply/eqP/(wf_size Wp)/map_f.
  exists r; split=> //; split=> // R phi v.
  rewrite -/(qeval phi (fun l => v (bump i l)) (v i) r) V (meval_perm _ _ (perm_iter (wf_uniq Wp))).
  rewrite qeval_mk // /qeval big_ord_recl big_ord0 addr0 [nth _ _ _]/= meval_const rmorph0 mul0r.
  by rewrite add0r.
elim=> [|[k c] L IH] out Wo A.
  by exists out; split=> //; split=> // R phi v; rewrite meval_nil addr0.
move: A; rewrite [all _ _]/= => /andP [/eqP Sk A]; rewrite foldMS {1}/f [(k, c).1]/= [(k, c).2]/=.
rewrite (py_nth_ok 0%N) ?Sk // !bind_ok.
have [xd [-> [Wd Ed]]] := qpow_spec (nth 0%N k i) (qwf_mk WX); rewrite !bind_ok.
set coeff := mmk _.
have Wc : wf w coeff.
  by apply: wf_mmk => // k'; rewrite inE => /eqP ->; rewrite size_minus ?Sk // /w; lia.
have Wc' : qwf w (qmk w [:: coeff]) by apply: qwf_mk; rewrite /= Wc.
have [Wm Em] := qmul_spec Wc' Wd.
have [r [-> [Wr Er]]] := IH _ (qwf_add Wo Wm) A.
exists r; split=> //; split=> // R phi v.
rewrite Er qeval_add // Em Ed EX -addrA; congr (_ + _).
rewrite [in RHS]/meval big_cons -/(meval phi v L); congr (_ + _).
rewrite (mon_minus v (i := i)) ?Sk // mulrA; congr (_ * _).
rewrite qeval_mk; last by rewrite /= Wc.
rewrite /qeval big_ord_recl big_ord0 addr0 expr0 mulr1 [nth _ _ _]/=.
by rewrite meval_mmk /meval big_cons big_nil addr0.
Qed.
End MultiUtils.
