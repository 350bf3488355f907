(** Lemmas about MultiModel: the operations are those of polynomials, seen
    through evaluation in every commutative ring that [F] maps to. *)
From Verif Require Import Prelude PowModel PowProofs PolyModel PolyProofs FftProofs FiniteFieldProofs MultiModel.
From mathcomp Require Import zify ssrZ.
Set Implicit Arguments.
Unset Strict Implicit.
Unset Printing Implicit Defensive.
Import GRing.Theory.
Local Open Scope ring_scope.
Local Open Scope py_scope.

Lemma foldMS (A S : Type) (f : S -> A -> result S) x l s :
  foldM f (x :: l) s = let* s' := f s x in foldM f l s'.
Proof. by []. Qed.

(** ** Order of power tuples *)
Lemma tuple_leq_total : total tuple_leq.
Proof.
elim=> [|x a IH] [|y b] //=.
by case: (ltngtP x y) => //= _; apply: IH.
Qed.

Lemma tuple_leq_trans : transitive tuple_leq.
Proof.
elim=> [|y b IH] [|x a] [|z c] //=.
move=> /orP [H1|/andP [/eqP <- H1]] /orP [H2|/andP [/eqP <- H2]].
- by rewrite (ltn_trans H1 H2).
- by rewrite H1.
- by rewrite H2.
- by rewrite eqxx (IH _ _ H1 H2) orbT.
Qed.

Lemma tuple_leq_anti : antisymmetric tuple_leq.
Proof.
elim=> [|x a IH] [|y b] //=; case: (ltngtP x y) => //= -> H.
by rewrite (IH _ H).
Qed.

Lemma size_add_power a b : size (add_power_tuples a b) = maxn (size a) (size b).
Proof.
rewrite /add_power_tuples; case: ifP => /eqP H;
  rewrite size_cat !size_map !size_iota; lia.
Qed.

Lemma add_power_same a b i : size a = size b ->
  nth 0%N (add_power_tuples a b) i = (nth 0%N a i + nth 0%N b i)%N.
Proof.
move=> S; rewrite /add_power_tuples -S minnn eqxx subnn /= cats0.
case: (ltnP i (size a)) => H.
  by rewrite (nth_map 0%N) ?size_iota // nth_iota.
by rewrite !nth_default // ?size_map ?size_iota // -S.
Qed.

Section MultiProofs.
Variable F : fieldType.
Implicit Types (a b p nc : mpoly F) (k : key) (x : F).

Lemma dict_getE p kc : uniq (mkeys p) -> kc \in p -> dict_get p kc.1 = kc.2.
Proof.
elim: p => [|[k x] p IH] //= /andP [N U]; rewrite inE => /orP [/eqP ->|I] /=; first by rewrite eqxx.
case: eqP => [E|_]; last exact: IH.
by case/negP: N; rewrite E; apply: map_f.
Qed.

Lemma dict_get_notin p k : k \notin mkeys p -> dict_get p k = 0.
Proof.
by elim: p => [|[k' x] p IH] //=; rewrite inE negb_or eq_sym => /andP [/negbTE -> /IH].
Qed.

Lemma mgetitemE p k : mgetitem p k = dict_get p k.
Proof. by rewrite /mgetitem; case: ifPn => // /dict_get_notin. Qed.

Lemma mkeys_set p k x : mkeys (dict_set p k x) = if k \in mkeys p then mkeys p else rcons (mkeys p) k.
Proof.
elim: p => [|[k' x'] p IH] //=; rewrite inE eq_sym; case: eqP => //= _.
by rewrite /= IH; case: ifP.
Qed.

Lemma uniq_set p k x : uniq (mkeys p) -> uniq (mkeys (dict_set p k x)).
Proof. by rewrite mkeys_set; case: ifPn => // N U; rewrite rcons_uniq N. Qed.

Lemma dict_get_set p k x k' : dict_get (dict_set p k x) k' = if k' == k then x else dict_get p k'.
Proof.
elim: p => [|[l y] p IH] /=; first by rewrite eq_sym; case: eqP.
case: (altP (l =P k)) => /= [->|N]; first by rewrite (eq_sym k); case: eqP.
by rewrite IH; case: (altP (l =P k')) => // <-; rewrite (negbTE N).
Qed.

Lemma get_remove p k : uniq (mkeys p) -> dict_get (remove_zero_coefficients p) k = dict_get p k.
Proof.
elim: p => [|[l x] p IH] //= /andP [N U]; case: (altP (x =P 0)) => /= [->|Nx].
  rewrite IH //; case: eqP => // E; rewrite -E; exact: dict_get_notin.
by rewrite IH.
Qed.

Lemma keys_remove p k : k \in mkeys (remove_zero_coefficients p) -> k \in mkeys p.
Proof. by move=> /mapP [kc]; rewrite mem_filter => /andP [_ I] ->; apply: map_f. Qed.

Lemma uniq_remove p : uniq (mkeys p) -> uniq (mkeys (remove_zero_coefficients p)).
Proof. by apply: subseq_uniq; apply: map_subseq; exact: filter_subseq. Qed.

(** Well-formed objects of [num_vars = n]: distinct tuples of length [n] with
    non-zero coefficients. *)
Definition wf (n : nat) p : bool :=
  uniq (mkeys p) && all (fun kc => (size kc.1 == n) && (kc.2 != 0)) p.

Lemma wf_uniq n p : wf n p -> uniq (mkeys p). Proof. by case/andP. Qed.
Lemma wf_size n p k : wf n p -> k \in mkeys p -> size k = n.
Proof. by move=> /andP [_ /allP A] /mapP [kc I ->]; case/andP: (A _ I) => /eqP. Qed.
Lemma wf_get n p k : wf n p -> (k \in mkeys p) = (dict_get p k != 0).
Proof.
move=> /andP [U /allP A]; case: (boolP (k \in mkeys p)) => [/mapP [kc I ->]|N].
  by rewrite (dict_getE U I); case/andP: (A _ I).
by rewrite dict_get_notin // eqxx.
Qed.

Lemma wf_mmk n p : uniq (mkeys p) -> (forall k, k \in mkeys p -> size k = n) -> wf n (mmk p).
Proof.
move=> U S; rewrite /wf uniq_remove //; apply/allP => kc; rewrite mem_filter => /andP [-> I].
by rewrite S ?eqxx //; apply: map_f.
Qed.

Lemma mkeys_iter p : mkeys (miter p) = sort tuple_leq (mkeys p).
Proof. by rewrite /mkeys /miter -map_comp map_id_in. Qed.

Lemma perm_iter p : uniq (mkeys p) -> perm_eq (miter p) p.
Proof.
move=> U; rewrite /miter.
have H := perm_map (fun k => (k, dict_get p k)) (permEl (perm_sort tuple_leq (mkeys p))).
apply: (perm_trans H); rewrite /mkeys -map_comp map_id_in //.
by move=> kc I; rewrite /= (dict_getE U I); case: (kc).
Qed.

Lemma get_perm p p' k : uniq (mkeys p) -> perm_eq p p' -> dict_get p k = dict_get p' k.
Proof.
move=> U P; have U' : uniq (mkeys p') by rewrite -(perm_uniq (perm_map _ P)).
case: (boolP (k \in mkeys p)) => [/mapP [kc I ->]|N].
  by rewrite (dict_getE U I) (dict_getE U') // -(perm_mem P).
by rewrite !dict_get_notin // -(perm_mem (perm_map _ P)).
Qed.

Lemma wf_perm n p p' : perm_eq p p' -> wf n p = wf n p'.
Proof. by move=> P; rewrite /wf (perm_uniq (perm_map _ P)) (perm_all _ P). Qed.

Lemma uniq_iter p : uniq (mkeys p) -> uniq (mkeys (miter p)).
Proof. by move=> U; rewrite mkeys_iter sort_uniq. Qed.

(** The dict of two well-formed objects with the same coefficients differs in
    its order only. *)
Lemma wf_ext n a b : wf n a -> wf n b -> (forall k, dict_get a k = dict_get b k) -> perm_eq a b.
Proof.
move=> Wa Wb E; have Ua := wf_uniq Wa; have Ub := wf_uniq Wb.
have M : mkeys a =i mkeys b by move=> k; rewrite (wf_get _ Wa) (wf_get _ Wb) E.
have U : forall p, uniq (mkeys p) -> uniq p by move=> p /map_uniq.
apply: uniq_perm; try exact: U.
have I : forall p q, uniq (mkeys p) -> uniq (mkeys q) -> mkeys p =i mkeys q ->
   (forall k, dict_get p k = dict_get q k) -> {subset p <= q}.
  move=> p q Up Uq Mpq Epq kc I.
  have : kc.1 \in mkeys q by rewrite -Mpq; apply: map_f.
  move=> /mapP [kc' I' K]; suff -> : kc = kc' by [].
  move: (dict_getE Up I) (dict_getE Uq I'); rewrite -K -Epq => -> E2.
  by case: (kc) (kc') K E2 => [? ?] [? ?] /= -> ->.
by move=> kc; apply/idP/idP; apply: I => // k; rewrite M.
Qed.

(** ** Evaluation *)
Section Eval.
Variables (R : comRingType) (phi : {rmorphism F -> R}) (v : nat -> R).

Definition mon k : R := \prod_(i < size k) v i ^+ nth 0%N k i.
Definition meval p : R := \sum_(kc <- p) phi kc.2 * mon kc.1.

Lemma mon_wide n k : (size k <= n)%N -> mon k = \prod_(i < n) v i ^+ nth 0%N k i.
Proof.
move=> H; rewrite /mon -!(big_mkord xpredT (fun i => v i ^+ nth 0%N k i)).
rewrite [RHS](big_cat_nat _ (n := size k)) //= [X in _ = _ * X]big1_seq ?mulr1 //.
by move=> i; rewrite mem_index_iota => /andP [_ /andP [L _]]; rewrite nth_default // expr0.
Qed.

Lemma mon_add k l : size k = size l -> mon (add_power_tuples k l) = mon k * mon l.
Proof.
move=> S; rewrite (@mon_wide (size k)) ?size_add_power -?S ?maxnn //.
rewrite (@mon_wide (size k) l) -?S // /mon -big_split /=; apply: eq_bigr => i _.
by rewrite add_power_same // exprD.
Qed.

Lemma mon_0 n : mon (nseq n 0%N) = 1.
Proof. by rewrite /mon big1 // => i _; rewrite nth_nseq if_same expr0. Qed.

Lemma mon_unit i n : (i < n)%N -> mon (unit_tuple i n) = v i.
Proof.
move=> H; have S : size (unit_tuple i n) = n by rewrite size_cat /= !size_nseq; lia.
rewrite (@mon_wide n) ?S // (bigD1 (Ordinal H)) //= big1.
  by rewrite nth_cat size_nseq ltnn subnn /= expr1 mulr1.
move=> j /eqP N; have {}N : (j : nat) <> i by move=> E; apply: N; apply: val_inj.
rewrite nth_cat size_nseq; case: (ltnP j i) => L; first by rewrite nth_nseq L expr0.
have : (0 < j - i)%N by lia.
by case: (j - i)%N => // d _; rewrite /= nth_nseq if_same expr0.
Qed.

Lemma meval_perm p p' : perm_eq p p' -> meval p = meval p'.
Proof. exact: perm_big. Qed.

Lemma meval_mmk p : meval (mmk p) = meval p.
Proof.
rewrite /meval /mmk /remove_zero_coefficients big_filter big_mkcond /=.
by apply: eq_bigr => kc _; case: eqP => //= ->; rewrite rmorph0 mul0r.
Qed.

Lemma meval_keys p ks : uniq (mkeys p) -> uniq ks -> {subset mkeys p <= ks} ->
  meval p = \sum_(k <- ks) phi (dict_get p k) * mon k.
Proof.
move=> U Uk S.
rewrite [RHS](bigID (fun k => k \in mkeys p)) /= [X in _ = _ + X]big1 ?addr0; last first.
  by move=> k /dict_get_notin ->; rewrite rmorph0 mul0r.
rewrite -big_filter (perm_big (mkeys p)) /=; last first.
  apply: uniq_perm => //; first exact: filter_uniq.
  by move=> k; rewrite mem_filter; apply: andb_idr => /S.
rewrite big_map /meval big_seq [RHS]big_seq; apply: eq_bigr => kc I.
by rewrite (dict_getE U I).
Qed.

Lemma meval_const n x : meval (mconst n x) = phi x.
Proof. by rewrite meval_mmk /meval big_seq1 mon_0 mulr1. Qed.

Lemma meval_neg p : uniq (mkeys p) -> meval (mneg p) = - meval p.
Proof.
move=> U; rewrite /mneg meval_mmk /meval big_map (perm_big p) ?perm_iter //=.
by rewrite -sumrN; apply: eq_bigr => kc _; rewrite rmorphN mulNr.
Qed.

Lemma joint_uniq a b : uniq (mkeys a) -> uniq (mkeys b) ->
  uniq (mkeys a ++ [seq k <- mkeys b | k \notin mkeys a]).
Proof.
move=> Ua Ub; rewrite cat_uniq Ua filter_uniq // andbT; apply/hasPn => k.
by rewrite mem_filter => /andP [].
Qed.

Lemma meval_add a b : uniq (mkeys a) -> uniq (mkeys b) ->
  meval (madd a b) = meval a + meval b.
Proof.
move=> Ua Ub; have U := joint_uniq Ua Ub.
rewrite /madd meval_mmk; set ks := _ ++ _ in U *.
rewrite (@meval_keys a ks) //; last by move=> k; rewrite mem_cat => ->.
rewrite (@meval_keys b ks) //; last first.
  by move=> k I; rewrite mem_cat mem_filter I andbT orbN.
rewrite /meval big_map -big_split /=; apply: eq_bigr => k _.
by rewrite !mgetitemE rmorphD mulrDl.
Qed.

Lemma meval_set p k x : uniq (mkeys p) ->
  meval (dict_set p k (dict_get p k + x)) = meval p + phi x * mon k.
Proof.
elim: p => [|[l y] p IH] /=.
  by rewrite /meval big_seq1 big_nil /= add0r add0r.
move=> /andP [N U]; case: eqP => [->|_].
  by rewrite /meval !big_cons /= rmorphD mulrDl addrAC.
by move: (IH U); rewrite /meval !big_cons /= => ->; rewrite addrA.
Qed.

Lemma step_uniq nc ka kb : uniq (mkeys nc) -> uniq (mkeys (mmul_step nc ka kb)).
Proof. by move=> U; apply: uniq_set; case: ifP => // _; apply: uniq_set. Qed.

Lemma meval_step nc ka kb : uniq (mkeys nc) -> size ka.1 = size kb.1 ->
  meval (mmul_step nc ka kb) = meval nc + (phi ka.2 * mon ka.1) * (phi kb.2 * mon kb.1).
Proof.
move=> U S; rewrite /mmul_step.
have U' : forall k, uniq (mkeys (if k \notin mkeys nc then dict_set nc k 0 else nc)).
  by move=> k; case: ifP => // _; apply: uniq_set.
rewrite meval_set // mon_add // rmorphM mulrACA; congr (_ + _).
case: ifPn => // N; have := meval_set (add_power_tuples ka.1 kb.1) 0 U.
by rewrite (dict_get_notin N) addr0 rmorph0 mul0r addr0.
Qed.
End Eval.

(** ** Invariants of the operations *)
Lemma step_keys n nc ka kb : (forall k, k \in mkeys nc -> size k = n) ->
  size ka.1 = n -> size kb.1 = n -> forall k, k \in mkeys (mmul_step nc ka kb) -> size k = n.
Proof.
move=> S Sa Sb k; rewrite /mmul_step.
have Sp : size (add_power_tuples ka.1 kb.1) = n by rewrite size_add_power Sa Sb maxnn.
have S' : forall k, k \in mkeys (if add_power_tuples ka.1 kb.1 \notin mkeys nc
                       then dict_set nc (add_power_tuples ka.1 kb.1) 0 else nc) -> size k = n.
  move=> k'; case: ifPn => _; last exact: S.
  by rewrite mkeys_set; case: ifP => _; [exact: S|rewrite mem_rcons inE => /orP [/eqP ->|/S]].
rewrite mkeys_set; case: ifP => _; first exact: S'.
by rewrite mem_rcons inE => /orP [/eqP ->|/S'].
Qed.

Lemma wf_iter n p : wf n p -> wf n (miter p).
Proof. by move=> W; rewrite (wf_perm _ (perm_iter (wf_uniq W))). Qed.

Lemma wf_const n x : wf n (mconst n x).
Proof. by apply: wf_mmk => // k; rewrite inE => /eqP ->; rewrite size_nseq. Qed.

Lemma wf_neg n p : wf n p -> wf n (mneg p).
Proof.
move=> W; have K : mkeys [seq (kc.1, - kc.2) | kc <- miter p] = mkeys (miter p).
  by rewrite /mkeys -map_comp.
apply: wf_mmk; rewrite K; first exact: uniq_iter (wf_uniq W).
by move=> k; rewrite mkeys_iter mem_sort; exact: wf_size W.
Qed.

Lemma wf_add n a b : wf n a -> wf n b -> wf n (madd a b).
Proof.
move=> Wa Wb; have U := joint_uniq (wf_uniq Wa) (wf_uniq Wb).
have K : mkeys [seq (k, mgetitem a k + mgetitem b k) | k <- mkeys a ++ [seq k <- mkeys b | k \notin mkeys a]]
  = mkeys a ++ [seq k <- mkeys b | k \notin mkeys a] by rewrite /mkeys -map_comp map_id_in.
apply: wf_mmk; rewrite K // => k; rewrite mem_cat mem_filter => /orP [|/andP [_]].
  exact: wf_size Wa.
exact: wf_size Wb.
Qed.

Lemma wf_sub n a b : wf n a -> wf n b -> wf n (msub a b).
Proof. by move=> Wa Wb; apply: wf_add => //; apply: wf_neg. Qed.

Lemma mul_row n (ka : key * F) (b nc : mpoly F) : size ka.1 = n ->
  all (fun kc => size kc.1 == n) b ->
  uniq (mkeys nc) -> (forall k, k \in mkeys nc -> size k = n) ->
  let r := foldl (fun nc kb => mmul_step nc ka kb) nc b in
  [/\ uniq (mkeys r), (forall k, k \in mkeys r -> size k = n) &
      forall (R : comRingType) (phi : {rmorphism F -> R}) v,
        meval phi v r = meval phi v nc + (phi ka.2 * mon v ka.1) * meval phi v b].
Proof.
move=> Sa; elim: b nc => [|kb b IH] nc /=.
  by move=> _ U S; split=> // R phi v; rewrite /meval big_nil mulr0 addr0.
move=> /andP [/eqP Sb Ab] U S.
have [] := IH (mmul_step nc ka kb) Ab (step_uniq _ _ U) (step_keys S Sa Sb).
move=> U' S' E; split=> // R phi v; rewrite E meval_step ?Sa ?Sb //.
by rewrite /meval [in RHS]big_cons mulrDr addrA.
Qed.

Lemma mul_rows n (a b nc : mpoly F) :
  all (fun kc => size kc.1 == n) a -> all (fun kc => size kc.1 == n) b ->
  uniq (mkeys nc) -> (forall k, k \in mkeys nc -> size k = n) ->
  let r := foldl (fun nc ka => foldl (fun nc kb => mmul_step nc ka kb) nc b) nc a in
  [/\ uniq (mkeys r), (forall k, k \in mkeys r -> size k = n) &
      forall (R : comRingType) (phi : {rmorphism F -> R}) v,
        meval phi v r = meval phi v nc + meval phi v a * meval phi v b].
Proof.
move=> Aa Ab; elim: a nc Aa => [|ka a IH] nc /=.
  by move=> _ U S; split=> // R phi v; rewrite [X in _ + X * _]big_nil mul0r addr0.
move=> /andP [/eqP Sa Aa] U S.
have [U1 S1 E1] := mul_row Sa Ab U S.
have [U2 S2 E2] := IH _ Aa U1 S1; split=> // R phi v; rewrite E2 E1.
by rewrite [X in _ = _ + X * _]big_cons mulrDl addrA.
Qed.

Lemma wf_sizes n p : wf n p -> all (fun kc => size kc.1 == n) p.
Proof. by move=> /andP [_ A]; apply: sub_all A => kc /andP []. Qed.

Lemma mul_spec n a b : wf n a -> wf n b ->
  wf n (mmul a b) /\ forall (R : comRingType) (phi : {rmorphism F -> R}) v,
    meval phi v (mmul a b) = meval phi v a * meval phi v b.
Proof.
move=> Wa Wb; rewrite /mmul.
case Z: (mis_zero a || mis_zero b).
  split=> // R phi v; rewrite meval_mmk; case/orP: Z => /nilP ->.
    by rewrite /meval big_nil mul0r.
  by rewrite /meval big_nil mulr0.
have [U S E] := @mul_rows n _ _ [::] (wf_sizes (wf_iter Wa)) (wf_sizes (wf_iter Wb)) isT (fun k => ltac:(done)).
split; first exact: wf_mmk.
move=> R phi v; rewrite meval_mmk E {1}/meval big_nil add0r.
by rewrite (meval_perm _ _ (perm_iter (wf_uniq Wa))) (meval_perm _ _ (perm_iter (wf_uniq Wb))).
Qed.

Lemma wf_mul n a b : wf n a -> wf n b -> wf n (mmul a b).
Proof. by move=> Wa Wb; have [] := mul_spec Wa Wb. Qed.

Lemma mpow_spec n a d : wf n a ->
  exists r, mpow n a d = Ok r /\ wf n r /\
    forall (R : comRingType) (phi : {rmorphism F -> R}) v, meval phi v r = meval phi v a ^+ d.
Proof.
move=> W; rewrite /mpow /dom_pow.
pose rep (y : mpoly F) (k : Z) := wf n y /\
  forall (R : comRingType) (phi : {rmorphism F -> R}) v, meval phi v y = meval phi v a ^+ Z.to_nat k.
have [] := @pow_gen_spec _ (mconst n 1) (fun p q => Ok (mmul p q)) rep _ a (Z.of_nat d); try lia.
- move=> p q j l Hj Hk [Wx Ex] [Wy Ey]; exists (mmul p q); split=> //.
  have [Wr Er] := mul_spec Wx Wy; split=> // R phi v.
  by rewrite Er Ex Ey -exprD; congr (_ ^+ _); lia.
- by split=> // R phi v; rewrite expr1.
- by split; [exact: wf_const|move=> R phi v; rewrite meval_const rmorph1].
by move=> r [E [Wr Er]]; exists r; split=> //; split=> // R phi v; rewrite Er Nat2Z.id.
Qed.

Lemma meval_sub n a b (R : comRingType) (phi : {rmorphism F -> R}) v : wf n a -> wf n b ->
  meval phi v (msub a b) = meval phi v a - meval phi v b.
Proof.
move=> Wa Wb; rewrite /msub meval_add ?meval_neg //; first exact: wf_uniq Wb.
  exact: wf_uniq Wa.
exact: wf_uniq (wf_neg Wb).
Qed.

Lemma meval_addE n a b (R : comRingType) (phi : {rmorphism F -> R}) v : wf n a -> wf n b ->
  meval phi v (madd a b) = meval phi v a + meval phi v b.
Proof. by move=> Wa Wb; rewrite meval_add //; [exact: wf_uniq Wa|exact: wf_uniq Wb]. Qed.

Lemma wf_unit i n : (i < n)%N -> size (unit_tuple i n) = n.
Proof. by move=> H; rewrite size_cat /= !size_nseq; lia. Qed.

Lemma wf_mvar i n : (i < n)%N -> wf n (mvar F n i).
Proof. by move=> H; apply: wf_mmk => // k; rewrite inE => /eqP ->; exact: wf_unit. Qed.

Lemma meval_mvar i n (R : comRingType) (phi : {rmorphism F -> R}) v : (i < n)%N ->
  meval phi v (mvar F n i) = v i.
Proof. by move=> H; rewrite meval_mmk /meval big_seq1 /= rmorph1 mul1r mon_unit. Qed.

(** ** Evaluation determines the coefficients (Kronecker substitution) *)
Fixpoint kron (B : nat) (k : key) : nat := if k is e :: k' then (e + B * kron B k')%N else 0%N.

Lemma kron_inj B k l : size k = size l -> all (fun e => e < B)%N k -> all (fun e => e < B)%N l ->
  kron B k = kron B l -> k = l.
Proof.
elim: k l => [|e k IH] [|e' l] //= [S] /andP [He Hk] /andP [He' Hl] E.
have B0 : (0 < B)%N by lia.
have E1 : e = e' by rewrite -(modn_small He) -(modn_small He') -(modnMDl (kron B k)) -(modnMDl (kron B l) e') ![(_ * B)%N]mulnC ![(B * _ + _)%N]addnC E.
rewrite E1; congr (_ :: _); apply: IH => //.
move/eqP: E; rewrite E1 eqn_add2l eqn_mul2l => /orP [/eqP|/eqP //]; lia.
Qed.

Lemma mon_kron B k : mon (fun i => 'X^(B ^ i) : {poly F}) k = 'X^(kron B k).
Proof.
rewrite /mon.
suff H : forall j, \prod_(i < size k) ('X^(B ^ (j + i)) : {poly F}) ^+ nth 0%N k i = 'X^(B ^ j * kron B k).
  by have := H 0%N; rewrite expn0 mul1n.
elim: k => [|e k IH] j /=; first by rewrite big_ord0 muln0 expr0.
rewrite big_ord_recl /= addn0 -exprM.
have -> : \prod_(i < size k) ('X^(B ^ (j + bump 0 i)) : {poly F}) ^+ nth 0%N (e :: k) (bump 0 i) =
          'X^(B ^ j.+1 * kron B k).
  by rewrite -IH; apply: eq_bigr => i _; rewrite /bump /= add1n addnS addSn.
by rewrite -exprD; congr ('X^_); rewrite expnS mulnDr mulnA (mulnC (B ^ j)%N B).
Qed.

Lemma coef_kron n B p k : wf n p -> size k = n -> all (fun e => e < B)%N k ->
  all (fun l => all (fun e => e < B)%N l) (mkeys p) ->
  (meval [rmorphism of polyC] (fun i => 'X^(B ^ i) : {poly F}) p)`_(kron B k) = dict_get p k.
Proof.
move=> W S Hk /allP Hp; rewrite /meval coef_sum.
have E : forall kc, kc \in p ->
   ((kc.2)%:P * mon (fun i => 'X^(B ^ i)) kc.1)`_(kron B k) = if kc.1 == k then kc.2 else 0.
  move=> kc I; rewrite coefCM mon_kron coefXn.
  have K : kc.1 \in mkeys p by apply: map_f.
  case: eqP => [E|N]; last first.
    by case: eqP => [E|_]; rewrite ?mulr0 //; case: N; rewrite E.
  by rewrite (kron_inj (esym (etrans (wf_size W K) (esym S))) Hk (Hp _ K) E) eqxx mulr1.
rewrite big_seq (eq_bigr _ E) -big_seq.
move: (wf_uniq W) => {Hp W E}; elim: p => [|[l x] p IH] /=; first by rewrite big_nil.
move=> /andP [N U]; rewrite big_cons /= IH //; case: eqP => [E|_]; last by rewrite add0r.
by rewrite dict_get_notin ?addr0 // -E.
Qed.

Definition key_bound (ks : seq key) : nat := (\max_(k <- ks) \max_(e <- k) e).+1.

Lemma key_boundP ks k : k \in ks -> all (fun e => e < key_bound ks)%N k.
Proof.
move=> I; apply/allP => e J; rewrite ltnS.
apply: (leq_trans (n := \max_(e <- k) e)); first by rewrite (big_rem e) //= leq_maxl.
by rewrite (big_rem k) //= leq_maxl.
Qed.

Lemma meval_inj n a b : wf n a -> wf n b ->
  (forall v : nat -> {poly F}, meval [rmorphism of polyC] v a = meval [rmorphism of polyC] v b) ->
  forall k, dict_get a k = dict_get b k.
Proof.
move=> Wa Wb E k.
case: (boolP ((k \in mkeys a) || (k \in mkeys b))) => [I|]; last first.
  by rewrite negb_or => /andP [Na Nb]; rewrite !dict_get_notin.
pose ks := mkeys a ++ mkeys b; pose B := key_bound ks.
have H : forall l, l \in ks -> all (fun e => e < B)%N l by move=> l; apply: key_boundP.
have Ik : k \in ks by rewrite mem_cat.
have Sk : size k = n by case/orP: I; [exact: wf_size Wa|exact: wf_size Wb].
rewrite -(@coef_kron n B a) ?H //; last by apply/allP => l J; apply: H; rewrite mem_cat J.
rewrite -(@coef_kron n B b) ?H //; last by apply/allP => l J; apply: H; rewrite mem_cat J orbT.
by rewrite E.
Qed.

(** ** Equality *)
Lemma sum_power_max k : sum_power_tuple k = (\sum_(e <- k) e)%N.
Proof.
rewrite /sum_power_tuple; suff H : forall m, foldl addn m k = (m + \sum_(e <- k) e)%N by rewrite H.
by elim: k => [|e k IH] m /=; rewrite ?big_nil ?addn0 // big_cons IH addnA.
Qed.

Lemma mdegreeE p : mdegree p = (\max_(k <- mkeys p) \sum_(e <- k) e)%N.
Proof.
rewrite /mdegree; suff H : forall m ks, foldl (fun m k => if (m < sum_power_tuple k)%N
    then sum_power_tuple k else m) m ks = maxn m (\max_(k <- ks) \sum_(e <- k) e)%N.
  by rewrite H max0n.
move=> m ks; elim: ks m => [|k ks IH] m /=; first by rewrite big_nil maxn0.
by rewrite IH big_cons sum_power_max maxnA; congr maxn; rewrite /maxn.
Qed.

Lemma meqP n a b : wf n a -> wf n b -> reflect (forall k, dict_get a k = dict_get b k) (meq a b).
Proof.
move=> Wa Wb; apply: (iffP idP) => [/and3P [_ /andP [/allP Hab /allP Hba] /allP E] k|E].
  case: (boolP (k \in mkeys a)) => [I|N]; first by move: (E _ I); rewrite !mgetitemE => /eqP.
  rewrite !dict_get_notin //; by apply/negP => /Hba; rewrite (negbTE N).
have P := wf_ext Wa Wb E; have K := perm_mem (perm_map (fun kc : key * F => kc.1) P).
apply/and3P; split.
- by rewrite !mdegreeE; apply/eqP; apply: perm_big; apply: perm_map.
- by apply/andP; split; apply/allP => k; rewrite K.
by apply/allP => k _; rewrite !mgetitemE E.
Qed.

(** ** Dict order does not matter *)
Lemma miter_perm a a' : uniq (mkeys a) -> perm_eq a a' -> miter a = miter a'.
Proof.
move=> U P; rewrite /miter.
have -> : sort tuple_leq (mkeys a) = sort tuple_leq (mkeys a').
  apply/perm_sortP; [exact: tuple_leq_total|exact: tuple_leq_trans|exact: tuple_leq_anti|].
  exact: perm_map.
by apply: eq_map => k; rewrite (get_perm k U P).
Qed.

Lemma madd_perm n a a' b b' : wf n a -> wf n b -> perm_eq a a' -> perm_eq b b' ->
  perm_eq (madd a b) (madd a' b').
Proof.
move=> Wa Wb Pa Pb.
have Wa' : wf n a' by rewrite -(wf_perm _ Pa).
have Wb' : wf n b' by rewrite -(wf_perm _ Pb).
apply: (@wf_ext n); try exact: wf_add.
apply: (@meval_inj n); try exact: wf_add.
by move=> v; rewrite !(@meval_addE n) // (meval_perm _ _ Pa) (meval_perm _ _ Pb).
Qed.

(** ** Evaluation by [__call__] *)
Section CallSpec.
Variables (T : Type) (emb : F -> T) (tadd tmul : T -> T -> T) (tpow : T -> nat -> result T).
Variables (P : T -> Prop).
Variables (R : comRingType) (phi : {rmorphism F -> R}) (h : T -> R).
Hypothesis Pemb : forall x, P (emb x).
Hypothesis Padd : forall x y : T, P x -> P y -> P (tadd x y).
Hypothesis Pmul : forall x y : T, P x -> P y -> P (tmul x y).
Hypothesis Ppow : forall (x : T) d, P x -> exists y, tpow x d = Ok y /\ P y /\ h y = h x ^+ d.
Hypothesis hemb : forall x, h (emb x) = phi x.
Hypothesis hadd : forall x y : T, P x -> P y -> h (tadd x y) = h x + h y.
Hypothesis hmul : forall x y : T, P x -> P y -> h (tmul x y) = h x * h y.

Lemma mcall_gen_size n p vals : size vals != n ->
  mcall_gen emb tadd tmul tpow n p vals = Err AssertionError.
Proof. by rewrite /mcall_gen => /negbTE ->. Qed.

Lemma mcall_mon (vals : seq T) k : (forall x : T, List.In x vals -> P x) ->
  forall j c, P c -> (j + size k <= size vals)%N ->
  exists r, foldM (fun prod (ip : nat * nat) =>
        let* v := py_nth vals (Z.of_nat ip.1) in
        let* w := tpow v ip.2 in Ok (tmul prod w)) (zip (iota j (size k)) k) c = Ok r /\ P r /\
    h r = h c * \prod_(i < size k) h (nth (emb 0) vals (j + i)) ^+ nth 0%N k i.
Proof.
move=> Pv; elim: k => [|e k IH] j c Pc S.
  by exists c; rewrite big_ord0 mulr1.
have Hj : (j < size vals)%N by move: S => /=; lia.
rewrite [zip _ _]/= foldMS (py_nth_ok (emb 0) Hj) bind_ok.
have Pj : P (nth (emb 0) vals j).
  by apply: Pv; clear -Hj; elim: vals j Hj => [|x l IHl] [|j] //= Hj; [left|right; apply: IHl].
have [w [-> [Pw Ew]]] := Ppow e Pj; rewrite !bind_ok.
have [|r [-> [Pr Er]]] := IH j.+1 (tmul c w) (Pmul Pc Pw); first by move: S => /=; lia.
exists r; split=> //; split=> //; rewrite Er hmul // Ew big_ord_recl addn0 mulrA.
by congr (_ * _); apply: eq_bigr => i _; rewrite lift0 /= addnS addSn.
Qed.

Lemma mcall_gen_spec n p vals : (forall x : T, List.In x vals -> P x) -> wf n p -> size vals = n ->
  exists r, mcall_gen emb tadd tmul tpow n p vals = Ok r /\ P r /\
    h r = meval phi (fun i => h (nth (emb 0) vals i)) p.
Proof.
move=> Pv W S; rewrite /mcall_gen S eqxx bind_ok.
rewrite -(meval_perm _ _ (perm_iter (wf_uniq W))).
have := wf_sizes (wf_iter W).
suff H : forall l y, P y -> all (fun kc : key * F => size kc.1 == n) l ->
  exists r, foldM (fun y (kc : key * F) =>
    let* prod := foldM (fun prod (ip : nat * nat) =>
        let* v := py_nth vals (Z.of_nat ip.1) in
        let* w := tpow v ip.2 in
        Ok (tmul prod w)) (enumerate kc.1) (emb 1) in
    Ok (tadd y (tmul (emb kc.2) prod))) l y = Ok r /\ P r /\
   h r = h y + meval phi (fun i => h (nth (emb 0) vals i)) l.
  by move=> A; have [r [-> [Pr Er]]] := H _ _ (Pemb 0) A; exists r; rewrite Er hemb rmorph0 add0r.
elim=> [|[k x] l IH] y Py; first by exists y; rewrite /meval big_nil addr0.
move=> /andP [/eqP Sk A]; rewrite foldMS.
have [|m [E [Pm Em]]] := mcall_mon (k := k) Pv (j := 0%N) (Pemb 1); first by rewrite S -Sk.
rewrite [enumerate _]/enumerate E !bind_ok.
have Pt : P (tmul (emb x) m) by apply: Pmul.
have [r [-> [Pr Er]]] := IH _ (Padd Py Pt) A.
exists r; split=> //; split=> //; rewrite Er hadd // hmul // !hemb Em hemb rmorph1 mul1r.
by rewrite [in RHS]/meval big_cons addrA; congr (_ + _ + _).
Qed.
End CallSpec.

(** at field elements *)
Lemma mcallE n p (vals : seq F) : wf n p -> size vals = n ->
  mcall n p vals = Ok (meval [rmorphism of idfun] (nth 0 vals) p).
Proof.
move=> W S.
have [] := @mcall_gen_spec F id +%R *%R (fun x d => dom_pow 1 *%R x (Z.of_nat d)) (fun=> True)
   [comRingType of F] [rmorphism of idfun] id _ _ _ _ _ _ _ n p vals _ W S => //.
  move=> x d _; exists (x ^+ d); split=> //.
  rewrite dom_pow_iter; [|exact: mulrA|exact: mul1r|exact: mulr1].
  by congr Ok; elim: d => //= d ->; rewrite exprS.
by move=> r [E [_ Er]]; rewrite /mcall E; congr Ok.
Qed.

(** at multivariate polynomials *)
Lemma mcompose_spec n n' p (vals : seq (mpoly F)) : wf n p -> size vals = n ->
  (forall q, List.In q vals -> wf n' q) ->
  exists r, mcompose n n' p vals = Ok r /\ wf n' r /\
    forall (R : comRingType) (phi : {rmorphism F -> R}) v,
      meval phi v r = meval phi (fun i => meval phi v (nth [::] vals i)) p.
Proof.
move=> W S Wv.
have H : forall (R : comRingType) (phi : {rmorphism F -> R}) v,
  exists r, mcompose n n' p vals = Ok r /\ wf n' r /\
    meval phi v r = meval phi (fun i => meval phi v (nth (mconst n' 0) vals i)) p.
  move=> R phi v.
  apply: (@mcall_gen_spec (mpoly F) (mconst n') (@madd F) (@mmul F) (mpow n') (fun q => wf n' q)
     R phi (meval phi v)) => //.
  - by move=> x; exact: wf_const.
  - by move=> q1 q2; exact: wf_add.
  - by move=> q1 q2; exact: wf_mul.
  - by move=> q d Wx; have [r [E [Wr Er]]] := mpow_spec d Wx; exists r; split=> //; split.
  - by move=> x; rewrite meval_const.
  - by move=> q1 q2; exact: meval_addE.
  - by move=> q1 q2 Wx Wy; have [_ ->] := mul_spec Wx Wy.
have [r [E [Wr _]]] := H _ [rmorphism of idfun] (fun=> 0).
exists r; split=> //; split=> // R phi v.
have [r' [E' [_ Er]]] := H R phi v; move: E' Er; rewrite E => -[<-] ->.
by rewrite /meval; apply: eq_bigr => kc _; rewrite /mon; congr (_ * _); apply: eq_bigr => i _;
   rewrite (_ : mconst n' 0 = [::]) // /mconst /= eqxx.
Qed.

(** at univariate polynomials *)
Lemma mcall_polyE n p (vals : seq (seq F)) : wf n p -> size vals = n ->
  (forall q, List.In q vals -> normal q) ->
  mcall_poly n p vals = Ok (polyseq (meval [rmorphism of polyC] (fun i => Poly (nth [::] vals i)) p)).
Proof.
move=> W S Nv.
have [] := @mcall_gen_spec (seq F) (@pconst F) (@padd F) (@pmul F) (fun q d => ppow q (Z.of_nat d))
   (fun q => normal q) [comRingType of {poly F}] [rmorphism of polyC] (fun q => Poly q)
   _ _ _ _ _ _ _ n p vals Nv W S => //.
- by move=> x; exact: normal_pconst.
- by move=> q1 q2 Nx Ny; exact: normal_padd.
- by move=> q1 q2 Nx Ny; exact: normal_pmul.
- move=> q d Nx; exists (polyseq (Poly q ^+ d)); rewrite ppow_nat //; split=> //.
  by split; [exact: normal_polyseq|rewrite polyseqK].
- by move=> x; rewrite Poly_pconst.
- by move=> q1 q2 _ _; rewrite Poly_padd.
- by move=> q1 q2 _ _; rewrite Poly_pmul.
move=> r [E [Nr Er]]; rewrite /mcall_poly E; congr Ok.
rewrite -(PolyK_normal Nr) Er; congr polyseq.
rewrite /meval; apply: eq_bigr => kc _; rewrite /mon; congr (_ * _); apply: eq_bigr => i _.
by rewrite (_ : pconst 0 = [::]) // /pconst /pmk /strip /= eqxx.
Qed.
End MultiProofs.
