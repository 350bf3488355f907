(** Lemmas about the AIR model (AirModel.v). *)
From Verif Require Import Prelude PowModel PowProofs PolyModel PolyProofs InterpProofs FftProofs
  FiniteFieldProofs MultiModel MultiProofs MultiUtilsProofs AirModel.
From mathcomp Require Import zify ssrZ.
Set Implicit Arguments.
Unset Strict Implicit.
Unset Printing Implicit Defensive.
Import GRing.Theory.
Local Open Scope ring_scope.
Local Open Scope py_scope.

Lemma nth_error_size (A : Type) (d : A) (l : seq A) i : (i < size l)%N -> List.nth_error l i = Some (nth d l i).
Proof. by elim: l i => [|x l IH] [|i] //= H; rewrite IH. Qed.

Lemma py_nth_last (A : Type) (l : seq A) x : py_nth (rcons l x) (-1) = Ok x.
Proof.
rewrite /py_nth; have S : length (rcons l x) = (size l).+1 by exact: size_rcons.
rewrite S; have -> : (-1 <? 0)%Z = true by [].
have -> : ((-1 + Z.of_nat (size l).+1 <? 0) || (Z.of_nat (size l).+1 <=? -1 + Z.of_nat (size l).+1))%Z = false by lia.
have -> : Z.to_nat (-1 + Z.of_nat (size l).+1) = size l by lia.
rewrite (nth_error_size x) ?size_rcons //.
by rewrite nth_rcons ltnn eqxx.
Qed.

Lemma py_nth_err (A : Type) (l : seq A) i : (size l <= i)%N -> py_nth l (Z.of_nat i) = Err IndexError.
Proof.
move=> H; rewrite /py_nth; have -> : length l = size l by [].
have -> : (Z.of_nat i <? 0)%Z = false by lia.
by have -> : ((Z.of_nat i <? 0) || (Z.of_nat (size l) <=? Z.of_nat i))%Z = true by lia.
Qed.

Lemma foldl_all (A : Type) (f : A -> bool) l b : foldl (fun t j => t && f j) b l = b && all f l.
Proof. by elim: l b => [|x l IH] b /=; rewrite ?andbT // IH andbA. Qed.

Lemma foldl_maxn l x : foldl maxn x l = maxn x (\max_(y <- l) y)%N.
Proof. by elim: l x => [|y l IH] x /=; rewrite ?big_nil ?maxn0 // IH big_cons maxnA. Qed.

Section AirProofs.
Variable F : fieldType.
Notation state := (seq F).
Implicit Types (s : state) (ps : seq (mpoly F)).

(** The value of a polynomial at a state, written out. *)
Definition peval (p : mpoly F) s : F :=
  \sum_(kc <- p) kc.2 * \prod_(i < size s) s`_i ^+ nth 0%N kc.1 i.

Lemma pevalE p s : wf (size s) p -> peval p s = meval [rmorphism of idfun] (nth 0 s) p.
Proof.
move=> W; rewrite /meval /peval big_seq [RHS]big_seq; apply: eq_bigr => kc K.
by congr (_ * _); rewrite (mon_wide _ (n := size s)) // (wf_size W) // map_f.
Qed.

Lemma mcall_peval n p s : wf n p -> size s = n -> mcall n p s = Ok (peval p s).
Proof. by move=> W S; rewrite mcallE // pevalE ?S. Qed.

Lemma meval_eq n p (R : comRingType) (phi : {rmorphism F -> R}) v v' : wf n p ->
  (forall i, (i < n)%N -> v i = v' i) -> meval phi v p = meval phi v' p.
Proof.
move=> W E; rewrite /meval big_seq [RHS]big_seq; apply: eq_bigr => kc K; congr (_ * _).
rewrite /mon; apply: eq_bigr => i _; rewrite E //.
by rewrite -(wf_size W (map_f (fun kc => kc.1) K)).
Qed.

(** One step of the computation. *)
Definition step (w : nat) ps s : state := [seq peval (nth [::] ps j) s | j <- iota 0 w].
Lemma size_step w ps s : size (step w ps s) = w. Proof. by rewrite size_map size_iota. Qed.
Lemma nth_step w ps s j : (j < w)%N -> (step w ps s)`_j = peval (nth [::] ps j) s.
Proof. by move=> H; rewrite (nth_map 0%N) ?size_iota // nth_iota. Qed.

Definition polys_ok w ps := (w <= size ps)%N && all (wf w) (take w ps).
Lemma polys_wf w ps j : polys_ok w ps -> (j < w)%N -> wf w (nth [::] ps j).
Proof.
move=> /andP [S /allP A] H; rewrite -(nth_take [::] H); apply: A; apply: mem_nth.
by rewrite size_takel.
Qed.
Lemma polys_size w ps : polys_ok w ps -> (w <= size ps)%N. Proof. by case/andP. Qed.

Lemma next_stateE w ps s : polys_ok w ps -> size s = w -> next_state w ps s = Ok (step w ps s).
Proof.
move=> O S; apply: mapM_ok_in => j; rewrite mem_iota => /andP [_ Hj].
rewrite (py_nth_ok [::]); last by exact: leq_trans Hj (polys_size O).
by rewrite bind_ok mcall_peval // polys_wf.
Qed.

Definition traj w ps s n : seq state := [seq iter i (step w ps) s | i <- iota 0 n].
Lemma size_traj w ps s n : size (traj w ps s n) = n. Proof. by rewrite size_map size_iota. Qed.
Lemma nth_traj w ps s n i : (i < n)%N -> nth [::] (traj w ps s n) i = iter i (step w ps) s.
Proof. by move=> H; rewrite (nth_map 0%N) ?size_iota // nth_iota. Qed.
Lemma trajS w ps s n : traj w ps s n.+1 = s :: traj w ps (step w ps s) n.
Proof.
rewrite /traj /=; congr (_ :: _); rewrite -[1%N]addn0 iotaDl -map_comp.
by apply: eq_map => i; exact: iterSr.
Qed.
Lemma traj_last w ps s n : traj w ps s n.+1 = rcons (traj w ps s n) (iter n (step w ps) s).
Proof. by rewrite /traj -addn1 iotaD map_cat cats1. Qed.

Lemma iter_size w ps s i : size s = w -> size (iter i (step w ps) s) = w.
Proof. by move=> S; case: i => //= i; rewrite size_step. Qed.

Lemma trace_loop w ps l tr s : polys_ok w ps -> size s = w ->
  foldM (fun trace (_ : nat) =>
      let* prev := py_nth trace (-1) in
      let* next := next_state w ps prev in
      Ok (trace ++ [:: next])) l (rcons tr s) = Ok (tr ++ traj w ps s (size l).+1).
Proof.
move=> O; elim: l tr s => [|x l IH] tr s S; first by rewrite /= -cats1.
rewrite foldMS py_nth_last bind_ok next_stateE // !bind_ok cats1 IH ?size_step //.
by rewrite [size _]/= [in RHS]trajS cat_rcons.
Qed.

Lemma get_traceE inp steps w ps : polys_ok w ps -> size inp = w ->
  get_computational_trace inp steps w ps =
    Ok (traj w ps inp (steps - 1).+1, iter (steps - 1) (step w ps) inp).
Proof.
move=> O S; rewrite /get_computational_trace -[[:: inp]]/(rcons [::] inp) trace_loop //.
by rewrite bind_ok cat0s size_iota {1}traj_last py_nth_last bind_ok.
Qed.

(** ** Witness and boundary *)
Lemma generate_witnessE steps w (tr : seq state) : (steps <= size tr)%N ->
  (forall i, (i < steps)%N -> (w <= size (nth [::] tr i))%N) ->
  generate_witness steps w tr =
    Ok [seq [seq (nth [::] tr i)`_j | i <- iota 0 steps] | j <- iota 0 w].
Proof.
move=> S H; apply: mapM_ok_in => j; rewrite mem_iota => /andP [_ Hj].
apply: mapM_ok_in => i; rewrite mem_iota => /andP [_ Hi].
rewrite (py_nth_ok [::]); last exact: leq_trans Hi S.
by rewrite bind_ok (py_nth_ok 0) //; apply: leq_trans Hj (H _ Hi).
Qed.

Lemma boundaryE w (inp : state) : (w <= size inp)%N ->
  generate_boundary_constraints w inp = Ok [seq (0%N, j, inp`_j) | j <- iota 0 w].
Proof.
move=> S; apply: mapM_ok_in => j; rewrite mem_iota => /andP [_ Hj].
by rewrite (py_nth_ok 0) //; exact: leq_trans Hj S.
Qed.

(** ** Constraint polynomials *)
Lemma In_mem (T : eqType) (x : T) l : List.In x l -> x \in l.
Proof. by elim: l => //= y l IH [->|/IH H]; rewrite inE ?eqxx ?H ?orbT. Qed.

Lemma constraintsE w ps : polys_ok w ps ->
  exists cs, generate_constraint_polynomials w ps = Ok cs /\ size cs = w /\
    forall j, (j < w)%N -> wf (2 * w) (nth [::] cs j) /\
      exists c, [/\ nth [::] cs j = msub (mvar F (2 * w) (w + j)) c, wf (2 * w) c &
        forall (R : comRingType) (phi : {rmorphism F -> R}) v,
          meval phi v c = meval phi v (nth [::] ps j)].
Proof.
move=> O; rewrite /generate_constraint_polynomials.
set Xs := take w _; set Ys := drop w _.
have SX : size Xs = w by rewrite size_takel // size_map size_iota; lia.
have SY : size Ys = w by rewrite size_drop size_map size_iota; lia.
have NX i : (i < w)%N -> nth [::] Xs i = mvar F (2 * w) i.
  by move=> H; rewrite nth_take // (nth_map 0%N) ?size_iota ?nth_iota //; lia.
have NY i : (i < w)%N -> nth [::] Ys i = mvar F (2 * w) (w + i).
  by move=> H; rewrite nth_drop (nth_map 0%N) ?size_iota ?nth_iota //; lia.
have WX q : List.In q Xs -> wf (2 * w) q.
  move=> /In_mem /(nthP [::]) [i]; rewrite SX => Hi <-; rewrite NX //; apply: wf_mvar.
  by apply: leq_trans Hi _; lia.
have C j : (j < w)%N -> exists c, [/\ mcompose w (2 * w) (nth [::] ps j) Xs = Ok c, wf (2 * w) c &
   forall (R : comRingType) (phi : {rmorphism F -> R}) v, meval phi v c = meval phi v (nth [::] ps j)].
  move=> Hj; have Wp := polys_wf O Hj.
  have [c [E [Wc Ec]]] := mcompose_spec Wp SX WX; exists c; split=> // R phi v.
  rewrite Ec; apply: (meval_eq phi Wp) => i Hi; rewrite NX // meval_mvar //.
  by apply: leq_trans Hi _; lia.
pose G (j : nat) : mpoly F := if mcompose w (2 * w) (nth [::] ps j) Xs is Ok c
   then msub (mvar F (2 * w) (w + j)) c else [::].
exists [seq G j | j <- iota 0 w]; rewrite size_map size_iota; split; last split=> //.
  apply: mapM_ok_in => j; rewrite mem_iota => /andP [_ Hj].
  rewrite (py_nth_ok [::]); last by exact: leq_trans Hj (polys_size O).
  rewrite bind_ok (py_nth_ok [::]) ?SY // bind_ok NY // /G.
  by have [c [-> _ _]] := C _ Hj.
move=> j Hj; rewrite (nth_map 0%N) ?size_iota // nth_iota // add0n /G.
have [c [-> Wc Ec]] := C _ Hj.
by split; [apply: wf_sub => //; apply: wf_mvar; lia|exists c].
Qed.

Lemma constraint_value w ps cs s s' : polys_ok w ps -> generate_constraint_polynomials w ps = Ok cs ->
  size s = w -> size s' = w -> forall j, (j < w)%N ->
  mcall (2 * w) (nth [::] cs j) (s ++ s') = Ok (s'`_j - peval (nth [::] ps j) s).
Proof.
move=> O E S S' j Hj; have [cs' [E' [Sc H]]] := constraintsE O.
move: E'; rewrite E => -[Ecs]; subst cs'.
have [Wj [c [Ej Wc Ec]]] := H _ Hj.
rewrite mcallE ?size_cat ?S ?S' //; last by rewrite mul2n addnn.
congr Ok; rewrite Ej (@meval_sub _ (2 * w)) ?wf_mvar ?meval_mvar //; try by lia.
rewrite Ec nth_cat S ltnNge leq_addr /= addKn; congr (_ - _).
rewrite pevalE ?S ?polys_wf //; apply: (meval_eq _ (polys_wf O Hj)) => i Hi.
by rewrite nth_cat S Hi.
Qed.

Lemma circuitE steps w ps cs (tr : seq state) : polys_ok w ps ->
  generate_constraint_polynomials w ps = Ok cs -> (steps <= size tr)%N ->
  (forall i, (i < steps)%N -> size (nth [::] tr i) = w) ->
  generate_monotone_circuit steps w tr cs =
    Ok (all (fun i => nth [::] tr i.+1 == step w ps (nth [::] tr i)) (iota 0 (steps - 1))).
Proof.
move=> O E S H; have [cs' [E' [Sc _]]] := constraintsE O.
move: E'; rewrite E => -[E']; rewrite -E' in Sc.
pose v i j := (nth [::] tr i.+1)`_j - peval (nth [::] ps j) (nth [::] tr i).
rewrite /generate_monotone_circuit.
rewrite (mapM_ok_in (g := fun i => [seq v i j | j <- iota 0 w])); last first.
  move=> i; rewrite mem_iota => /andP [_ Hi].
  rewrite (py_nth_ok [::]) ?bind_ok; last by lia.
  have -> : (Z.of_nat i + 1 = Z.of_nat i.+1)%Z by lia.
  rewrite (py_nth_ok [::]) ?bind_ok; last by lia.
  apply: mapM_ok_in => j; rewrite mem_iota => /andP [_ Hj].
  by rewrite (py_nth_ok [::]) ?bind_ok ?Sc // (constraint_value O E) ?H //; lia.
rewrite bind_ok; congr Ok; rewrite -all_predC; apply: eq_in_all => i.
rewrite mem_iota => /andP [_ Hi] /=; rewrite add0n in Hi.
rewrite (nth_map 0%N) ?size_iota // nth_iota // add0n eqbF_neg negbK foldl_all /=.
rewrite (nth_map 0%N) ?size_iota // nth_iota // add0n.
apply/allP/eqP => [A|A].
  apply: (@eq_from_nth _ 0); first by rewrite size_step H //; lia.
  rewrite H; last by lia.
  move=> j Hj; rewrite nth_step //; apply/eqP; rewrite -subr_eq0.
  by have := A j; rewrite mem_iota => /(_ Hj); rewrite (nth_map 0%N) ?size_iota // nth_iota.
move=> j; rewrite mem_iota => /andP [_ Hj]; rewrite add0n in Hj.
by rewrite (nth_map 0%N) ?size_iota // nth_iota // add0n /v A nth_step // subrr.
Qed.

(** ** Degrees *)
Lemma dict_get_map (f : key -> F) ks k : dict_get [seq (k', f k') | k' <- ks] k = if k \in ks then f k else 0.
Proof.
elim: ks => //= k' ks IH; rewrite inE eq_sym; case: eqP => [->|_] //=; exact: IH.
Qed.

Lemma get_madd n (a b : mpoly F) k : wf n a -> wf n b ->
  dict_get (madd a b) k = dict_get a k + dict_get b k.
Proof.
move=> Wa Wb; rewrite /madd /mmk get_remove.
  rewrite (dict_get_map (fun k => mgetitem a k + mgetitem b k)) !mgetitemE mem_cat mem_filter.
  case: (boolP (k \in mkeys a)) => //= Na; rewrite (dict_get_notin Na) add0r.
  by case: (boolP (k \in mkeys b)) => //= Nb; rewrite (dict_get_notin Nb).
have := joint_uniq (wf_uniq Wa) (wf_uniq Wb); rewrite /mkeys -map_comp.
by rewrite (_ : [eta _] \o _ = id) ?map_id.
Qed.

Lemma get_mneg (a : mpoly F) k : uniq (mkeys a) -> dict_get (mneg a) k = - dict_get a k.
Proof.
move=> U; have M : [seq (kc.1, - kc.2) | kc <- miter a] = [seq (k, - dict_get a k) | k <- sort tuple_leq (mkeys a)].
  by rewrite /miter -map_comp.
rewrite /mneg /mmk M get_remove.
  rewrite (dict_get_map (fun k => - dict_get a k)) mem_sort.
  by case: ifPn => // N; rewrite dict_get_notin // oppr0.
by rewrite /mkeys -map_comp map_id_in // sort_uniq.
Qed.

Lemma mdegree_perm (a b : mpoly F) : perm_eq a b -> mdegree a = mdegree b.
Proof. by move=> P; rewrite !mdegreeE; apply: perm_big; apply: perm_map. Qed.

Definition pad (w : nat) (p : mpoly F) : mpoly F := [seq (kc.1 ++ nseq w 0%N, kc.2) | kc <- p].

Lemma nth_pad (k : key) w i : nth 0%N (k ++ nseq w 0%N) i = nth 0%N k i.
Proof.
rewrite nth_cat; case: ltnP => // H; rewrite nth_nseq if_same nth_default //.
Qed.

Lemma wf_pad w p : wf w p -> wf (2 * w) (pad w p).
Proof.
move=> W; apply/andP; split.
  have -> : mkeys (pad w p) = [seq k ++ nseq w 0%N | k <- mkeys p] by rewrite /mkeys -!map_comp.
  rewrite map_inj_uniq ?(wf_uniq W) // => k l /(congr1 rev).
  by rewrite !rev_cat => /eqP; rewrite eqseq_cat // => /andP [_ /eqP /(congr1 rev)]; rewrite !revK.
have /andP [_ /allP A] := W.
apply/allP => kc /mapP [kd I ->] /=; have /andP [/eqP Sk ->] := A _ I.
by rewrite size_cat size_nseq Sk mul2n addnn eqxx.
Qed.

Lemma meval_pad w p (R : comRingType) (phi : {rmorphism F -> R}) v :
  meval phi v (pad w p) = meval phi v p.
Proof.
rewrite /meval big_map; apply: eq_bigr => kc _; congr (_ * _).
rewrite [RHS](@mon_wide _ _ (size (kc.1 ++ nseq w 0%N))); last by rewrite size_cat leq_addr.
by rewrite /mon; apply: eq_bigr => i _; rewrite nth_pad.
Qed.

Lemma mdegree_pad w p : mdegree (pad w p) = mdegree p.
Proof.
rewrite !mdegreeE /mkeys !big_map; apply: eq_bigr => kc _.
rewrite big_cat /= [X in (_ + X)%N = _]big1_seq ?addn0 // => e /andP [_ /nseqP [-> _]] //.
Qed.

Lemma sum_unit i n : (i < n)%N -> (\sum_(e <- unit_tuple i n) e = 1)%N.
Proof.
move=> H; rewrite /unit_tuple big_cat big_cons /= !big1_seq //.
- by move=> e /andP [_ /nseqP [-> _]].
by move=> e /andP [_ /nseqP [-> _]].
Qed.

Lemma mdegree_constraint w j p c : (j < w)%N -> wf w p -> wf (2 * w) c ->
  (forall (R : comRingType) (phi : {rmorphism F -> R}) v, meval phi v c = meval phi v p) ->
  mdegree (msub (mvar F (2 * w) (w + j)) c) = maxn 1 (mdegree p).
Proof.
move=> Hj Wp Wc E; have Hi : (w + j < 2 * w)%N by lia.
have Pc : perm_eq c (pad w p).
  apply: (wf_ext Wc (wf_pad Wp)); apply: (meval_inj Wc (wf_pad Wp)) => v.
  by rewrite E meval_pad.
have Wv := wf_mvar F Hi; have Wn := wf_neg Wc.
have Kv : mkeys (mvar F (2 * w) (w + j)) = [:: unit_tuple (w + j) (2 * w)].
  by rewrite /mvar /mmk /remove_zero_coefficients /= oner_eq0.
have N : unit_tuple (w + j) (2 * w) \notin mkeys c.
  rewrite (perm_mem (perm_map _ Pc)); apply/negP => /mapP [kc /mapP [kd I ->]] /= Ek.
  have := congr1 (fun k => nth 0%N k (w + j)%N) Ek; rewrite nth_pad.
  rewrite [nth _ kd.1 _]nth_default; last by rewrite (wf_size Wp (map_f (fun kc => kc.1) I)) leq_addr.
  by rewrite nth_cat size_nseq ltnn subnn.
have K : perm_eq (mkeys (msub (mvar F (2 * w) (w + j)) c)) (mkeys (mvar F (2 * w) (w + j)) ++ mkeys c).
  apply: uniq_perm; first exact: wf_uniq (wf_sub Wv Wc).
    by rewrite Kv /= N (wf_uniq Wc).
  move=> k; rewrite (wf_get _ (wf_sub Wv Wc)) mem_cat (wf_get _ Wv) (wf_get _ Wc).
  rewrite (get_madd _ Wv Wn) get_mneg ?(wf_uniq Wc) //.
  case: (boolP (k \in mkeys c)) => [I|/dict_get_notin ->]; last by rewrite subr0 eqxx orbF.
  rewrite [dict_get (mvar _ _ _) k]dict_get_notin ?add0r ?oppr_eq0 ?eqxx //.
  by rewrite Kv inE; apply: contraNN N => /eqP <-.
rewrite mdegreeE (perm_big _ K) big_cat Kv /= big_seq1 sum_unit //.
by rewrite -mdegreeE (mdegree_perm Pc) mdegree_pad.
Qed.

Lemma py_maxE (l : seq nat) : (0 < size l)%N -> py_max l = Ok (\max_(x <- l) x)%N.
Proof. by case: l => //= x l _; rewrite foldl_maxn big_cons. Qed.

Lemma max_spec (T : Type) (f : T -> nat) (l : seq T) :
  (forall x, List.In x l -> f x <= \max_(y <- [seq f z | z <- l]) y)%N /\
  (l <> [::] -> exists2 x, List.In x l & f x = \max_(y <- [seq f z | z <- l]) y)%N.
Proof.
elim: l => [|a l [IH1 IH2]]; first by split.
rewrite /= big_cons; split=> [x [->|Hx]|_]; first exact: leq_maxl.
  by apply: (leq_trans (IH1 _ Hx)); exact: leq_maxr.
case: l IH1 IH2 => [|b l] IH1 IH2; first by exists a; [left | rewrite big_nil maxn0].
have [x Hx Ex] := IH2 ltac:(done).
move: (\max_(y <- _) y)%N Ex => M Ex.
case: (leqP (f a) M) => H.
  by exists x; [right | rewrite Ex].
by exists a; [left | ].
Qed.

Lemma C_degreeE w ps cs : polys_ok w ps -> generate_constraint_polynomials w ps = Ok cs ->
  C_degree w cs = if (0 < w)%N then Ok (maxn 1 (\max_(p <- take w ps) mdegree p)%N) else Err ValueError.
Proof.
move=> O E; have [cs' [E' [Sc H]]] := constraintsE O.
move: E'; rewrite E => -[Ecs]; subst cs'.
rewrite /C_degree (mapM_ok_in (g := fun j => maxn 1 (mdegree (nth [::] ps j)))); last first.
  move=> j; rewrite mem_iota add0n => Hj; rewrite (py_nth_ok [::]) ?Sc // bind_ok; congr Ok.
  have [Wj [c [-> Wc Ec]]] := H _ Hj.
  exact: mdegree_constraint (polys_wf O Hj) Wc Ec.
rewrite bind_ok; case: ifP => [Hw|/negbT]; last by rewrite -eqn0Ngt => /eqP ->.
rewrite py_maxE ?size_map ?size_iota // big_map; congr Ok.
have -> : take w ps = [seq nth [::] ps j | j <- iota 0 w].
  apply: (@eq_from_nth _ [::]); rewrite size_takel ?(polys_size O) ?size_map ?size_iota //.
  by move=> j Hj; rewrite nth_take // (nth_map 0%N) ?size_iota // nth_iota.
rewrite big_map; case: w Hw {O E Sc H} => // w _.
rewrite big_split /=; congr (maxn _ _); rewrite big_cons.
by elim: (iota 1 w) => [|x l IH]; rewrite ?big_nil ?big_cons // maxnA maxnn.
Qed.
End AirProofs.
