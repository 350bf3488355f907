(** Property theorems C131, C132: number of terms and total degree of the results of the
    operations of starks/multivariate_polynomial.py, arguments of its constructor.

    Vocabulary: [wf n p] (MultiProofs.v): the dict p has no repeated key, its keys
    have length n and its coefficients are not zero; [mlen p] is len(p). *)
From mathcomp Require Import zify ssrZ.
From Verif Require Import Prelude BaseProofs PolyModel PolyProofs ModpModel ModpField FinFld
  FftProofs FiniteFieldProofs MultiModel MultiLenModel MultiProofs MultiSize.
Set Implicit Arguments.
Unset Strict Implicit.
Unset Printing Implicit Defensive.
Import GRing.Theory.
Local Open Scope ring_scope.
Local Open Scope py_scope.

Local Notation F5 := (modp_finFieldType P5).
Local Notation rd l := [seq (kc.1, in_modp P5 kc.2) | kc <- l].

(** len(p) counts the power tuples with nonzero coefficient: it is the size of every
    duplicate-free list of exactly these; it is 0 iff is_zero() *)
Theorem C131_len : forall (F : fieldType) n (p : mpoly F), wf n p ->
  (forall ks : seq key, uniq ks -> (forall k, (k \in ks) = (mgetitem p k != 0)) -> mlen p = size ks) /\
  (mlen p = 0%N <-> mis_zero p) /\ (mlen (mzero F) = 0%N) /\
  (mlen p = 0%N <-> forall k, mgetitem p k = 0).
Proof.
move=> F n p W.
have G k : mgetitem p k = dict_get p k.
  by rewrite /mgetitem; case: ifPn => // N; rewrite dict_get_notin.
have M k : (k \in mkeys p) = (mgetitem p k != 0) by rewrite G -(wf_get _ W).
split.
  move=> ks U H; rewrite /mlen -(size_map fst p); apply: perm_size; apply: uniq_perm => //.
    exact: wf_uniq W.
  by move=> k; rewrite H -M.
split; first by rewrite /mlen /mis_zero; split => [->|/eqP].
split=> //; split=> [/size0nil -> k|H]; first by [].
case: p H M {W G} => [|kc q] // H /(_ kc.1); rewrite H eqxx /=.
by rewrite /mkeys /= mem_head.
Qed.
Print Assumptions C131_len.

Theorem C131_len_operations : forall (F : fieldType) n (a b : mpoly F), wf n a -> wf n b ->
  [/\ mlen (mneg a) = mlen a, (mlen (madd a b) <= mlen a + mlen b)%N,
      (mlen (msub a b) <= mlen a + mlen b)%N, (mlen (mmul a b) <= mlen a * mlen b)%N &
      mlen (mmul a b) = 0%N <-> mlen a = 0%N \/ mlen b = 0%N].
Proof.
move=> F n a b Wa Wb; split.
- exact: mlen_neg Wa.
- exact: mlen_add.
- exact: mlen_sub Wb.
- exact: mlen_mul.
split=> [/eqP|H]; first by rewrite (mlen_mul_eq0 Wa Wb) => /orP [] /eqP; [left|right].
by apply/eqP; rewrite (mlen_mul_eq0 Wa Wb); case: H => ->; rewrite ?eqxx ?orbT.
Qed.
Print Assumptions C131_len_operations.

(** Degrees behave as those of polynomials over a field *)
Theorem C131_degree_operations : forall (F : fieldType) n (a b : mpoly F), wf n a -> wf n b ->
  [/\ mdegree (mneg a) = mdegree a,
      (mdegree (madd a b) <= maxn (mdegree a) (mdegree b))%N,
      mdegree a <> mdegree b -> mdegree (madd a b) = maxn (mdegree a) (mdegree b) &
      mdegree (mmul a b) = if mis_zero a || mis_zero b then 0%N else (mdegree a + mdegree b)%N].
Proof.
move=> F n a b Wa Wb; have [A1 A2] := mdegree_add Wa Wb; split=> //.
- exact: mdegree_neg Wa.
- by move/eqP.
case: ifPn => [Z|]; first by rewrite /mmul Z.
by rewrite negb_or => /andP [Na Nb]; exact: mdegree_mul Wa Wb Na Nb.
Qed.
Print Assumptions C131_degree_operations.

Theorem C131_degree_sub : forall (F : fieldType) n (a b : mpoly F), wf n a -> wf n b ->
  (mdegree (msub a b) <= maxn (mdegree a) (mdegree b))%N /\
  (mdegree a <> mdegree b -> mdegree (msub a b) = maxn (mdegree a) (mdegree b)).
Proof.
move=> F n a b Wa Wb; have [A1 A2] := mdegree_add Wa (wf_neg Wb).
by move: A1 A2; rewrite (mdegree_neg Wb) => A1 A2; split=> // /eqP.
Qed.
Print Assumptions C131_degree_sub.

Theorem C131_degree_pow : forall (F : fieldType) n (a : mpoly F) d, wf n a ->
  exists r, mpow n a d = Ok r /\ mdegree r = (d * mdegree a)%N.
Proof.
move=> F n a d W; have [r [E _]] := mpow_spec d W.
by exists r; split=> //; exact: mdegree_pow W E.
Qed.
Print Assumptions C131_degree_pow.

(** (X + 2Y)(X + 3Y) = X^2 + Y^2 over Z/5: 4 products, 2 terms, degree 2 *)
Example C131_example :
  let a : mpoly F5 := rd [:: ([:: 1%N; 0%N], 1%Z); ([:: 0%N; 1%N], 2%Z)] in
  let b : mpoly F5 := rd [:: ([:: 1%N; 0%N], 1%Z); ([:: 0%N; 1%N], 3%Z)] in
  [/\ wf 2 a, wf 2 b, mlen (mmul a b) = 2%N & mdegree (mmul a b) = 2%N] /\
  [/\ mlen (madd a b) = 1%N, mlen (msub a a) = 0%N & mdegree (mmul (mmul a b) b) = 3%N].
Proof. by vm_compute. Qed.

(** ** C132 *)
Theorem C132_constructor : forall (F : fieldType) (cast : Z -> F) n (c : marg F),
  match c with
  | AMulti p => wf n p -> mctor cast n c = Ok p
  | AElem x => exists r, [/\ mctor cast n c = Ok r, wf n r, mlen r = (if x == 0 then 0%N else 1%N),
      mdegree r = 0%N & forall (R : comRingType) (phi : {rmorphism F -> R}) v, meval phi v r = phi x]
  | ADict d => uniq (mkeys d) -> exists r, [/\ mctor cast n c = Ok r,
      forall k, mgetitem r k = mgetitem d k,
      forall k, (k \in mkeys r) = (mgetitem d k != 0) &
      wf n r <-> forall k, mgetitem d k != 0 -> size k = n]
  | AInt z => mctor cast n c = mctor cast n (AElem (cast z))
  | AOther => mctor cast n c = Err ValueError
  end.
Proof.
move=> F cast n [p|x|d|z|] //=.
- case/andP=> _ A; congr Ok; apply/all_filterP; apply: sub_all A => kc.
  by case/andP.
- exists (mconst n x); split=> //; first exact: wf_const.
  + by rewrite /mconst /mlen /remove_zero_coefficients /=; case: eqP.
  + rewrite /mconst /remove_zero_coefficients /=; case: eqP => // _.
    by rewrite mdegreeE /= big_seq1 big1_seq // => e /andP [_ /nseqP [->]].
  + by move=> R phi v; rewrite meval_const.
move=> U; exists (mmk d).
have Ur : uniq (mkeys (mmk d)).
  by apply: subseq_uniq U; apply: map_subseq; exact: filter_subseq.
have G (q : mpoly F) k : mgetitem q k = dict_get q k.
  by rewrite /mgetitem; case: ifPn => // N; rewrite dict_get_notin.
have M k : (k \in mkeys (mmk d)) = (mgetitem d k != 0).
  rewrite G; apply/idP/idP => [/mapP [kc]|N].
    by rewrite mem_filter => /andP [N I] ->; rewrite (dict_getE U I).
  have : k \in mkeys d by apply: contraNT N => N; rewrite dict_get_notin.
  case/mapP => kc I E; rewrite E; apply: map_f; rewrite mem_filter I andbT.
  by rewrite -(dict_getE U I) -E.
split=> //.
- move=> k; case: (boolP (k \in mkeys (mmk d))) => I; last first.
    by move: (I); rewrite M negbK => /eqP ->; rewrite /mgetitem (negbTE I).
  rewrite !G; case/mapP: I => kc I ->; rewrite (dict_getE Ur I).
  by move: I; rewrite mem_filter => /andP [_ I]; rewrite (dict_getE U I).
split=> [W k|S]; first by rewrite -M => /(wf_size W).
by rewrite /wf Ur; apply/allP => kc I; rewrite S -?M ?eqxx ?map_f //=; move: I; rewrite mem_filter => /andP [].
Qed.
Print Assumptions C132_constructor.

(** factory(step_fn=f) never returns, whatever f is; with coefficients it raises exactly when
    the constructor does, and no other call fails *)
Theorem C132_factory : forall (F : fieldType) (cast : Z -> F) n (S : Type) c (s : option S) e,
  mfactory cast n c s = Err e <->
    (e = NameError /\ (exists f, s = Some f) /\ (forall x : marg F, c <> Some x)) \/
    (e = ValueError /\ c = Some AOther).
Proof.
move=> F cast n S [[p|x|d|z|]|] [f|] e; split=> //=; try by move=> [[_ [_ H]]|[_ H]] //; case: (H _ erefl).
- by move=> [<-]; right.
- by move=> [[_ [_ H]]|[-> _]] //; case: (H _ erefl).
- by move=> [<-]; right.
- by move=> [[_ [_ H]]|[-> _]] //; case: (H _ erefl).
- by move=> [<-]; left; split=> //; split=> //; exists f.
- by move=> [[-> _]|[_]].
- by move=> [[_ [[? ?]]]|[_]].
Qed.
Print Assumptions C132_factory.

(** when it returns: the constructor's object, or None without arguments *)
Theorem C132_factory_result : forall (F : fieldType) (cast : Z -> F) n (S : Type) c (s : option S) r,
  mfactory cast n c s = Ok r <->
    [/\ c = None, s = None & r = None] \/ (exists x p, [/\ c = Some x, mctor cast n x = Ok p & r = Some p]).
Proof.
move=> F cast n S [x|] s r; split.
- by rewrite /=; case E: (mctor cast n x) => [p|e] //= [<-]; right; exists x, p.
- by case=> [[//]|[y [p [[<-] E ->]]]] /=; rewrite E.
- by case: s => //= [[<-]]; left.
- by case=> [[_ -> ->]|[y [p []]]].
Qed.
Print Assumptions C132_factory_result.

(** 7 is the constant 2 over Z/5, 10 is zero; zero coefficients and wrong lengths in a dict *)
Example C132_example :
  [/\ rmap (fun p => [seq (kc.1, mval kc.2) | kc <- p]) (mctor (in_modp P5) 2 (AInt F5 7)) = Ok [:: ([:: 0%N; 0%N], 2%Z)],
      mctor (in_modp P5) 2 (AInt F5 10) = Ok [::] &
      rmap (fun p => [seq (kc.1, mval kc.2) | kc <- p]) (mctor (in_modp P5) 2
        (ADict (rd [:: ([:: 1%N], 3%Z); ([:: 0%N; 1%N], 5%Z)] : mpoly F5))) = Ok [:: ([:: 1%N], 3%Z)]].
Proof. by vm_compute. Qed.
