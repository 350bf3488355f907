(** Proofs about the constraint polynomials of starks/apr.py and about
    starks/ali.py. *)
From Coq.Strings Require Import String.
From mathcomp Require Import zify ssrZ.
From Verif Require Import Prelude BaseProofs PowModel PowProofs PolyModel PolyProofs FftProofs InterpModel InterpProofs
  MultiModel MultiProofs ParserModel ParserProofs AirModel AirProofs AprModel AprProofs PhiModel.
Set Implicit Arguments.
Unset Strict Implicit.
Unset Printing Implicit Defensive.
Import GRing.Theory.
Local Open Scope ring_scope.
Local Open Scope py_scope.

(** [__pow__] returns for every multiplication *)
Lemma pow_loop_unit (A : Type) (mul : A -> A -> A) (one : A) fuel n Q R i :
  rmap (fun=> tt) (pow_loop A (fun x y => Ok (mul x y)) fuel n Q R i) =
  pow_loop unit (fun _ _ => Ok tt) fuel n tt tt i.
Proof.
elim: fuel Q R i => [//|f IH] Q R i /=.
case: (_ <=? n)%Z => //=.
by case: (_ =? i)%Z => /=; rewrite IH.
Qed.

Lemma dom_pow_returns (A : Type) (one : A) (mul : A -> A -> A) x (d : nat) :
  exists y, dom_pow one mul x (Z.of_nat d) = Ok y.
Proof.
have := @dom_pow_iter unit tt (fun _ _ => tt) (fun _ _ _ => erefl) (fun x => match x with tt => erefl end)
  (fun x => match x with tt => erefl end) tt d.
rewrite {1}/dom_pow {1}/pow_gen; set Q := if Z.odd _ then tt else tt.
have -> : Q = tt by case: Q.
rewrite -(@pow_loop_unit A mul one _ _ x (if Z.odd (Z.of_nat d) then x else one) 2).
rewrite /dom_pow /pow_gen; case: (pow_loop _ _ _ _ _ _ _) => //= y _; by exists y.
Qed.

Lemma foldM_returns (A : Type) (B : eqType) (f : A -> B -> result A) (l : seq B) :
  (forall a b, b \in l -> exists a', f a b = Ok a') -> forall a, exists a', foldM f l a = Ok a'.
Proof.
elim: l => [|b l IH] H a; first by exists a.
have [a1 E] := H a b (mem_head _ _).
have [|a2 E2] := IH _ a1; first by move=> a' b' Hb; apply: H; rewrite inE Hb orbT.
by exists a2; rewrite /= E /=.
Qed.

(** evaluation returns when there are as many values as variables, whatever the values *)
Lemma mcompose_returns (F : fieldType) n n' (p : mpoly F) vals : wf n p -> size vals = n ->
  exists r, mcompose n n' p vals = Ok r.
Proof.
move=> W S; rewrite /mcompose /mcall_gen S eqxx /=.
apply: foldM_returns => y kc Ic.
have Sk : size kc.1 = n.
  by have /allP/(_ _ Ic)/eqP := wf_sizes (wf_iter W).
suff [pr ->] : exists pr, foldM (fun prod (ip : nat * nat) =>
      let* v := py_nth vals (Z.of_nat ip.1) in let* w := mpow n' v ip.2 in Ok (mmul prod w))
      (enumerate kc.1) (mconst n' 1) = Ok pr by exists (madd y (mmul (mconst n' kc.2) pr)).
apply: foldM_returns => a ip Hip.
have Hi : (ip.1 < size vals)%N.
  rewrite S -Sk; case/(nthP (0%N, 0%N)): Hip => j.
  rewrite size_zip size_iota minnn => Hj <-.
  by rewrite nth_zip ?size_iota //= nth_iota.
rewrite (FiniteFieldProofs.py_nth_ok [::] Hi) bind_ok.
have [v E] := dom_pow_returns (mconst n' 1) (@mmul F) (nth [::] vals ip.1) ip.2.
by exists (mmul a v); rewrite /mpow E.
Qed.

Section Phi.
Variable F : fieldType.
Variable sdiv : str -> str -> result str.
Variable str_c : F -> str.

Lemma zpoly_normal (xs : seq F) : normal (zpoly xs).
Proof. by rewrite zpolyE; exact: normal_polyseq. Qed.

Lemma pdiv_one_zpoly (xs : seq F) : xs != [::] -> pdiv (pmk [:: 1]) (zpoly xs) = Ok [::].
Proof.
move=> N; rewrite pdivE; first last.
- by rewrite -size_eq0 size_zpoly.
- exact: zpoly_normal.
- exact: normal_pmk.
rewrite divp_small ?polyseq0 //.
rewrite zpolyE polyseqK size_prod_XsubC pmkE polyseqK.
rewrite (leq_ltn_trans (size_Poly _)) //=.
by case: xs N.
Qed.

Lemma str_to_multi_zero s : str_to_multi F (cp "0") s = Ok [::].
Proof. by rewrite /str_to_multi /= /mmk /remove_zero_coefficients /ring_int /= eqxx. Qed.

Lemma poly_to_multi_zero n a t :
  poly_to_multi str_c n a (prepr [seq str_c c | c <- [::]]) = Ok t -> t = [::].
Proof.
rewrite /poly_to_multi; case: (size_p _ _ _) => //= k.
by rewrite (str_to_multi_zero k) => -[].
Qed.

Lemma mmul0l (v : mpoly F) : mmul [::] v = [::].
Proof. by []. Qed.

Variables (nb w : nat) (Zb Eb : seq (seq F)) (zeta g : F) (H0 : seq F).

Lemma phi_pair_second P p0 p1 : H0 != [::] ->
  phi_pair sdiv str_c nb w Zb Eb zeta g (zpoly H0) P = Ok (p0, p1) -> p1 = [::].
Proof.
move=> N; rewrite /phi_pair pdiv_one_zpoly //=.
case: (mdivision _ _ _ _ _) => //= t0.
case E: (poly_to_multi _ _ _ _) => [t1|] //=; rewrite (poly_to_multi_zero E).
case: (tilde_expansion _ _ _ _ _) => //= e0.
case: (tilde_expansion _ _ _ _ _) => //= e1.
case: (mcompose _ _ _ _) => //= v0.
case: (tilde_expansion _ _ _ _ _) => //= e2.
case: (mcompose _ _ _ _) => //= v1.
by case=> _ <-.
Qed.

Lemma phi_pair_first P p0 p1 :
  (forall x y z, check_for_div (mrepr str_c nb.+1 (X_loc_p F nb)) = Ok x ->
     check_for_div (prepr [seq str_c c | c <- zpoly H0]) = Ok y ->
     sdiv x y = Ok z -> quotient_text z = cp "0") ->
  phi_pair sdiv str_c nb w Zb Eb zeta g (zpoly H0) P = Ok (p0, p1) -> p0 = [::].
Proof.
move=> S; rewrite /phi_pair.
rewrite /mdivision.
case Ex: (check_for_div (mrepr _ _ _)) => [x|] //.
case: (size_p _ _ _) => // k.
case Ey: (check_for_div (prepr _)) => [y|] //.
rewrite !bind_ok.
case Ez: (sdiv x y) => [z|] //; rewrite bind_ok (S _ _ _ Ex Ey Ez) str_to_multi_zero bind_ok.
case: (pdiv _ _) => // q; rewrite bind_ok.
case: (poly_to_multi _ _ _ _) => // t1; rewrite bind_ok.
case: (tilde_expansion _ _ _ _ _) => // e0; rewrite bind_ok.
case: (tilde_expansion _ _ _ _ (pmk [:: 0; g])) => // e1; rewrite bind_ok.
case: (mcompose _ _ _ _) => // v0; rewrite bind_ok.
rewrite bind_ok.
case: (tilde_expansion _ _ _ _ _) => // e2; rewrite bind_ok.
case: (mcompose _ _ _ _) => // v1; rewrite bind_ok.
by case=> <-.
Qed.

Lemma construct_PhiE Polys : construct_Phi sdiv str_c nb w Zb Eb zeta g H0 Polys =
  rmap (fun l => flatten [seq [:: p.1; p.2] | p <- l])
    (mapM (phi_pair sdiv str_c nb w Zb Eb zeta g (zpoly H0)) Polys).
Proof.
rewrite /construct_Phi.
suff H acc : foldM (fun Phis P =>
    let* (p0, p1) := phi_pair sdiv str_c nb w Zb Eb zeta g (zpoly H0) P in
    Ok (Phis ++ [:: p0; p1])) Polys acc =
  rmap (fun l => acc ++ flatten [seq [:: p.1; p.2] | p <- l])
    (mapM (phi_pair sdiv str_c nb w Zb Eb zeta g (zpoly H0)) Polys) by exact: H.
elim: Polys acc => [|P l IH] acc /=; first by rewrite cats0.
case: (phi_pair _ _ _ _ _ _ _ _ _ P) => [[p0 p1]|e] //=.
rewrite IH; case: (mapM _ l) => //= qs.
by rewrite -!catA.
Qed.
End Phi.

Lemma tilde_expansion_returns (F : fieldType) nb (Zb Eb : seq (seq F)) w nbr :
  (w <= size Zb)%N -> (w <= size Eb)%N ->
  exists qs, tilde_expansion nb Zb Eb (iota 0 w) nbr = Ok qs /\ size qs = w.
Proof.
move=> Hz He; rewrite /tilde_expansion.
set x := mmk _; set N := pcall_multi _ _ x.
rewrite (@mapM_ok_in _ _ _ (fun tau : nat =>
  madd (mmul (mmk [:: (nseq tau 0%N ++ 1%N :: nseq (size N - tau) 0%N, 1)])
     (pcall_multi nb.+1 (nth [::] Zb tau) N)) (pcall_multi nb.+1 (nth [::] Eb tau) N))); last first.
  move=> tau; rewrite mem_iota add0n => /andP [_ Ht].
  have Tz := leq_trans Ht Hz; have Te := leq_trans Ht He.
  rewrite (FiniteFieldProofs.py_nth_ok [::]) ?size_map // bind_ok (FiniteFieldProofs.py_nth_ok [::]) ?size_map // bind_ok.
  by rewrite !(nth_map [::]).
by eexists; split; first by []; rewrite size_map size_iota.
Qed.

Section Numbers.
Variable F : fieldType.
Variable val : F -> nat.
Variable sdiv : str -> str -> result str.
Local Notation str_c := (fun x => dec (val x)).

Lemma wf_X_loc nb : wf nb.+1 (X_loc F nb).
Proof. by apply: wf_mmk => // k; rewrite inE => /eqP ->; rewrite /= size_nseq. Qed.
Lemma wf_X_loc_p nb : wf nb.+1 (X_loc_p F nb).
Proof. exact: wf_mul (wf_X_loc nb) (wf_sub (wf_X_loc nb) (wf_const _ _)). Qed.

Lemma prepr_dec_check (l : seq F) : check_for_div (prepr [seq dec (val c) | c <- l]) =
  Ok (prepr [seq dec (val c) | c <- l]).
Proof. by case: l => // c l; rewrite (map_comp dec val (c :: l)) poly_text_check. Qed.

Lemma phi_pair_returns nb w (Zb Eb : seq (seq F)) zeta g (H0 : seq F) P z :
  (w <= size Zb)%N -> (w <= size Eb)%N -> wf (2 * w) P -> H0 != [::] ->
  sdiv (mrepr str_c nb.+1 (X_loc_p F nb)) (prepr [seq str_c c | c <- zpoly H0]) = Ok z ->
  quotient_text z = cp "0" ->
  phi_pair sdiv str_c nb w Zb Eb zeta g (zpoly H0) P = Ok ([::], [::]).
Proof.
move=> Hz He W N Es Eq; rewrite /phi_pair /mdivision /poly_to_multi.
rewrite (check_no_F (repr_no_F val nb.+1 (X_loc_p F nb))) bind_ok size_p_repr; last exact: wf_sizes (wf_X_loc_p nb).
rewrite bind_ok prepr_dec_check bind_ok Es bind_ok Eq str_to_multi_zero bind_ok pdiv_one_zpoly // bind_ok.
rewrite bind_ok prepr_dec_check bind_ok [prepr _]/(cp "0") (str_to_multi_zero F) bind_ok.
have T nbr := tilde_expansion_returns nb nbr Hz He.
have [e0 [-> S0]] := T (pmk [:: 0; 1]); rewrite bind_ok.
have [e1 [-> S1]] := T (pmk [:: 0; g]); rewrite bind_ok.
have [|v0 ->] := @mcompose_returns F (2 * w) nb.+1 P (e0 ++ e1) W; first by rewrite size_cat S0 S1 mul2n addnn.
rewrite !bind_ok.
have [e2 [-> S2]] := T (pmk [:: zeta; g]); rewrite bind_ok.
have [|v1 ->] := @mcompose_returns F (2 * w) nb.+1 P (e0 ++ e2) W; first by rewrite size_cat S0 S2 mul2n addnn.
by [].
Qed.

Lemma tilde_expansion_index nb (Zb Eb : seq (seq F)) w nbr : (size Zb < w)%N || (size Eb < w)%N ->
  tilde_expansion nb Zb Eb (iota 0 w) nbr = Err IndexError.
Proof.
move=> H; rewrite /tilde_expansion.
set x := mmk _; set N := pcall_multi _ _ x.
set Z_N := [seq _ | Zj <- Zb]; set E_N := [seq _ | Ej <- Eb].
have Sz : size Z_N = size Zb by rewrite size_map.
have Se : size E_N = size Eb by rewrite size_map.
rewrite -{}Sz -{}Se in H; move: Z_N E_N H => Z_N E_N H.
have : (minn (size Z_N) (size E_N) - 0 < w)%N by rewrite subn0 gtn_min.
rewrite -[in iota 0 _](subn0 w).
suff G : forall d j, (w - j = d)%N -> (j <= minn (size Z_N) (size E_N))%N -> (minn (size Z_N) (size E_N) < w)%N ->
  mapM (fun tau : nat =>
    let v := mmk [:: (nseq tau 0%N ++ 1%N :: nseq (size N - tau) 0%N, 1)] in
    let* z := py_nth Z_N (Z.of_nat tau) in
    let* e := py_nth E_N (Z.of_nat tau) in
    Ok (madd (mmul v z) e)) (iota j d) = Err IndexError.
  by rewrite subn0 => Hw; exact: (G _ _ erefl).
elim=> [|d IH] j Ed Hj Hw; first by move: Ed Hj Hw; clear; lia.
have [Lz|Lz] := ltnP j (size Z_N); last by rewrite /= py_nth_err.
have [Le|Le] := ltnP j (size E_N); last first.
  by rewrite /= (FiniteFieldProofs.py_nth_ok [::] Lz) /= py_nth_err.
rewrite [iota _ _]/= [mapM _ _]/= (FiniteFieldProofs.py_nth_ok [::] Lz) bind_ok (FiniteFieldProofs.py_nth_ok [::] Le) !bind_ok.
rewrite IH //; first by move: Ed; clear; lia.
by rewrite leq_min Lz Le.
Qed.

Lemma phi_pair_index nb w (Zb Eb : seq (seq F)) zeta g (H0 : seq F) P z : H0 != [::] ->
  sdiv (mrepr str_c nb.+1 (X_loc_p F nb)) (prepr [seq str_c c | c <- zpoly H0]) = Ok z ->
  quotient_text z = cp "0" -> (size Zb < w)%N || (size Eb < w)%N ->
  phi_pair sdiv str_c nb w Zb Eb zeta g (zpoly H0) P = Err IndexError.
Proof.
move=> N Es Eq H; rewrite /phi_pair /mdivision /poly_to_multi.
rewrite (check_no_F (repr_no_F val nb.+1 (X_loc_p F nb))) bind_ok size_p_repr; last exact: wf_sizes (wf_X_loc_p nb).
rewrite bind_ok prepr_dec_check bind_ok Es bind_ok Eq str_to_multi_zero bind_ok pdiv_one_zpoly // bind_ok.
rewrite bind_ok prepr_dec_check bind_ok [prepr _]/(cp "0") (str_to_multi_zero F) bind_ok.
by rewrite (tilde_expansion_index nb _ H).
Qed.
End Numbers.
