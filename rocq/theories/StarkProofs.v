(** Lemmas about the polynomial constructions of the STARK model (StarkModel.v),
    over an arbitrary field. *)
From Verif Require Import Prelude PowModel PowProofs PolyModel PolyProofs InterpModel InterpProofs
  FftModel FftProofs FiniteFieldProofs MultiModel MultiProofs MultiUtilsProofs AirProofs StarkModel.
From mathcomp Require Import zify ssrZ.
Set Implicit Arguments.
Unset Strict Implicit.
Unset Printing Implicit Defensive.
Import GRing.Theory.
Local Open Scope ring_scope.
Local Open Scope py_scope.

Lemma mapM_nth (A B : Type) (a : A) (b : B) (f : A -> result B) (Q : nat -> B -> Prop) (l : seq A) :
  (forall i, (i < size l)%N -> exists y, f (nth a l i) = Ok y /\ Q i y) ->
  exists ys, [/\ mapM f l = Ok ys, size ys = size l & forall i, (i < size l)%N -> Q i (nth b ys i)].
Proof.
elim: l Q => [|x l IH] Q Hq; first by exists [::].
have [y [Ey Qy]] := Hq 0%N erefl.
have [|ys [E S Qs]] := IH (fun i => Q i.+1); first by move=> i Hi; exact: (Hq i.+1).
exists (y :: ys); split; first by move: Ey => /= ->; rewrite bind_ok E bind_ok.
  by rewrite /= S.
by case.
Qed.

Lemma foldM_unit_ok (A : Type) (d : A) (f : unit -> A -> result unit) (l : seq A) :
  (forall i, (i < size l)%N -> f tt (nth d l i) = Ok tt) -> foldM f l tt = Ok tt.
Proof.
elim: l => //= x l IH H; have := H 0%N erefl => /= ->; rewrite bind_ok; apply: IH => i Hi.
exact: (H i.+1).
Qed.

Lemma foldM_unit_err (A : Type) (d : A) (f : unit -> A -> result unit) (l : seq A) e :
  (forall i, (i < size l)%N -> f tt (nth d l i) = Ok tt \/ f tt (nth d l i) = Err e) ->
  (exists2 i, (i < size l)%N & f tt (nth d l i) = Err e) -> foldM f l tt = Err e.
Proof.
elim: l => [|x l IH] H [i Hi Ei] //=.
have := H 0%N erefl => /= -[Ex|->] //; rewrite Ex bind_ok; apply: IH => [k Hk|]; first exact: (H k.+1).
by case: i Hi Ei => [|i] Hi; rewrite /= ?Ex // => Ei; exists i.
Qed.

Section StarkProofs.
Variable F : fieldType.
Implicit Types (x y w g : F) (a b t : seq F) (ps : seq (mpoly F)) (wit : seq (seq F)).

(** ** Trace polynomials *)
Definition trace_of (n : nat) w wit (ts : seq (seq F)) := size ts = size wit /\
  forall j, (j < size wit)%N ->
    [/\ normal (nth [::] ts j), (size (nth [::] ts j) <= n)%N &
        forall i, (i < n)%N -> pcall (nth [::] ts j) (w ^+ i) = (nth [::] wit j)`_i].

Lemma trace_ok fuel (p n : nat) w wit : p \in [char F] -> fft_size n -> order_is w n -> (n <= fuel)%N ->
  all (fun r => size r == n) wit ->
  exists ts, construct_trace_polynomials fuel (Z.of_nat p) wit w = Ok ts /\ trace_of n w wit ts.
Proof.
move=> Hp Hn Ho Hf Hs.
have [|ts [E S Q]] := @mapM_nth _ _ [::] [::] (nb_inv_fft fuel (Z.of_nat p) w)
  (fun j t => [/\ normal t, (size t <= n)%N & forall i, (i < n)%N -> pcall t (w ^+ i) = (nth [::] wit j)`_i]) wit.
  move=> j Hj; have Sj : size (nth [::] wit j) = n by apply/eqP; exact: (all_nthP [::] Hs).
  move: (fft_inv_fft Hp Hn Ho Hf Sj); rewrite /nb_inv_fft (nb_inv_coeffs Hp Hn Ho Hf Sj) !bind_ok.
  set c := [seq _ | _ <- _] => E; exists (pmk c); split=> //.
  have Sc : (size (pmk c) <= n)%N.
    by rewrite pmkE (leq_trans (size_Poly _)) // size_map size_dft.
  split; [exact: normal_pmk|by []|] => i Hi.
  move: E; rewrite (nb_fft_spec _ Hn Ho Hf Sc) => -[<-].
  by rewrite (nth_map 0%N) ?size_iota // nth_iota.
by exists ts; split.
Qed.

(** ** Evaluation at polynomials *)
Definition pv (v : pval F) : {poly F} := match v with PPoly p => Poly p | PElt x => x%:P end.
Definition pnormal (v : pval F) : bool := if v is PPoly p then normal p else true.
Definition pelt (v : pval F) : bool := if v is PElt _ then true else false.

Lemma pcall_poly_fold a (x : seq F) : forall st : seq F * seq F,
  let r := foldl (fun (st : seq F * seq F) c => (padd st.1 (pmul st.2 (pconst c)), pmul st.2 x)) st a in
  Poly r.1 = Poly st.1 + Poly st.2 * (Poly a \Po Poly x).
Proof.
elim: a => [|c a IH] st /=; first by rewrite comp_poly0 mulr0 addr0.
rewrite IH /= Poly_padd !Poly_pmul Poly_pconst cons_poly_def comp_polyD comp_polyM comp_polyX comp_polyC.
by rewrite mulrDr -addrA; congr (_ + _); rewrite addrC -!mulrA; congr (_ * _ + _); rewrite mulrC.
Qed.

Lemma pcall_polyE a (x : seq F) : normal a ->
  [/\ pv (pcall_poly a x) = Poly a \Po Poly x, pnormal (pcall_poly a x) & pelt (pcall_poly a x) = (size a <= 1)%N].
Proof.
move=> Na; rewrite /pcall_poly; case: leqP => H1; split=> //=.
- by case: a Na H1 => [|c [|]] //= _ _; rewrite ?comp_poly0 ?cons_poly_def ?mul0r ?add0r ?comp_polyC.
- rewrite pcall_poly_fold /= !Poly_pconst polyC0 polyC1 add0r mul1r.
  by [].
- by elim/last_ind: a Na H1 => // a c _ Na H1; rewrite -cats1 foldl_cat /= normal_padd.
Qed.

Lemma mcall_pvalE n p (vals : seq (seq F)) : wf n p -> size vals = n -> all (@normal F) vals ->
  exists v, [/\ mcall_pval n p vals = Ok v,
    pv v = meval [rmorphism of polyC] (fun i => Poly (nth [::] vals i)) p, pnormal v & pelt v = (p == [::])].
Proof.
move=> W S Nv; have {Nv} Nv q : List.In q vals -> normal q by move=> I; apply: (allP Nv); exact/In_mem.
have E := mcall_polyE W S Nv.
case: p W E => [|kc p] W E; first by exists (PElt 0); rewrite /mcall_pval E /= /meval big_nil.
eexists; split; first by rewrite /mcall_pval E bind_ok.
- by rewrite /= polyseqK.
- exact: normal_polyseq.
- by [].
Qed.

Lemma pval_subE (u v : pval F) : pnormal u -> pnormal v ->
  [/\ pv (pval_sub u v) = pv u - pv v, pnormal (pval_sub u v) & pelt (pval_sub u v) = pelt u && pelt v].
Proof.
case: u => [u|x]; case: v => [v|y] Nu Nv; split=> //=; rewrite ?normal_psub ?normal_padd //.
- by rewrite Poly_psub.
- by rewrite Poly_psub Poly_pconst.
- by rewrite Poly_padd Poly_pneg Poly_pconst addrC.
- by rewrite polyCB.
Qed.

Lemma meval_horner n p (v : nat -> {poly F}) x : wf n p ->
  (meval [rmorphism of polyC] v p).[x] = meval [rmorphism of idfun] (fun i => (v i).[x]) p.
Proof.
move=> W; rewrite /meval horner_sum; apply: eq_bigr => kc _.
rewrite hornerM hornerC /=; congr (_ * _); rewrite /mon horner_prod; apply: eq_bigr => i _.
by rewrite horner_exp.
Qed.

(** The constraint of register j, as a polynomial *)
Definition cpoly g ts ps (j : nat) : {poly F} :=
  (Poly (nth [::] ts j) \Po (g *: 'X)) -
  meval [rmorphism of polyC] (fun i => Poly (nth [::] ts i)) (nth [::] ps j).

Lemma gX_E g : Poly (pmul (pconst g) (pmk [:: 0; 1])) = g *: 'X.
Proof.
by rewrite Poly_pmul Poly_pconst Poly_pmk /= !cons_poly_def mul0r add0r polyC1 mul1r addr0 mul_polyC.
Qed.

Lemma constraint_ok (w : nat) g ts ps : polys_ok w ps -> size ts = w -> all (@normal F) ts ->
  exists cs, [/\ construct_constraint_polynomials ps ts g w = Ok cs, size cs = w &
    forall j, (j < w)%N -> [/\ pv (nth (PElt 0) cs j) = cpoly g ts ps j, pnormal (nth (PElt 0) cs j) &
      pelt (nth (PElt 0) cs j) = (size (nth [::] ts j) <= 1)%N && (nth [::] ps j == [::])]].
Proof.
move=> O St Nt; rewrite /construct_constraint_polynomials.
set nts := [seq _ | _ <- ts]; have Sn : size nts = w by rewrite size_map.
have Sz : size (zip nts ps) = w by rewrite size_zip Sn; apply/minn_idPl; exact: polys_size.
have [|cs [E S Q]] := @mapM_nth _ _ (PElt 0, [::]) (PElt 0)
  (fun ns : pval F * mpoly F => let* v := mcall_pval w ns.2 ts in Ok (pval_sub ns.1 v))
  (fun j c => [/\ pv c = cpoly g ts ps j, pnormal c &
      pelt c = (size (nth [::] ts j) <= 1)%N && (nth [::] ps j == [::])]) (zip nts ps).
  move=> j; rewrite Sz => Hj; rewrite nth_zip_cond Sz Hj [_.2]/= [_.1]/=.
  have [v [-> Ev Nv Pv]] := mcall_pvalE (polys_wf O Hj) St Nt.
  rewrite bind_ok; eexists; split; first by [].
  have Nj : normal (nth [::] ts j) by apply: (all_nthP [::] Nt); rewrite St.
  have := pcall_polyE (pmul (pconst g) (pmk [:: 0; 1])) Nj.
  rewrite (nth_map [::]) ?St // => -[Eu Nu Pu].
  have [E1 E2 E3] := pval_subE Nu Nv; split=> //; last by rewrite E3 Pu Pv.
  by rewrite E1 Eu Ev gX_E.
by exists cs; split; rewrite // -?Sz.
Qed.

(** ** The vanishing polynomial of all positions but the last *)
Definition zpart g (n : nat) : {poly F} := \prod_(i < n.-1) ('X - (g ^+ i)%:P).

Lemma zpart_last g n : order_is g n -> zpart g n * ('X - (g ^+ n.-1)%:P) = 'X^n - 1.
Proof.
move=> [n0 g1 H1].
have Hp : n.-primitive_root g.
  rewrite /primitive_root_of_unity n0; apply/forallP=> i; rewrite unity_rootE; apply/eqP.
  case: (ltngtP i.+1 n) => Hi; last by rewrite Hi g1 !eqxx.
    by rewrite (negbTE (H1 _ _)).
  by move: (ltn_ord i); rewrite ltnNge -ltnS Hi.
rewrite -(factor_Xn_sub_1 Hp) -{3}(prednK n0) big_nat_recr //=; congr (_ * _).
by rewrite /zpart big_mkord.
Qed.

Lemma size_zpart g n : (0 < n)%N -> size (zpart g n) = n.
Proof.
move=> n0; rewrite /zpart -(big_mkord xpredT (fun i => 'X - (g ^+ i)%:P)) -(big_map (fun i => g ^+ i) xpredT (fun z => 'X - z%:P)).
by rewrite size_prod_XsubC size_map size_iota subn0 prednK.
Qed.

Lemma dvd_zpart g n (c : {poly F}) : order_is g n ->
  reflect (forall i, (i < n.-1)%N -> c.[g ^+ i] = 0) (zpart g n %| c).
Proof.
move=> Ho; have [n0 _ _] := Ho.
rewrite /zpart -(big_mkord xpredT (fun i => 'X - (g ^+ i)%:P)) -(big_map (fun i => g ^+ i) xpredT (fun z => 'X - z%:P)).
rewrite /index_iota subn0; set rs := map _ _; apply: (iffP idP) => [D i Hi|H].
  apply/rootP; rewrite -dvdp_XsubCl; apply: dvdp_trans D.
  by rewrite dvdp_XsubCl root_prod_XsubC; apply/mapP; exists i => //; rewrite mem_iota.
apply: uniq_roots_dvdp.
  by apply/allP=> z /mapP [i]; rewrite mem_iota => /andP [_ Hi] ->; apply/rootP; exact: H.
rewrite uniq_rootsE map_inj_in_uniq ?iota_uniq // => i k; rewrite !mem_iota => /andP [_ Hi] /andP [_ Hk].
by apply: (order_inj Ho); lia.
Qed.

Lemma PolyX : Poly [:: 0; 1] = 'X :> {poly F}.
Proof. by rewrite /= !cons_poly_def mul0r add0r polyC1 mul1r addr0. Qed.

Lemma peq0E a : normal a -> peq a (pconst 0) = (Poly a == 0).
Proof. by move=> Na; rewrite peqP ?normal_pconst // Poly_pconst. Qed.

(** ** The remainder construction, after its division check *)
Lemma remainderE g n (cs : seq (pval F)) : order_is g n ->
  construct_remainder_polynomials cs n (g ^+ n.-1) =
  let z := polyseq (zpart g n) in
  let* _ := foldM (fun (_ : unit) cp => let* r := pval_mod cp z in assert_ (peq r (pconst 0))) cs tt in
  mapM (fun cp => pval_div cp z) cs.
Proof.
move=> Ho; have [n0 _ _] := Ho; rewrite /construct_remainder_polynomials.
rewrite ppow_nat ?normal_pmk // bind_ok.
set num := psub _ _; set den := psub _ _.
have En : Poly num = 'X^n - 1 by rewrite Poly_psub polyseqK Poly_pconst Poly_pmk PolyX.
have Ed : Poly den = 'X - (g ^+ n.-1)%:P by rewrite Poly_psub Poly_pconst Poly_pmk PolyX.
have d0 : den != [::] by rewrite nil_Poly ?normal_psub // Ed polyXsubC_eq0.
rewrite pmodE ?pdivE ?normal_psub // En Ed -(zpart_last Ho) !bind_ok.
rewrite mulpK ?polyXsubC_eq0 // modp_mull peq0E ?normal_polyseq // polyseqK eqxx.
by [].
Qed.

Lemma pval_modE g n (c : pval F) : (0 < n)%N -> pnormal c -> ~~ pelt c ->
  (let* r := pval_mod c (zpart g n) in assert_ (peq r (pconst 0))) = assert_ (zpart g n %| pv c) /\
  pval_div c (zpart g n) = Ok (polyseq (pv c %/ zpart g n)).
Proof.
move=> n0; case: c => // c Nc _ /=.
have z0 : polyseq (zpart g n) != [::] by rewrite nil_Poly ?normal_polyseq // polyseqK -size_poly_eq0 size_zpart // -lt0n.
by rewrite pmodE ?pdivE ?normal_polyseq // bind_ok polyseqK peq0E ?normal_polyseq // polyseqK /dvdp.
Qed.

(** The three outcomes of the remainder construction *)
Lemma remainder_cases g n (cs : seq (pval F)) : order_is g n ->
  (forall j, (j < size cs)%N -> pnormal (nth (PElt 0) cs j)) ->
  [/\ (forall j, (j < size cs)%N -> ~~ pelt (nth (PElt 0) cs j) && (zpart g n %| pv (nth (PElt 0) cs j))) ->
       construct_remainder_polynomials cs n (g ^+ n.-1) =
         Ok [seq polyseq (pv c %/ zpart g n) | c <- cs],
      (forall j, (j < size cs)%N -> ~~ pelt (nth (PElt 0) cs j)) ->
      (exists2 j, (j < size cs)%N & ~~ (zpart g n %| pv (nth (PElt 0) cs j))) ->
       construct_remainder_polynomials cs n (g ^+ n.-1) = Err AssertionError &
      (forall j, (j < size cs)%N -> pelt (nth (PElt 0) cs j) || (zpart g n %| pv (nth (PElt 0) cs j))) ->
      (exists2 j, (j < size cs)%N & pelt (nth (PElt 0) cs j)) ->
       construct_remainder_polynomials cs n (g ^+ n.-1) = Err TypeError].
Proof.
move=> Ho Nc; have [n0 _ _] := Ho; rewrite (remainderE _ Ho) /=; set f := (X in foldM X).
split.
- move=> H; rewrite (foldM_unit_ok (d := PElt 0)); last first.
    move=> j Hj; case/andP: (H j Hj) => He Hd.
    by rewrite /f; have [-> _] := pval_modE g n0 (Nc _ Hj) He; rewrite Hd.
  rewrite bind_ok.
  have [|ds [-> Sd Q]] := @mapM_nth _ _ (PElt 0) [::] (fun cp => pval_div cp (zpart g n))
    (fun j d => d = polyseq (pv (nth (PElt 0) cs j) %/ zpart g n)) cs.
    move=> j Hj; case/andP: (H j Hj) => He _; eexists; split; last by [].
    by have [_ ->] := pval_modE g n0 (Nc _ Hj) He.
  congr Ok; apply: (@eq_from_nth _ [::]); first by rewrite size_map.
  by move=> j; rewrite Sd => Hj; rewrite Q // (nth_map (PElt 0)).
- move=> He [j Hj Hd]; rewrite (foldM_unit_err (d := PElt 0) (e := AssertionError)) //.
    move=> k Hk; rewrite /f; have [-> _] := pval_modE g n0 (Nc _ Hk) (He _ Hk).
    by case: (_ %| _); [left|right].
  exists j => //; rewrite /f; have [-> _] := pval_modE g n0 (Nc _ Hj) (He _ Hj).
  by rewrite (negbTE Hd).
- move=> H [j Hj He]; rewrite (foldM_unit_err (d := PElt 0) (e := TypeError)) //.
    move=> k Hk; case E : (pelt (nth (PElt 0) cs k)).
      by right; rewrite /f; case: (nth _ cs k) E.
    left; rewrite /f; have [|-> _] := pval_modE g n0 (Nc _ Hk); first by rewrite E.
    by move: (H k Hk); rewrite E /= => ->.
  by exists j => //; rewrite /f; case: (nth _ cs j) He.
Qed.

(** ** Values of the constraint polynomials *)
Lemma cpoly_eval (w : nat) g ts ps j x : polys_ok w ps -> size ts = w -> (j < w)%N ->
  (cpoly g ts ps j).[x] = pcall (nth [::] ts j) (g * x) - peval (nth [::] ps j) [seq pcall t x | t <- ts].
Proof.
move=> O St Hj; have W := polys_wf O Hj.
rewrite /cpoly hornerD hornerN horner_comp hornerZ hornerX -pcallE; congr (_ - _).
rewrite (meval_horner _ _ W) pevalE ?size_map ?St //; apply: meval_eq W _ => i Hi.
by rewrite (nth_map [::]) ?St // pcallE.
Qed.

(** Row i of the witness *)
Definition row wit (i : nat) : seq F := [seq r`_i | r <- wit].

Definition valid_step (w : nat) ps wit (i : nat) :=
  forall j, (j < w)%N -> (nth [::] wit j)`_i.+1 = peval (nth [::] ps j) (row wit i).

Lemma trace_row n g wit ts i : trace_of n g wit ts -> (i < n)%N ->
  [seq pcall t (g ^+ i) | t <- ts] = row wit i.
Proof.
move=> [St Q] Hi; apply: (@eq_from_nth _ 0); first by rewrite !size_map.
move=> j; rewrite size_map St => Hj.
by rewrite !(nth_map [::]) ?St //; have [_ _ ->] := Q j Hj.
Qed.

Lemma cpoly_trace (w n : nat) g wit ts ps j i : trace_of n g wit ts -> size wit = w -> polys_ok w ps ->
  (j < w)%N -> (i < n.-1)%N ->
  (cpoly g ts ps j).[g ^+ i] = (nth [::] wit j)`_i.+1 - peval (nth [::] ps j) (row wit i).
Proof.
move=> T Sw O Hj Hi; have [St Q] := T.
rewrite (cpoly_eval _ _ O) ?St // -exprS (trace_row T); last by lia.
have Hj' : (j < size wit)%N by rewrite Sw.
have Hi' : (i.+1 < n)%N by move: Hi; clear; lia.
by have [_ _ ->] := Q j Hj'.
Qed.

Lemma valid_dvd (w n : nat) g wit ts ps : order_is g n -> trace_of n g wit ts -> size wit = w -> polys_ok w ps ->
  (forall i, (i < n.-1)%N -> valid_step w ps wit i) <->
  (forall j, (j < w)%N -> zpart g n %| cpoly g ts ps j).
Proof.
move=> Ho T Sw O; split=> [V j Hj|D i Hi j Hj].
  by apply/(dvd_zpart _ Ho) => i Hi; rewrite (cpoly_trace T Sw O) // V // subrr.
by apply/eqP; rewrite -subr_eq0 -(cpoly_trace T Sw O) //; apply/eqP; apply: (dvd_zpart _ Ho _) => //; exact: D.
Qed.

Lemma trace_normal n g wit ts : trace_of n g wit ts -> all (@normal F) ts.
Proof.
by move=> [St Q]; apply/(all_nthP [::]) => j; rewrite St => Hj; have [] := Q j Hj.
Qed.

(** ** Boundary polynomials *)
Definition z2 l : {poly F} := ('X - 1%:P) * ('X - l%:P).

Lemma zeropoly2E l : Poly (zeropoly2 l) = z2 l.
Proof. by rewrite /zeropoly2 Poly_pmul !Poly_pmk !linE. Qed.

Lemma z2_neq0 l : z2 l != 0.
Proof. by rewrite mulf_neq0 // polyXsubC_eq0. Qed.

Lemma size_z2 l : size (z2 l) = 3%N.
Proof. by rewrite size_mul ?polyXsubC_eq0 // !size_XsubC. Qed.

Lemma z2_root l x : (z2 l).[x] = (x - 1) * (x - l).
Proof. by rewrite hornerM !hornerXsubC. Qed.

(** The line through (1, y0) and (l, y1) *)
Definition line l y0 y1 : {poly F} := lag [:: 1; l] [:: y0; y1].

Lemma line_spec l y0 y1 : l != 1 ->
  [/\ (size (line l y0 y1) <= 2)%N, (line l y0 y1).[1] = y0 & (line l y0 y1).[l] = y1].
Proof.
move=> Hl; have U : uniq [:: 1; l] by rewrite /= inE eq_sym Hl.
split; first exact: size_lag.
  exact: (lag_eval [:: y0; y1] U (i := 0)).
exact: (lag_eval [:: y0; y1] U (i := 1)).
Qed.

Lemma interp2_line l y0 y1 : l != 1 -> lagrange_interp_2 [:: 1; l] [:: y0; y1] = Ok (polyseq (line l y0 y1)).
Proof. by move=> Hl; rewrite interp2_ok 1?eq_sym // lagrange_total. Qed.

Lemma pmk2 x y : y != 0 -> pmk [:: x; y] = [:: x; y].
Proof. by move=> Hy; rewrite pmk_normal. Qed.

Lemma py_nth_last' (A : Type) (d : A) (l : seq A) : (0 < size l)%N -> py_nth l (-1) = Ok (last d l).
Proof. by case/lastP: l => // l x _; rewrite last_rcons py_nth_last. Qed.

Definition bquot l t y0 y1 : seq F := polyseq ((Poly t - line l y0 y1) %/ z2 l).

Definition bnd_ok (w n : nat) wit (bnd : seq (nat * nat * F)) :=
  [/\ size wit = w, (w <= size bnd)%N & all (fun r => size r == n) wit].

Lemma boundary_ok (w n : nat) wit bnd ts l : bnd_ok w n wit bnd -> (0 < n)%N -> size ts = w ->
  l != 0 -> l != 1 -> (forall j, (j < w)%N -> last 0 (nth [::] wit j) != 0) ->
  construct_boundary_polynomials ts wit bnd l w =
  Ok [seq bquot l (nth [::] ts j) (nth (0%N, 0%N, 0) bnd j).2 (last 0 (nth [::] wit j)) | j <- iota 0 w].
Proof.
move=> [Sw Sb Sr] n0 St l0 l1 Hz; rewrite /construct_boundary_polynomials.
rewrite (mapM_ok_in (g := fun j => polyseq (line l (nth (0%N, 0%N, 0) bnd j).2 (last 0 (nth [::] wit j))))); last first.
  move=> j; rewrite mem_iota => /andP [_ Hj].
  rewrite (py_nth_ok (0%N, 0%N, 0)) ?(leq_trans Hj) // bind_ok.
  rewrite (py_nth_ok [::]) ?Sw // bind_ok (py_nth_last' 0) ?bind_ok; last first.
    by rewrite (eqP (all_nthP [::] Sr _ _)) // Sw.
  by rewrite !pmk2 ?Hz // interp2_line.
rewrite bind_ok; set ils := map _ _; have Si : size ils = w by rewrite size_map size_iota.
have [|bs [-> S Q]] := @mapM_nth _ _ ([::], [::]) [::] (fun pi : seq F * seq F => pdiv (psub pi.1 pi.2) (zeropoly2 l))
  (fun j b => b = bquot l (nth [::] ts j) (nth (0%N, 0%N, 0) bnd j).2 (last 0 (nth [::] wit j))) (zip ts ils).
  move=> j; rewrite size_zip St Si minnn => Hj.
  rewrite nth_zip_cond size_zip St Si minnn Hj [_.1]/= [_.2]/=.
  eexists; split; last by [].
  rewrite pdivE ?normal_psub ?normal_pmul //; last first.
    by rewrite nil_Poly ?normal_pmul // zeropoly2E z2_neq0.
  rewrite zeropoly2E Poly_psub /bquot; congr (Ok (polyseq ((_ - _) %/ _))).
  by rewrite (nth_map 0%N) ?size_iota // polyseqK nth_iota.
congr Ok; have Sz : size bs = w by rewrite S size_zip St Si minnn.
apply: (@eq_from_nth _ [::]); first by rewrite size_map size_iota.
move=> j; rewrite Sz => Hj; rewrite Q ?size_zip ?St ?Si ?minnn // (nth_map 0%N) ?size_iota //.
by rewrite nth_iota.
Qed.

(** A zero output register: the coefficient list passed to the interpolation is
    too short *)
Lemma boundary_zero (w n : nat) wit bnd ts l : bnd_ok w n wit bnd -> (0 < n)%N ->
  l != 0 -> l != 1 -> (exists2 j, (j < w)%N & last 0 (nth [::] wit j) == 0) ->
  construct_boundary_polynomials ts wit bnd l w = Err IndexError.
Proof.
move=> [Sw Sb Sr] n0 l0 l1 [j Hj Hz]; rewrite /construct_boundary_polynomials.
set f := (X in mapM X (iota 0 w)).
have Ef k : (k < w)%N -> f k = if last 0 (nth [::] wit k) == 0 then Err IndexError
    else Ok (polyseq (line l (nth (0%N, 0%N, 0) bnd k).2 (last 0 (nth [::] wit k)))).
  move=> Hk; rewrite /f (py_nth_ok (0%N, 0%N, 0)) ?(leq_trans Hk) // bind_ok.
  rewrite (py_nth_ok [::]) ?Sw // bind_ok (py_nth_last' 0) ?bind_ok; last first.
    by rewrite (eqP (all_nthP [::] Sr _ _)) // Sw.
  rewrite (pmk2 1 l0); case: eqP => [->|/eqP H]; last by rewrite pmk2 // interp2_line.
  rewrite interp2_short_ys 1?eq_sym // pmkE.
  have -> z : Poly [:: z; 0] = z%:P :> {poly F} by rewrite /= !cons_poly_def polyC0 mul0r addr0 mul0r add0r.
  by rewrite size_polyC; case: (_ != 0).
suff -> : mapM f (iota 0 w) = Err IndexError by [].
have : j \in iota 0 w by rewrite mem_iota.
have : {subset iota 0 w <= iota 0 w} by [].
elim: {1 3 4}(iota 0 w) => // k s IH Hs; rewrite in_cons => Hjk /=.
have Hk : (k < w)%N by have := Hs k (mem_head _ _); rewrite mem_iota => /andP [].
rewrite Ef //; case: ifP => // Hkz; rewrite bind_ok.
rewrite IH //; first by move=> i Hi; apply: Hs; rewrite in_cons Hi orbT.
by case/orP: Hjk => // /eqP Ejk; rewrite -Ejk Hz in Hkz.
Qed.

Lemma bquot_exact l t y0 y1 : l != 1 -> pcall t 1 = y0 -> pcall t l = y1 ->
  Poly (bquot l t y0 y1) * z2 l + line l y0 y1 = Poly t.
Proof.
move=> Hl; rewrite !pcallE => E0 E1; have [_ L0 L1] := line_spec y0 y1 Hl.
rewrite /bquot polyseqK divpK ?subrK // /z2.
rewrite Gauss_dvdp ?dvdp_XsubCl ?rootE ?hornerD ?hornerN ?L0 ?L1 ?E0 ?E1 ?subrr ?eqxx //.
by rewrite coprimep_XsubC rootE hornerXsubC subr_eq0.
Qed.

(** A wrong input value leaves a remainder without root other than [l] *)
Lemma bquot_wrong l t y0 y1 x : l != 1 -> pcall t 1 != y0 -> pcall t l = y1 -> x != l ->
  (Poly t - Poly (bquot l t y0 y1) * z2 l - line l y0 y1).[x] != 0.
Proof.
move=> Hl; rewrite !pcallE => E0 E1 Hx; have [_ L0 L1] := line_spec y0 y1 Hl.
set R := _ - line _ _ _; have ER : R = (Poly t - line l y0 y1) %% z2 l.
  by rewrite /R /bquot polyseqK addrAC {1}(divp_eq (Poly t - line l y0 y1) (z2 l)) addrAC subrr add0r.
have SR : (size R <= 2)%N by rewrite ER -ltnS -(size_z2 l) ltn_modp z2_neq0.
have R1 : R.[1] != 0 by rewrite /R !hornerD !hornerN hornerM z2_root subrr mul0r mulr0 subr0 L0 subr_eq0.
have Rl : root R l by rewrite rootE /R !hornerD !hornerN hornerM z2_root subrr !mulr0 subr0 L1 E1 subrr.
move: Rl; rewrite -dvdp_XsubCl => /dvdpP [q Eq].
have Sq : (size q <= 1)%N.
  case: (eqVneq q 0) => [->|q0]; first by rewrite size_poly0.
  by move: SR; rewrite Eq size_mul ?polyXsubC_eq0 // size_XsubC addn2.
move: R1; rewrite {}Eq (size1_polyC Sq) !hornerM !hornerC !hornerXsubC mulf_eq0 negb_or => /andP [q0 _].
by rewrite mulf_neq0 // subr_eq0.
Qed.

(** ** The verifier's arithmetic *)
Lemma dom_pow_nat x (n : nat) : dom_pow 1 *%R x (Z.of_nat n) = Ok (x ^+ n).
Proof.
rewrite dom_pow_iter; [|exact: mulrA|exact: mul1r|exact: mulr1].
by congr Ok; elim: n => //= n ->; rewrite exprS.
Qed.

Lemma foldM_assert (f : unit -> nat -> result unit) (q : nat -> bool) l :
  (forall j, j \in l -> f tt j = assert_ (q j)) -> foldM f l tt = assert_ (all q l).
Proof.
elim: l => //= j l IH H; rewrite H ?mem_head //; case: (q j) => //=.
by apply: IH => k Hk; apply: H; rewrite in_cons Hk orbT.
Qed.

Lemma check_valuesE (w n m : nat) l ps wit bnd x (p pg d b : seq F) :
  polys_ok w ps -> bnd_ok w m wit bnd -> (0 < m)%N -> l != 1 -> x != l ->
  size p = w -> size pg = w -> size d = w -> size b = w ->
  check_values w n l ps wit bnd x p pg d b =
  assert_ (all (fun j => pg`_j - peval (nth [::] ps j) p - (x ^+ n - 1) / (x - l) * d`_j == 0) (iota 0 w) &&
           all (fun j => p`_j - b`_j * (z2 l).[x] -
              (line l (nth (0%N, 0%N, 0) bnd j).2 (last 0 (nth [::] wit j))).[x] == 0) (iota 0 w)).
Proof.
move=> O [Sw Sb Sr] m0 l1 xl Sp Spg Sd Sbb; rewrite /check_values.
rewrite dom_pow_nat bind_ok fdiv_ok ?subr_eq0 // bind_ok.
rewrite (mapM_ok_in (g := fun j => peval (nth [::] ps j) p)); last first.
  move=> j; rewrite mem_iota => /andP [_ Hj].
  rewrite (py_nth_ok [::]) ?(leq_trans Hj) ?(polys_size O) // bind_ok mcall_peval //.
  exact: polys_wf O Hj.
rewrite bind_ok.
rewrite (foldM_assert (q := fun j => pg`_j - peval (nth [::] ps j) p - (x ^+ n - 1) / (x - l) * d`_j == 0)); last first.
  move=> j; rewrite mem_iota => /andP [_ Hj].
  rewrite (py_nth_ok 0) ?Spg // bind_ok (py_nth_ok 0) ?Sp // bind_ok (py_nth_ok 0) ?Sd // bind_ok.
  rewrite (py_nth_ok 0) ?size_map ?size_iota // bind_ok (nth_map 0%N) ?size_iota // nth_iota //.
set A := all _ _; case: A => //=; rewrite ?bind_ok.
apply: foldM_assert => j; rewrite mem_iota => /andP [_ Hj].
rewrite (py_nth_ok (0%N, 0%N, 0)) ?(leq_trans Hj) // bind_ok.
rewrite (py_nth_ok [::]) ?Sw // bind_ok (py_nth_last' 0) ?bind_ok; last first.
  by rewrite (eqP (all_nthP [::] Sr _ _)) // Sw.
rewrite interp2_line // bind_ok (py_nth_ok 0) ?Sp // bind_ok (py_nth_ok 0) ?Sbb // bind_ok.
by rewrite !pcallE zeropoly2E polyseqK.
Qed.

Lemma check_values_last (w n : nat) l ps wit bnd (p pg d b : seq F) :
  check_values w n l ps wit bnd l p pg d b = Err InverseError.
Proof.
by rewrite /check_values dom_pow_nat bind_ok /fdiv /finv subrr eqxx.
Qed.

(** ** Degrees *)
Lemma size_meval (n : nat) p (v : nat -> {poly F}) m : wf n p -> (forall i, (i < n)%N -> (size (v i) <= m.+1)%N) ->
  (size (meval [rmorphism of polyC] v p) <= (mdegree p * m).+1)%N.
Proof.
move=> W Hv; rewrite /meval; apply: (leq_trans (size_sum _ _ _)).
rewrite big_seq; apply/bigmax_leqP_seq => kc Hkc _ /=.
rewrite mul_polyC (leq_trans (size_scale_leq _ _)) //.
have Hk : kc.1 \in mkeys p by exact: (map_f (fun kc => kc.1) Hkc).
apply: (leq_trans (_ : _ <= ((\sum_(e <- kc.1) e) * m).+1)%N); last first.
  by rewrite ltnS leq_mul2r mdegreeE; apply/orP; right; exact: (@leq_bigmax_seq _ (mkeys p) xpredT (fun k => \sum_(e <- k) e)%N _ Hk).
rewrite /mon (big_nth 0%N) big_mkord big_distrl /=.
have : (size kc.1 <= n)%N by rewrite (wf_size W Hk).
move: (kc.1) => k; elim: (size k) => [|s IH] Hs; first by rewrite !big_ord0 size_poly1.
rewrite !big_ord_recr /=; apply: (leq_trans (size_mul_leq _ _)).
have := IH (ltnW Hs); have : (size (v s ^+ nth 0%N k s) <= (nth 0%N k s * m).+1)%N.
  apply: (leq_trans (size_exp_leq _ _)); rewrite ltnS mulnC leq_mul2l.
  by have := Hv s Hs; case: (size (v s)) => [|u] /= Hu; apply/orP; right; [by []|exact: Hu].
move: (size _) (size _) => A B; lia.
Qed.

Lemma size_cpoly (w n : nat) g wit ts ps j : order_is g n -> trace_of n g wit ts -> size wit = w -> polys_ok w ps ->
  (j < w)%N -> (size (cpoly g ts ps j) <= (maxn 1 (mdegree (nth [::] ps j)) * n.-1).+1)%N.
Proof.
move=> [n0 _ _] [St Q] Sw O Hj; have Hs i : (i < w)%N -> (size (Poly (nth [::] ts i)) <= n.-1.+1)%N.
  by rewrite -Sw prednK // => Hi; have [N S _] := Q i Hi; rewrite -size_normal.
rewrite /cpoly (leq_trans (size_add _ _)) // geq_max size_opp; apply/andP; split.
  apply: (leq_trans (size_comp_poly_leq _ _)); rewrite ltnS.
  have S1 : ((size (g *: 'X : {poly F})).-1 <= 1)%N.
    by have := size_scale_leq g ('X : {poly F}); rewrite size_polyX; lia.
  have := Hs j Hj; move: (size (Poly _)) => u Hu.
  apply: (leq_trans (leq_mul (_ : (u.-1 <= n.-1)%N) S1)); first by move: Hu; clear; lia.
  by rewrite muln1 leq_pmull // leq_max.
apply: (leq_trans (size_meval (polys_wf O Hj) Hs)); rewrite ltnS leq_mul2r leq_maxr orbT //.
Qed.

(** D has degree at most (deg - 1) * (steps - 1) *)
Lemma size_dquot (w n : nat) g wit ts ps j : order_is g n -> trace_of n g wit ts -> size wit = w -> polys_ok w ps ->
  (j < w)%N -> (size (cpoly g ts ps j %/ zpart g n)%R <= ((mdegree (nth [::] ps j)).-1 * n.-1).+1)%N.
Proof.
move=> Ho T Sw O Hj; have := size_cpoly Ho T Sw O Hj; have [n0 _ _] := Ho.
rewrite size_divp; last by rewrite -size_poly_eq0 size_zpart // -lt0n.
rewrite size_zpart //; move: (size _) => u; case: (mdegree _) => [|[|d]] /=; rewrite ?mul1n ?mul0n; try lia.
have -> : maxn 1 d.+2 = d.+2 by clear; lia.
by rewrite mulSn; move: (d.+1 * n.-1)%N => v; lia.
Qed.

Lemma size_bquot l t y0 y1 : (size (bquot l t y0 y1) <= size t)%N.
Proof.
rewrite /bquot size_divp ?z2_neq0 // size_z2 /=.
have A := size_add (Poly t) (- line l y0 y1); rewrite size_opp in A.
have B : (size (line l y0 y1) <= 2)%N := size_lag _ _; have C := size_Poly t.
rewrite leq_subLR (leq_trans A) // geq_max (leq_trans C) ?leq_addl //.
exact: leq_trans B (leq_addr _ _).
Qed.

(** ** The linear combination *)
Lemma powers_ofE g n : (0 < n)%N -> powers_of g n = powers g n.
Proof.
move=> n0; rewrite /powers_of -{2}(prednK n0); elim: n.-1 => [|m IH]; first by rewrite /powers /= expr0.
have -> : iota 1 m.+1 = iota 1 m ++ [:: m.+1] by rewrite -[m.+1]addn1 iotaD add1n addn1.
rewrite foldl_cat {}IH -[foldl _ _ _]/(rcons (powers g m.+1) (last 1 (powers g m.+1) * g)).
by rewrite powers_last -exprSr -powers_rcons.
Qed.

Lemma power_iE g (n N : nat) : (1 < N)%N -> power_i g n N = Ok (g ^+ (n * N.-1)).
Proof.
move=> N1; rewrite /power_i dom_pow_nat bind_ok /loop_i N1 powers_ofE; last by lia.
rewrite (py_nth_ok 0) ?size_powers; last by lia.
by rewrite nth_powers ?exprM //; lia.
Qed.

Lemma power_i_unbound g (n N : nat) : (N <= 1)%N -> power_i g n N = Err UnboundLocalError.
Proof. by move=> N1; rewrite /power_i dom_pow_nat bind_ok /loop_i ltnNge N1. Qed.

Lemma pos_eltE (k : positive) : pos_elt F k = (Pos.to_nat k)%:R.
Proof.
elim: k => [k IH|k IH|] //=; rewrite IH.
  by rewrite Pos2Nat.inj_xI -natrD -mulrSr; congr _%:R; lia.
by rewrite Pos2Nat.inj_xO -natrD; congr _%:R; lia.
Qed.

Lemma int_eltE k : (0 <= k)%Z -> int_elt F k = (Z.to_nat k)%:R.
Proof. by case: k => //= k _; rewrite pos_eltE. Qed.

(** The i-th pseudorandom scalar, for suffix '0x0<d>' *)
Definition kk (H : bytes -> bytes) (e : bytes) (d : nat) : F := int_elt F (from_bytes_be (H (e ++ hex_suffix d))).

Definition lcomb1 H e (pw : F) t d b : {poly F} :=
  Poly d + (kk H e 1 + kk H e 2 * pw) *: Poly t + (kk H e 3 + kk H e 4 * pw) *: Poly b.

Lemma Poly_mulc a x : Poly (pmul a (pconst x)) = x *: Poly a.
Proof. by rewrite Poly_pmul Poly_pconst mulrC mul_polyC. Qed.

Lemma lincomb_1dE H e (w n N : nat) g ts ds bs : (1 < N)%N -> size ts = w -> size ds = w -> size bs = w ->
  lincomb_1d H e ts ds bs g n N = Ok [seq polyseq (lcomb1 H e (g ^+ (n * N.-1))
     (nth [::] ts j) (nth [::] ds j) (nth [::] bs j)) | j <- iota 0 w].
Proof.
move=> N1 St Sd Sb; have Sz : size (zip (zip ts ds) bs) = w by rewrite !size_zip St Sd Sb !minnn.
have [|ls [E S Q]] := @mapM_nth _ _ ([::], [::], [::]) [::] (fun tdb : seq F * seq F * seq F =>
    let: (t, d, b) := tdb in
      let* pw := power_i g n N in
      let mulc p k := pmul p (pconst (int_elt F k)) in
      Ok (padd (padd (padd (padd d (mulc t (from_bytes_be (H (e ++ hex_suffix 1)))))
         (pmul (mulc t (from_bytes_be (H (e ++ hex_suffix 2)))) (pconst pw)))
                     (mulc b (from_bytes_be (H (e ++ hex_suffix 3)))))
         (pmul (mulc b (from_bytes_be (H (e ++ hex_suffix 4)))) (pconst pw))))
   (fun j l => l = polyseq (lcomb1 H e (g ^+ (n * N.-1)) (nth [::] ts j) (nth [::] ds j) (nth [::] bs j)))
   (zip (zip ts ds) bs).
  move=> j; rewrite Sz => Hj; rewrite nth_zip ?size_zip ?St ?Sd ?Sb ?minnn // nth_zip ?St ?Sd //.
  rewrite power_iE // bind_ok; eexists; split; first by [].
  rewrite paddE !Poly_padd !Poly_mulc; congr polyseq; rewrite /lcomb1 !scalerDl !scalerA.
  by rewrite -/(kk H e 1) -/(kk H e 2) -/(kk H e 3) -/(kk H e 4) !addrA (mulrC _ (kk H e 2)) (mulrC _ (kk H e 4)).
rewrite [LHS]E; congr Ok; apply: (@eq_from_nth _ [::]); first by rewrite S Sz size_map size_iota.
by move=> j; rewrite S Sz => Hj; rewrite Q ?Sz // (nth_map 0%N) ?size_iota // nth_iota.
Qed.

Lemma Poly_foldl_padd a (ls : seq (seq F)) : Poly (foldl (@padd F) a ls) = Poly a + \sum_(l <- ls) Poly l.
Proof.
by elim: ls a => [|l ls IH] a /=; rewrite ?big_nil ?addr0 // IH Poly_padd big_cons addrA.
Qed.

(** The scalar of dimension j *)
Definition lk H e (w j : nat) : F := if (w <= 4)%N then kk H e j.+1 else kk H e j.

Lemma lincombE H e (w n N : nat) g ts ds bs : (1 < N)%N -> (0 < w < 10)%N ->
  size ts = w -> size ds = w -> size bs = w ->
  exists l, [/\ lincomb H e ts ds bs g N n (Z.of_nat w) = Ok (Some l), normal l &
    Poly l = \sum_(j < w) (1 + lk H e w j * g ^+ (n * N.-1)) *:
      lcomb1 H e (g ^+ (n * N.-1)) (nth [::] ts j) (nth [::] ds j) (nth [::] bs j)].
Proof.
move=> N1 /andP [w0 w10] St Sd Sb; rewrite /lincomb (lincomb_1dE _ _ _ _ N1 St Sd Sb) bind_ok.
set lps := map _ _; have Sl : size lps = w by rewrite size_map size_iota.
have [ks [Ek Sk Qk]] : exists ks, [/\ get_pseudorandom_ks H e (Z.of_nat w) = Some ks, size ks = w &
    forall j, (j < w)%N -> int_elt F (nth 0%Z ks j) = lk H e w j].
  rewrite /get_pseudorandom_ks /lk.
  have -> : ((0 <=? Z.of_nat w) && (Z.of_nat w <=? 4))%Z = (w <= 4)%N by lia.
  have -> : (Z.of_nat w <? 10)%Z = true by lia.
  rewrite Nat2Z.id; case: ifP => _; eexists; (split; first by []);
    rewrite ?size_map ?size_iota // => j Hj; by rewrite (nth_map 0%N) ?size_iota // nth_iota.
rewrite {}Ek; set pw := g ^+ _.
have Sz : size (zip lps ks) = w by rewrite size_zip Sl Sk minnn.
have [|ls [-> S Q]] := @mapM_nth _ _ ([::], 0%Z) [::] (fun lk : seq F * Z =>
        let* pw := power_i g n N in
        Ok (padd lk.1 (pmul (pmul lk.1 (pconst (int_elt F lk.2))) (pconst pw))))
    (fun j l => Poly l = (1 + lk H e w j * pw) *: lcomb1 H e pw (nth [::] ts j) (nth [::] ds j) (nth [::] bs j))
    (zip lps ks).
  move=> j; rewrite Sz => Hj; rewrite power_iE // bind_ok nth_zip ?Sl ?Sk //.
  eexists; split; first by []; rewrite [_.1]/= [_.2]/= Poly_padd !Poly_mulc scalerA.
  rewrite (nth_map 0%N) ?size_iota // polyseqK nth_iota // Qk // scalerDl scale1r.
  by rewrite -/pw mulrC.
rewrite bind_ok; rewrite Sz in S; case: ls S Q => [|l ls] S Q; first by rewrite -S in w0.
eexists; split; first by [].
  by elim/last_ind: ls {S Q} => [|ls x _]; rewrite ?normal_padd // -cats1 foldl_cat /= normal_padd.
rewrite Poly_foldl_padd Poly_padd Poly_pconst polyC0 addr0 -(big_cons 0 +%R l ls xpredT (@Poly F)).
rewrite (big_nth [::]) S big_mkord; apply: eq_bigr => j _; rewrite Q ?Sz //.
Qed.

Lemma lincomb_wide H e (w : Z) (n N : nat) g ts ds bs : (1 < N)%N -> (10 <= w)%Z ->
  size ts = size ds -> size ds = size bs ->
  lincomb H e ts ds bs g N n w = Err TypeError.
Proof.
move=> N1 Hw S1 S2; rewrite /lincomb (@lincomb_1dE H e (size bs)) ?S1 // bind_ok /get_pseudorandom_ks.
have -> : ((0 <=? w) && (w <=? 4))%Z = false by lia.
by have -> : (w <? 10)%Z = false by lia.
Qed.
End StarkProofs.
