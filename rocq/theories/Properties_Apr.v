(** Property theorems C93-C96: the reduction from AIR to algebraic placement and routing
    (starks/apr.py).

    [gz i] is the field element [g**i % zeta], for an arbitrary function [gz] (so for every
    zeta).  A boundary constraint [(i, j, alpha)] demands that register [j] has value
    [alpha] at time [i]; the point of time [i] is [gz i].  [polys_ok w ps]: at least [w]
    well-formed step polynomials in [w] variables. *)
From mathcomp Require Import zify ssrZ.
From Verif Require Import Prelude BaseProofs PolyModel PolyProofs FftProofs ModpField Pocklington InterpModel
  InterpProofs MultiModel MultiProofs AirModel AirProofs AprModel AprProofs Properties_Air.
Set Implicit Arguments.
Unset Strict Implicit.
Unset Printing Implicit Defensive.
Import GRing.Theory.
Local Open Scope ring_scope.
Local Open Scope py_scope.

(** C93.  There are [width] boundary polynomials, all equal: the product over *all*
    constraints, whatever their register. *)
Theorem C93_Z_boundaries : forall (F : fieldType) (gz : nat -> F) w B,
  size (construct_Z_boundaries gz w B) = w /\
  forall j, (j < w)%N ->
    normal (nth [::] (construct_Z_boundaries gz w B) j) /\
    Poly (nth [::] (construct_Z_boundaries gz w B) j) = \prod_(b <- B) ('X - (gz b.1.1)%:P).
Proof.
move=> F gz w B; rewrite Z_boundariesE size_nseq; split=> // j Hj.
by rewrite nth_nseq Hj normal_polyseq polyseqK.
Qed.
Print Assumptions C93_Z_boundaries.

(** Deviation: the polynomial of register [j] should have the constraints of register [j]
    only.  With two registers the vanishing polynomial of register 0 also vanishes where
    only register 1 is constrained. *)
Theorem C93_per_register_refuted : forall (F : fieldType) (gz : nat -> F) (i : nat) (alpha : F),
  exists Z0, nth [::] (construct_Z_boundaries gz 2 [:: (i, 1%N, alpha)]) 0 = Z0 /\
    pcall Z0 (gz i) = 0 /\ pcall Z0 (gz i + 1) <> 0 /\
    \prod_(b <- [:: (i, 1%N, alpha)] | b.1.2 == 0%N) ('X - (gz b.1.1)%:P) = 1.
Proof.
move=> F gz i alpha; rewrite Z_boundariesE /= big_seq1; eexists; split; first by [].
rewrite !pcallE polyseqK !hornerXsubC subrr; split=> //; split.
  by rewrite addrC addKr; apply/eqP; exact: oner_neq0.
by rewrite big_cons big_nil.
Qed.
Print Assumptions C93_per_register_refuted.

(** The interpolants, too, ignore the register.  With distinct times each of them goes
    through all constraints. *)
Theorem C93_Eps_boundaries : forall (F : fieldType) (gz : nat -> F) w B,
  uniq [seq gz b.1.1 | b <- B] ->
  exists E, construct_Eps_boundaries gz w B = Ok (nseq w E) /\ normal E /\ (size E <= size B)%N /\
    forall b, b \in B -> pcall E (gz b.1.1) = b.2.
Proof.
move=> F gz w B U; rewrite Eps_boundariesE; eexists; split; first by [].
rewrite normal_polyseq; split=> //; split.
  by rewrite (leq_trans (size_lag _ _)) // size_map.
move=> b /(nthP b) [i Hi <-]; rewrite pcallE polyseqK.
have := @lag_eval F [seq gz b.1.1 | b <- B] [seq b.2 | b <- B] i U.
by rewrite size_map !(nth_map b) // => ->.
Qed.
Print Assumptions C93_Eps_boundaries.

(** Deviation: the constraints of an AIR all have time 0.  With two or more registers the
    interpolant is the sum of the inputs times a power of X - gz 0, so that it is 0 at the
    point where it should be the input. *)
Theorem C93_air_boundaries : forall (F : fieldType) (gz : nat -> F) w (inp : seq F) B,
  size inp = w -> (0 < w)%N -> generate_boundary_constraints w inp = Ok B ->
  exists E Zb, construct_Eps_boundaries gz w B = Ok (nseq w E) /\
    construct_Z_boundaries gz w B = nseq w Zb /\ Poly Zb = ('X - (gz 0%N)%:P) ^+ w /\
    (w = 1%N -> Poly E = (nth 0 inp 0)%:P) /\
    ((1 < w)%N -> Poly E = (\sum_(a <- inp) a) *: ('X - (gz 0%N)%:P) ^+ w.-1 /\ pcall E (gz 0%N) = 0).
Proof.
move=> F gz w inp B S Hw; rewrite boundaryE ?S // => -[<-].
rewrite Eps_boundariesE Z_boundariesE; eexists; eexists; split; first by []; split; first by [].
rewrite !polyseqK big_map /= -map_comp /=.
have -> : [seq gz ((fun j => (0%N, j, inp`_j)) x).1.1 | x <- iota 0 w] = nseq w (gz 0%N).
  by rewrite -{2}(size_iota 0 w); elim: (iota 0 w) => //= _ l ->.
have -> : [seq b.2 | b <- [seq (0%N, j, inp`_j) | j <- iota 0 w]] = inp.
  by rewrite -map_comp /= -S; exact: mkseq_nth.
split.
  by rewrite -{2}(size_iota 0 w); elim: (iota 0 w) => [|x l IH]; rewrite ?big_nil // big_cons IH exprS.
case: w S Hw => // w S _; rewrite lag_repeated; split=> [[->] //|].
case: w S => // w S _.
have Es : \sum_(i < w.+2) inp`_i = \sum_(a <- inp) a by rewrite [RHS](big_nth 0) S big_mkord.
rewrite Es pcallE polyseqK; split=> //.
by rewrite hornerZ horner_exp hornerXsubC subrr expr0n mulr0.
Qed.
Print Assumptions C93_air_boundaries.

(** C94.  Deviation: the witness of the reduction is the zero polynomial for every
    register, whatever the computation, the boundary constraints and the masking degree. *)
Theorem C94_witness_is_zero : forall (F : fieldType) (gz : nat -> F) k t n w_air B,
  size w_air = n -> all (fun l => 2 ^ t <= size l)%N w_air ->
  exists E, construct_Eps_boundaries gz n B = Ok E /\
    apr_witness gz k t w_air (construct_Z_boundaries gz n B) E = Ok (nseq n [::]).
Proof.
move=> F gz k t n w_air B S H; rewrite Eps_boundariesE; eexists; split; first by [].
by apply: witnessE => //; rewrite Eps_boundariesE.
Qed.
Print Assumptions C94_witness_is_zero.

(** A witness list that is too short for the 2^t points raises IndexError. *)
Theorem C94_short_trace : forall (F : fieldType) (gz : nat -> F) k t (l z e : seq F) rest Zb Eb,
  (size l < 2 ^ t)%N -> apr_witness gz k t (l :: rest) (z :: Zb) (e :: Eb) = Err IndexError.
Proof.
move=> F gz k t l z e rest Zb Eb H; rewrite /apr_witness /=.
suff -> : mapM (fun i : nat => py_nth l (Z.of_nat i)) (iota 0 (2 ^ t)) = Err IndexError by [].
have -> : iota 0 (2 ^ t) = iota 0 (size l) ++ size l :: iota (size l).+1 (2 ^ t - (size l).+1).
  by rewrite -[in LHS](subnKC H) addSnnS iotaD.
have : all (fun i => i < size l)%N (iota 0 (size l)) by apply/allP => i; rewrite mem_iota.
elim: (iota 0 (size l)) => [_|i s IH] /=; first by rewrite py_nth_err.
move=> /andP [Hi /IH ->]; rewrite (FiniteFieldProofs.py_nth_ok 0) //.
Qed.
Print Assumptions C94_short_trace.

(** A computation whose constraint degree is 0 raises ValueError (the logarithm of 0)
    before anything else is computed; the constructor of AIR never produces one. *)
Theorem C94_zero_degree : forall (F : fieldType) (gz : nat -> F) a k p m zeta g,
  air_CDegree a = 0%N -> mk_apr gz a k p m zeta g = Err ValueError.
Proof. by move=> F gz a k p m zeta g E; rewrite /mk_apr /apr_d E. Qed.
Print Assumptions C94_zero_degree.

(** The constructor on any AIR object: what it computes, and that two computations with
    equally many registers get the same witness. *)
Theorem C94_constructor : forall (F : fieldType) (gz : nat -> F) w (inp : seq F) ps ext a k p m zeta g,
  polys_ok w ps -> size inp = w -> (0 < w)%N -> mk_air w inp 511 ps ext = Ok a ->
  exists r, mk_apr gz a k p m zeta g = Ok r /\
    apr_w r = nseq w [::] /\ size (apr_Z r) = w /\ size (apr_E r) = w /\
    apr_rho_js r = nseq w ((2 ^ Z.of_nat (k + 8) - Z.of_nat w)%Z,
      ((p ^ m) ^ Z.of_nat (k + 16 + trunc_log 2 (air_CDegree a)))%Z) /\
    apr_rho_cmp r = ((1 + 2 ^ Z.of_nat (k + 9 + trunc_log 2 (air_CDegree a)))%Z,
      ((p ^ m) ^ Z.of_nat (k + 15 + trunc_log 2 (air_CDegree a)))%Z) /\
    size (apr_Nbrs r) = (3 * w)%N.
Proof.
move=> F gz w inp ps ext a k p m zeta g O S Hw E.
have := @C48_constructor F w inp ps ext O S Hw; case: ifP => [_|_]; last by rewrite E.
move=> [a' []]; rewrite E => -[<-] [[_ EC _ G EB] [Ew Ei Es _ _]].
have [wit [Ewit [Swit Hwit]]] := C48_witness O S G.
rewrite /mk_apr Ew Es Ewit EB.
have -> : apr_t 511 = 8%N by [].
have -> : apr_d (air_CDegree a) = Ok (trunc_log 2 (air_CDegree a)).+1.
  by rewrite /apr_d EC; case: eqP => // /eqP; rewrite -leqn0 leqNgt leq_max.
rewrite bind_ok Eps_boundariesE !bind_ok.
set B := [seq _ | _ <- _].
rewrite (@witnessE F gz k 8 wit w B) //; first last.
- apply/(all_nthP [::]) => j Hj; rewrite Swit in Hj.
  by have [-> _] := Hwit j Hj.
- by rewrite Eps_boundariesE.
set n := trunc_log _ _.
have -> : size (construct_L k 8 n.+1 g).1 = (k + 16 + n)%N.
  rewrite size_cat size_map size_iota /apr_R; move: n; clear => n /=; lia.
have -> : size (construct_L_cmp k 8 n.+1 g).1 = (k + 15 + n)%N.
  by rewrite size_map size_iota /apr_R; lia.
rewrite bind_ok; eexists; split; first by []; rewrite /=.
split=> //; split; first by rewrite Z_boundariesE size_nseq.
split; first by rewrite size_nseq.
split; last split.
- rewrite /compute_rho_js Z_boundariesE map_nseq; congr nseq; congr (_ - _, _)%Z.
  rewrite /pdegree /pabs.
  have -> : size (\prod_(b <- B) ('X - (gz b.1.1)%:P)) = w.+1.
    rewrite (_ : \prod_(b <- B) _ = \prod_(x <- [seq gz b.1.1 | b <- B]) ('X - x%:P)); last by rewrite big_map.
    by rewrite size_prod_XsubC !size_map size_iota.
  lia.
- by rewrite /compute_rho_cmp; have -> : (k + 8 + n.+1 = k + 9 + n)%N by lia.
- rewrite /construct_neighbors -{2}(size_iota 0 w); elim: (iota 0 w) => //= x l ->; lia.
Qed.
Print Assumptions C94_constructor.

Local Notation z5 := (in_modp P5).
Definition z7 (n : Z) : modp_fieldType P7 := in_modp P7 n.

Example C93_example :
  [seq [seq mval x | x <- l] | l <- construct_Z_boundaries (fun i => z7 (Z.of_nat i + 1)) 2
     [:: (0%N, 0%N, z7 4); (1%N, 1%N, z7 5)]] = [:: [:: 2; 4; 1]; [:: 2; 4; 1]]%Z /\
  rmap (map (map (@mval P7))) (construct_Eps_boundaries (fun i => z7 (Z.of_nat i + 1)) 2
     [:: (0%N, 0%N, z7 4); (1%N, 1%N, z7 5)]) = Ok [:: [:: 3; 1]; [:: 3; 1]]%Z /\
  rmap (map (map (@mval P7))) (construct_Eps_boundaries (fun i => z7 1) 2
     [:: (0%N, 0%N, z7 4); (0%N, 1%N, z7 5)]) = Ok [:: [:: 5; 2]; [:: 5; 2]]%Z.
Proof. by vm_compute. Qed.

Example C94_example :
  rmap (fun r => (apr_w r, size (apr_Nbrs r), apr_rho_js r, apr_rho_cmp r))
    (let* a := mk_air 2 [:: z5 1; z5 2] 511 fib 8 in
     mk_apr (fun i => z5 (2 ^ Z.of_nat (i mod 4))) a 5 2 1 (z5 3) (z5 2)) =
  Ok ([:: [::]; [::]], 6%N, [:: (8190, 2 ^ 21); (8190, 2 ^ 21)], (1 + 2 ^ 14, 2 ^ 20))%Z /\
  apr_witness (fun i => z5 1) 5 2 [:: [:: z5 1; z5 2]] [:: [:: z5 1]] [:: [::]] = Err IndexError.
Proof. by vm_compute. Qed.

(** C95.  The spaces.  [K] is Z/p and the elements are polynomials over it.  H is the set
    of all polynomials of degree below [t], each once; H0 and H1 are the polynomials of
    degree below [t - 1], and the monic ones of degree exactly [t - 1]. *)
Theorem C95_H : forall (P : primeZ) (t : nat) (p : {poly modp_fieldType P}),
  (p \in affine_iter (zp_felts P) (space_H t 'X).1 (space_H t 'X).2 <-> (size p <= t)%N) /\
  uniq (affine_iter (zp_felts P) (space_H t ('X : {poly modp_fieldType P})).1 (space_H t 'X).2) /\
  ((0 < t)%N ->
   (p \in affine_iter (zp_felts P) (space_H0 t 'X).1 (space_H0 t 'X).2 <-> (size p < t)%N) /\
   (p \in affine_iter (zp_felts P) (space_H1 t 'X).1 (space_H1 t 'X).2 <-> (size p = t /\ p \is monic))).
Proof.
move=> P t p; split; first by rewrite powers_mem subr0.
split=> [|Ht]; first exact: powers_uniq.
case: t Ht => // t _; rewrite !powers_mem /= subSS subn0 subr0; split=> //.
set q := p - 'X^t; have E : p = q + 'X^t by rewrite subrK.
split=> [H|[S M]].
  have Sp : size p = t.+1 by rewrite E addrC size_addl size_polyXn.
  split=> //; rewrite monicE lead_coefE Sp /= E coefD coefXn eqxx.
  by rewrite nth_default // add0r.
apply/leq_sizeP => j; rewrite leq_eqVlt => /orP [/eqP <-|Hj]; rewrite coefB coefXn.
  by move: M; rewrite monicE lead_coefE S /= => /eqP ->; rewrite eqxx subrr.
by rewrite nth_default ?S // gtn_eqF // subr0.
Qed.
Print Assumptions C95_H.

(** Over Z/2, H is the disjoint union of H0 and H1. *)
Theorem C95_H_split : forall (t : nat) (p : {poly modp_fieldType P2}), (0 < t)%N ->
  (p \in affine_iter (zp_felts P2) (space_H t 'X).1 (space_H t 'X).2) =
  (p \in affine_iter (zp_felts P2) (space_H0 t 'X).1 (space_H0 t 'X).2)
  (+) (p \in affine_iter (zp_felts P2) (space_H1 t 'X).1 (space_H1 t 'X).2).
Proof.
move=> t p Ht; have [H [_ /(_ Ht) [H0 H1]]] := C95_H t p.
have -> : (p \in affine_iter (zp_felts P2) (space_H t 'X).1 (space_H t 'X).2) = (size p <= t)%N by apply/idP/idP => /H.
have -> : (p \in affine_iter (zp_felts P2) (space_H0 t 'X).1 (space_H0 t 'X).2) = (size p < t)%N by apply/idP/idP => /H0.
have -> : (p \in affine_iter (zp_felts P2) (space_H1 t 'X).1 (space_H1 t 'X).2) = (size p == t).
  apply/idP/idP => [/H1 [-> _] //|/eqP S]; apply/H1; split=> //.
  rewrite monicE; have: lead_coef p != 0 by rewrite lead_coef_eq0 -size_poly_gt0 S.
  have := zp_felts_all (lead_coef p).
  by rewrite (_ : zp_felts P2 = [:: 0; 1]) ?inE => [/orP [->|->]|]; last by apply/eqP; vm_compute.
by case: ltngtP.
Qed.
Print Assumptions C95_H_split.

(** L and Lcmp over the prime field: every element of L has degree at least
    N = 1 + k + R + t + d, so L is disjoint from H; L has p^(N+1) elements; Lcmp is the
    part of L of degree exactly N. *)
Theorem C95_L : forall (P : primeZ) (k t d : nat) (p : {poly modp_fieldType P}),
  let N := (1 + k + 5 + t + d)%N in
  let L := construct_L k t d ('X : {poly modp_fieldType P}) in
  let Lcmp := construct_L_cmp k t d ('X : {poly modp_fieldType P}) in
  (p \in affine_iter (zp_felts P) L.1 L.2 -> (N < size p)%N /\
     p \notin affine_iter (zp_felts P) (space_H t 'X).1 (space_H t 'X).2) /\
  uniq (affine_iter (zp_felts P) L.1 L.2) /\
  Z.of_nat (size (affine_iter (zp_felts P) L.1 L.2)) = (pz P ^ Z.of_nat N.+1)%Z /\
  (p \in affine_iter (zp_felts P) Lcmp.1 Lcmp.2 <->
     p \in affine_iter (zp_felts P) L.1 L.2 /\ size p = N.+1).
Proof.
move=> P k t d p N L Lcmp; split.
  move=> H; have HN := L_high H; split=> //; apply/negP; rewrite powers_mem subr0 => Hs.
  by have := leq_trans HN Hs; rewrite ltnNge -addnA (leq_trans _ (leq_addl _ _)) // leq_addr.
split; first exact: L_uniq.
have [_ -> _] := zp_affine_spec L.1 L.2; rewrite /affine_len Z.pow_1_r.
rewrite (_ : size L.1 = N.+1); last exact: size_L; split=> //.
rewrite powers_mem -/N; split=> [Hs|[/affine_mem [c [Sc _ Ep]] Sp]].
  split; first by apply: Lcmp_sub; apply/powers_mem.
  by rewrite -(subrK 'X^N p) addrC size_addl size_polyXn.
have Hc : (p - 'X^N)`_N.+1 = c`_N.
  by rewrite Ep addrC addKr coef_lin_L ltnNge leqnSn eqxx gtn_eqF // !add0r mulr1.
have Ec : c`_N = 0.
  by rewrite -Hc coefB coefXn gtn_eqF // subr0 nth_default // Sp.
rewrite Ep addrC addKr lin_L Ec scale0r addr0; exact: size_poly.
Qed.
Print Assumptions C95_L.

(** Deviation: the length that the rates use is the number of elements only when the
    extension degree is 1. *)
Theorem C95_length : forall (P : primeZ) (k t d : nat) (m : Z), (0 < m)%Z ->
  let L := construct_L k t d ('X : {poly modp_fieldType P}) in
  affine_len (pz P) m L.1 = Z.of_nat (size (affine_iter (zp_felts P) L.1 L.2)) <-> m = 1%Z.
Proof.
move=> P k t d m Hm L; have [_ -> _] := zp_affine_spec L.1 L.2; rewrite /affine_len Z.pow_1_r.
split=> [|->]; last by rewrite Z.pow_1_r.
rewrite (_ : size L.1 = (1 + k + apr_R + t + d).+1); last exact: size_L.
have Hp : (1 < pz P)%Z by case: (pz_prime P).
rewrite -Z.pow_mul_r; [|lia..] => /Z.pow_inj_r; nia.
Qed.
Print Assumptions C95_length.

(** The neighbours: for each register the three polynomials X, zeta + g X and g X. *)
Theorem C95_neighbors : forall (F : fieldType) (Tau : seq nat) (zeta g : F),
  size (construct_neighbors Tau zeta g) = (3 * size Tau)%N /\
  forall i (x : F), (i < size Tau)%N ->
    let nb j := nth (0%N, [::]) (construct_neighbors Tau zeta g) (3 * i + j) in
    [seq (nb j).1 | j <- iota 0 3] = nseq 3 (nth 0%N Tau i) /\
    [seq pcall (nb j).2 x | j <- iota 0 3] = [:: x; zeta + g * x; g * x].
Proof.
move=> F Tau zeta g; rewrite /construct_neighbors; split.
  by elim: Tau => //= x l ->; rewrite mulnS.
move=> i x; elim: Tau i => [//|tau l IH] [|i] Hi; last first.
  by have := IH i Hi; rewrite !mulnS.
split=> //=; rewrite !pcallE !Poly_pmk /= !cons_poly_def.
by rewrite !hornerE /= ?mul0r ?add0r ?mul1r ?[g * x + _]addrC.
Qed.
Print Assumptions C95_neighbors.

Example C95_example :
  construct_neighbors [:: 0%N; 1%N] (z7 3) (z7 2) =
    [:: (0%N, [:: z7 0; z7 1]); (0%N, [:: z7 3; z7 2]); (0%N, [:: z7 0; z7 2]);
        (1%N, [:: z7 0; z7 1]); (1%N, [:: z7 3; z7 2]); (1%N, [:: z7 0; z7 2])] /\
  ('X : {poly modp_fieldType P2}) \in affine_iter (zp_felts P2) (space_H 2 'X).1 (space_H 2 'X).2 /\
  affine_len 2 2 (construct_L 0 0 0 ('X : {poly modp_fieldType P2})).1 = 16384%Z.
Proof.
split; first by apply/eqP; vm_compute.
split; first by apply/(proj1 (C95_H 2 _)); rewrite size_polyX.
by vm_compute.
Qed.

(** C96.  The docstring of tilde_expansion: the component tau is
    X_(tau,N) * Z_tau(N(X_loc)) + E_tau(N(X_loc)), with X_(tau,N) a variable and X_loc the
    variable 0.  Refuted, whichever variable is meant: with one register, the boundary
    polynomials of the constraint (0, 0, 2) at the point 1, and the neighbour X. *)
Theorem C96_tilde_expansion_refuted :
  exists Eb, construct_Eps_boundaries (fun _ => z7 1) 1 [:: (0%N, 0%N, z7 2)] = Ok Eb /\
  let Zb := construct_Z_boundaries (fun _ => z7 1) 1 [:: (0%N, 0%N, z7 2)] in
  exists q, tilde_expansion 3 Zb Eb [:: 0%N] (pmk [:: z7 0; z7 1]) = Ok [:: q] /\
  forall v, (v < 4)%N -> exists pt y, size pt = 4%N /\ mcall 4 q pt = Ok y /\
    y <> nth 0 pt v * pcall (nth [::] Zb 0) (nth 0 pt 0) + pcall (nth [::] Eb 0) (nth 0 pt 0).
Proof.
eexists; split; first by vm_compute.
eexists; split; first by vm_compute.
have D (a b : modp_fieldType P7) : mval a <> mval b -> a <> b by move=> H E; rewrite E in H.
case=> [_|[_|[_|[_|]]]] //; (exists [:: z7 2; z7 0; z7 0; z7 0]; eexists; split; first by []; split; [by vm_compute|apply: D; by vm_compute]).
Qed.
Print Assumptions C96_tilde_expansion_refuted.


(** What tilde_expansion does compute, as a polynomial in [nb + 1] variables: it is the
    documented one exactly as far as the length of the exponent tuple of the variable is
    right, which is when the neighbour polynomial has [nb] non-zero coefficients
    (starks/apr.py:123 uses [len(N_X_loc)], the number of its terms, for the number of
    neighbours). *)
Lemma pcall_multi_spec (F : fieldType) n (p : seq F) (x : mpoly F) : wf n x ->
  wf n (pcall_multi n p x) /\
  forall (R : comRingType) (phi : {rmorphism F -> R}) (v : nat -> R),
    meval phi v (pcall_multi n p x) = (map_poly phi (Poly p)).[meval phi v x].
Proof.
move=> Wx.
have G : forall (st : mpoly F * mpoly F), wf n st.1 -> wf n st.2 ->
  let r := (foldl (fun (st : mpoly F * mpoly F) a => (madd st.1 (mmul st.2 (mconst n a)), mmul st.2 x)) st p).1 in
  wf n r /\ forall (R : comRingType) (phi : {rmorphism F -> R}) (v : nat -> R),
    meval phi v r = meval phi v st.1 + meval phi v st.2 * (map_poly phi (Poly p)).[meval phi v x].
  elim: p => [|a p IH] st W1 W2; first by split=> // R phi v; rewrite /= rmorph0 horner0 mulr0 addr0.
  have Wm := wf_mul W2 (wf_const n a).
  have [W E] := IH (madd st.1 (mmul st.2 (mconst n a)), mmul st.2 x) (wf_add W1 Wm) (wf_mul W2 Wx).
  split=> // R phi v; rewrite [LHS]E (meval_addE phi v W1 Wm).
  have [_ ->] := mul_spec W2 (wf_const n a); have [_ ->] := mul_spec W2 Wx.
  rewrite meval_const /= cons_poly_def rmorphD rmorphM /= map_polyX map_polyC /= !hornerE.
  by rewrite mulrDr addrA addrAC -addrA -mulrA [meval phi v x * _]mulrC addrA addrAC.
have [W E] := G (mconst n 0, mconst n 1) (wf_const n 0) (wf_const n 1); split=> // R phi v.
by rewrite [LHS]E !meval_const rmorph0 rmorph1 add0r mul1r.
Qed.


Lemma pcall_multi_size (F : fieldType) nb (p : seq F) :
  size (pcall_multi nb.+1 p (mmk [:: (1%N :: nseq nb 0%N, 1)])) = count (fun c => c != 0) p.
Proof.
set x := mmk _.
have Wx : wf nb.+1 x.
  by apply: wf_mmk => // k; rewrite inE => /eqP ->; rewrite /= size_nseq.
have [W E] := @pcall_multi_spec F nb.+1 p x Wx.
set e : mpoly F := [seq (i :: nseq nb 0%N, p`_i) | i <- iota 0 (size p)].
have Ue : uniq (mkeys e).
  by rewrite /mkeys -map_comp map_inj_in_uniq ?iota_uniq // => i j _ _ [].
have We : wf nb.+1 (mmk e).
  by apply: wf_mmk => // k /mapP [kc /mapP [i _ ->] ->]; rewrite /= size_nseq.
have Ee : forall (R : comRingType) (phi : {rmorphism F -> R}) (v : nat -> R),
    meval phi v (pcall_multi nb.+1 p x) = meval phi v (mmk e).
  move=> R phi v; rewrite E.
  have -> : meval phi v x = v 0%N.
    rewrite meval_mmk /meval big_seq1 /= rmorph1 mul1r /mon /= big_ord_recl big1 ?mulr1 ?expr1 // => i _.
    by rewrite lift0 /= nth_nseq if_same expr0.
  rewrite [in RHS]meval_mmk /meval big_map (@horner_coef_wide _ (size p)); last exact: leq_trans (size_poly _ _) (size_Poly _).
  rewrite -(big_mkord xpredT (fun i => (map_poly phi (Poly p))`_i * v 0%N ^+ i)) /index_iota subn0.
  apply: eq_bigr => i _; rewrite coef_map coef_Poly /=; congr (_ * _).
  rewrite /mon /= big_ord_recl big1 ?mulr1 //= => j _.
  by rewrite nth_nseq if_same expr0.
have P : perm_eq (pcall_multi nb.+1 p x) (mmk e).
  apply: (wf_ext W We); apply: (meval_inj W We) => v; exact: Ee.
rewrite (perm_size P) /mmk /remove_zero_coefficients size_filter count_map.
rewrite -[in RHS](mkseq_nth 0 p) count_map; exact: eq_count.
Qed.

(** The expansion when the neighbour polynomial has as many non-zero coefficients as there
    are neighbours, evaluated in any commutative ring: the variable of register tau is the
    variable tau, which is X_loc for register 0. *)
Theorem C96_tilde_expansion : forall (F : fieldType) nb (Zb Eb : seq (seq F)) (Tau : seq nat) (nbr : seq F),
  count (fun c => c != 0) nbr = nb ->
  (forall tau, tau \in Tau -> (tau <= nb)%N /\ (tau < size Zb)%N /\ (tau < size Eb)%N) ->
  exists qs, tilde_expansion nb Zb Eb Tau nbr = Ok qs /\ size qs = size Tau /\
    forall i, (i < size Tau)%N -> let tau := nth 0%N Tau i in
      forall (R : comRingType) (phi : {rmorphism F -> R}) (v : nat -> R),
        let val p x := (map_poly phi (Poly p)).[x] in let N := val nbr (v 0%N) in
        meval phi v (nth [::] qs i) = v tau * val (nth [::] Zb tau) N + val (nth [::] Eb tau) N.
Proof.
move=> F nb Zb Eb Tau nbr C H; rewrite /tilde_expansion.
set x := mmk [:: (1%N :: nseq nb 0%N, 1)].
have Wx : wf nb.+1 x.
  by apply: wf_mmk => // k; rewrite inE => /eqP ->; rewrite /= size_nseq.
have Sx : size (pcall_multi nb.+1 nbr x) = nb by rewrite pcall_multi_size C.
set N := pcall_multi nb.+1 nbr x in Sx *; rewrite Sx.
have [WN EN] : _ := @pcall_multi_spec F nb.+1 nbr x Wx.
set g := fun tau : nat => madd (mmul (mmk [:: (nseq tau 0%N ++ 1%N :: nseq (nb - tau) 0%N, 1)])
     (pcall_multi nb.+1 (nth [::] Zb tau) N)) (pcall_multi nb.+1 (nth [::] Eb tau) N).
rewrite (@mapM_ok_in _ _ _ g); last first.
  move=> tau /H [_ [Hz He]].
  rewrite (FiniteFieldProofs.py_nth_ok [::]) ?size_map // bind_ok (FiniteFieldProofs.py_nth_ok [::]) ?size_map // bind_ok.
  by rewrite !(nth_map [::]).
eexists; split; first by []; rewrite size_map; split=> // i Hi R phi v.
rewrite (nth_map 0%N) //; set tau := nth 0%N Tau i.
have [Ht [Hz He]] := H tau (mem_nth _ Hi).
have Ev : mmk [:: (nseq tau 0%N ++ 1%N :: nseq (nb - tau) 0%N, 1)] = mvar F nb.+1 tau by rewrite /mvar /unit_tuple subSS.
have Wv : wf nb.+1 (mvar F nb.+1 tau) by apply: wf_mvar.
have [Wz Ez] := @pcall_multi_spec F nb.+1 (nth [::] Zb tau) N WN.
have [We Ee] := @pcall_multi_spec F nb.+1 (nth [::] Eb tau) N WN.
rewrite /g Ev (meval_addE phi v (wf_mul Wv Wz) We).
have [_ ->] := mul_spec Wv Wz; rewrite meval_mvar // Ez Ee EN.
have -> : meval phi v x = v 0%N.
  rewrite meval_mmk /meval big_seq1 /= rmorph1 mul1r /mon /= big_ord_recl big1 ?mulr1 ?expr1 // => j _.
  by rewrite lift0 /= nth_nseq if_same expr0.
by [].
Qed.
Print Assumptions C96_tilde_expansion.

(** a register without boundary polynomial raises IndexError *)
Theorem C96_missing_register : forall (F : fieldType) nb (Zb Eb : seq (seq F)) tau rest (nbr : seq F),
  (size Zb <= tau)%N || (size Eb <= tau)%N ->
  tilde_expansion nb Zb Eb (tau :: rest) nbr = Err IndexError.
Proof.
move=> F nb Zb Eb tau rest nbr H; rewrite /tilde_expansion /=.
set Z_N := [seq _ | Zj <- Zb]; set E_N := [seq _ | Ej <- Eb].
have Sz : size Z_N = size Zb by rewrite size_map.
have Se : size E_N = size Eb by rewrite size_map.
case: (leqP (size Zb) tau) H => [Hz _|Hz /= He]; first by rewrite py_nth_err // Sz.
rewrite (FiniteFieldProofs.py_nth_ok [::]) ?Sz //= py_nth_err //.
by rewrite Se.
Qed.
Print Assumptions C96_missing_register.

(** What it does compute there: x0^2 x2 - x0 + 2.  The variable is X_loc for register 0,
    and the exponent tuple has the wrong length, so that an exponent moves to x2. *)
Example C96_example :
  rmap (map (map (fun kc => (kc.1, mval kc.2))))
    (tilde_expansion 3 [:: [:: z7 6; z7 1]] [:: [:: z7 2]] [:: 0%N] [:: z7 0; z7 1])
  = Ok [:: [:: ([:: 1; 0; 0; 0]%N, 6%Z); ([:: 2; 0; 1; 0]%N, 1%Z); ([:: 0; 0; 0; 0]%N, 2%Z)]].
Proof. by vm_compute. Qed.

(** Two neighbours, x0 + 1 as neighbour polynomial and register 1: x1 (x0 + 1 - 1) + 2 *)
Example C96_example_positive :
  rmap (map (map (fun kc => (kc.1, mval kc.2))))
    (tilde_expansion 2 [:: [::]; [:: z7 6; z7 1]] [:: [::]; [:: z7 2]] [:: 1%N] [:: z7 1; z7 1])
  = Ok [:: [:: ([:: 1; 1; 0]%N, 1%Z); ([:: 0; 0; 0]%N, 2%Z)]].
Proof. by vm_compute. Qed.
