(** Model of starks/apr.py (the AIR to APR reduction), method by method;
    [construct_Phi_polynomials] (lines 165-200), which divides through sympy, is in PhiModel.v.

    [F] is the field [self.field].  The elements [field((g**i) % zeta)] that the code
    builds from the random primitive polynomial zeta are given by a function
    [gz : nat -> F], so that the theorems hold for every zeta.  In lagrange_interp the
    points are polynomials over the base field, cast to [F] by every operation that
    involves them.

    Simplifications: [math.log(x, 2)] is the exact logarithm, which is right after
    truncation for the values that occur ([air.steps] is 511 and [air.CDegree] at most
    1024, starks/air.py:99, 119); the rates, Python floats, are given as the exact
    fraction (numerator, denominator) before rounding; int coefficients are identified
    with their image in the field. *)
From Verif Require Import Prelude PowModel PolyModel ModpField InterpModel MultiModel AirModel.
Set Implicit Arguments.
Unset Strict Implicit.
Unset Printing Implicit Defensive.
Import GRing.Theory.
Local Open Scope ring_scope.
Local Open Scope py_scope.

(** starks/apr.py:65-66: [self.t] *)
Definition apr_t (T : nat) : nat := trunc_log 2 T.

(** starks/apr.py:69: [self.d]; the logarithm of 0 raises ValueError *)
Definition apr_d (CDegree : nat) : result nat :=
  if CDegree == 0%N then Err ValueError else Ok (trunc_log 2 CDegree).+1.

(** starks/apr.py:71: [self.R] *)
Definition apr_R : nat := 5.

(** An AffineSpace object (starks/reedsolomon.py:20-26): basis and shift *)
Definition space (R : Type) : Type := (seq R * R)%type.

Section Spaces.
Variable R : ringType.
(** starks/apr.py:132-136 [construct_L] *)
Definition construct_L (k t d : nat) (g : R) : space R :=
  let n := (1 + k + apr_R + t + d)%N in
  ([seq g ^+ i | i <- iota 0 n] ++ [:: g ^+ n * (1 + g)], g ^+ n).

(** starks/apr.py:138-142 [construct_L_cmp] *)
Definition construct_L_cmp (k t d : nat) (g : R) : space R :=
  let n := (1 + k + apr_R + t + d)%N in ([seq g ^+ i | i <- iota 0 n], g ^+ n).

(** starks/apr.py:83-85: H, H0 and H1.  [range(self.t - 1)] is empty for [t = 0], where
    [g ** (-1)] is [g] (starks/numbertype.py:68-84: no iteration of the loop, last bit
    of -1 set). *)
Definition space_H (t : nat) (g : R) : space R := ([seq g ^+ k | k <- iota 0 t], 0).
Definition space_H0 (t : nat) (g : R) : space R := ([seq g ^+ k | k <- iota 0 (t - 1)], 0).
Definition space_H1 (t : nat) (g : R) : space R :=
  ([seq g ^+ k | k <- iota 0 (t - 1)], if t == 0%N then g else g ^+ (t - 1)).
End Spaces.

Section AprModel.
Variable F : fieldType.
Variable gz : nat -> F.

(** starks/apr.py:144-154 [compute_rho_js]; the length of L is that of
    starks/reedsolomon.py:28-34, with [self.field.p ** self.field.m] *)
Definition compute_rho_js (k t : nat) (p m : Z) (Z_boundaries : seq (seq F)) (dimL : nat) : seq (Z * Z) :=
  [seq ((2 ^ Z.of_nat (k + t) - pdegree Zj)%Z, ((p ^ m) ^ Z.of_nat dimL)%Z) | Zj <- Z_boundaries].

(** starks/apr.py:156-162 [compute_rho_cmp] *)
Definition compute_rho_cmp (k t d : nat) (p m : Z) (dimLcmp : nat) : Z * Z :=
  ((1 + 2 ^ Z.of_nat (k + t + d))%Z, ((p ^ m) ^ Z.of_nat dimLcmp)%Z).

(** starks/apr.py:202-219 [construct_Z_boundaries] *)
Definition construct_Z_boundaries (width : nat) (B : seq (nat * nat * F)) : seq (seq F) :=
  [seq foldl (fun accum (b : nat * nat * F) =>
         let term := psub (pmk [:: 0; 1]) (pmk [:: gz b.1.1]) in pmul accum term)
       (pmk [:: 1]) B | _ <- iota 0 width].

(** starks/apr.py:221-239 [construct_Eps_boundaries] *)
Definition construct_Eps_boundaries (width : nat) (B : seq (nat * nat * F)) : result (seq (seq F)) :=
  mapM (fun _ : nat =>
    lagrange_interp [seq gz b.1.1 | b <- B] [seq b.2 | b <- B]) (iota 0 width).

(** starks/apr.py:241-252 [construct_neighbors]; [zeta] and [g] as elements of [F] *)
Definition construct_neighbors (Tau : seq nat) (zeta g : F) : seq (nat * seq F) :=
  flatten [seq [:: (tau, pmk [:: 0; 1]); (tau, pmk [:: zeta; g]); (tau, pmk [:: 0; g])] | tau <- Tau].

(** starks/poly_utils.py:57-60 [draw_random_interpolant] *)
Definition draw_random_interpolant (degree : nat) (xs ys : seq F) : seq F := pmk [:: 0].

(** starks/apr.py:254-276 [generate_witness]; [w_air] is the witness of the AIR.  [0 - E]
    is [-E + 0] (starks/numbertype.py:61-62). *)
Definition apr_witness (k t : nat) (w_air Zb Eb : seq (seq F)) : result (seq (seq F)) :=
  mapM (fun q : (seq F * seq F) * seq F =>
      let '((w_air_j, Z_B_j), E_B_j) := q in
      let xs := [seq gz i | i <- iota 0 (2 ^ t)] in
      let* ys := mapM (fun i : nat => py_nth w_air_j (Z.of_nat i)) (iota 0 (2 ^ t)) in
      let Q_j := draw_random_interpolant (2 ^ (k + t)) xs ys in
      pdiv (padd (pneg E_B_j) Q_j) Z_B_j)
    (zip (zip w_air Zb) Eb).

(** starks/polynomial.py:155-161 [__call__] of a polynomial over [F] at a multivariate
    polynomial in [n] variables *)
Definition pcall_multi (n : nat) (p : seq F) (x : mpoly F) : mpoly F :=
  (foldl (fun (st : mpoly F * mpoly F) a =>
     (madd st.1 (mmul st.2 (mconst n a)), mmul st.2 x)) (mconst n 0, mconst n 1) p).1.

(** starks/apr.py:102-130 [tilde_expansion]; [nb] is [len(self.Nbrs)] and [nbr] the
    neighbour polynomial *)
Definition tilde_expansion (nb : nat) (Zb Eb : seq (seq F)) (indices : seq nat) (nbr : seq F)
  : result (seq (mpoly F)) :=
  let X_loc := mmk [:: (1%N :: nseq nb 0%N, 1)] in
  let N_X_loc := pcall_multi nb.+1 nbr X_loc in
  let Z_N := [seq pcall_multi nb.+1 Zj N_X_loc | Zj <- Zb] in
  let Eps_N := [seq pcall_multi nb.+1 Ej N_X_loc | Ej <- Eb] in
  mapM (fun tau : nat =>
    let v := mmk [:: (nseq tau 0%N ++ 1%N :: nseq (size N_X_loc - tau) 0%N, 1)] in
    let* z := py_nth Z_N (Z.of_nat tau) in
    let* e := py_nth Eps_N (Z.of_nat tau) in
    Ok (madd (mmul v z) e)) indices.

(** The part of [APR.__init__] (starks/apr.py:46-100) that does not involve sympy: the
    neighbours, spaces, boundary polynomials, rates and the witness of an AIR. *)
Record apr := Apr {
  apr_Nbrs : seq (nat * seq F); apr_Z : seq (seq F); apr_E : seq (seq F);
  apr_rho_js : seq (Z * Z); apr_rho_cmp : Z * Z; apr_w : seq (seq F) }.

Definition mk_apr (a : air F) (k : nat) (p m : Z) (zeta g : F) : result apr :=
  let t := apr_t (air_steps a) in
  let* d := apr_d (air_CDegree a) in
  let Nbrs := construct_neighbors (iota 0 (air_width a)) zeta g in
  let Zb := construct_Z_boundaries (air_width a) (air_B a) in
  let* Eb := construct_Eps_boundaries (air_width a) (air_B a) in
  let rho := compute_rho_js k t p m Zb (size (construct_L k t d g).1) in
  let rho_cmp := compute_rho_cmp k t d p m (size (construct_L_cmp k t d g).1) in
  let* w_air := generate_witness (air_steps a) (air_width a) (air_trace a) in
  let* w := apr_witness k t w_air Zb Eb in
  Ok (Apr Nbrs Zb Eb rho rho_cmp w).
End AprModel.
