(** C109 for polynomial entries: [gauss] of starks/poly_utils.py is exact when the
    matrix is constant and the right hand side arbitrary, and on a triangular matrix
    of polynomials whenever the system has a solution. *)
From mathcomp Require Import zify.
From Verif Require Import Prelude ModpModel ModpField PolyModel PolyProofs FftProofs GaussModel GaussProofs GaussPoly
  Properties_Gauss.
Import GRing.Theory.
Local Open Scope ring_scope.
Local Open Scope py_scope.

(** Constants on the left, arbitrary polynomials on the right: the only solution in
    polynomials, or ZeroDivisionError and the constants have a kernel. *)
Theorem C109_gauss_polynomial_rhs : forall (K : fieldType) (starts_one : K -> bool) (row : nat)
    (M : matrix K) (A : nat -> nat -> K),
  (forall r c, (r < row)%N -> (c < row)%N -> M r c = pconst (A r c)) ->
  (forall r, (r < row)%N -> normal (M r row)) ->
  (exists x : nat -> {poly K},
    [/\ rmap fst (gauss starts_one M row) = Ok (mkseq (fun j => x j : seq K) row),
        forall r, (r < row)%N -> \sum_(c < row) A r c *: x c = Poly (M r row) &
        forall y : nat -> {poly K}, (forall r, (r < row)%N -> \sum_(c < row) A r c *: y c = Poly (M r row)) ->
          forall c, (c < row)%N -> y c = x c]) \/
  (gauss starts_one M row = Err ZeroDivisionError /\
   exists x : nat -> K, (exists c, (c < row)%N /\ x c != 0) /\
     forall r, (r < row)%N -> \sum_(c < row) A r c * x c = 0).
Proof.
move=> K so row M A R N.
pose B r c : {poly K} := if (c < row)%N then (A r c)%:P else Poly (M r c).
have RB : rel row M B.
  move=> r c Hr Hc; rewrite /B; case: ltnP => H; first by rewrite R // pconstE.
  by have -> : c = row by [lia]; rewrite /ps PolyK_normal // N.
have CB : ct row B by move=> r c Hr Hc; rewrite /B Hc size_polyC leq_b1.
have Brow r : B r row = Poly (M r row) by rewrite /B ltnn.
have Sum (y : nat -> {poly K}) r : \sum_(c < row) B r c * y c = \sum_(c < row) A r c *: y c.
  by apply: eq_bigr => c _; rewrite /B ltn_ord mul_polyC.
have [[x [E S U]]|[E [x [[c [Hc Nx]] S]]]] := gauss_ct so RB CB; [left|right].
  exists x; split=> // [r Hr|y Sy].
    by rewrite -Sum S // mulr1 Brow.
  by apply: U => r Hr; rewrite Sum Sy // mulr1 Brow.
split=> //; exists (fun j => (x j)`_(size (x c)).-1); split; first by exists c; rewrite lead_coef_eq0.
move=> r Hr; have := congr1 (fun p : {poly K} => p`_(size (x c)).-1) (S r Hr).
rewrite mulr0 coef0 Sum coef_sum => E0; rewrite -[RHS]E0; by apply: eq_bigr => j _; rewrite coefZ.
Qed.
Print Assumptions C109_gauss_polynomial_rhs.

(** A triangular matrix of polynomials without zeros on the diagonal: the call returns, and
    every unknown is the quotient of its equation by the diagonal entry. *)
Theorem C109_gauss_triangular : forall (K : fieldType) (starts_one : K -> bool) (row : nat) (M : matrix K),
  (forall r c, (r < row)%N -> (c <= row)%N -> normal (M r c)) ->
  (forall r c, (c < r)%N -> (r < row)%N -> M r c = [::]) ->
  (forall r, (r < row)%N -> M r r <> [::]) ->
  exists x : nat -> {poly K},
    rmap fst (gauss starts_one M row) = Ok (mkseq (fun j => x j : seq K) row) /\
    forall r, (r < row)%N ->
      x r = (Poly (M r row) - \sum_(r.+1 <= c < row) Poly (M r c) * x c) %/ Poly (M r r).
Proof.
move=> K so row M N T D.
have R : rel row M (fun r c => Poly (M r c)) by move=> r c Hr Hc; rewrite /ps PolyK_normal // N.
have [||x [E H]] := gauss_triangular so R; last by exists x.
  by move=> r c Hc Hr; rewrite T.
move=> r Hr; apply/negP => /eqP E; apply: (D r Hr).
by rewrite -[LHS](PolyK_normal (a := M r r)) ?E ?polyseq0 //; apply: N => //; lia.
Qed.
Print Assumptions C109_gauss_triangular.

(** ... so a solution in polynomials, if there is one, is the result. *)
Theorem C109_gauss_triangular_solves : forall (K : fieldType) (starts_one : K -> bool) (row : nat) (M : matrix K)
    (y : nat -> {poly K}),
  (forall r c, (r < row)%N -> (c <= row)%N -> normal (M r c)) ->
  (forall r c, (c < r)%N -> (r < row)%N -> M r c = [::]) ->
  (forall r, (r < row)%N -> M r r <> [::]) ->
  (forall r, (r < row)%N -> \sum_(c < row) Poly (M r c) * y c = Poly (M r row)) ->
  rmap fst (gauss starts_one M row) = Ok (mkseq (fun j => y j : seq K) row).
Proof.
move=> K so row M y N T D S; have [x [-> H]] := C109_gauss_triangular K so row M N T D; congr Ok.
suff E n r : (row - n <= r < row)%N -> x r = y r.
  by apply/eq_in_map => j; rewrite mem_iota add0n => /= Hj; rewrite (E row) //; lia.
elim: n r => [|n IH] r Hr; first by lia.
have Hr' : (r < row)%N by lia.
have Nz : Poly (M r r) != 0.
  apply/negP => /eqP E; apply: (D r Hr').
  by rewrite -[LHS](PolyK_normal (a := M r r)) ?E ?polyseq0 //; apply: N => //; lia.
rewrite H // -(S r Hr') -(big_mkord xpredT (fun c => Poly (M r c) * y c)).
rewrite (@big_cat_nat _ _ _ r) //=; last by lia.
rewrite (big_ltn Hr') big_nat big1 ?add0r => [|c Hc]; last by rewrite T ?mul0r //; lia.
rewrite (eq_big_nat _ _ (F1 := fun c => Poly (M r c) * x c) (F2 := fun c => Poly (M r c) * y c)) => [|c Hc].
  by rewrite addrK mulKp.
by rewrite IH //; lia.
Qed.
Print Assumptions C109_gauss_triangular_solves.

(** x * a + b = x^2 + 1 and (x+1) * b = x + 1 over Z/2 ... *)
Example C109_polynomial_example :
  [/\ ints (gauss one2 (mat [:: [:: [:: 0; 1]; [:: 1]; [:: 1; 0; 1]]; [:: [::]; [:: 1; 1]; [:: 1; 1]]]%Z) 2)
        = Ok [:: [:: 0; 1]; [:: 1]]%Z &
      ints (gauss one2 (mat [:: [:: [:: 1]; [:: 1]; [:: 1; 0; 1]]; [:: [:: 1]; [::]; [:: 0; 1]]]%Z) 2)
        = Ok [:: [:: 0; 1]; [:: 1; 1; 1]]%Z].
Proof. by split; vm_compute. Qed.
