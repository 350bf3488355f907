(** Property theorems C109-C110: [gauss] and [construct_affine_vanishing_polynomial_Moore]
    of starks/poly_utils.py.  [starts_one] decides whether the text of a coefficient starts
    with the digit 1; the theorems hold for every such function. *)
From mathcomp Require Import zify.
From Verif Require Import Prelude ModpModel ModpField PolyModel PolyProofs FftProofs GaussModel GaussProofs MooreProofs.
Import GRing.Theory.
Local Open Scope ring_scope.
Local Open Scope py_scope.

Local Notation z2 l := [seq in_modp P2 z | z <- l].
Local Notation K2 := (modp_fieldType P2).
Definition one2 (c : K2) : bool := c == 1.
Definition mat (rows : seq (seq (seq Z))) : matrix K2 := fun r c => z2 (nth [::] (nth [::] rows r) c).
Definition ints (r : result (seq (seq K2) * matrix K2)) := rmap (fun p => map (map (@mval P2)) p.1) r.

(** C109: on a matrix of constants the call returns the only solution of the system, or it
    fails and the homogeneous system has a nonzero solution. *)
Theorem C109_gauss_constants : forall (K : fieldType) (starts_one : K -> bool) (row : nat)
    (M : matrix K) (A : nat -> nat -> K),
  (forall r c, (r < row)%N -> (c <= row)%N -> M r c = pconst (A r c)) ->
  (exists x : nat -> K,
    [/\ rmap fst (gauss starts_one M row) = Ok (mkseq (fun j => pconst (x j)) row),
        forall r, (r < row)%N -> \sum_(c < row) A r c * x c = A r row &
        forall y : nat -> K, (forall r, (r < row)%N -> \sum_(c < row) A r c * y c = A r row) ->
          forall c, (c < row)%N -> y c = x c]) \/
  (gauss starts_one M row = Err ZeroDivisionError /\
   exists x : nat -> K, (exists c, (c < row)%N /\ x c != 0) /\
     forall r, (r < row)%N -> \sum_(c < row) A r c * x c = 0).
Proof.
move=> K so row M A R.
have R' : rel row M A by move=> r c Hr Hc; rewrite R ?pconstE.
have [[x [E S U]]|[E [x [Hx S]]]] := gauss_cst so R'; [left|right].
  exists x; split.
  - by rewrite E; congr Ok; apply: eq_mkseq => j; rewrite pconstE.
  - by move=> r Hr; rewrite S // mulr1.
  - by move=> y Sy; apply: U => r Hr; rewrite Sy // mulr1.
by split=> //; exists x; split=> // r Hr; rewrite S // mulr0.
Qed.
Print Assumptions C109_gauss_constants.

(** The entries are polynomials, and the solutions need not be polynomials: the division
    drops the remainder.  A system with a polynomial solution is not solved, and a list is
    returned for a system that has none. *)
Theorem C109_gauss_polynomial_refuted :
  ~ (forall (K : fieldType) (starts_one : K -> bool) (M : matrix K) (x : seq (seq K)) (M' : matrix K),
       (forall r c, normal (M r c)) ->
       (exists y : seq {poly K}, forall r, (r < 2)%N -> \sum_(c < 2) Poly (M r c) * nth 0 y c = Poly (M r 2%N)) ->
       gauss starts_one M 2 = Ok (x, M') ->
       forall r, (r < 2)%N -> \sum_(c < 2) Poly (M r c) * Poly (nth [::] x c) = Poly (M r 2%N)).
Proof.
move=> H.
pose M := mat [:: [:: [:: 0; 1]; [:: 1]; [:: 1; 0; 1]]; [:: [:: 1]; [:: 0; 1]; [::]]]%Z.
have N r c : normal (M r c).
  by case: r => [|[|[|r]]]; case: c => [|[|[|c]]] //; rewrite /M /mat /= ?nth_nil.
have Y : exists y : seq {poly K2}, forall r, (r < 2)%N -> \sum_(c < 2) Poly (M r c) * nth 0 y c = Poly (M r 2%N).
  exists [:: Poly (z2 [:: 0; 1]%Z); Poly (z2 [:: 1]%Z)] => r Hr; rewrite big_ord_recl big_ord1.
  rewrite [X in _ * X + _]/= [X in _ + _ * X]/= -[Poly (M r 2%N)]polyseqK.
  rewrite -[_ + _]polyseqK -[_ * Poly (z2 [:: 0; 1]%Z)]polyseqK -[_ * Poly (z2 [:: 1]%Z)]polyseqK.
  rewrite -!pmulE -paddE PolyK_normal ?N //; congr Poly.
  by case: r Hr => [|[|r]] // _; apply/eqP; vm_compute.
have B : rmap (fun p => padd (pmul (M 0%N 0%N) (nth [::] p.1 0)) (pmul (M 0%N 1%N) (nth [::] p.1 1))
    == M 0%N 2%N) (gauss one2 M 2) = Ok false by vm_compute.
case Eg : (gauss one2 M 2) B => [[x M']|]; last by [].
case=> /negbT /eqP Nq.
have := H _ _ _ _ _ N Y Eg 0%N isT; rewrite big_ord_recl big_ord1 => Es.
apply: Nq; apply: Poly_inj; rewrite ?paddE ?normal_polyseq ?N // !pmulE !polyseqK; exact: Es.
Qed.
Print Assumptions C109_gauss_polynomial_refuted.

(** The system of starks/test/test_poly_utils.py:327-341; a system of constants; a singular
    one; the system of the refutation; and x * a = 1, which has no polynomial solution. *)
Example C109_example :
  [/\ ints (gauss one2 (mat [:: [:: [:: 1; 1]; [::]; [:: 0; 1]; [:: 1]];
                               [:: [:: 1]; [::]; [:: 0; 1]; [:: 1; 1]];
                               [:: [:: 1]; [:: 0; 1]; [:: 0; 1]; [:: 1]]]%Z) 3)
        = Ok [:: [:: 1]; [:: 1]; [:: 1]]%Z,
      ints (gauss one2 (mat [:: [:: [::]; [:: 1]; [:: 1]]; [:: [:: 1]; [:: 1]; [::]]]%Z) 2)
        = Ok [:: [:: 1]; [:: 1]]%Z,
      ints (gauss one2 (mat [:: [:: [:: 1]; [:: 1]; [:: 1]]; [:: [:: 1]; [:: 1]; [:: 1]]]%Z) 2)
        = Err ZeroDivisionError,
      ints (gauss one2 (mat [:: [:: [:: 0; 1]; [:: 1]; [:: 1; 0; 1]]; [:: [:: 1]; [:: 0; 1]; [::]]]%Z) 2)
        = Ok [:: [:: 0; 1]; [::]]%Z &
      ints (gauss one2 (mat [:: [:: [:: 0; 1]; [:: 1]]]%Z) 1) = Ok [:: [::]]%Z].
Proof. by split; vm_compute. Qed.

(** C110: the result of the Moore construction has at most as many coefficients as the basis
    has elements.  A nonzero result does not vanish on as many different points as that. *)
Theorem C110_moore_degree : forall (K F : fieldType) (starts_one : K -> bool)
    (cast : seq K -> result F) (b : seq (seq K)) (f : seq F) (pts : seq F),
  moore starts_one cast b = Ok f -> f <> [::] -> uniq pts -> (size b <= size pts)%N ->
  normal f /\ (size f <= size b)%N /\ ~~ all (fun x => pcall f x == 0) pts.
Proof.
move=> K F so cast b f pts E Nf U S; have [N Sf] := moore_size E; split=> //; split=> //.
apply/negP => Z; have Nz : Poly f != 0 by rewrite -(inj_eq (@poly_inj _)) polyseq0 PolyK_normal //; apply/eqP.
have := max_poly_roots Nz _ U; rewrite PolyK_normal // => /(_ _) H.
have : (size pts < size f)%N by apply: H; apply: sub_all Z => x; rewrite pcallE.
lia.
Qed.
Print Assumptions C110_moore_degree.

(** One basis element: the constant polynomial with the value of the element, for the
    empty basis the zero polynomial. *)
Theorem C110_moore_one : forall (K F : fieldType) (starts_one : K -> bool)
    (cast : seq K -> result F) (b0 : seq K),
  moore starts_one cast [::] = Ok [::] /\
  moore starts_one cast [:: [::]] = Err ZeroDivisionError /\
  (normal b0 -> b0 <> [::] -> forall c, cast b0 = Ok c ->
     exists f, moore starts_one cast [:: b0] = Ok f /\ forall x, pcall f x = c).
Proof.
move=> K F so cast b0; split; first by []; split; first by rewrite moore_one // /normal /= oner_neq0.
move=> N Nz c Ec; rewrite moore_one //; case: b0 N Nz Ec => // a l N _ Ec; rewrite Ec bind_ok.
by eexists; split=> // x; rewrite pcallE pmkE polyseqK /= cons_poly_def mul0r add0r hornerC.
Qed.
Print Assumptions C110_moore_one.

(** Two basis elements over Z/2: no polynomial is ever returned. *)
Theorem C110_moore_two : forall (F : fieldType) (starts_one : K2 -> bool)
    (cast : seq K2 -> result F) (b0 b1 : seq K2),
  normal b0 -> normal b1 ->
  moore starts_one cast [:: b0; b1] =
    if (b0 == [::]) || (b1 == [::]) || (b0 == b1) then Err ZeroDivisionError else Err AssertionError.
Proof.
move=> F so cast b0 b1 N0 N1; rewrite -orbA; apply: moore_two => //.
- move=> c; have H := mvalP c.
  by have [E|E] : mval c = 0%Z \/ mval c = 1%Z by [rewrite /= in H; lia]; [left|right]; apply: mval_inj.
- exact: mval_inj.
Qed.
Print Assumptions C110_moore_two.

(** The bases of affine spaces over Z/2[x]: {1}, {x}, {1, x} and {x, x}. *)
Definition cast0 (a : seq K2) : result K2 := if (size a <= 1)%N then Ok (nth 0 a 0) else Err ValueError.
Example C110_example :
  [/\ rmap (map (@mval P2)) (moore one2 cast0 [:: z2 [:: 1]%Z]) = Ok [:: 1]%Z,
      moore one2 cast0 [:: z2 [:: 0; 1]%Z] = Err ValueError,
      moore one2 cast0 [:: z2 [:: 1]%Z; z2 [:: 0; 1]%Z] = Err AssertionError &
      moore one2 cast0 [:: z2 [:: 0; 1]%Z; z2 [:: 0; 1]%Z] = Err ZeroDivisionError].
Proof. by split; vm_compute. Qed.
