(** Property theorems C43, C44 continued: degrees, and the polynomial that construct_multivariate_coefficients
    (starks/poly_utils.py:264-299) returns for a function of one variable over Z/p. *)
From mathcomp Require Import zify ssrZ.
From Verif Require Import Prelude BaseProofs PolyModel PolyProofs ModpModel ModpField FinFld
  FftProofs FiniteFieldProofs MultiModel MultiLenModel MultiProofs MultiUtilsProofs MultiSize MultiZeros
  Properties_Multi Properties_MultiZeros.
Set Implicit Arguments.
Unset Strict Implicit.
Unset Printing Implicit Defensive.
Import GRing.Theory.
Local Open Scope ring_scope.
Local Open Scope py_scope.

(** Over any field the result has degree at most m * (q - 1) *)
Theorem C44_degree : forall (F : fieldType) (p m q : nat) (f : seq F -> F) n, (m <= n)%N ->
  exists r, construct_multivariate_coefficients p m q (fun l => Ok (f l)) n = Ok r /\
    (mdegree r <= m * (q - 1))%N.
Proof.
move=> F p m q f n H; have [r [E [W V]]] := construct_spec p q f H.
exists r; split=> //; pose B := kb [:: r].
have K : all (fun l => all (fun e => e < B)%N l) (mkeys r) := kbP (mem_head r [::]).
rewrite (mdegree_size W K) /hev V.
have -> (x y : nat) : (x.-1 <= y)%N = (x <= y.+1)%N by lia.
apply: leq_trans (size_sum _ _ _) _; elim/big_ind: _ => // [x y Hx Hy|l _]; first by rewrite geq_max Hx.
apply: leq_trans (size_mul_leq _ _) _; have := size_polyC_leq1 ((f [seq i%:R | i <- l])%:P : {poly F}).
set P := \prod_(i < m) _.
suff HP : (size P <= (m * (q - 1)).+1)%N.
  by rewrite /=; set a := size _; move: a HP => a; set b := size _; move: b; clear; lia.
rewrite {}/P; elim: (m) => [|k IH]; first by rewrite big_ord0 size_poly1.
rewrite big_ord_recr /=; apply: leq_trans (size_mul_leq _ _) _.
set t := 1 - _; have : (size t <= q.-1.+1)%N.
  apply: leq_trans (size_add _ _) _; rewrite geq_max size_poly1 size_opp /=.
  apply: leq_trans (size_exp_leq _ _) _; rewrite ltnS subn1.
  set u := _ - _; have : (size u <= 2)%N.
    apply: leq_trans (size_add _ _) _; rewrite geq_max size_opp; apply/andP; split.
      rewrite /hvar; apply: leq_trans (size_mul_leq _ _) _; rewrite size_polyX.
      by have := size_polyC_leq1 ('X^(B ^ k) : {poly F}); move: (size _) => a; clear; lia.
    by rewrite -polyC1 -polyCMn; apply: leq_trans (size_polyC_leq1 _) _.
  by case: (size u) => [|[|[|?]]] // _; rewrite ?mul0n ?mul1n.
move: IH; set a := size _; set b := size _; rewrite mulSn subn1.
by move: a b; move: (k * _)%N => c a b; clear; lia.
Qed.
Print Assumptions C44_degree.

(** The delta polynomial of k values has degree exactly k * (q - 1) *)
Theorem C43_degree : forall (F : fieldType) (q n : nat) (y : seq F), (1 < q)%N -> (size y <= n)%N ->
  exists r, dirac_delta q n y = Ok r /\ mdegree r = (size y * (q - 1))%N.
Proof.
move=> F q n y Q H; have [r [E [W V]]] := dirac_spec q H.
exists r; split=> //; pose B := kb [:: r].
have K : all (fun l => all (fun e => e < B)%N l) (mkeys r) := kbP (mem_head r [::]).
rewrite (mdegree_size W K) /hev V.
suff HP k : size (\prod_(i < k) (1 - (hvar F B i - ((y`_i)%:P)%:P) ^+ (q - 1))) = (k * (q - 1)).+1 by rewrite HP.
elim: k => [|k IH]; first by rewrite big_ord0 size_poly1.
have Su : size (hvar F B k - ((y`_k)%:P)%:P) = 2%N.
  rewrite size_addl size_Cmul ?size_polyX ?polyXn_eq0 ?monic_neq0 ?monicXn // size_opp.
  exact: leq_ltn_trans (size_polyC_leq1 _) _.
have N : hvar F B k - ((y`_k)%:P)%:P != 0 by rewrite -size_poly_gt0 Su.
have Sp : size ((hvar F B k - ((y`_k)%:P)%:P) ^+ (q - 1)) = q.
  have := size_exp (hvar F B k - ((y`_k)%:P)%:P) (q - 1); rewrite Su.
  have : (0 < size ((hvar F B k - ((y`_k)%:P)%:P) ^+ (q - 1)))%N by rewrite size_poly_gt0 expf_neq0.
  by move: Q; move: (size _); clear; lia.
have St : size (1 - (hvar F B k - ((y`_k)%:P)%:P) ^+ (q - 1)) = q.
  by rewrite addrC size_addl size_opp Sp // size_poly1.
rewrite big_ord_recr /= size_mul -?size_poly_gt0 ?IH ?St //; last by apply: ltnW.
by rewrite mulSn; move: Q; move: (k * _)%N => c; clear; lia.
Qed.
Print Assumptions C43_degree.

Theorem C44_univariate_unique : forall (P : primeZ) (f : seq (modp_finFieldType P) -> modp_finFieldType P),
  exists r, [/\ construct_multivariate_coefficients (Z.to_nat (pz P)) 1 (Z.to_nat (pz P))
                  (fun l => Ok (f l)) 1 = Ok r,
     wf 1 r, (mdegree r < Z.to_nat (pz P))%N, forall x, mcall 1 r [:: x] = Ok (f [:: x]) &
     forall a, wf 1 a -> (mdegree a < Z.to_nat (pz P))%N ->
       (forall x, mcall 1 a [:: x] = Ok (f [:: x])) -> meq r a].
Proof.
move=> P f; set F := modp_finFieldType P in f *; set q := Z.to_nat (pz P).
have [r [E D]] := C44_degree q q f (leqnn 1).
have [r0 [E0 [W _]]] := C44_univariate_modp f 0.
have {E0} R : r0 = r by move: E0; rewrite E => -[].
rewrite {r0}R in W.
have V x : mcall 1 r [:: x] = Ok (f [:: x]).
  by have [r1 [E1 [_ V1]]] := C44_univariate_modp f x; move: E1 V1; rewrite E => -[<-].
have q0 : (0 < q)%N by rewrite /q -card_modp; apply/card_gt0P; exists 0.
have Dr : (mdegree r < q)%N by move: D q0; rewrite mul1n; clear; lia.
exists r; split=> // a Wa Da Va.
apply: (@C133_identity F 1 r a (enum F) W Wa (enum_uniq _)).
  by rewrite -cardE card_modp gtn_max Dr Da.
by move=> [|x [|//]] // _ _; rewrite V Va.
Qed.
Print Assumptions C44_univariate_unique.

(** x^6 + 3 over Z/5 is the function of X^2 + 3 *)
Example C44_unique_example :
  rmap (fun r => [seq (kc.1, mval kc.2) | kc <- r]) (construct_multivariate_coefficients 5 1 5
      (fun l : seq (modp_finFieldType P5) => Ok (l`_0 ^+ 6 + in_modp P5 3)) 1) =
    Ok [:: ([:: 0]%N, 3); ([:: 2]%N, 1)]%Z.
Proof. by vm_compute. Qed.
