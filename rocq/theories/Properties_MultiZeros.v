(** Property theorems C133 (number of zeros of a multivariate polynomial) and the part
    of C131 on compositions: starks/multivariate_polynomial.py.

    Vocabulary: [wf n p] (MultiProofs.v): the dict p has no repeated key, its keys
    have length n and its coefficients are not zero. *)
From mathcomp Require Import zify ssrZ.
From Verif Require Import Prelude BaseProofs PolyModel PolyProofs ModpModel ModpField FinFld
  FftProofs FiniteFieldProofs MultiModel MultiLenModel MultiProofs MultiSize MultiZeros AirProofs.
Set Implicit Arguments.
Unset Strict Implicit.
Unset Printing Implicit Defensive.
Import GRing.Theory.
Local Open Scope ring_scope.
Local Open Scope py_scope.

Local Notation F5 := (modp_finFieldType P5).
Local Notation z5 := (in_modp P5).
Local Notation rd l := [seq (kc.1, in_modp P5 kc.2) | kc <- l].

Local Lemma ok_inj (A : Type) (a b : A) : Ok a = Ok b -> a = b. Proof. by case. Qed.

(** p(q1, ..., qn) has at most degree p times the largest degree of the q_i *)
Theorem C131_compose_degree : forall (F : fieldType) n n' (p : mpoly F) (vals : seq (mpoly F)) m,
  wf n p -> size vals = n -> (forall q, List.In q vals -> wf n' q /\ (mdegree q <= m)%N) ->
  exists r, mcompose n n' p vals = Ok r /\ (mdegree r <= mdegree p * m)%N.
Proof.
move=> F n n' p vals m W S H; have [r [E _]] := mcompose_spec W S (fun q I => (H q I).1).
by exists r; split=> //; exact: mdegree_compose W S H E.
Qed.
Print Assumptions C131_compose_degree.

Theorem C131_call_poly_degree : forall (F : fieldType) n (p : mpoly F) (vals : seq (seq F)) m,
  wf n p -> size vals = n -> (forall q : seq F, List.In q vals -> normal q /\ (size q <= m.+1)%N) ->
  exists r, mcall_poly n p vals = Ok r /\ (size r <= (mdegree p * m).+1)%N.
Proof.
move=> F n p vals m W S H; have E := mcall_polyE W S (fun (q : seq F) I => (H q I).1).
by eexists; split; [exact: E | exact: size_call_poly W S H E].
Qed.
Print Assumptions C131_call_poly_degree.

(** ** C133 *)
(** Of the |S|^n points with coordinates in S at most degree * |S|^(n-1) are zeros *)
Theorem C133_zeros : forall (F : fieldType) n (p : mpoly F) (S : seq F) (L : seq (seq F)),
  wf n p -> ~~ mis_zero p -> uniq S -> uniq L ->
  (forall v, v \in L -> [/\ size v = n, all (fun x => x \in S) v & mcall n p v = Ok 0]) ->
  (size L * size S <= mdegree p * size S ^ n)%N.
Proof.
move=> F n p S L W N US UL H; apply: (zeros_bound US W _ UL); first by case: (p) N.
move=> w /H [Sw Aw Z]; split=> //; move: Z; rewrite (mcallE W Sw) => E.
by apply: (ok_inj E).
Qed.
Print Assumptions C133_zeros.

(** Polynomials that agree on S^n are equal when S has more elements than their degrees *)
Theorem C133_identity : forall (F : fieldType) n (a b : mpoly F) (S : seq F),
  wf n a -> wf n b -> uniq S -> (maxn (mdegree a) (mdegree b) < size S)%N ->
  (forall v, size v = n -> all (fun x => x \in S) v -> mcall n a v = mcall n b v) ->
  meq a b.
Proof.
move=> F n a b S Wa Wb US D H.
have W : wf n (msub a b) by apply: wf_add => //; exact: wf_neg.
suff Z : msub a b = [::].
  apply/(meqP Wa Wb); apply: (meval_inj Wa Wb) => v; apply/eqP; rewrite -subr_eq0.
  by rewrite -(meval_sub _ _ Wa Wb) Z /meval big_nil.
apply/eqP/negPn/negP => N.
have [Dm _] := mdegree_add Wa (wf_neg Wb); rewrite (mdegree_neg Wb) -/(msub a b) in Dm.
have := @zeros_bound F S n (msub a b) (words S n) US W N (uniq_words n US).
rewrite size_words => B.
have {B} B : (size S ^ n * size S <= mdegree (msub a b) * size S ^ n)%N.
  apply: B => w I; move: I; rewrite mem_words; case/andP => Sw Aw; move/eqP: Sw => Sw; split=> //.
  rewrite /ev (meval_sub _ _ Wa Wb); apply/eqP; rewrite subr_eq0; apply/eqP.
  have := H w Sw Aw; rewrite (mcallE Wa Sw) (mcallE Wb Sw) => E; exact: (ok_inj E).
move: B; rewrite mulnC leq_mul2r expn_eq0 => /orP [/andP [/eqP S0 _]|B].
  by rewrite S0 in D.
by have := leq_trans D (leq_trans B Dm); rewrite ltnn.
Qed.
Print Assumptions C133_identity.

(** The same when S has more elements than any exponent of a single variable *)
Theorem C133_identity_reduced : forall (F : fieldType) n (a b : mpoly F) (S : seq F),
  wf n a -> wf n b -> uniq S ->
  (forall k e, k \in mkeys a ++ mkeys b -> e \in k -> (e < size S)%N) ->
  (forall v, size v = n -> all (fun x => x \in S) v -> mcall n a v = mcall n b v) ->
  meq a b.
Proof.
move=> F n a b S Wa Wb US D H.
have W : wf n (msub a b) by apply: wf_add => //; exact: wf_neg.
suff Z : msub a b = [::].
  apply/(meqP Wa Wb); apply: (meval_inj Wa Wb) => v; apply/eqP; rewrite -subr_eq0.
  by rewrite -(meval_sub _ _ Wa Wb) Z /meval big_nil.
apply/eqP/negPn/negP => N.
have [|w /andP [Sw Aw] /eqP] := nonzero_point US W N.
  move=> k e K J; apply: (D k e _ J); rewrite mem_cat; apply: contraTT K; rewrite negb_or => /andP [Ka Kb].
  have Kn : k \notin mkeys (mneg b).
    rewrite (wf_get _ (wf_neg Wb)) negbK; apply/eqP.
    by rewrite get_mneg ?(wf_uniq Wb) // dict_get_notin // oppr0.
  by rewrite (wf_get _ W) negbK (get_madd _ Wa (wf_neg Wb)) !dict_get_notin // addr0.
move/eqP: Sw => Sw; apply; rewrite /ev (meval_sub _ _ Wa Wb); apply/eqP; rewrite subr_eq0; apply/eqP.
have := H w Sw Aw; rewrite (mcallE Wa Sw) (mcallE Wb Sw) => E; exact: (ok_inj E).
Qed.
Print Assumptions C133_identity_reduced.

(** The bounds are needed: X^5 and X agree at all points of Z/5 *)
Theorem C133_identity_large_degree_refuted : exists (a b : mpoly F5) (S : seq F5),
  [/\ wf 1 a, wf 1 b, uniq S & (maxn (mdegree a) (mdegree b) <= size S)%N] /\
  (forall v, size v = 1%N -> all (fun x => x \in S) v -> mcall 1 a v = mcall 1 b v) /\ ~~ meq a b.
Proof.
exists [:: ([:: 5%N], 1)], [:: ([:: 1%N], 1)], [seq z5 i | i <- [:: 0; 1; 2; 3; 4]%Z].
split; first by split; vm_compute.
split; last by vm_compute.
move=> [|x [|//]] // _ /andP [/mapP [i I ->] _].
by move: I; rewrite !inE => /or4P [| | |/orP []] /eqP ->; vm_compute.
Qed.
Print Assumptions C133_identity_large_degree_refuted.

(** (X + 2)(X + 3) in two variables over Z/5 has 10 zeros, the bound 2 * 5^2 / 5 *)
Example C133_example :
  let p : mpoly F5 := rd [:: ([:: 2%N; 0%N], 1%Z); ([:: 0%N; 0%N], 1%Z)] in
  let S := [seq z5 i | i <- [:: 0; 1; 2; 3; 4]%Z] in
  let zs := [seq v <- [seq [:: x; y] | x <- S, y <- S] | if mcall 2 p v is Ok r then r == 0 else false] in
  [/\ wf 2 p, mdegree p = 2%N, size zs = 10%N & (size zs * size S = mdegree p * size S ^ 2)%N].
Proof. by vm_compute. Qed.

(** (X^2 + Y)(X := Y^2, Y := X Y^2) has degree 4 = 2 * max - 2 *)
Example C131_compose_example :
  let p : mpoly F5 := rd [:: ([:: 2%N; 0%N], 1%Z); ([:: 0%N; 1%N], 1%Z)] in
  let q1 : mpoly F5 := rd [:: ([:: 0%N; 2%N], 1%Z)] in
  let q2 : mpoly F5 := rd [:: ([:: 1%N; 2%N], 1%Z)] in
  rmap (@mdegree F5) (mcompose 2 2 p [:: q1; q2]) = Ok 4%N /\
  rmap (@mdegree F5) (mcompose 2 2 p [:: q2; q1]) = Ok 6%N.
Proof. by vm_compute. Qed.
