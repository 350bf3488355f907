(** Proofs about the random permutations and the repeated protocol of
    misc/zero_knowledge.py. *)
From Coq Require Import Bool ZArith List Lia Permutation.
From Coq Require Import ssreflect ssrbool.
From Verif Require Import Base BaseProofs CommitmentModel CommitmentProofs ZkRoundsModel.
Import ListNotations.
Local Open Scope Z_scope.
Local Set SsrOldRewriteGoalsOrder.
Local Set Implicit Arguments.
Local Unset Strict Implicit.

(** ** The shuffle *)
Lemma upd_length l : forall i x, length (upd l i x) = length l.
Proof. by elim: l => //= y l IH [|i] x //=; rewrite IH. Qed.

Lemma nth_upd l : forall i x k, (i < length l)%nat ->
  nth k (upd l i x) 0 = if (k =? i)%nat then x else nth k l 0.
Proof.
elim: l => [|y l IH] [|i] x k //= H; try lia; first by case: k.
by case: k => //= k; rewrite IH //; lia.
Qed.

Lemma upd_perm l : forall i x, (i < length l)%nat ->
  Permutation (nth i l 0 :: upd l i x) (x :: l).
Proof.
elim: l => [|y l IH] [|i] x //= H; try lia; first exact: perm_swap.
apply: perm_trans (perm_swap _ _ _) _; apply: perm_trans (perm_swap _ _ _).
by apply: perm_skip; apply: IH; lia.
Qed.

Lemma swap_length l i j : length (swap l i j) = length l.
Proof. by rewrite /swap !upd_length. Qed.

Lemma nth_swap l i j k : (i < length l)%nat -> (j < length l)%nat ->
  nth k (swap l i j) 0 = if (k =? j)%nat then nth i l 0 else if (k =? i)%nat then nth j l 0 else nth k l 0.
Proof. by move=> Hi Hj; rewrite /swap nth_upd ?upd_length // nth_upd. Qed.

Lemma swap_perm l i j : (i < length l)%nat -> (j < length l)%nat -> Permutation (swap l i j) l.
Proof.
move=> Hi Hj; rewrite /swap; set a := nth j l 0; set b := nth i l 0; set l1 := upd l i a.
have H1 : Permutation (b :: l1) (a :: l) by apply: upd_perm.
have Hj1 : (j < length l1)%nat by rewrite upd_length.
have := upd_perm b Hj1.
have -> : nth j l1 0 = a by rewrite /l1 nth_upd //; case: Nat.eqb_spec.
by move=> H2; apply: (Permutation_cons_inv (a := a)); apply: perm_trans H2 H1.
Qed.

Lemma shuffle_length draw i : forall l, length (shuffle_loop draw i l) = length l.
Proof. by elim: i => //= i IH l; rewrite IH swap_length. Qed.

Lemma shuffle_perm draw i : (forall j, draw j <= j)%nat -> forall l,
  (i < length l)%nat \/ i = 0%nat -> Permutation (shuffle_loop draw i l) l.
Proof.
move=> D; elim: i => [|i IH] l H /=; first by [].
have Hi : (S i < length l)%nat by lia.
have Hd := D (S i).
apply: perm_trans (IH _ _) _; first by rewrite swap_length; lia.
by apply: swap_perm; lia.
Qed.

Lemma shuffle_above draw i : (forall j, draw j <= j)%nat -> forall l k,
  (i < length l)%nat -> (i < k)%nat -> nth k (shuffle_loop draw i l) 0 = nth k l 0.
Proof.
move=> D; elim: i => [|i IH] l k Hl Hk //=; have Hd := D (S i).
rewrite IH ?swap_length; try lia.
rewrite nth_swap; try lia.
by case: Nat.eqb_spec; [lia|]; case: Nat.eqb_spec; [lia|].
Qed.

Lemma shuffle_ext draw draw' i : (forall j, 1 <= j <= i -> draw j = draw' j)%nat -> forall l,
  shuffle_loop draw i l = shuffle_loop draw' i l.
Proof.
elim: i => //= i IH H l; rewrite H; last lia.
by apply: IH => j Hj; apply: H; lia.
Qed.

(** every arrangement is reached ... *)
Lemma shuffle_surj i : forall l T, NoDup l -> Permutation T l -> (i < length l)%nat ->
  (forall k, (i < k)%nat -> nth k T 0 = nth k l 0) ->
  exists draw, (forall j, draw j <= j)%nat /\ shuffle_loop draw i l = T.
Proof.
elim: i => [|i IH] l T ND P Hl A.
  exists (fun _ => 0%nat); split; first by move=> j; lia.
  have LT := Permutation_length P.
  case: l T ND P Hl A LT => [|y l] [|x T] ND P Hl A LT //.
  move: LT => /= [LT].
  have E : T = l.
    apply: (nth_ext _ _ 0 0) => // k Hk; by apply: (A (S k)); lia.
  move: P; rewrite E => P; f_equal.
  have P' := Permutation_sym P.
  have : In x (y :: l) by apply: (Permutation_in _ P); left.
  case=> // I; have ND' : NoDup (x :: l) by apply: (Permutation_NoDup P').
  by move/NoDup_cons_iff: ND' => [].
have LT := Permutation_length P.
have NDT : NoDup T by apply: (Permutation_NoDup (Permutation_sym P)).
have I : In (nth (S i) T 0) l by apply: (Permutation_in _ P); apply: nth_In; lia.
have [d [Hd Ed]] := In_nth _ _ 0 I.
have Hd' : (d <= S i)%nat.
  case: (PeanoNat.Nat.le_gt_cases d (S i)) => // Hgt.
  have : S i = d; last lia.
  by apply: (proj1 (NoDup_nth T 0) NDT); rewrite ?LT // (A d Hgt) Ed.
have Sw : Permutation (swap l (S i) d) l by apply: swap_perm.
have [||||draw [D E]] := IH (swap l (S i) d) T.
- exact: (Permutation_NoDup (Permutation_sym Sw)).
- by apply: perm_trans P (Permutation_sym Sw).
- by rewrite swap_length; lia.
- move=> k Hk; rewrite nth_swap //.
  case: (Nat.eqb_spec k d) => [Ekd|Nkd].
    have Ek : k = S i by lia.
    by rewrite Ek -Ed -Ekd Ek.
  case: (Nat.eqb_spec k (S i)) => [->|Nk]; first by rewrite Ed.
  by apply: A; lia.
- exists (fun j => if (j =? S i)%nat then d else draw j); split.
    by move=> j; case: Nat.eqb_spec => [->|].
  rewrite /= PeanoNat.Nat.eqb_refl -[RHS]E; apply: shuffle_ext => j Hj.
  by case: Nat.eqb_spec => //; lia.
Qed.

(** ... by exactly one sequence of draws *)
Lemma shuffle_inj i draw draw' : (forall j, draw j <= j)%nat -> (forall j, draw' j <= j)%nat ->
  forall l, NoDup l -> (i < length l)%nat ->
  shuffle_loop draw i l = shuffle_loop draw' i l -> forall j, (1 <= j <= i)%nat -> draw j = draw' j.
Proof.
move=> D D'; elim: i => [|i IH] l ND Hl /= E j Hj; first lia.
have Hd := D (S i); have Hd' := D' (S i).
have Ed : draw (S i) = draw' (S i).
  have := f_equal (fun r => nth (S i) r 0) E; rewrite (shuffle_above D) ?(shuffle_above D') ?swap_length; try lia.
  have T d : (d <= S i)%nat -> nth (S i) (swap l (S i) d) 0 = nth d l 0.
    move=> X; rewrite nth_swap; try lia.
    by case: Nat.eqb_spec => [<-|_] //; rewrite PeanoNat.Nat.eqb_refl.
  by rewrite !T // => X; apply: (proj1 (NoDup_nth l 0) ND); lia.
rewrite -Ed in E.
have NS : NoDup (swap l (S i) (draw (S i))).
  by apply: (Permutation_NoDup (l := l)) => //; apply: Permutation_sym; apply: swap_perm; lia.
have LS : (i < length (swap l (S i) (draw (S i))))%nat by rewrite swap_length; lia.
have [->|Nj] : j = S i \/ j <> S i by lia.
  by [].
by apply: (IH _ NS LS E); lia.
Qed.

Lemma zrange_length n : length (zrange 0 n) = Z.to_nat n.
Proof. by rewrite /zrange map_length seq_length; lia. Qed.

Lemma random_permutation_perm draw n : (forall j, draw j <= j)%nat ->
  Permutation (random_permutation draw n) (zrange 0 n).
Proof. by move=> D; apply: shuffle_perm => //; rewrite zrange_length; lia. Qed.

Lemma random_permutation_surj n T : Permutation T (zrange 0 n) ->
  exists draw, (forall j, draw j <= j)%nat /\ random_permutation draw n = T.
Proof.
move=> P; rewrite /random_permutation.
have [E|H] : Z.to_nat n = 0%nat \/ (0 < Z.to_nat n)%nat by lia.
  exists (fun _ => 0%nat); split; first by move=> j; lia.
  have Z0 : zrange 0 n = [] by apply: (proj1 (length_zero_iff_nil _)); rewrite zrange_length.
  by move: P; rewrite E /= Z0 => /Permutation_sym /Permutation_nil ->.
apply: shuffle_surj => //; first exact: zrange_NoDup.
  by rewrite zrange_length; lia.
move=> k Hk; rewrite !nth_overflow ?(Permutation_length P) ?zrange_length //; lia.
Qed.

Lemma random_permutation_inj n draw draw' : (forall j, draw j <= j)%nat -> (forall j, draw' j <= j)%nat ->
  random_permutation draw n = random_permutation draw' n ->
  forall j, (1 <= j < Z.to_nat n)%nat -> draw j = draw' j.
Proof.
move=> D D' E j Hj; apply: (shuffle_inj D D' _ _ E); last by lia.
  exact: zrange_NoDup.
by rewrite zrange_length; lia.
Qed.

(** ** The repeated protocol *)
Lemma loop_ok tol round n : forall prob k fuel, (n <= fuel)%nat ->
  (forall j, (j < n)%nat -> tol < prob / 2 ^ Z.of_nat j) -> prob / 2 ^ Z.of_nat n <= tol ->
  (forall j, (j < n)%nat -> round (k + j)%nat = Ok true) ->
  convince_loop fuel prob tol round k = Ok (k + n)%nat.
Proof.
elim: n => [|n IH] prob k fuel Hf H1 H2 R.
  move: H2; rewrite Z.pow_0_r Z.div_1_r => H2.
  by case: fuel Hf => [|f] _ /=; rewrite (_ : (tol <? prob) = false) ?Nat.add_0_r //; lia.
case: fuel Hf => [|f] Hf; first lia.
have H0 := H1 0%nat ltac:(lia); rewrite Z.pow_0_r Z.div_1_r in H0.
have HD j : prob / 2 / 2 ^ Z.of_nat j = prob / 2 ^ Z.of_nat (S j).
  by rewrite Z.div_div ?Nat2Z.inj_succ ?Z.pow_succ_r; lia.
rewrite /= (proj2 (Z.ltb_lt tol prob) H0).
have := R 0%nat ltac:(lia); rewrite Nat.add_0_r => -> /=.
rewrite (IH (prob / 2) (S k) f) ?Nat.add_succ_r //; try lia.
- by move=> j Hj; rewrite HD; apply: H1; lia.
- by rewrite HD.
- by move=> j Hj; have := R (S j) ltac:(lia); rewrite Nat.add_succ_r.
Qed.

Lemma loop_bad tol round n e : forall prob k fuel j, (n <= fuel)%nat ->
  (forall j, (j < n)%nat -> tol < prob / 2 ^ Z.of_nat j) -> (j < n)%nat ->
  (forall j', (j' < j)%nat -> round (k + j')%nat = Ok true) ->
  (let* r := round (k + j)%nat in assert_ r) = Err e ->
  convince_loop fuel prob tol round k = Err e.
Proof.
elim: n => [|n IH] prob k fuel j Hf H1 Hj R B; first lia.
case: fuel Hf => [|f] Hf; first lia.
have H0 := H1 0%nat ltac:(lia); rewrite Z.pow_0_r Z.div_1_r in H0.
have HD i : prob / 2 / 2 ^ Z.of_nat i = prob / 2 ^ Z.of_nat (S i).
  by rewrite Z.div_div ?Nat2Z.inj_succ ?Z.pow_succ_r; lia.
rewrite /= (proj2 (Z.ltb_lt tol prob) H0).
case: j Hj R B => [|j] Hj R B.
  rewrite Nat.add_0_r in B; move: B; case: (round k) => [[]|x] /= B //; by case: B => <-.
have := R 0%nat ltac:(lia); rewrite Nat.add_0_r => -> /=.
apply: (IH _ _ _ j) => //; try lia.
- by move=> i Hi; rewrite HD; apply: H1; lia.
- by move=> i Hi; have := R (S i) ltac:(lia); rewrite Nat.add_succ_r.
- by move: B; rewrite Nat.add_succ_r.
Qed.

(** the threshold in powers of two *)
Lemma threshold (W : nat) tol K : 1 <= tol -> 2 ^ Z.of_nat W <= tol * 2 ^ Z.of_nat K ->
  (forall j, (j < K)%nat -> tol * 2 ^ Z.of_nat j < 2 ^ Z.of_nat W) ->
  (K <= W)%nat /\ (forall j, (j < K)%nat -> tol < 2 ^ Z.of_nat W / 2 ^ Z.of_nat j) /\
  2 ^ Z.of_nat W / 2 ^ Z.of_nat K <= tol.
Proof.
move=> Ht HK HJ.
have P j : (j <= W)%nat -> 2 ^ Z.of_nat W = 2 ^ (Z.of_nat W - Z.of_nat j) * 2 ^ Z.of_nat j.
  by move=> Hj; rewrite -Z.pow_add_r; try lia; f_equal; lia.
have Q j : 0 < 2 ^ Z.of_nat j by apply: Z.pow_pos_nonneg; lia.
have B j : (j < K)%nat -> (j < W)%nat.
  move=> Hj; have H2 := HJ j Hj; have H1 := Q j.
  have : 2 ^ Z.of_nat j < 2 ^ Z.of_nat W.
    by apply: Z.le_lt_trans H2; rewrite -{1}[2 ^ Z.of_nat j]Z.mul_1_l; apply: Z.mul_le_mono_nonneg_r; lia.
  move=> X; have := proj2 (Z.pow_lt_mono_r_iff 2 (Z.of_nat j) (Z.of_nat W) ltac:(lia) ltac:(lia)) X; lia.
have LK : (K <= W)%nat by case: K B {HK HJ} => [|K] B; [lia|have := B K ltac:(lia); lia].
split=> //; split=> [j Hj|].
  have Hj' := B j Hj; have := HJ j Hj; have X0 : 2 ^ Z.of_nat j <> 0 by have := Q j; lia.
  rewrite (P j ltac:(lia)) (Z.div_mul _ _ X0).
  by move=> X; apply/(Z.mul_lt_mono_pos_r _ _ _ (Q j)).
have X0 : 2 ^ Z.of_nat K <> 0 by have := Q K; lia.
move: HK; rewrite (P K LK) (Z.div_mul _ _ X0).
by move=> X; apply/(Z.mul_le_mono_pos_r _ _ _ (Q K)).
Qed.

Lemma threshold_exists (W : nat) tol : 1 <= tol -> exists K, 2 ^ Z.of_nat W <= tol * 2 ^ Z.of_nat K /\
  (forall j, (j < K)%nat -> tol * 2 ^ Z.of_nat j < 2 ^ Z.of_nat W).
Proof.
move=> Ht; case: (Z.le_gt_cases (2 ^ Z.of_nat W) tol) => H.
  by exists 0%nat; split; [rewrite Z.mul_1_r|move=> j; lia].
have [L1 L2] := Z.log2_spec tol ltac:(lia); have L0 := Z.log2_nonneg tol.
have L3 : Z.log2 tol < Z.of_nat W by apply/Z.log2_lt_pow2 => //; lia.
exists (Z.to_nat (Z.of_nat W - Z.log2 tol)); split.
  rewrite Z2Nat.id; last lia.
  have -> : 2 ^ Z.of_nat W = 2 ^ Z.log2 tol * 2 ^ (Z.of_nat W - Z.log2 tol).
    by rewrite -Z.pow_add_r; try lia; f_equal; lia.
  by apply: Z.mul_le_mono_nonneg_r => //; apply: Z.pow_nonneg; lia.
move=> j Hj; apply: (Z.lt_le_trans _ (2 ^ Z.succ (Z.log2 tol) * 2 ^ Z.of_nat j)).
  by apply: (proj1 (Z.mul_lt_mono_pos_r _ _ _ _)) => //; apply: Z.pow_pos_nonneg; lia.
by rewrite -Z.pow_add_r; try lia; apply: Z.pow_le_mono_r; lia.
Qed.

Lemma rounds_gen (W : nat) (round : nat -> result bool) tol fuel K :
  1 <= tol -> (W <= fuel)%nat -> 2 ^ Z.of_nat W <= tol * 2 ^ Z.of_nat K ->
  (forall j, (j < K)%nat -> tol * 2 ^ Z.of_nat j < 2 ^ Z.of_nat W) ->
  ((forall j, (j < K)%nat -> round j = Ok true) ->
     convince_loop fuel (2 ^ Z.of_nat W) tol round 0 = Ok K) /\
  (forall j, (j < K)%nat -> (forall i, (i < j)%nat -> round i = Ok true) ->
     (round j = Ok false -> convince_loop fuel (2 ^ Z.of_nat W) tol round 0 = Err AssertionError) /\
     (forall e, round j = Err e -> convince_loop fuel (2 ^ Z.of_nat W) tol round 0 = Err e)).
Proof.
move=> Ht Hf HK HJ; have [LK [T1 T2]] := threshold Ht HK HJ.
have HfK : (K <= fuel)%nat by lia.
split=> [R|j Hj R]; first by rewrite (loop_ok (n := K)).
by split=> [E|e E]; apply: (loop_bad (n := K) (j := j)) => //=; rewrite E.
Qed.

Lemma zero_gen (W : nat) (round : nat -> result bool) fuel : (W < fuel)%nat ->
  (forall j, round j = Ok true) -> convince_loop fuel (2 ^ Z.of_nat W) 0 round 0 = Ok (S W).
Proof.
move=> Hf R; rewrite (loop_ok (n := S W)) => //.
  move=> j Hj; apply: Z.div_str_pos; split; first by apply: Z.pow_pos_nonneg; lia.
  by apply: Z.pow_le_mono_r; lia.
by rewrite Z.div_small //; split; [apply: Z.pow_nonneg|apply: Z.pow_lt_mono_r]; lia.
Qed.

Lemma loop_negative tol round : tol < 0 -> (forall j, round j = Ok true) ->
  forall fuel prob k, 0 <= prob -> convince_loop fuel prob tol round k = Err Diverges.
Proof.
move=> Ht R; elim=> [|f IH] prob k Hp /=; (rewrite (proj2 (Z.ltb_lt tol prob)); last lia)=> //.
by rewrite R /=; apply: IH; apply: Z.div_pos; lia.
Qed.

(** ** One round *)
Lemma apply_map G p f h : (forall v, vertex G v -> f (p v) = h v) ->
  apply_isomorphism (map_graph p G) f = apply_isomorphism G h.
Proof.
rewrite /apply_isomorphism /map_graph; elim: G => //= -[a b] G IH H /=.
rewrite !H; try by exists (a, b); split; [left|]; [left|right] || (left; right).
- rewrite IH // => v [e [I X]]; apply: H; exists e; split=> //; by right.
- by exists (a, b); split; [left|right].
- by exists (a, b); split; [left|left].
Qed.

Section Round.
Variables (G1 G2 : graph) (n : Z) (iso : list Z).
Hypothesis V1 : forall v, vertex G1 v -> 1 <= v.
Hypothesis N1 : num_vertices G1 = Ok n.
Hypothesis N2 : num_vertices G2 = Ok n.

Lemma bound1 v : vertex G1 v -> 1 <= v <= n.
Proof. by move=> Hv; split; [apply: V1|apply: (proj2 (proj1 (num_vertices_spec _ _) N1))]. Qed.

Lemma run_drawn draw d choice : choose_graph d = Ok choice ->
  run_protocol_drawn G1 G2 iso (draw, d) = run_protocol G1 G2 iso (random_permutation draw n) choice.
Proof.
move=> C; rewrite /run_protocol_drawn /run_protocol /zk_init N1 N2 /= Z.eqb_refl /=.
by case: (send_isomorphic_copy _ _) => //= H; rewrite C.
Qed.

Lemma send_ok L : Permutation L (zrange 0 n) ->
  send_isomorphic_copy G1 L = Ok (map_graph (pfun L) G1).
Proof. by move=> PL; apply: apply_ok => v /bound1 Hv; have [] := perm_fun PL Hv. Qed.

Lemma run_one L : Permutation L (zrange 0 n) -> run_protocol G1 G2 iso L 1 = Ok true.
Proof.
move=> PL; rewrite /run_protocol /zk_init N1 N2 /= Z.eqb_refl /= send_ok //= /zk_accepts /=.
rewrite (@apply_map _ _ _ (fun v => Ok v)) => [|v /bound1 Hv]; last by apply: (perm_inv_fun PL Hv).
rewrite (@apply_ok _ _ (fun v => v)) //= map_graph_id //.
by f_equal; apply/graph_eqbP.
Qed.

Lemma run_two L : Permutation L (zrange 0 n) -> run_protocol G1 G2 iso L 2 =
  let* image := apply_isomorphism G1 (make_permutation_function iso) in Ok (graph_eqb G2 image).
Proof.
move=> PL; rewrite /run_protocol /zk_init N1 N2 /= Z.eqb_refl /= send_ok //= /zk_accepts /=.
rewrite (@apply_map _ _ _ (make_permutation_function iso)) // => v /bound1 Hv.
by rewrite -[LHS]/(let* j := make_inverse_permutation_function L (pfun L v) in make_permutation_function iso j) (perm_inv_fun PL Hv).
Qed.
End Round.

(** ** Permutations from functions *)
Lemma perm_of_fun n (p : Z -> Z) :
  (forall i, 1 <= i <= n -> 1 <= p i <= n) ->
  (forall i j, 1 <= i <= n -> 1 <= j <= n -> p i = p j -> i = j) ->
  let L := map (fun v => p (v + 1) - 1) (zrange 0 n) in
  Permutation L (zrange 0 n) /\ forall i, 1 <= i <= n -> pfun L i = p i.
Proof.
move=> R I L; split; last first.
  move=> i Hi; rewrite /pfun /L.
  have S : (Z.to_nat (i - 1) < length (zrange 0 n))%nat by rewrite zrange_length; lia.
  rewrite (nth_indep _ 0 (p (0 + 1) - 1)); last by rewrite map_length.
  rewrite (map_nth (fun v => p (v + 1) - 1)) /zrange.
  have E : nth (Z.to_nat (i - 1)) (map (fun i => 0 + Z.of_nat i) (seq 0 (Z.to_nat (n - 0)))) 0 = i - 1.
    rewrite (nth_indep _ 0 (0 + Z.of_nat 0)); last by rewrite map_length seq_length; lia.
    by rewrite (map_nth (fun i => 0 + Z.of_nat i)) seq_nth; lia.
  rewrite E; have -> : i - 1 + 1 = i by lia.
  lia.
apply: NoDup_Permutation_bis; last first.
- move=> x /in_map_iff [v [<- /zrange_In Hv]]; apply/zrange_In.
  by have := R (v + 1) ltac:(lia); lia.
- by rewrite /L map_length; lia.
- have : forall v, In v (zrange 0 n) -> 0 <= v < n by move=> v /zrange_In.
  rewrite /L; elim: (zrange 0 n) (zrange_NoDup 0 n) => [|v l IH] ND H /=; first by constructor.
  move/NoDup_cons_iff: ND => [Nv ND]; constructor; last by apply: IH => // w Hw; apply: H; right.
  move=> /in_map_iff [w [E Hw]]; apply: Nv.
  have Hv := H v (or_introl eq_refl); have Hw' := H w (or_intror Hw).
  have : w + 1 = v + 1 by apply: I; lia.
  by move=> X; have -> : v = w by lia.
Qed.
