(** Merkle branches at arbitrary integers as index. *)
From Coq Require Import Bool ZArith List Lia.
From Coq Require Import ssreflect ssrbool.
From Verif Require Import Base BaseProofs MerkleModel MerkleProofs MerkleCommit.
Import ListNotations.
Local Open Scope Z_scope.
Local Set SsrOldRewriteGoalsOrder.
Local Set Bullet Behavior "None".

(** only the low bits of the position count *)
Lemma loop_mod H ps v i j : i mod 2 ^ Z.of_nat (length ps) = j mod 2 ^ Z.of_nat (length ps) ->
  verify_loop H v i ps = verify_loop H v j ps.
Proof.
elim: ps v i j => [|p ps IH] v i j //.
rewrite [length _]/= Nat2Z.inj_succ Z.pow_succ_r; last by lia.
set m := 2 ^ Z.of_nat (length ps) => E.
have Hm : 0 < m by apply: Z.pow_pos_nonneg; lia.
have P2 x : x mod 2 = (x mod (2 * m)) mod 2.
  by rewrite Z.rem_mul_r; [|lia|lia]; rewrite (Z.mul_comm 2) Z.mod_add ?Z.mod_mod; lia.
have D2 x : (x / 2) mod m = (x mod (2 * m)) / 2.
  rewrite Z.rem_mul_r; [|lia|lia]; rewrite (Z.mul_comm 2) Z.div_add; last by lia.
  by rewrite (Z.div_small (x mod 2)) //; apply: Z.mod_pos_bound.
by rewrite /= (P2 i) (P2 j) E; apply: IH; rewrite -/m !D2 E.
Qed.

(** the index below n that an arbitrary integer stands for *)
Definition wrapped (q x : Z) : Z := q * ((x / q) mod 4) + (x mod q + x / q / 4) mod q.

Lemma wrapped_range q x : 0 < q -> 0 <= wrapped q x < 4 * q.
Proof.
move=> Hq; rewrite /wrapped.
have := Z.mod_pos_bound (x / q) 4 ltac:(lia); have := Z.mod_pos_bound (x mod q + x / q / 4) q Hq; nia.
Qed.

Lemma wrapped_small q x : 0 < q -> 0 <= x < 4 * q -> wrapped q x = x.
Proof.
move=> Hq Hx; rewrite /wrapped.
have D0 : 0 <= x / q < 4 by split; [apply: Z.div_pos | apply: Z.div_lt_upper_bound]; lia.
rewrite (Z.mod_small (x / q)) // (Z.div_small (x / q)) // Z.add_0_r Z.mod_mod; last by lia.
have := Z.div_mod x q; lia.
Qed.

Lemma wrapped_pos q x : 0 < q ->
  exists a b, get_index_in_permuted x (4 * q) = Ok a /\
    get_index_in_permuted (wrapped q x) (4 * q) = Ok b /\ a mod (4 * q) = b /\
    a = x / q + 4 * (x mod q) /\ 0 <= b < 4 * q.
Proof.
move=> Hq; rewrite /get_index_in_permuted (Z.mul_comm 4) Z.div_mul; last by lia.
rewrite (proj2 (Z.eqb_neq _ _)); last by lia.
set b1 := (x mod q + x / q / 4) mod q.
have B1 : 0 <= b1 < q by apply: Z.mod_pos_bound.
have B2 := Z.mod_pos_bound (x / q) 4 ltac:(lia).
have [E1 E2] : wrapped q x / q = (x / q) mod 4 /\ wrapped q x mod q = b1.
  split; symmetry.
    by apply: (Z.div_unique _ _ _ b1); rewrite /wrapped -/b1; lia.
  by apply: (Z.mod_unique _ _ ((x / q) mod 4)); rewrite /wrapped -/b1; lia.
eexists; eexists; split; first by []. split; first by []. rewrite E1 E2; split; last by split=> //; lia.
symmetry; apply: (Z.mod_unique _ _ ((x mod q + x / q / 4) / q)); first by lia.
have := Z.div_mod (x mod q + x / q / 4) q ltac:(lia); rewrite -/b1.
have := Z.div_mod (x / q) 4 ltac:(lia); nia.
Qed.

Lemma pow_quarter m : (2 <= m)%nat -> 2 ^ Z.of_nat m = 4 * (2 ^ Z.of_nat m / 4).
Proof.
move=> Hm; rewrite (_ : Z.of_nat m = Z.of_nat (m - 2) + 2); last by lia.
by rewrite Z.pow_add_r ?Z.div_mul; lia.
Qed.

Lemma verify_wrapped H root x proof : (3 <= length proof)%nat ->
  let q := 2 ^ Z.of_nat (length proof - 1) / 4 in
  verify_branch H root x proof = verify_branch H root (wrapped q x) proof.
Proof.
case: proof => [|v sibs]; first by rewrite /=; lia.
move=> Hl q; move: Hl @q; rewrite [length (_ :: _)]/= => Hl q.
have Em : (S (length sibs) - 1 = length sibs)%nat by lia.
rewrite Em in q *; have Q := pow_quarter (length sibs) ltac:(lia); rewrite -/q in Q.
have Hq : 0 < q by have := Z.pow_pos_nonneg 2 (Z.of_nat (length sibs)) ltac:(lia) ltac:(lia); lia.
rewrite /verify_branch [length (_ :: _)]/= half_pow (Nat2Z.inj_pow 2) [Z.of_nat 2]/= Q.
have [a [b [-> [-> [E _]]]]] := wrapped_pos q x Hq.
rewrite [bind (Ok _) _]/= [bind (Ok b) _]/=.
suff -> : verify_loop H v (a + 4 * q) sibs = verify_loop H v (b + 4 * q) sibs by [].
apply: loop_mod; rewrite Q -E.
by rewrite Zplus_mod_idemp_l.
Qed.

(** the nodes of a branch *)
Lemma lxor1 j : Z.lxor (Z.of_nat j) 1 = Z.of_nat (Nat.lxor j 1).
Proof.
have [a [E|E]] := nat_half j; subst j.
  rewrite (_ : Z.of_nat (2 * a) = 2 * Z.of_nat a) ?lxor1_even; last by lia.
  suff -> : Nat.lxor (2 * a) 1 = (2 * a + 1)%nat by lia.
  apply: Nat.bits_inj => -[|n]; rewrite Nat.lxor_spec.
    by rewrite Nat.testbit_even_0 Nat.testbit_odd_0.
  by rewrite Nat.testbit_even_succ' Nat.testbit_odd_succ' /= Nat.bits_0 xorb_false_r.
rewrite (_ : Z.of_nat (2 * a + 1) = 2 * Z.of_nat a + 1) ?lxor1_odd; last by lia.
suff -> : Nat.lxor (2 * a + 1) 1 = (2 * a)%nat by lia.
apply: Nat.bits_inj => -[|n]; rewrite Nat.lxor_spec.
  by rewrite Nat.testbit_even_0 Nat.testbit_odd_0.
by rewrite Nat.testbit_even_succ' Nat.testbit_odd_succ' /= Nat.bits_0 xorb_false_r.
Qed.

Lemma lxor1_le j n : (j < 2 * n)%nat -> (Nat.lxor j 1 < 2 * n)%nat.
Proof.
move=> Hj; have := lxor1 j; have [a [E|E]] := nat_half j; subst j.
  by rewrite (_ : Z.of_nat (2 * a) = 2 * Z.of_nat a) ?lxor1_even; lia.
by rewrite (_ : Z.of_nat (2 * a + 1) = 2 * Z.of_nat a + 1) ?lxor1_odd; lia.
Qed.

Definition siblings (tree : list bytes) (j : nat) : list bytes :=
  map (fun i => nth (Nat.lxor (j / 2 ^ i) 1) tree []) (seq 0 (Nat.log2 j)).

Lemma branch_nodes tree n : length tree = (2 * n)%nat -> forall fuel j o,
  (1 <= j < 2 * n)%nat -> (j <= fuel)%nat ->
  branch_loop fuel tree (Z.of_nat j) o = Ok (o ++ siblings tree j).
Proof.
move=> LT; elim=> [|fuel IH] j o Hj Hf; first by lia.
rewrite /branch_loop -/branch_loop; case: (Nat.eq_dec j 1) => [->|N1].
  by rewrite /= app_nil_r.
rewrite (_ : (Z.of_nat j >? 1) = true); last by apply/Z.gtb_lt; lia.
rewrite lxor1 (py_nth_nat tree _ (nth (Nat.lxor j 1) tree [])); last first.
  by apply: nth_error_nth'; rewrite LT; apply: lxor1_le; lia.
rewrite [bind (Ok _) _]/= (_ : Z.of_nat j / 2 = Z.of_nat (j / 2)); last by rewrite (Nat2Z.inj_div j 2).
have J2 : (1 <= j / 2)%nat by apply: Nat.div_le_lower_bound; lia.
have J3 : (j / 2 < j)%nat by apply: Nat.div_lt; lia.
rewrite IH; [|lia|lia]; rewrite -app_assoc; do 2 f_equal.
have EL : Nat.log2 j = S (Nat.log2 (j / 2)).
  have [a [E|E]] := nat_half j; rewrite E.
    by rewrite (Nat.mul_comm 2 a) Nat.div_mul // (Nat.mul_comm a 2) Nat.log2_double; lia.
  have -> : ((2 * a + 1) / 2 = a)%nat by symmetry; apply: (Nat.div_unique _ _ _ 1); lia.
  by rewrite Nat.log2_succ_double; lia.
rewrite /siblings EL -cons_seq map_cons; change (2 ^ 0)%nat with 1%nat; rewrite Nat.div_1_r; congr cons.
rewrite -seq_shift map_map; apply: map_ext => i.
by rewrite Nat.pow_succ_r' Nat.div_div //; apply: Nat.pow_nonzero.
Qed.

(** [mk_branch] at any integer *)
Lemma mk_branch_node tree q x : length tree = (8 * q)%nat -> (0 < q)%nat ->
  mk_branch tree x =
  let t := x / Z.of_nat q + 4 * (x mod Z.of_nat q) + 4 * Z.of_nat q in
  if t >? 1 then
    if t <? 8 * Z.of_nat q then Ok (nth (Z.to_nat t) tree [] :: siblings tree (Z.to_nat t)) else Err IndexError
  else let* v := py_nth tree t in Ok [v].
Proof.
move=> LT Hq; rewrite /mk_branch LT.
have -> : Z.of_nat (8 * q) / 2 = 4 * Z.of_nat q.
  by rewrite (_ : Z.of_nat (8 * q) = 4 * Z.of_nat q * 2) ?Z.div_mul; lia.
rewrite /get_index_in_permuted (Z.mul_comm 4) Z.div_mul; last by lia.
rewrite (proj2 (Z.eqb_neq _ _)); last by lia.
rewrite [bind (Ok _) _]/= (Z.mul_comm (Z.of_nat q) 4).
set t := x / _ + _ + _; rewrite [LHS]/=; cbv zeta.
case: Z.gtb_spec => G; last first.
  case: (py_nth tree t) => [v|e] //=.
  by case: (Z.to_nat t) => [|?]; rewrite /branch_loop; case: Z.gtb_spec => //; lia.
case: Z.ltb_spec => Lt; last first.
  rewrite /py_nth LT (_ : (t <? 0) = false); last by apply/Z.ltb_ge; lia.
  by rewrite (_ : (Z.of_nat (8 * q) <=? t) = true) ?orbT; last by apply/Z.leb_le; lia.
have Et : t = Z.of_nat (Z.to_nat t) by lia.
rewrite {1}Et (py_nth_nat tree _ (nth (Z.to_nat t) tree [])); last first.
  by apply: nth_error_nth'; rewrite LT; lia.
rewrite [bind (Ok _) _]/= {2}Et (branch_nodes tree (4 * q)) //; lia.
Qed.

(** an honest branch is accepted at the integers that stand for its index, and only there *)
Lemma honest_index H L leaves k len tree root i br x :
  length L = (2 ^ k)%nat -> (2 <= k)%nat -> (forall y, length (H y) = 32%nat) ->
  mapM leaf_bytes L = Ok leaves -> NoDup leaves -> (forall y, In y leaves -> length y = len) ->
  merkelize H L = Ok tree -> py_nth tree 1 = Ok root -> (i < 2 ^ k)%nat ->
  mk_branch tree (Z.of_nat i) = Ok br ->
  (wrapped (2 ^ Z.of_nat k / 4) x = Z.of_nat i ->
     verify_branch H root x br = verify_branch H root (Z.of_nat i) br) /\
  (wrapped (2 ^ Z.of_nat k / 4) x <> Z.of_nat i ->
     verify_branch H root x br = Err AssertionError \/ exists y z, y <> z /\ H y = H z).
Proof.
move=> HL Hk H32 M ND HS T Hr Hi Hb.
have [t [r [E1 E2 Hall]]] := merkle_complete H L leaves k HL Hk M.
move: E1 E2; rewrite T => -[Et]; subst t; rewrite Hr => -[Er]; subst r.
have [LL _] := mapM_nth _ _ _ M; rewrite HL in LL.
have Q := pow_quarter k Hk; set q := 2 ^ Z.of_nat k / 4 in Q *.
have Hq : 0 < q by have := Z.pow_pos_nonneg 2 (Z.of_nat k) ltac:(lia) ltac:(lia); lia.
have [v Hv] : exists v, nth_error leaves i = Some v by apply: nth_error_lt; lia.
have [br' [B1 B2 B3]] := Hall i v Hv; move: B1; rewrite Hb => -[E]; subst br'.
have W : verify_branch H root x br = verify_branch H root (wrapped q x) br.
  by have := verify_wrapped H root x br ltac:(lia); rewrite B2 (_ : (S k - 1 = k)%nat); last by lia.
split=> [<- //|N]; rewrite W.
have R := wrapped_range q x Hq; set w := wrapped q x in N R *.
have P2 : Z.of_nat (2 ^ k) = 4 * q by rewrite (Nat2Z.inj_pow 2).
have Ew : w = Z.of_nat (Z.to_nat w) by lia.
case V: (verify_branch H root w br) => [u|e]; last first.
  left; move: V; have [s [idx [Es _ _ _]]] := verify_branch_inv _ _ _ _ _ B3; rewrite Es.
  rewrite /verify_branch; case G: get_index_in_permuted => [a|a] /=; last first.
    move: G; rewrite /get_index_in_permuted [length (_ :: _)]/= half_pow.
    have El : length s = k by move: B2; rewrite Es => -[].
    rewrite El (Nat2Z.inj_pow 2) [Z.of_nat 2]/= -/q.
    by rewrite (proj2 (Z.eqb_neq _ _)) //; lia.
  by case: bytes_eqb => //= -[<-].
right.
have [v' Hv'] : exists v', nth_error leaves (Z.to_nat w) = Some v' by apply: nth_error_lt; lia.
have [s [idx [Es _ _ _]]] := verify_branch_inv _ _ _ _ _ B3.
have Eu : u = v.
  by have [s' [idx' [Es' _ _ _]]] := verify_branch_inv _ _ _ _ _ V; move: Es'; rewrite Es => -[].
rewrite Ew in V.
have LV : length u = length v'.
  by rewrite Eu; rewrite !HS //; apply: nth_error_In; eassumption.
have [E|[? [y [z [_ _ _ D EH]]]]] := merkle_binding_tree H L leaves k tree root _ _ _ _ H32 HL Hk M T Hr Hv' B2 V LV.
  exfalso; apply: N; rewrite Ew; f_equal; apply: (proj1 (NoDup_nth_error leaves) ND).
    by apply: nth_error_in_lt Hv'.
  by rewrite Hv' Hv -E Eu.
by exists y, z.
Qed.
