(** Trees whose number of leaves is a multiple of four but not a power of two:
    some honest branch is rejected. *)
From Coq Require Import Bool ZArith List Lia Permutation.
From Coq Require Import ssreflect ssrbool.
From Verif Require Import Base BaseProofs MerkleModel MerkleProofs MerkleCommit.
Import ListNotations.
Local Open Scope Z_scope.
Local Set SsrOldRewriteGoalsOrder.
Local Set Bullet Behavior "None".

(** the power of two below q *)
Lemma pow_below q : (0 < q)%nat -> (forall a, q <> 2 ^ a)%nat -> exists a, (2 ^ a < q < 2 * 2 ^ a)%nat.
Proof.
move=> Hq N; exists (Nat.log2 q); have [H1 H2] := Nat.log2_spec q Hq.
have := N (Nat.log2 q); rewrite Nat.pow_succ_r' in H2; lia.
Qed.

(** an index that prover and verifier place in columns of different parity *)
Lemma bad_index P q : 0 < P -> P < q < 2 * P ->
  exists i, [/\ 0 <= i < 4 * q, i / q + 4 * (i mod q) + 4 * q < 8 * P & (i / q) mod 2 <> (i / P) mod 2].
Proof.
move=> HP Hq; case: (Z.lt_ge_cases (3 * q) (4 * P)) => H1.
  exists (4 * P).
  have [E1 E2] : 4 * P / q = 3 /\ (4 * P) mod q = 4 * P - 3 * q.
    split; symmetry.
      by apply: (Z.div_unique _ _ _ (4 * P - 3 * q)); lia.
    by apply: (Z.mod_unique _ _ 3); lia.
  by rewrite E1 E2 Z.div_mul; [split=> //; lia | lia].
case: (Z.lt_ge_cases (3 * q) (5 * P)) => H2.
  exists (3 * q); rewrite Z.div_mul ?Z.mod_mul; try lia.
  have -> : 3 * q / P = 4 by symmetry; apply: (Z.div_unique _ _ _ (3 * q - 4 * P)); lia.
  by split=> //; lia.
exists (2 * q); rewrite Z.div_mul ?Z.mod_mul; try lia.
have -> : 2 * q / P = 3 by symmetry; apply: (Z.div_unique _ _ _ (2 * q - 3 * P)); lia.
by split=> //; lia.
Qed.

Lemma app_swap_split (a b s : bytes) : length a = length b -> length a = length s -> a ++ s = s ++ b -> a = b.
Proof. by move=> L1 L2 E; have [E1 E2] := app_split _ _ _ _ L2 E; rewrite E1. Qed.

Lemma loop_mismatch H ps i1 i2 v1 v2 : (forall x, length (H x) = 32%nat) ->
  Forall (fun p => length p = 32%nat) ps -> length v1 = 32%nat -> length v2 = 32%nat -> v1 <> v2 ->
  verify_loop H v1 i1 ps = verify_loop H v2 i2 ps -> exists x y, x <> y /\ H x = H y.
Proof.
move=> H32; elim: ps i1 i2 v1 v2 => [|p ps IH] i1 i2 v1 v2 FP L1 L2 N E //.
inversion FP as [|? ? Lp FP' E1]; subst.
pose s1 := if i1 mod 2 =? 0 then v1 ++ p else p ++ v1.
pose s2 := if i2 mod 2 =? 0 then v2 ++ p else p ++ v2.
have Ns : s1 <> s2.
  rewrite /s1 /s2 => Es; apply: N; move: Es; case: ifP => _; case: ifP => _ Es.
  - by have [] := app_split _ _ _ _ (eq_trans L1 (eq_sym L2)) Es.
  - by apply: (app_swap_split v1 v2 p); rewrite ?L1.
  - by symmetry; apply: (app_swap_split v2 v1 p); rewrite ?L2.
  by apply: app_inv_head Es.
have {}E : verify_loop H (H s1) (i1 / 2) ps = verify_loop H (H s2) (i2 / 2) ps.
  by move: E; rewrite /= /s1 /s2; do 2 case: ifP.
case: (bytes_dec (H s1) (H s2)) => D; first by exists s1, s2.
exact: (IH _ _ _ _ FP' (H32 _) (H32 _) D E).
Qed.

(** siblings of inner nodes are inner nodes *)
Lemma inner_siblings H tree m : (forall x, length (H x) = 32%nat) ->
  (forall i, (1 <= i < 2 * m)%nat -> node_ok H tree i) ->
  forall fuel j o r, (j < 2 * m)%nat -> branch_loop fuel tree (Z.of_nat j) o = Ok r ->
  exists sibs, r = o ++ sibs /\ Forall (fun p => length p = 32%nat) sibs.
Proof.
move=> H32 N; elim=> [|fuel IH] j o r Hj; rewrite /branch_loop -/branch_loop; case: ifP => // Hgt;
  try by move=> [<-]; exists []; rewrite app_nil_r.
have {}Hgt : (1 < j)%nat by move: Hgt => /Z.gtb_lt; lia.
have [a Ha] := nat_half j.
have [s [Es Ls]] : exists s, py_nth tree (Z.lxor (Z.of_nat j) 1) = Ok s /\ length s = 32%nat.
  case: Ha => Ha.
    rewrite (_ : Z.of_nat j = 2 * Z.of_nat a) ?lxor1_even; last by lia.
    have [|l [r' [_ [_ E]]]] := N (2 * a + 1)%nat; first by lia.
    exists (H (l ++ r')); rewrite H32; split=> //.
    by rewrite (_ : 2 * Z.of_nat a + 1 = Z.of_nat (2 * a + 1)) ?(py_nth_nat _ _ _ E) //; lia.
  rewrite (_ : Z.of_nat j = 2 * Z.of_nat a + 1) ?lxor1_odd; last by lia.
  have [|l [r' [_ [_ E]]]] := N (2 * a)%nat; first by lia.
  exists (H (l ++ r')); rewrite H32; split=> //.
  by rewrite (_ : 2 * Z.of_nat a = Z.of_nat (2 * a)) ?(py_nth_nat _ _ _ E) //; lia.
rewrite Es [bind (Ok _) _]/= (_ : Z.of_nat j / 2 = Z.of_nat a); last first.
  have [->|->] : Z.of_nat j = 2 * Z.of_nat a \/ Z.of_nat j = 2 * Z.of_nat a + 1 by lia.
    exact: div2_even.
  exact: div2_odd.
move=> E; have [|sibs [-> FS]] := IH a _ _ _ E; first by lia.
by exists (s :: sibs); rewrite -app_assoc; split=> //; constructor.
Qed.

Lemma NoDup_nth_neq {A} (l : list A) i j a b : NoDup l -> nth_error l i = Some a -> nth_error l j = Some b ->
  i <> j -> a <> b.
Proof.
move=> /NoDup_nth_error ND Hi Hj Nij E; apply: Nij; apply: ND; last by rewrite Hi Hj E.
exact: nth_error_in_lt Hi.
Qed.

Lemma honest_rejected H L leaves q len tree root : (forall x, length (H x) = 32%nat) ->
  length L = (4 * q)%nat -> (0 < q)%nat -> (forall a, q <> 2 ^ a)%nat ->
  mapM leaf_bytes L = Ok leaves -> NoDup leaves -> (forall x, In x leaves -> length x = len) ->
  merkelize H L = Ok tree -> py_nth tree 1 = Ok root ->
  exists i br, (i < 4 * q)%nat /\ mk_branch tree (Z.of_nat i) = Ok br /\
    (verify_branch H root (Z.of_nat i) br = Err AssertionError \/ exists x y, x <> y /\ H x = H y).
Proof.
move=> H32 HL Hq Np M ND HS T Hroot.
have Eq : (length L / 4 = q)%nat by rewrite HL Nat.mul_comm Nat.div_mul.
have [o [r [Po Ro Sr [LT _ N Y]]]] := merkelize_tree _ _ _ T.
rewrite Eq in Sr; rewrite Sr in LT N Y.
have PL := fun y => permuted_leaves L o leaves r y Po Ro M; rewrite Eq in PL.
have [LL _] := mapM_nth _ _ _ M; rewrite HL in LL.
have [a Ha] := pow_below q Hq Np; set P := (2 ^ a)%nat in Ha.
have P0 : (0 < P)%nat by rewrite /P; have := Nat.pow_nonzero 2 a; lia.
have [||iz [I1 I2 I3]] := bad_index (Z.of_nat P) (Z.of_nat q); try lia.
have Q0 : 0 < Z.of_nat q by lia.
have Md := Z.mod_pos_bound iz (Z.of_nat q) Q0.
have D0 : 0 <= iz / Z.of_nat q < 4 by split; [apply: Z.div_pos | apply: Z.div_lt_upper_bound]; lia.
pose y := Z.to_nat (iz / Z.of_nat q + 4 * (iz mod Z.of_nat q)).
have Ey : Z.of_nat y = iz / Z.of_nat q + 4 * (iz mod Z.of_nat q) by rewrite /y; lia.
have Hy : (y < 4 * q)%nat by lia.
(* the leaf and its sibling *)
have [b Hb] := nat_half y.
have [y' Hyy] : exists y', (y = 2 * b /\ y' = 2 * b + 1 \/ y = 2 * b + 1 /\ y' = 2 * b)%nat.
  by case: Hb => E; [exists (2 * b + 1)%nat; left | exists (2 * b)%nat; right].
have Hy' : (y' < 4 * q)%nat by lia.
have [v Hv] : exists v, nth_error tree (4 * q + y) = Some v by apply: nth_error_lt; lia.
have [p Hp] : exists p, nth_error tree (4 * q + y') = Some p by apply: nth_error_lt; lia.
have Rv : nth_error r y = Some v by rewrite -Y.
have Rp : nth_error r y' = Some p by rewrite -Y.
have [Lv Lp] : length v = len /\ length p = len.
  rewrite PL in Rv; last by []. rewrite PL in Rp; last by [].
  by split; apply: HS; [apply: nth_error_In Rv | apply: nth_error_In Rp].
have Nvp : v <> p.
  rewrite PL in Rv; last by []. rewrite PL in Rp; last by [].
  apply: (NoDup_nth_neq _ _ _ _ _ ND Rv Rp).
  have D1 := Nat.div_mod_eq y 4; have D2 := Nat.div_mod_eq y' 4.
  have M1 := Nat.mod_upper_bound y 4; have M2 := Nat.mod_upper_bound y' 4.
  have Q1 : (y / 4 < q)%nat by apply: Nat.div_lt_upper_bound; lia.
  have Q2 : (y' / 4 < q)%nat by apply: Nat.div_lt_upper_bound; lia.
  have Nyy : y <> y' by lia.
  move=> E; apply: Nyy.
  have [E1 E2] : (y / 4 = y' / 4 /\ y mod 4 = y' mod 4)%nat.
    have [E1 E2] := Nat.div_mod_unique q (y mod 4) (y' mod 4) (y / 4) (y' / 4) Q1 Q2 ltac:(lia).
    by split.
  lia.
(* the branch *)
have K : (2 ^ (a + 2) = 4 * P)%nat by rewrite Nat.pow_add_r Nat.mul_comm.
have K' : (2 ^ S (a + 2) = 8 * P)%nat by rewrite Nat.pow_succ_r' K; lia.
have Kl : (a + 2 < 2 ^ (a + 2))%nat by apply: Nat.pow_gt_lin_r; lia.
have Kf : (a + 2 <= 4 * q + y)%nat by lia.
have [|||||sibs [B1 [B2 B3]]] := branch_ok H tree (4 * q) (a + 2) (4 * q + y) (4 * q + y) [v] v; try lia.
- exact: N.
- exact: Hv.
have HR : nth_error tree 1 = Some root.
  have [|w Hw] := @nth_error_lt _ tree 1; first by lia.
  by rewrite Hw; move: Hroot; rewrite (py_nth_nat tree 1 w Hw) => -[->].
rewrite HR in B3; move: B3 => -[B3].
have MB : mk_branch tree iz = Ok (v :: sibs).
  rewrite /mk_branch LT (_ : Z.of_nat (2 * (4 * q)) / 2 = 4 * Z.of_nat q); last first.
    by rewrite Nat2Z.inj_mul div2_even; lia.
  rewrite /get_index_in_permuted (Z.mul_comm 4 (Z.of_nat q)) Z.div_mul // (proj2 (Z.eqb_neq _ _)); last by lia.
  rewrite [bind (Ok _) _]/= -Ey (_ : Z.of_nat y + Z.of_nat q * 4 = Z.of_nat (4 * q + y)); last by lia.
  by rewrite (py_nth_nat _ _ _ Hv) [bind (Ok _) _]/= Nat2Z.id.
exists (Z.to_nat iz), (v :: sibs); rewrite Z2Nat.id; last by lia.
split; first by lia.
split=> //.
(* the first sibling is the neighbouring leaf, the others are hashes *)
have [sibs' [Es FS]] : exists sibs', sibs = p :: sibs' /\ Forall (fun p => length p = 32%nat) sibs'.
  have [f F] : exists f, (4 * q + y)%nat = S f by exists (4 * q + y - 1)%nat; lia.
  move: B1; rewrite {1}F /branch_loop -/branch_loop.
  have -> : (Z.of_nat (4 * q + y) >? 1) = true by apply/Z.gtb_lt; lia.
  have -> : py_nth tree (Z.lxor (Z.of_nat (4 * q + y)) 1) = Ok p.
    move: Hp; case: Hyy => -[E E'].
      rewrite (_ : Z.of_nat (4 * q + y) = 2 * Z.of_nat (2 * q + b)) ?lxor1_even; last by lia.
      move=> Hp; rewrite -(py_nth_nat _ _ _ Hp); congr py_nth; lia.
    rewrite (_ : Z.of_nat (4 * q + y) = 2 * Z.of_nat (2 * q + b) + 1) ?lxor1_odd; last by lia.
    move=> Hp; rewrite -(py_nth_nat _ _ _ Hp); congr py_nth; lia.
  rewrite [bind (Ok _) _]/= (_ : Z.of_nat (4 * q + y) / 2 = Z.of_nat (2 * q + b)); last first.
    by case: Hb => ->; [rewrite (_ : Z.of_nat _ = 2 * Z.of_nat (2 * q + b)) ?div2_even //; lia |
                        rewrite (_ : Z.of_nat _ = 2 * Z.of_nat (2 * q + b) + 1) ?div2_odd //; lia].
  move=> B1; have [||s [Es FS]] := inner_siblings H tree (2 * q) H32 _ _ _ _ _ _ B1.
  - by move=> i Hi; apply: N; lia.
  - by lia.
  by exists s; split=> //; case: Es.
(* the verifier *)
pose idx := iz / Z.of_nat P + 4 * (iz mod Z.of_nat P) + 4 * Z.of_nat P.
have VB : verify_branch H root iz (v :: sibs) =
    (assert_ (bytes_eqb (verify_loop H v idx sibs) root) ;;* Ok v).
  rewrite /verify_branch [length (v :: sibs)]/= half_pow B2 K Nat2Z.inj_mul.
  rewrite /get_index_in_permuted (Z.mul_comm (Z.of_nat 4)) Z.div_mul // (proj2 (Z.eqb_neq _ _)); last by lia.
  by rewrite [bind (Ok _) _]/= (Z.mul_comm (Z.of_nat P)).
rewrite VB; case: bytes_eqb_spec => V; last by left.
right; rewrite -V Es in B3.
have Pa : (Z.of_nat (4 * q + y)) mod 2 = (iz / Z.of_nat q) mod 2.
  rewrite Nat2Z.inj_add Ey (_ : Z.of_nat (4 * q) + _ = iz / Z.of_nat q + (2 * Z.of_nat q + 2 * (iz mod Z.of_nat q)) * 2); last by lia.
  by rewrite Z.mod_add.
have Pb : idx mod 2 = (iz / Z.of_nat P) mod 2.
  rewrite /idx (_ : _ + _ + _ = iz / Z.of_nat P + (2 * Z.of_nat P + 2 * (iz mod Z.of_nat P)) * 2); last by lia.
  by rewrite Z.mod_add.
rewrite -Pa -Pb in I3.
pose s1 := if idx mod 2 =? 0 then v ++ p else p ++ v.
pose s2 := if Z.of_nat (4 * q + y) mod 2 =? 0 then v ++ p else p ++ v.
have Ns : s1 <> s2.
  have X1 := Z.mod_pos_bound idx 2 ltac:(lia); have X2 := Z.mod_pos_bound (Z.of_nat (4 * q + y)) 2 ltac:(lia).
  rewrite /s1 /s2; case: Z.eqb_spec => A1; case: Z.eqb_spec => A2 E; try lia.
    by have [E1 _] := app_split v p p v (eq_trans Lv (eq_sym Lp)) E.
  by have [E1 _] := app_split p v v p (eq_trans Lp (eq_sym Lv)) E; apply: Nvp.
have B4 : verify_loop H (H s1) (idx / 2) sibs' = verify_loop H (H s2) (Z.of_nat (4 * q + y) / 2) sibs'.
  by move: B3; rewrite /= /s1 /s2; do 2 case: ifP.
case: (bytes_dec (H s1) (H s2)) => D; first by exists s1, s2.
exact: (loop_mismatch H sibs' _ _ _ _ H32 FS (H32 _) (H32 _) D B4).
Qed.
