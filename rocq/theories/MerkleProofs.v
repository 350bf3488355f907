From Coq Require Import Bool ZArith List Lia Permutation FinFun.
From Coq Require Import ssreflect ssrbool.
From Verif Require Import Base BaseProofs MerkleModel.
Import ListNotations.
Local Open Scope Z_scope.
Local Set SsrOldRewriteGoalsOrder.
Local Set Bullet Behavior "None".

Lemma lget_some {A} (l : list A) i a : nth_error l i = Some a -> lget l i = Ok a.
Proof. by rewrite /lget => ->. Qed.

Lemma nth_error_lt {A} (l : list A) i : (i < length l)%nat -> exists a, nth_error l i = Some a.
Proof. by case E: (nth_error l i) => [a|] H; [exists a | move/nth_error_None: E; lia]. Qed.

Lemma nth_error_in_lt {A} (l : list A) i a : nth_error l i = Some a -> (i < length l)%nat.
Proof. by move=> E; apply/nth_error_Some; rewrite E. Qed.

(** permute4 *)
Lemma permute4_loop {A} (l : list A) q s n o :
  q = (length l / 4)%nat -> (s + n <= q)%nat -> length o = (4 * s)%nat ->
  (forall i j, (i < s)%nat -> (j < 4)%nat -> nth_error o (4 * i + j) = nth_error l (i + q * j)) ->
  exists o', foldM (fun o i =>
    let* a := lget l i in
    let* b := lget l (i + q) in
    let* c := lget l (i + q * 2) in
    let* d := lget l (i + q * 3) in
    Ok (o ++ [a; b; c; d])) (seq s n) o = Ok o' /\ length o' = (4 * (s + n))%nat /\
  (forall i j, (i < s + n)%nat -> (j < 4)%nat -> nth_error o' (4 * i + j) = nth_error l (i + q * j)).
Proof.
move=> Eq; elim: n s o => [|n IH] s o Hs Ho Hi.
  by exists o; rewrite Nat.add_0_r.
have Hl : (4 * q <= length l)%nat by rewrite Eq; apply: Nat.mul_div_le.
have [a Ea] : exists a, nth_error l s = Some a by apply: nth_error_lt; lia.
have [b Eb] : exists a, nth_error l (s + q) = Some a by apply: nth_error_lt; lia.
have [c Ec] : exists a, nth_error l (s + q * 2) = Some a by apply: nth_error_lt; lia.
have [d Ed] : exists a, nth_error l (s + q * 3) = Some a by apply: nth_error_lt; lia.
have [||| o' [E1 [E2 E3]]] := IH (S s) (o ++ [a; b; c; d]).
- lia.
- rewrite app_length /=; lia.
- move=> i j Hlt Hj; case: (Nat.eq_dec i s) => [->|Hne]; last first.
    rewrite nth_error_app1; last by lia.
    by apply: Hi => //; clear -Hlt Hne; lia.
  rewrite nth_error_app2 ?Ho; last by lia.
  rewrite (_ : (4 * s + j - 4 * s)%nat = j); last by lia.
  by move: Hj; do 4 (case: j => [|j]; first by rewrite ?Nat.mul_0_r ?Nat.add_0_r ?Nat.mul_1_r); lia.
exists o'; split; last by rewrite -Nat.add_succ_comm.
by rewrite /= (lget_some _ _ _ Ea) /= (lget_some _ _ _ Eb) /= (lget_some _ _ _ Ec) /= (lget_some _ _ _ Ed).
Qed.

Lemma permute4_ok {A} (l : list A) : exists o, permute4 l = Ok o /\
  length o = (4 * (length l / 4))%nat /\
  (forall i j, (i < length l / 4)%nat -> (j < 4)%nat ->
     nth_error o (4 * i + j) = nth_error l (i + length l / 4 * j)).
Proof.
have [|||o H] := @permute4_loop A l (length l / 4) 0 (length l / 4) [] (eq_refl _).
- lia.
- by [].
- by lia.
by exists o.
Qed.

Lemma permute4_pos {A} (l : list A) o k : permute4 l = Ok o -> (k < 4 * (length l / 4))%nat ->
  nth_error o k = nth_error l (k / 4 + (length l / 4) * (k mod 4)).
Proof.
have [o' [-> [_ H]]] := permute4_ok l => -[<-] Hk.
have [E R] : k = (4 * (k / 4) + k mod 4)%nat /\ (k mod 4 < 4)%nat
  by split; [apply: Nat.div_mod_eq | apply: Nat.mod_upper_bound].
by rewrite {1}E H //; lia.
Qed.

Lemma nth_error_firstn {A} (l : list A) n i : (i < n)%nat -> nth_error (firstn n l) i = nth_error l i.
Proof.
by elim: n l i => [|n IH] [|x l] [|i] //= Hi; try lia; apply: IH; lia.
Qed.

Lemma permute4_perm {A} (l : list A) : exists o, permute4 l = Ok o /\
  Permutation (firstn (4 * (length l / 4)) l) o.
Proof.
have [o [E [L _]]] := permute4_ok l; exists o; split=> //.
set q := (length l / 4)%nat in L *.
have Hl : (4 * q <= length l)%nat by apply: Nat.mul_div_le.
apply/Permutation_nth_error; split; first by rewrite L firstn_length; lia.
exists (fun n => if (n <? 4 * q)%nat then (n / 4 + q * (n mod 4))%nat else n); split.
  move=> x y; case: (Nat.ltb_spec x (4*q)); case: (Nat.ltb_spec y (4*q)) => Hy Hx.
  - have Hx4 := Nat.div_mod_eq x 4; have Hy4 := Nat.div_mod_eq y 4.
    have Hxm := Nat.mod_upper_bound x 4; have Hym := Nat.mod_upper_bound y 4.
    move=> H; have [Em Ed] : (x mod 4 = y mod 4 /\ x / 4 = y / 4)%nat.
      by apply: (Nat.div_mod_unique q); lia.
    by rewrite Hx4 Hy4 Em Ed.
  - have Hx4 := Nat.div_mod_eq x 4; have Hxm := Nat.mod_upper_bound x 4; nia.
  - have Hx4 := Nat.div_mod_eq y 4; have Hxm := Nat.mod_upper_bound y 4; nia.
  - by [].
move=> n; case: (Nat.ltb_spec n (4*q)) => Hn.
  rewrite (permute4_pos _ _ _ E Hn) nth_error_firstn //.
  have := Nat.div_mod_eq n 4; have := Nat.mod_upper_bound n 4; rewrite -/q; nia.
rewrite (proj2 (nth_error_None o n)); last by lia.
by symmetry; apply/nth_error_None; rewrite firstn_length; lia.
Qed.

Lemma index_range x L : 4 <= L -> 0 <= x < 4 * (L / 4) ->
  exists y, get_index_in_permuted x L = Ok y /\ 0 <= y < 4 * (L / 4) /\
    y / 4 + (L / 4) * (y mod 4) = x.
Proof.
move=> HL Hx; rewrite /get_index_in_permuted.
have Hq : 0 < L / 4 by apply: Z.div_str_pos; lia.
rewrite (proj2 (Z.eqb_neq _ _)); last by lia.
set q := L / 4 in Hx Hq *; exists (x / q + 4 * (x mod q)); split=> //.
have Hm := Z.mod_pos_bound x q Hq.
have Hd : 0 <= x / q < 4 by split; [apply: Z.div_pos; lia | apply: Z.div_lt_upper_bound; lia].
split; first by nia.
rewrite {1}(Z.mul_comm 4) Z.div_add // Z.mul_comm Z.add_comm (Z.mul_comm 4) Z.mod_add //.
rewrite (Z.mod_small (x / q)) // (Z.div_small (x / q)) //; have := Z.div_mod x q; lia.
Qed.

Lemma index_in_permuted {A} (l : list A) o x : permute4 l = Ok o -> (4 <= length l)%nat ->
  (x < 4 * (length l / 4))%nat ->
  exists y, get_index_in_permuted (Z.of_nat x) (Z.of_nat (length l)) = Ok (Z.of_nat y) /\
    (y < 4 * (length l / 4))%nat /\ nth_error o y = nth_error l x.
Proof.
move=> E HL Hx.
have [||y [Ey [Ry Vy]]] := index_range (Z.of_nat x) (Z.of_nat (length l)).
- lia.
- by rewrite -(Nat2Z.inj_div _ 4); lia.
move: Ry Vy; rewrite -(Nat2Z.inj_div _ 4) => Ry Vy.
exists (Z.to_nat y); split; first by rewrite Z2Nat.id //; lia.
split; first by lia.
rewrite (permute4_pos _ _ _ E); last by lia.
congr (nth_error l _); apply: Nat2Z.inj; rewrite -Vy.
by rewrite Nat2Z.inj_add Nat2Z.inj_mul (Nat2Z.inj_div _ 4) (Nat2Z.inj_mod _ 4) Z2Nat.id //; lia.
Qed.

(** the tree *)
Lemma set_nth_length {A} (l : list A) i v : length (set_nth_list l i v) = length l.
Proof. by elim: l i => [|x l IH] [|i] //=; rewrite IH. Qed.
Lemma set_nth_same {A} (l : list A) i v : (i < length l)%nat -> nth_error (set_nth_list l i v) i = Some v.
Proof. by elim: l i => [|x l IH] [|i] //= H; try lia; apply: IH; lia. Qed.
Lemma set_nth_other {A} (l : list A) i j v : i <> j -> nth_error (set_nth_list l i v) j = nth_error l j.
Proof. by elim: l i j => [|x l IH] [|i] [|j] //= H; try lia; apply: IH; lia. Qed.

(** node j is the hash of its two children *)
Definition node_ok (H : bytes -> bytes) (nodes : list bytes) (j : nat) :=
  exists a b, nth_error nodes (j * 2) = Some a /\ nth_error nodes (j * 2 + 1) = Some b /\
              nth_error nodes j = Some (H (a ++ b)).

Lemma hash_loop_ok H i nodes n : length nodes = (2 * n)%nat -> (i < n)%nat ->
  exists nodes', hash_loop H i nodes = Ok nodes' /\ length nodes' = (2 * n)%nat /\
    (forall j, (i < j)%nat -> nth_error nodes' j = nth_error nodes j) /\
    (forall j, (1 <= j <= i)%nat -> node_ok H nodes' j).
Proof.
elim: i nodes => [|i IH] nodes HL Hi.
  by exists nodes; split=> //; split=> //; split=> // j; lia.
have [a Ea] : exists a, nth_error nodes (S i * 2) = Some a by apply: nth_error_lt; lia.
have [b Eb] : exists a, nth_error nodes (S i * 2 + 1) = Some a by apply: nth_error_lt; lia.
have [||nodes' [E [L [Hgt Hle]]]] := IH (set_nth_list nodes (S i) (H (a ++ b))).
- by rewrite set_nth_length.
- lia.
exists nodes'; split; first by rewrite /hash_loop -/(hash_loop H i _) (lget_some _ _ _ Ea) /= (lget_some _ _ _ Eb).
split=> //; split.
  by move=> j Hj; rewrite Hgt ?set_nth_other //; lia.
move=> j Hj; case: (Nat.eq_dec j (S i)) => [->|Hne]; last by apply: Hle; lia.
exists a, b; split; first by rewrite Hgt ?set_nth_other //; lia.
split; first by rewrite Hgt ?set_nth_other //; lia.
by rewrite Hgt ?set_nth_same //; lia.
Qed.

Lemma mapM_nth {A B} (f : A -> result B) l r : mapM f l = Ok r ->
  length r = length l /\
  (forall i a, nth_error l i = Some a -> exists b, f a = Ok b /\ nth_error r i = Some b).
Proof.
elim: l r => [|x l IH] r /=; first by move=> [<-]; split=> // -[|i].
case E: (f x) => [b|e] //=; case E2: (mapM f l) => [bs|e] //= -[<-].
have [L N] := IH _ E2; split; first by rewrite /= L.
by move=> [|i] a /=; [move=> [<-]; exists b | apply: N].
Qed.

Lemma mapM_total {A B} (f : A -> result B) l :
  (forall a, In a l -> exists b, f a = Ok b) -> exists r, mapM f l = Ok r.
Proof.
elim: l => [|x l IH] H /=; first by exists [].
have [b ->] := H x (or_introl (eq_refl _)); have [|r ->] := IH; last by exists (b :: r).
by move=> a Ha; apply: H; right.
Qed.

(** The tree of a leaf list: [2n] nodes, every inner node the hash of its
    children, leaf [i] of the input at its permuted place. *)
Definition is_merkle_tree (H : bytes -> bytes) (leaves : list bytes) (tree : list bytes) :=
  length tree = (2 * length leaves)%nat /\
  (forall j, (1 <= j < length leaves)%nat -> node_ok H tree j) /\
  (forall x v, nth_error leaves x = Some v ->
     exists y, get_index_in_permuted (Z.of_nat x) (Z.of_nat (length leaves)) = Ok (Z.of_nat y) /\
       (y < length leaves)%nat /\ nth_error tree (length leaves + y) = Some v).

Lemma merkelize_ok H L q leaves : length L = (4 * q)%nat -> (0 < q)%nat -> mapM leaf_bytes L = Ok leaves ->
  exists tree, merkelize H L = Ok tree /\ is_merkle_tree H leaves tree.
Proof.
move=> HL Hq HM; rewrite /merkelize.
have Eq : (length L / 4 = q)%nat by rewrite HL Nat.mul_comm Nat.div_mul.
have [o [Eo [Lo _]]] := permute4_ok L; rewrite Eo /=.
have [Lv Nv] := mapM_nth _ _ _ HM.
have [o2 [Eo2 P]] := permute4_perm L; move: Eo2; rewrite Eo => -[Eo2]; subst o2.
move: P; rewrite Eq firstn_all2; last by lia.
move=> P.
have [|r Er] := mapM_total leaf_bytes o.
  move=> a /(Permutation_in _ (Permutation_sym P)) /(@In_nth_error _ _ _) [i Hi].
  by have [b [Hb _]] := Nv _ _ Hi; exists b.
rewrite Er /=; have [Lr Nr] := mapM_nth _ _ _ Er.
have [||tree [E [LT [Hgt Hle]]]] := hash_loop_ok H (length o - 1) (repeat [] (length o) ++ r) (length o).
- by rewrite app_length repeat_length Lr; lia.
- lia.
exists tree; split=> //.
have LL : length leaves = length o by lia.
split; first by rewrite LT LL.
split; first by move=> j Hj; apply: Hle; lia.
move=> x v Hx; rewrite Lv.
have Hxl : (x < length L)%nat by rewrite -Lv; apply: nth_error_in_lt Hx.
have [||y [Ey [Ry Ny]]] := index_in_permuted L o x Eo.
- lia.
- lia.
exists y; split=> //; split; first by lia.
rewrite Hgt; last by lia.
rewrite nth_error_app2; last by rewrite repeat_length; lia.
rewrite repeat_length (_ : (length L + y - length o)%nat = y); last by lia.
have [a Ea] := nth_error_lt _ _ Hxl; have [b [Hb Hb']] := Nv _ _ Ea.
have [c [Hc Hc']] := Nr y a (eq_trans Ny Ea).
by move: Hb Hx; rewrite Hc' Hc Hb' => -[->] [->].
Qed.

(** branches *)
Lemma lxor1_even a : Z.lxor (2 * a) 1 = 2 * a + 1.
Proof.
rewrite -Z.add_nocarry_lxor // (Z.land_ones _ 1) // Z.pow_1_r Z.mul_comm Z.mod_mul //.
Qed.
Lemma lxor1_odd a : Z.lxor (2 * a + 1) 1 = 2 * a.
Proof. by rewrite -lxor1_even Z.lxor_assoc Z.lxor_nilpotent Z.lxor_0_r. Qed.

Lemma nat_half j : exists a, (j = 2 * a \/ j = 2 * a + 1)%nat.
Proof. by exists (j / 2)%nat; have := Nat.div_mod_eq j 2; have := Nat.mod_upper_bound j 2; lia. Qed.

Lemma div2_even a : (2 * a) / 2 = a.
Proof. by rewrite Z.mul_comm Z.div_mul. Qed.
Lemma div2_odd a : (2 * a + 1) / 2 = a.
Proof. by rewrite Z.mul_comm Z.div_add_l // Z.add_0_r. Qed.
Lemma mod2_even a : (2 * a) mod 2 = 0.
Proof. by rewrite Z.mul_comm Z.mod_mul. Qed.
Lemma mod2_odd a : (2 * a + 1) mod 2 = 1.
Proof. by rewrite Z.add_comm Z.mul_comm Z.mod_add. Qed.

Lemma branch_ok H tree n k j fuel o v :
  (forall i, (1 <= i < n)%nat -> node_ok H tree i) ->
  (2 ^ k <= j < 2 ^ (S k))%nat -> (j < 2 * n)%nat -> nth_error tree j = Some v -> (k <= fuel)%nat ->
  exists sibs, branch_loop fuel tree (Z.of_nat j) o = Ok (o ++ sibs) /\ length sibs = k /\
    nth_error tree 1 = Some (verify_loop H v (Z.of_nat j) sibs).
Proof.
move=> Hn; elim: k j fuel o v => [|k IH] j fuel o v Hj Hjn Hv Hf.
  have E1 : j = 1%nat by move: Hj => /=; lia.
  by exists []; rewrite app_nil_r -E1; split=> //; subst j; case: fuel Hf.
case: fuel Hf => [|fuel] Hf; first by lia.
have [a Ha] := nat_half j.
have Hk : (2 ^ S (S k) = 2 * 2 ^ S k /\ 2 ^ S k = 2 * 2 ^ k)%nat by split; apply: Nat.pow_succ_r'.
have Ha1 : (1 <= 2 ^ k)%nat by have := Nat.pow_nonzero 2 k; lia.
have [l [r [El [Er Ea]]]] : node_ok H tree a by apply: Hn; lia.
have E2 : (a * 2 = 2 * a)%nat by lia.
rewrite E2 in El Er.
case: Ha => Ha; subst j.
- move: Hv; rewrite El => -[E]; subst l.
  have [||||sibs [B1 [B2 B3]]] := IH a fuel (o ++ [r]) (H (v ++ r)).
  + lia.
  + lia.
  + by [].
  + lia.
  exists (r :: sibs); split; last split.
  + rewrite /branch_loop -/branch_loop (_ : Z.of_nat (2 * a) = 2 * Z.of_nat a); last by lia.
    rewrite (_ : (2 * Z.of_nat a >? 1) = true); last by apply/Z.gtb_lt; lia.
    rewrite lxor1_even div2_even (_ : 2 * Z.of_nat a + 1 = Z.of_nat (2 * a + 1)); last by lia.
    by rewrite (py_nth_nat _ _ _ Er) [LHS]B1 -app_assoc.
  + by rewrite /= B2.
  + by rewrite /= (_ : Z.of_nat (2 * a) = 2 * Z.of_nat a) ?mod2_even ?div2_even //; lia.
- move: Hv; rewrite Er => -[E]; subst r.
  have [||||sibs [B1 [B2 B3]]] := IH a fuel (o ++ [l]) (H (l ++ v)).
  + lia.
  + lia.
  + by [].
  + lia.
  exists (l :: sibs); split; last split.
  + rewrite /branch_loop -/branch_loop (_ : Z.of_nat (2 * a + 1) = 2 * Z.of_nat a + 1); last by lia.
    rewrite (_ : (2 * Z.of_nat a + 1 >? 1) = true); last by apply/Z.gtb_lt; lia.
    rewrite lxor1_odd div2_odd (_ : 2 * Z.of_nat a = Z.of_nat (2 * a)); last by lia.
    by rewrite (py_nth_nat _ _ _ El) [LHS]B1 -app_assoc.
  + by rewrite /= B2.
  + by rewrite /= (_ : Z.of_nat (2 * a + 1) = 2 * Z.of_nat a + 1) ?mod2_odd ?div2_odd //; lia.
Qed.

Lemma half_pow k : 2 ^ Z.of_nat (S k) / 2 = Z.of_nat (2 ^ k).
Proof. by rewrite Nat2Z.inj_succ Z.pow_succ_r ?div2_even ?Nat2Z.inj_pow //; lia. Qed.

(** completeness, for any index that the permutation maps to leaf position y *)
Lemma branch_verifies H leaves tree k (x : Z) y v :
  is_merkle_tree H leaves tree -> length leaves = (2 ^ k)%nat -> (2 <= k)%nat ->
  get_index_in_permuted x (Z.of_nat (length leaves)) = Ok (Z.of_nat y) ->
  (y < length leaves)%nat -> nth_error tree (length leaves + y) = Some v ->
  exists root sibs, [/\ nth_error tree 1 = Some root, length sibs = k,
     mk_branch tree x = Ok (v :: sibs) & verify_branch H root x (v :: sibs) = Ok v].
Proof.
move=> [LT [HN _]] Hk H2 Hx Hy Hv.
have Hp : (2 ^ S k = 2 * 2 ^ k)%nat by apply: Nat.pow_succ_r'.
have Hkl : (k < 2 ^ k)%nat by apply: Nat.pow_gt_lin_r; lia.
have [||||sibs [B1 [B2 B3]]] := branch_ok H tree (length leaves) k (length leaves + y)
   (length leaves + y) [v] v HN.
- lia.
- lia.
- by [].
- lia.
exists (verify_loop H v (Z.of_nat (length leaves + y)) sibs), sibs; split=> //.
  rewrite /mk_branch LT (_ : Z.of_nat (2 * length leaves) / 2 = Z.of_nat (length leaves)); last first.
    by rewrite Nat2Z.inj_mul div2_even.
  rewrite Hx /= (_ : Z.of_nat y + Z.of_nat (length leaves) = Z.of_nat (length leaves + y)); last by lia.
  by rewrite (py_nth_nat _ _ _ Hv) /= Nat2Z.id.
rewrite /verify_branch (_ : length (v :: sibs) = S k); last by rewrite /= B2.
rewrite half_pow -Hk Hx /= (_ : Z.of_nat y + Z.of_nat (length leaves) = Z.of_nat (length leaves + y)); last by lia.
by rewrite bytes_eqb_refl.
Qed.

Lemma merkle_complete H L leaves k : length L = (2 ^ k)%nat -> (2 <= k)%nat ->
  mapM leaf_bytes L = Ok leaves ->
  exists tree root, [/\ merkelize H L = Ok tree, py_nth tree 1 = Ok root &
    forall i v, nth_error leaves i = Some v ->
      exists br, [/\ mk_branch tree (Z.of_nat i) = Ok br, length br = S k &
                     verify_branch H root (Z.of_nat i) br = Ok v]].
Proof.
move=> HL H2 HM; have [LV _] := mapM_nth _ _ _ HM.
have Hq : (2 ^ k = 4 * 2 ^ (k - 2))%nat.
  by rewrite {1}(_ : k = S (S (k - 2))) ?Nat.pow_succ_r'; lia.
have Hp : (0 < 2 ^ (k - 2))%nat by have := Nat.pow_nonzero 2 (k - 2); lia.
have [||tree [E T]] := merkelize_ok H L (2 ^ (k - 2)) leaves _ _ HM; [lia | lia |].
have [LT [HN HLf]] := T.
have [root Hroot] : exists r, nth_error tree 1 = Some r by apply: nth_error_lt; lia.
exists tree, root; split=> //; first exact: (py_nth_nat _ 1 _ Hroot).
move=> i v Hi; have [y [Ey [Ry Ny]]] := HLf i v Hi.
have [r [sibs [Hr Ls Hb Hv]]] :=
  branch_verifies H leaves tree k (Z.of_nat i) y v T (eq_trans LV HL) H2 Ey Ry Ny.
exists (v :: sibs); split=> //; first by rewrite /= Ls.
by move: Hr Hv; rewrite Hroot => -[->].
Qed.

(** adversarial proofs *)

(** The byte strings hashed while checking a proof: an independent trace of the
    hash calls of [verify_branch]. *)
Fixpoint hashed_from (H : bytes -> bytes) (v : bytes) (index : Z) (ps : list bytes) : list bytes :=
  match ps with
  | [] => []
  | p :: ps' =>
    let x := if Z.even index then v ++ p else p ++ v in
    x :: hashed_from H (H x) (index / 2) ps'
  end.

Definition hashed (H : bytes -> bytes) (i : Z) (proof : list bytes) : list bytes :=
  let n := 2 ^ (Z.of_nat (length proof) - 1) in
  hashed_from H (hd [] proof) (i / (n / 4) + 4 * (i mod (n / 4)) + n) (tl proof).

Lemma even_mod z : Z.even z = (z mod 2 =? 0).
Proof. by rewrite Zmod_even; case: Z.even. Qed.

Lemma app_split {A} (a b c d : list A) : length a = length c -> a ++ b = c ++ d -> a = c /\ b = d.
Proof.
elim: a c => [|x a IH] [|y c] //= [HL] [-> /(IH _ HL) [-> ->]] //.
Qed.

Lemma app_split_r {A} (a b c d : list A) : length b = length d -> a ++ b = c ++ d -> a = c /\ b = d.
Proof.
move=> HL HE; apply: app_split => //.
have := f_equal (@length A) HE; rewrite !app_length; lia.
Qed.

Lemma bytes_dec (a b : bytes) : {a = b} + {a <> b}.
Proof. by case: (bytes_eqb_spec a b) => H; [left | right]. Qed.

Lemma loop_binding H idx ps1 ps2 v1 v2 : (forall x, length (H x) = 32%nat) ->
  length ps1 = length ps2 -> length v1 = length v2 -> v1 <> v2 ->
  verify_loop H v1 idx ps1 = verify_loop H v2 idx ps2 ->
  exists x y, [/\ In x (hashed_from H v1 idx ps1), In y (hashed_from H v2 idx ps2), x <> y & H x = H y].
Proof.
move=> H32; elim: ps1 ps2 v1 v2 idx => [|p1 ps1 IH] [|p2 ps2] //= v1 v2 idx [HL] Hv Hne.
rewrite even_mod.
set x1 := if _ then v1 ++ p1 else _; set x2 := if _ then v2 ++ p2 else _.
have Hx : x1 <> x2.
  rewrite /x1 /x2; case: ifP => _ E.
    by case: (app_split _ _ _ _ Hv E).
  by case: (app_split_r _ _ _ _ Hv E).
have -> : (if idx mod 2 =? 0 then H (v1 ++ p1) else H (p1 ++ v1)) = H x1 by rewrite /x1; case: ifP.
have -> : (if idx mod 2 =? 0 then H (v2 ++ p2) else H (p2 ++ v2)) = H x2 by rewrite /x2; case: ifP.
case: (bytes_dec (H x1) (H x2)) => HH E.
  by exists x1, x2; split=> //; left.
have [x [y [Hi1 Hi2 Hxy HE]]] := IH ps2 (H x1) (H x2) _ HL (eq_trans (H32 _) (eq_sym (H32 _))) HH E.
by exists x, y; split=> //; right.
Qed.

Lemma verify_branch_inv H root i proof v : verify_branch H root i proof = Ok v ->
  exists sibs idx, [/\ proof = v :: sibs, (2 <= length sibs)%nat,
    get_index_in_permuted i (Z.of_nat (2 ^ length sibs)) = Ok idx &
    verify_loop H v (idx + Z.of_nat (2 ^ length sibs)) sibs = root].
Proof.
rewrite /verify_branch; case: proof => [|v' sibs]; first by [].
rewrite [length (_ :: _)]/= half_pow; case E: get_index_in_permuted => [idx|e] //=.
case: bytes_eqb_spec => //= HR [<-]; exists sibs, idx; split=> //.
by case: sibs E {HR} => [|a [|b sibs]] //= _; lia.
Qed.

Lemma verify_branch_intro H root i v sibs idx :
  get_index_in_permuted i (Z.of_nat (2 ^ length sibs)) = Ok idx ->
  verify_loop H v (idx + Z.of_nat (2 ^ length sibs)) sibs = root ->
  verify_branch H root i (v :: sibs) = Ok v.
Proof.
move=> E V; rewrite /verify_branch [length (_ :: _)]/= half_pow E /= V.
by rewrite bytes_eqb_refl.
Qed.

Lemma hashed_eq H i v sibs idx : get_index_in_permuted i (Z.of_nat (2 ^ length sibs)) = Ok idx ->
  hashed H i (v :: sibs) = hashed_from H v (idx + Z.of_nat (2 ^ length sibs)) sibs.
Proof.
rewrite /get_index_in_permuted /hashed; case: ifP => // _ [<-].
rewrite (_ : Z.of_nat (length (v :: sibs)) - 1 = Z.of_nat (length sibs)); last by rewrite [length (_ :: _)]/=; lia.
by rewrite -(Nat2Z.inj_pow 2).
Qed.

Lemma merkle_binding H root i pf1 pf2 v1 v2 : (forall x, length (H x) = 32%nat) ->
  verify_branch H root i pf1 = Ok v1 -> verify_branch H root i pf2 = Ok v2 ->
  length pf1 = length pf2 -> length v1 = length v2 -> v1 <> v2 ->
  exists x y, [/\ In x (hashed H i pf1), In y (hashed H i pf2), x <> y & H x = H y].
Proof.
move=> H32 /verify_branch_inv [s1 [i1 [-> _ E1 R1]]] /verify_branch_inv [s2 [i2 [-> _ E2 R2]]].
move=> [HL] Hv Hne; move: E2 R2; rewrite -HL E1 => -[<-] R2.
rewrite (hashed_eq _ _ _ _ _ E1) (hashed_eq _ _ _ s2 i1) -?HL //.
by apply: loop_binding => //; rewrite R1 R2.
Qed.

Lemma merkle_binding_tree H L leaves k tree root i v pf w : (forall x, length (H x) = 32%nat) ->
  length L = (2 ^ k)%nat -> (2 <= k)%nat -> mapM leaf_bytes L = Ok leaves ->
  merkelize H L = Ok tree -> py_nth tree 1 = Ok root -> nth_error leaves i = Some v ->
  length pf = S k -> verify_branch H root (Z.of_nat i) pf = Ok w -> length w = length v ->
  w = v \/ exists br x y, [/\ mk_branch tree (Z.of_nat i) = Ok br,
     In x (hashed H (Z.of_nat i) br), In y (hashed H (Z.of_nat i) pf), x <> y & H x = H y].
Proof.
move=> H32 HL Hk HM HT HR Hi Hp Hv Hw.
have [t [r [E1 E2 Hall]]] := merkle_complete H L leaves k HL Hk HM.
move: E1 E2; rewrite HT => -[Et]; subst t; rewrite HR => -[Er]; subst r.
have [br [B1 B2 B3]] := Hall i v Hi.
case: (bytes_dec w v) => [->|Hne]; [by left | right].
have [|||x [y [Hx Hy Hxy HE]]] := merkle_binding H root _ br pf v w H32 B3 Hv.
- by rewrite B2 Hp.
- by rewrite Hw.
- by move=> E; apply: Hne.
by exists br, x, y.
Qed.

(** moving one byte between sibling and leaf *)
Lemma merkle_malleable H root i leaf sib rest : verify_branch H root i (leaf :: sib :: rest) = Ok leaf ->
  sib <> [] ->
  exists leaf' sib', length leaf' = S (length leaf) /\
    verify_branch H root i (leaf' :: sib' :: rest) = Ok leaf'.
Proof.
move=> /verify_branch_inv [s [idx [[<-] Hl E V]]] Hs.
have [b [s' Hs']] : exists b s', sib = b :: s' by case: sib Hs {V E Hl} => // b s'; exists b, s'.
have [c [s2 Hs2]] : exists c s2, sib = s2 ++ [c].
  by exists (last sib b), (removelast sib); apply: app_removelast_last.
move: V; rewrite [verify_loop _ _ _ _]/=; set j := idx + _ => V.
case Ej: (j mod 2 =? 0); rewrite Ej in V.
  exists (leaf ++ [b]), s'; split; first by rewrite app_length /=; lia.
  apply: (verify_branch_intro _ _ _ _ _ idx) => //=; rewrite -/j Ej -V.
  by rewrite -app_assoc /= Hs'.
exists (c :: leaf), s2; split=> //.
apply: (verify_branch_intro _ _ _ _ _ idx) => //=; rewrite -/j Ej -V.
by rewrite Hs2 -app_assoc.
Qed.

Lemma branch_loop_sib fuel tree j o r : branch_loop fuel tree j o = Ok r -> j > 1 ->
  exists s rest, r = o ++ s :: rest /\ py_nth tree (Z.lxor j 1) = Ok s.
Proof.
have gen : forall fuel j o r, branch_loop fuel tree j o = Ok r -> exists rest, r = o ++ rest.
  elim=> [|f IH] j' o' r' /=; case: ifP => // _; try by move=> [<-]; exists []; rewrite app_nil_r.
  case: py_nth => [s|e] //= /IH [rest ->]; exists (s :: rest); by rewrite -app_assoc.
case: fuel => [|fuel] /=; rewrite (_ : (j >? 1) = (1 <? j)) ?Z.gtb_ltb //.
  by case: Z.ltb_spec => //; lia.
case: Z.ltb_spec => [_|]; last by lia.
case E: py_nth => [s|e] //= /gen [rest ->] _; exists s, rest; by rewrite -app_assoc.
Qed.

Lemma merkle_malleable_tree H L leaves k tree root len i v : length L = (2 ^ k)%nat -> (2 <= k)%nat ->
  mapM leaf_bytes L = Ok leaves -> (forall x, In x leaves -> length x = len) -> (0 < len)%nat ->
  merkelize H L = Ok tree -> py_nth tree 1 = Ok root -> nth_error leaves i = Some v ->
  exists pf w, [/\ verify_branch H root (Z.of_nat i) pf = Ok w, length pf = S k & ~ In w leaves].
Proof.
move=> HL Hk HM Hlen H0 HT HR Hi; have [LV _] := mapM_nth _ _ _ HM.
have Hq : (2 ^ k = 4 * 2 ^ (k - 2))%nat.
  by rewrite {1}(_ : k = S (S (k - 2))) ?Nat.pow_succ_r'; lia.
have Hp : (0 < 2 ^ (k - 2))%nat by have := Nat.pow_nonzero 2 (k - 2); lia.
have [||t [E T]] := merkelize_ok H L (2 ^ (k - 2)) leaves _ _ HM; [lia | lia |].
move: E; rewrite HT => -[Et]; subst t.
have [LT [HN HLf]] := T.
have [y [Ey [Ry Ny]]] := HLf i v Hi.
have [r [sibs [Hr Ls Hb Hv]]] :=
  branch_verifies H leaves tree k (Z.of_nat i) y v T (eq_trans LV HL) Hk Ey Ry Ny.
move: HR; rewrite (py_nth_nat _ 1 _ Hr) => -[Er]; subst r.
have Hj : Z.of_nat (length leaves + y) > 1 by lia.
move: (Hb); rewrite /mk_branch LT (_ : Z.of_nat (2 * length leaves) / 2 = Z.of_nat (length leaves)); last first.
  by rewrite Nat2Z.inj_mul div2_even.
rewrite Ey /= (_ : Z.of_nat y + Z.of_nat (length leaves) = Z.of_nat (length leaves + y)); last by lia.
rewrite (py_nth_nat _ _ _ Ny) /= => /branch_loop_sib /(_ Hj) [s [rest [[Es] Hs]]].
(* the sibling is a leaf *)
have Hs0 : s <> [].
  have [j [Hj1 Hj2]] : exists j, Z.lxor (Z.of_nat (length leaves + y)) 1 = Z.of_nat (length leaves + j) /\ (j < length leaves)%nat.
    have [a Ha] := nat_half y; set h := (2 * 2 ^ (k - 2))%nat.
    have Hh : length leaves = (2 * h)%nat by rewrite /h; lia.
    case: Ha => Ha; subst y.
      exists (2 * a + 1)%nat; split; last by lia.
      rewrite (_ : Z.of_nat (length leaves + 2 * a) = 2 * Z.of_nat (h + a)) ?lxor1_even; lia.
    exists (2 * a)%nat; split; last by lia.
    rewrite (_ : Z.of_nat (length leaves + (2 * a + 1)) = 2 * Z.of_nat (h + a) + 1) ?lxor1_odd; lia.
  have [x [Hx1 Hx2]] : exists x, (x < length leaves)%nat /\
      get_index_in_permuted (Z.of_nat x) (Z.of_nat (length leaves)) = Ok (Z.of_nat j).
    set q := (2 ^ (k - 2))%nat in Hq Hp; have HLq : length leaves = (4 * q)%nat by lia.
    exists (j / 4 + q * (j mod 4))%nat.
    have D := Nat.div_mod_eq j 4; have M := Nat.mod_upper_bound j 4.
    split; first by nia.
    rewrite /get_index_in_permuted HLq Nat2Z.inj_mul Z.mul_comm Z.div_mul //.
    rewrite (proj2 (Z.eqb_neq _ _)); last by lia.
    congr Ok; rewrite Nat2Z.inj_add Nat2Z.inj_mul (Z.mul_comm (Z.of_nat q)).
    rewrite Z.div_add; last by lia.
    rewrite Z.mod_add; last by lia.
    rewrite Z.div_small; last by nia.
    rewrite Z.mod_small; last by nia.
    lia.
  have [u Hu] := nth_error_lt _ _ Hx1.
  have [j' [E1 [_ N1]]] := HLf x u Hu.
  move: E1; rewrite Hx2 => -[/Nat2Z.inj Ej]; subst j'.
  move: Hs; rewrite Hj1 (py_nth_nat _ _ _ N1) => -[<-] Hnil.
  by have := Hlen _ (nth_error_In _ _ Hu); rewrite Hnil /=; lia.
subst sibs; have [w [s' [Hw1 Hw2]]] := merkle_malleable _ _ _ _ _ _ Hv Hs0.
exists (w :: s' :: rest), w; split=> //; first by move: Ls => /= <-.
move=> /Hlen; rewrite Hw1 (Hlen v); first by lia.
exact: nth_error_In Hi.
Qed.

(** the depth is not checked: an inner node passes for a leaf *)
Lemma index_surj q y : 0 < q -> 0 <= y < 4 * q ->
  exists x, 0 <= x < 4 * q /\ get_index_in_permuted x (4 * q) = Ok y.
Proof.
move=> Hq Hy; exists (y / 4 + (y mod 4) * q).
have D := Z.div_mod y 4; have M := Z.mod_pos_bound y 4.
have D0 : 0 <= y / 4 < q by split; [apply: Z.div_pos | apply: Z.div_lt_upper_bound]; lia.
split; first by nia.
rewrite /get_index_in_permuted (Z.mul_comm 4) Z.div_mul //.
rewrite (proj2 (Z.eqb_neq _ _)); last by lia.
rewrite Z.div_add; last by lia.
rewrite Z.mod_add; last by lia.
rewrite (Z.div_small (y / 4)) // (Z.mod_small (y / 4)) //; apply: f_equal; lia.
Qed.

Lemma merkle_no_depth_check H root i leaf sib rest :
  verify_branch H root i (leaf :: sib :: rest) = Ok leaf -> (2 <= length rest)%nat ->
  0 <= i < 2 ^ Z.of_nat (S (length rest)) ->
  exists i' node, [/\ node = H (leaf ++ sib) \/ node = H (sib ++ leaf), 0 <= i' < 2 ^ Z.of_nat (length rest) &
    verify_branch H root i' (node :: rest) = Ok node].
Proof.
move=> /verify_branch_inv [s [idx [[<-] Hl E V]]] Hr Hi.
set n := length rest in Hr Hi *.
have Hn : (2 ^ n = 4 * 2 ^ (n - 2))%nat.
  by rewrite {1}(_ : n = S (S (n - 2))) ?Nat.pow_succ_r'; lia.
have Hp : (0 < 2 ^ (n - 2))%nat by have := Nat.pow_nonzero 2 (n - 2); lia.
have Hn1 : (2 ^ length (sib :: rest) = 2 * 2 ^ n)%nat by apply: Nat.pow_succ_r'.
have Hi2 : 0 <= i < Z.of_nat (2 * 2 ^ n).
  by move: Hi; rewrite -(Nat2Z.inj_pow 2) Nat.pow_succ_r'.
move: E V; rewrite Hn1 => E V.
have D2 : Z.of_nat (2 * 2 ^ n) / 4 = Z.of_nat (2 * 2 ^ (n - 2)).
  by rewrite (_ : Z.of_nat (2 * 2 ^ n) = Z.of_nat (2 * 2 ^ (n - 2)) * 4) ?Z.div_mul //; lia.
have Hidx : 0 <= idx < Z.of_nat (2 * 2 ^ n).
  have [||y [Ey [Ry _]]] := index_range i (Z.of_nat (2 * 2 ^ n)); rewrite ?D2; [lia | lia |].
  move: Ey; rewrite E => -[->]; move: Ry; rewrite D2; lia.
have [||i' [Hi' Ei']] := index_surj (Z.of_nat (2 ^ (n - 2))) (idx / 2).
- lia.
- split; first by apply: Z.div_pos; lia.
  by apply: Z.div_lt_upper_bound; lia.
move: Ei' Hi'; rewrite (_ : 4 * Z.of_nat (2 ^ (n - 2)) = Z.of_nat (2 ^ n)); last by lia.
move=> Ei' Hi'.
move: V; rewrite [verify_loop _ _ _ _]/=.
rewrite (_ : Z.of_nat (2 * 2 ^ n) = Z.of_nat (2 ^ n) * 2); last by lia.
rewrite Z.div_add // Z.mod_add //.
set node := if _ then _ else _ => V.
exists i', node; split; last exact: (verify_branch_intro _ _ _ _ _ _ Ei' V).
  by rewrite /node; case: ifP; [left | right].
by rewrite -(Nat2Z.inj_pow 2).
Qed.

(** indices outside the list alias indices inside *)
Lemma index_alias q x : 0 < q -> x mod q + 1 < q ->
  get_index_in_permuted (x + 4 * q) (4 * q) = get_index_in_permuted (x + 1) (4 * q).
Proof.
move=> Hq Hx; rewrite /get_index_in_permuted (Z.mul_comm 4) Z.div_mul //.
rewrite (proj2 (Z.eqb_neq _ _)); last by lia.
have M := Z.mod_pos_bound x q Hq; have D := Z.div_mod x q.
rewrite (Z.mul_comm q) Z.div_add ?Z.mod_add; [|lia|lia].
have -> : x + 1 = (x mod q + 1) + (x / q) * q by lia.
rewrite Z.div_add ?Z.mod_add; [|lia|lia].
rewrite (Z.div_small (x mod q + 1)) ?(Z.mod_small (x mod q + 1)); [|lia|lia].
apply: f_equal; lia.
Qed.

Lemma merkle_alias H root i proof : (4 <= length proof)%nat ->
  let n := 2 ^ Z.of_nat (length proof - 1) in
  i mod (n / 4) + 1 < n / 4 ->
  verify_branch H root (i + n) proof = verify_branch H root (i + 1) proof.
Proof.
case: proof => [|v sibs]; first by rewrite /=; lia.
move=> Hl n Hn; rewrite /verify_branch [length (_ :: _)]/= half_pow.
move: Hl Hn; rewrite /n /= Nat.sub_0_r; set m := length sibs => Hl Hn.
rewrite (Nat2Z.inj_pow 2) (_ : 2 ^ Z.of_nat m = 4 * (2 ^ Z.of_nat (m - 2))); last first.
  rewrite (_ : Z.of_nat m = 2 + Z.of_nat (m - 2)) ?Z.pow_add_r //; lia.
move: Hn; rewrite (_ : 2 ^ Z.of_nat m / 4 = 2 ^ Z.of_nat (m - 2)); last first.
  rewrite (_ : Z.of_nat m = Z.of_nat (m - 2) + 2) ?Z.pow_add_r //; try lia.
  by rewrite Z.div_mul.
by move=> Hn; rewrite index_alias //; apply: Z.pow_pos_nonneg; lia.
Qed.

(** packing *)
Lemma slice_concat (l : list bytes) j b : (forall x, In x l -> length x = 32%nat) ->
  nth_error l j = Some b -> slice (concat l) (32 * j) (32 * (j + 1)) = b.
Proof.
rewrite /slice => Hl; rewrite (_ : (32 * (j + 1) - 32 * j)%nat = 32%nat); last by lia.
elim: l j Hl => [|x l IH] [|j] Hl; try by [].
  move=> [<-]; have Hx : length x = 32%nat by apply: Hl; left.
  rewrite Nat.mul_0_r [concat _]/= [skipn 0 _]/= -Hx.
  by rewrite firstn_app firstn_all Nat.sub_diag app_nil_r.
move=> Hb; have Hx : length x = 32%nat by apply: Hl; left.
rewrite [concat _]/= (_ : (32 * S j)%nat = (32 + 32 * j)%nat); last by lia.
rewrite skipn_app Hx skipn_all2; last by rewrite Hx; lia.
rewrite (_ : (32 + 32 * j - 32)%nat = (32 * j)%nat); last by lia.
by rewrite app_nil_l IH // => y Hy; apply: Hl; right.
Qed.

Lemma seq_blocks {A} (f : nat -> A) d n s :
  flat_map (fun p => map (fun i => f (p * d + i)%nat) (seq 0 d)) (seq s n) = map f (seq (s * d) (n * d)).
Proof.
elim: n s => [|n IH] s //=.
rewrite IH seq_app map_app /=; congr (_ ++ map f (seq _ _)); last by lia.
have gen : forall m a b, map (fun i => f (b + i)%nat) (seq a m) = map f (seq (b + a) m).
  by elim=> [|m IHm] a b //=; rewrite IHm -Nat.add_succ_r.
by rewrite gen Nat.add_0_r.
Qed.

Lemma unpack_ok (l : list bytes) dims np : (forall x, In x l -> length x = 32%nat) ->
  length l = (np * dims)%nat -> unpack_merkle_leaf (concat l) dims np = l.
Proof.
move=> Hl HL; rewrite /unpack_merkle_leaf.
rewrite (seq_blocks (fun j => slice (concat l) (32 * j) (32 * (j + 1)))) Nat.mul_0_l -HL.
apply: (nth_ext _ _ [] []); first by rewrite map_length seq_length.
move=> i; rewrite map_length seq_length => Hi.
have [b Hb] := nth_error_lt _ _ Hi.
rewrite (nth_error_nth _ _ _ Hb).
rewrite (nth_indep _ [] (slice (concat l) (32 * 0) (32 * (0 + 1)))) ?map_length ?seq_length //.
rewrite (map_nth (fun j => slice (concat l) (32 * j) (32 * (j + 1)))) seq_nth //.
exact: slice_concat.
Qed.

Lemma zip_star_ok {A} (d : A) (rows : list (list A)) n : rows <> [] ->
  (forall r, In r rows -> length r = n) ->
  zip_star rows = map (fun i => map (fun r => nth i r d) rows) (seq 0 n).
Proof.
rewrite /zip_star; case: rows => [|r rs] // _ Hn.
have -> : fold_left (fun m r' => Nat.min m (length r')) rs (length r) = n.
  rewrite (Hn r); last by left.
  have : forall x, In x rs -> length x = n by move=> x Hx; apply: Hn; right.
  elim: rs {Hn} => [|x rs IH] //= Hx; rewrite (Hx x) ?Nat.min_id ?IH //; first by move=> y Hy; apply: Hx; right.
  by left.
move: (r :: rs) Hn => rows Hn; apply: map_ext_in => i /in_seq Hi.
elim: rows Hn => [|x rows IH] Hn //=.
rewrite IH; last by move=> y Hy; apply: Hn; right.
by rewrite (nth_error_nth' x d) // (Hn x); [lia | left].
Qed.

Lemma mapM_map_ok {A B} (f : A -> result B) (g : A -> B) l : (forall a, In a l -> f a = Ok (g a)) ->
  mapM f l = Ok (map g l).
Proof.
elim: l => [|x l IH] H //=; rewrite H /=; last by left.
by rewrite IH // => a Ha; apply: H; right.
Qed.

Lemma to_bytes_digits len n : 0 <= n < 256 ^ Z.of_nat len -> to_bytes_be len n = Ok (be_digits len n).
Proof.
rewrite /to_bytes_be => H; rewrite (proj2 (Z.ltb_ge _ _)); last by lia.
by rewrite (proj2 (Z.leb_gt _ _)); last by lia.
Qed.

Lemma packed_ok H dims np rows k : (forall r, In r rows -> length r = (2 ^ k)%nat) -> (2 <= k)%nat ->
  length rows = (np * dims)%nat -> (0 < np * dims)%nat ->
  (forall r z, In r rows -> In z r -> 0 <= z < 256 ^ 32) ->
  exists tree root, [/\
    merkelize_polynomial_evaluations H (Z.of_nat dims) (map (map (to_bytes_be 32)) rows) = Ok tree,
    py_nth tree 1 = Ok root &
    forall i, (i < 2 ^ k)%nat -> exists br leaf,
      [/\ mk_branch tree (Z.of_nat i) = Ok br, verify_branch H root (Z.of_nat i) br = Ok leaf &
          map from_bytes_be (unpack_merkle_leaf leaf dims np) = map (fun r => nth i r 0) rows]].
Proof.
move=> Hk H2 Hl H0 Hz.
pose cell i := map (fun r => be_digits 32 (nth i r 0)) rows.
pose leaves := map (fun i => concat (cell i)) (seq 0 (2 ^ k)).
have Ecol : mapM (fun col => rmap (@concat _) (mapM (fun v => v) col)) (zip_star (map (map (to_bytes_be 32)) rows)) = Ok leaves.
  rewrite (zip_star_ok (to_bytes_be 32 0) _ (2 ^ k)); first last.
  - by move=> r /in_map_iff [r' [<- Hr']]; rewrite map_length; apply: Hk.
  - by case: (rows) Hl H0 => //= ; lia.
  rewrite /leaves; have : forall i, In i (seq 0 (2 ^ k)) -> (i < 2 ^ k)%nat by move=> i /in_seq; lia.
  elim: (seq 0 (2 ^ k)) => [|i l IH] //= Hi.
  rewrite IH; last by move=> j Hj; apply: Hi; right.
  rewrite map_map (mapM_map_ok _ (fun v => match v with Ok b => b | Err _ => [] end)).
    rewrite /= map_map; congr (Ok (concat _ :: _)); apply: map_ext_in => r Hr.
    rewrite map_nth to_bytes_digits //; apply: (Hz r) => //.
    by apply: nth_In; rewrite (Hk r) //; apply: Hi; left.
  move=> v /in_map_iff [r [<- Hr]]; rewrite map_nth to_bytes_digits //; apply: (Hz r) => //.
  by apply: nth_In; rewrite (Hk r) //; apply: Hi; left.
have HM : mapM leaf_bytes (map LBytes leaves) = Ok leaves.
  by elim: (leaves) => [|x l IH] //=; rewrite IH.
have HL : length (map LBytes leaves) = (2 ^ k)%nat by rewrite !map_length seq_length.
have [tree [root [E1 E2 E3]]] := merkle_complete H _ leaves k HL H2 HM.
exists tree, root; split=> //; first by rewrite /merkelize_polynomial_evaluations Ecol.
move=> i Hi; have Hn : nth_error leaves i = Some (concat (cell i)).
  rewrite (nth_error_nth' _ []); last by rewrite map_length seq_length.
  rewrite (nth_indep _ [] (concat (cell 0%nat))) ?map_length ?seq_length //.
  by rewrite (map_nth (fun i => concat (cell i))) seq_nth.
have [br [B1 B2 B3]] := E3 i _ Hn; exists br, (concat (cell i)); split=> //.
rewrite unpack_ok; first last.
- by rewrite map_length.
- by move=> x /in_map_iff [r [<- _]]; rewrite be_digits_length.
rewrite map_map; apply: map_ext_in => r Hr; rewrite from_be_digits Z.mod_small //.
by apply: (Hz r) => //; apply: nth_In; rewrite (Hk r).
Qed.

(** Twelve leaves: the honest branch of leaf 6 is accepted only if leaves 6 and
    9 are equal or the hash collides. *)
Lemma twelve_leaves H l0 l1 l2 l3 l4 l5 l6 l7 l8 l9 l10 l11 tree root br v :
  (forall x, length (H x) = 32%nat) -> length l6 = length l9 -> l6 <> l9 ->
  merkelize H (map LBytes [l0; l1; l2; l3; l4; l5; l6; l7; l8; l9; l10; l11]) = Ok tree ->
  py_nth tree 1 = Ok root -> mk_branch tree 6 = Ok br -> verify_branch H root 6 br = Ok v ->
  exists x y, x <> y /\ H x = H y.
Proof.
move=> H32 Hl Hne [<-] [<-] [<-]; cbn -[app bytes_eqb].
case: bytes_eqb_spec => // E _; move: E.
set n6 := H (l0 ++ l3); set n2 := H (H (H (l1 ++ l4) ++ _) ++ _); set v7 := H (l9 ++ l6); set n7 := H (l6 ++ l9).
move=> E.
have [E1|N1] := bytes_dec (H (n6 ++ v7) ++ n2) (n2 ++ H (n6 ++ n7)); last by eexists; eexists; split; [exact: N1 | exact: E].
have [E2 E3] := app_split _ _ _ _ (eq_trans (H32 _) (eq_sym (H32 _))) E1.
have E4 : H (n6 ++ v7) = H (n6 ++ n7) := eq_trans E2 E3.
have [E5|N2] := bytes_dec (n6 ++ v7) (n6 ++ n7); last by eexists; eexists; split; [exact: N2 | exact: E4].
have E6 : v7 = n7 by apply: app_inv_head E5.
have [E7|N3] := bytes_dec (l9 ++ l6) (l6 ++ l9); last by eexists; eexists; split; [exact: N3 | exact: E6].
by have [E8 _] := app_split _ _ _ _ (eq_sym Hl) E7; case: Hne.
Qed.
