(** What the root of a tree built by [merkelize] commits to. *)
From Coq Require Import Bool ZArith List Lia Permutation.
From Coq Require Import ssreflect ssrbool.
From Verif Require Import Base BaseProofs MerkleModel MerkleProofs.
Import ListNotations.
Local Open Scope nat_scope.
Local Set SsrOldRewriteGoalsOrder.
Local Set Bullet Behavior "None".

Lemma nth_error_inj {A} (l m : list A) : (forall i, nth_error l i = nth_error m i) -> l = m.
Proof.
elim: l m => [|x l IH] [|y m] // H; try by have := H 0.
have [->] := H 0; by rewrite (IH m) // => i; have := H (S i).
Qed.

Lemma nth_error_inj_lt {A} (l m : list A) : length l = length m ->
  (forall i, i < length l -> nth_error l i = nth_error m i) -> l = m.
Proof.
move=> E H; apply: nth_error_inj => i; case: (Nat.lt_ge_cases i (length l)) => Hi; first exact: H.
by rewrite (proj2 (nth_error_None l i)) // (proj2 (nth_error_None m i)) // -E.
Qed.

Lemma hash_loop_0 H i nodes nodes' : hash_loop H i nodes = Ok nodes' -> nth_error nodes' 0 = nth_error nodes 0.
Proof.
elim: i nodes => [|i IH] nodes; first by move=> [<-].
rewrite [hash_loop _ _ _]/=; case: lget => [a|e] //; rewrite [bind _ _]/=; case: lget => [b|e] //.
by rewrite [bind _ _]/= => E; rewrite (IH _ E) set_nth_other.
Qed.

(** the whole structure of a tree *)
Definition tree_over (H : bytes -> bytes) (r t : list bytes) :=
  [/\ length t = 2 * length r, (0 < length r -> nth_error t 0 = Some []),
      forall j, 1 <= j < length r -> node_ok H t j &
      forall y, y < length r -> nth_error t (length r + y) = nth_error r y].

Lemma hash_loop_tree H r : exists t, hash_loop H (length r - 1) (repeat [] (length r) ++ r) = Ok t /\ tree_over H r t.
Proof.
case E: (length r) => [|m].
  exists r; case: r E => //= _; split=> //; split=> //=; lia.
have [||t [E1 [LT [Hgt Hle]]]] := hash_loop_ok H (S m - 1) (repeat [] (S m) ++ r) (S m).
- by rewrite app_length repeat_length E; lia.
- lia.
exists t; split=> //; split; rewrite ?E //.
- by move=> _; rewrite (hash_loop_0 _ _ _ _ E1).
- by move=> j Hj; apply: Hle; lia.
move=> y Hy; rewrite Hgt; last by lia.
rewrite nth_error_app2; last by rewrite repeat_length; lia.
by rewrite repeat_length (_ : S m + y - S m = y) //; lia.
Qed.

Lemma tree_unique H r t t' : tree_over H r t -> tree_over H r t' -> t = t'.
Proof.
move=> [L1 Z1 N1 Y1] [L2 Z2 N2 Y2]; apply: nth_error_inj_lt; first by lia.
have step : forall n j, length r <= j + n -> 1 <= j < 2 * length r -> nth_error t j = nth_error t' j.
  elim=> [|n IH] j Hn Hj.
    by rewrite (_ : j = length r + (j - length r)); [rewrite Y1 ?Y2 //; lia | lia].
  case: (Nat.lt_ge_cases j (length r)) => Hr; last by apply: IH; lia.
  have [|a [b [A1 [A2 ->]]]] := N1 j; first by lia.
  have [|a' [b' [B1 [B2 ->]]]] := N2 j; first by lia.
  move: A1 A2; rewrite (IH (j * 2)) ?(IH (j * 2 + 1)); try lia.
  by rewrite B1 B2 => -[->] [->].
move=> [|j] Hj; first by rewrite Z1 ?Z2 //; lia.
by apply: (step (length r)); lia.
Qed.

Lemma merkelize_tree H L t : merkelize H L = Ok t ->
  exists o r, [/\ permute4 L = Ok o, mapM leaf_bytes o = Ok r, length r = 4 * (length L / 4) & tree_over H r t].
Proof.
rewrite /merkelize; have [o [Eo [Lo _]]] := permute4_ok L; rewrite Eo /=.
case Er: (mapM leaf_bytes o) => [r|e] //=; have [Lr _] := mapM_nth _ _ _ Er.
have [t' [E T]] := hash_loop_tree H r; rewrite -Lr E => -[<-].
by exists o, r; split; [by [] | exact: Er | rewrite Lr Lo | exact: T].
Qed.

Lemma merkelize_of H L o r t : permute4 L = Ok o -> mapM leaf_bytes o = Ok r -> tree_over H r t ->
  merkelize H L = Ok t.
Proof.
rewrite /merkelize => -> /= Er T; rewrite Er /=; have [Lr _] := mapM_nth _ _ _ Er.
by have [t' [E T']] := hash_loop_tree H r; rewrite -Lr E (tree_unique _ _ _ _ T T').
Qed.

(** the leaves, in the order of the tree *)
Lemma permuted_leaves L o leaves r y : permute4 L = Ok o -> mapM leaf_bytes o = Ok r ->
  mapM leaf_bytes L = Ok leaves -> y < 4 * (length L / 4) ->
  nth_error r y = nth_error leaves (y / 4 + length L / 4 * (y mod 4)).
Proof.
move=> Eo Er El Hy; have P := permute4_pos L o y Eo Hy.
have [o' [Eo' [Lo _]]] := permute4_ok L; move: Eo'; rewrite Eo => -[E]; subst o'.
have [|x Hx] := @nth_error_lt _ o y; first by lia.
have [_ N1] := mapM_nth _ _ _ Er; have [_ N2] := mapM_nth _ _ _ El.
have [b [F1 ->]] := N1 _ _ Hx; rewrite P in Hx; have [c [F2 ->]] := N2 _ _ Hx.
by move: F1; rewrite F2 => -[->].
Qed.

Definition children (t : list bytes) (j : nat) : bytes := nth (j * 2) t [] ++ nth (j * 2 + 1) t [].

Lemma nth_of {A} (t : list A) j a d : nth_error t j = Some a -> nth j t d = a.
Proof. by move=> E; apply: nth_error_nth. Qed.

Lemma node_children H t j : node_ok H t j -> nth_error t j = Some (H (children t j)).
Proof. by move=> [a [b [A [B ->]]]]; rewrite /children (nth_of _ _ _ _ A) (nth_of _ _ _ _ B). Qed.

Lemma trees_bind H r1 r2 t1 t2 : (forall x, length (H x) = 32) ->
  tree_over H r1 t1 -> tree_over H r2 t2 -> map (@length _) r1 = map (@length _) r2 -> 1 < length r1 ->
  nth_error t1 1 = nth_error t2 1 ->
  r1 = r2 \/ exists j, [/\ 1 <= j < length r1, children t1 j <> children t2 j &
                          H (children t1 j) = H (children t2 j)].
Proof.
move=> H32 [L1 Z1 N1 Y1] [L2 Z2 N2 Y2] EL Hn HR.
have EN : length r1 = length r2 by rewrite -(map_length (@length _) r1) EL map_length.
have sz : forall i, 1 <= i < 2 * length r1 -> length (nth i t1 []) = length (nth i t2 []).
  move=> i Hi; case: (Nat.lt_ge_cases i (length r1)) => Hr.
    have [|a [b [_ [_ A]]]] := N1 i; first by lia.
    have [|a' [b' [_ [_ A']]]] := N2 i; first by lia.
    by rewrite (nth_of _ _ _ _ A) (nth_of _ _ _ _ A') !H32.
  have G1 := Y1 (i - length r1); have G2 := Y2 (i - length r1).
  rewrite -EN in G2.
  rewrite (_ : length r1 + (i - length r1) = i) in G1 G2; last by lia.
  have [|v Ev] := @nth_error_lt _ r1 (i - length r1); first by lia.
  have [|w Ew] := @nth_error_lt _ r2 (i - length r1); first by lia.
  rewrite (nth_of _ _ v) ?(nth_of _ _ w); last 2 first.
  - by rewrite G2 //; lia.
  - by rewrite G1 //; lia.
  have := f_equal (fun l => nth_error l (i - length r1)) EL.
  by rewrite !nth_error_map Ev Ew /= => -[].
have go : forall m, m <= length r1 -> (forall i, 1 <= i < 2 * m -> nth i t1 [] = nth i t2 []) \/
    exists j, [/\ 1 <= j < length r1, children t1 j <> children t2 j & H (children t1 j) = H (children t2 j)].
  elim=> [|m IH] Hm; first by left; lia.
  case: IH => [|IH|]; [lia | | by right].
  case: (Nat.eq_dec m 0) => M0.
    left=> i Hi; have -> : i = 1 by lia.
    have [|v Ev] := @nth_error_lt _ t1 1; first by lia.
    by rewrite (nth_of _ _ _ _ Ev); rewrite HR in Ev; rewrite (nth_of _ _ _ _ Ev).
  have A1 : node_ok H t1 m by apply: N1; lia.
  have A2 : node_ok H t2 m by apply: N2; lia.
  have E : H (children t1 m) = H (children t2 m).
    have := IH m; rewrite (nth_of _ _ _ _ (node_children _ _ _ A1)) (nth_of _ _ _ _ (node_children _ _ _ A2)).
    by apply; lia.
  case: (bytes_dec (children t1 m) (children t2 m)) => D; last by right; exists m; split=> //; lia.
  have [|D1 D2] := app_split _ _ _ _ _ D; first by apply: sz; lia.
  left=> i Hi; case: (Nat.lt_ge_cases i (2 * m)) => Hi2; first by apply: IH; lia.
  have [->|->] : i = m * 2 \/ i = m * 2 + 1 by lia.
    exact: D1.
  exact: D2.
case: (go (length r1)) => [//|E|]; last by right.
left; apply: nth_error_inj_lt => // y Hy; rewrite -Y1 // -Y2 -?EN //.
have Hi : 1 <= length r1 + y < 2 * length r1 by lia.
have [|v Ev] := @nth_error_lt _ t1 (length r1 + y); first by lia.
have [|w Ew] := @nth_error_lt _ t2 (length r1 + y); first by lia.
by have := E _ Hi; rewrite (nth_of _ _ _ _ Ev) (nth_of _ _ _ _ Ew) Ev Ew => ->.
Qed.

Lemma perm_onto q x : 0 < q -> x < 4 * q -> exists y, y < 4 * q /\ y / 4 + q * (y mod 4) = x.
Proof.
move=> Hq Hx; exists (4 * (x mod q) + x / q).
have M := Nat.mod_upper_bound x q; have D := Nat.div_mod_eq x q.
have Hd : x / q < 4 by apply: Nat.div_lt_upper_bound; lia.
have -> : (4 * (x mod q) + x / q) / 4 = x mod q.
  by rewrite Nat.mul_comm Nat.div_add_l // Nat.div_small //; lia.
have -> : (4 * (x mod q) + x / q) mod 4 = x / q.
  by rewrite Nat.add_comm Nat.mul_comm Nat.mod_add // Nat.mod_small.
lia.
Qed.

Lemma root_binds H L1 L2 q leaves1 leaves2 t1 t2 : (forall x, length (H x) = 32) ->
  length L1 = 4 * q -> length L2 = 4 * q ->
  mapM leaf_bytes L1 = Ok leaves1 -> mapM leaf_bytes L2 = Ok leaves2 ->
  map (@length _) leaves1 = map (@length _) leaves2 ->
  merkelize H L1 = Ok t1 -> merkelize H L2 = Ok t2 -> nth_error t1 1 = nth_error t2 1 ->
  leaves1 = leaves2 \/ exists j, [/\ 1 <= j < 4 * q, children t1 j <> children t2 j &
                                    H (children t1 j) = H (children t2 j)].
Proof.
move=> H32 HL1 HL2 M1 M2 EL T1 T2 HR.
have [K1 _] := mapM_nth _ _ _ M1; have [K2 _] := mapM_nth _ _ _ M2.
case: (Nat.eq_dec q 0) => Q0.
  left; move: K1 K2; rewrite HL1 HL2 Q0 /=; by case: leaves1 {M1 EL} => //; case: leaves2 {M2}.
have Eq : 4 * q / 4 = q by rewrite Nat.mul_comm Nat.div_mul.
have [o1 [r1 [P1 R1 S1 O1]]] := merkelize_tree _ _ _ T1.
have [o2 [r2 [P2 R2 S2 O2]]] := merkelize_tree _ _ _ T2.
have B1 := fun y => permuted_leaves L1 o1 leaves1 r1 y P1 R1 M1.
have B2 := fun y => permuted_leaves L2 o2 leaves2 r2 y P2 R2 M2.
rewrite HL1 Eq in S1 B1; rewrite HL2 Eq in S2 B2.
have G : map (@length _) r1 = map (@length _) r2.
  apply: nth_error_inj_lt; first by rewrite !map_length S1 S2.
  move=> i; rewrite map_length S1 => Hi.
  by rewrite !nth_error_map (B1 _ Hi) (B2 _ Hi) -!nth_error_map EL.
have G1 : 1 < length r1 by lia.
have [E|] := trees_bind H r1 r2 t1 t2 H32 O1 O2 G G1 HR.
- left; apply: nth_error_inj_lt; first by lia.
  move=> x Hx; have [||y [Hy <-]] := perm_onto q x; try lia.
  by rewrite -B1 // -B2 // E.
by rewrite S1 => ?; right.
Qed.

Lemma permute4_tail {A} (L : list A) q u : length L = 4 * q -> length u < 4 -> permute4 (L ++ u) = permute4 L.
Proof.
move=> HL Hu.
have E1 : length L / 4 = q by rewrite HL Nat.mul_comm Nat.div_mul.
have E2 : length (L ++ u) / 4 = q by rewrite app_length HL Nat.mul_comm Nat.div_add_l // Nat.div_small //; lia.
have [o1 [P1 [S1 _]]] := permute4_ok L; have [o2 [P2 [S2 _]]] := permute4_ok (L ++ u).
rewrite P1 P2; congr Ok; apply: nth_error_inj_lt; first by lia.
move=> k Hk; rewrite (permute4_pos _ _ _ P1) ?(permute4_pos _ _ _ P2) ?E1 ?E2; try lia.
rewrite nth_error_app1 //.
have := Nat.mod_upper_bound k 4; have : k / 4 < q by apply: Nat.div_lt_upper_bound; lia.
nia.
Qed.

Lemma tail_ignored H L q u : length L = 4 * q -> length u < 4 -> merkelize H (L ++ u) = merkelize H L.
Proof. by move=> HL Hu; rewrite /merkelize (permute4_tail L q). Qed.

(** every list of length 4q is the result of permuting some list *)
Lemma permute4_onto (P : list bytes) q : length P = 4 * q ->
  exists L, length L = 4 * q /\ permute4 (map LBytes L) = Ok (map LBytes P) /\ (forall x, In x L -> In x P).
Proof.
move=> HP; case: (Nat.eq_dec q 0) => Q0.
  by exists []; case: P HP => [|? ?]; rewrite Q0.
pose f x := nth (4 * (x mod q) + x / q) P [].
exists (map f (seq 0 (4 * q))); rewrite map_length seq_length; split=> //.
have bnd : forall x, x < 4 * q -> x mod q < q /\ x / q < 4.
  by move=> x Hx; split; [apply: Nat.mod_upper_bound | apply: Nat.div_lt_upper_bound; lia].
split; last first.
  move=> x /in_map_iff [y [<- /in_seq Hy]]; apply: nth_In.
  by have := bnd y; lia.
have [o [E [S N]]] := permute4_ok (map LBytes (map f (seq 0 (4 * q)))); rewrite E; congr Ok.
have Eq : length (map LBytes (map f (seq 0 (4 * q)))) / 4 = q
  by rewrite !map_length seq_length Nat.mul_comm Nat.div_mul.
rewrite Eq in S N; apply: nth_error_inj_lt; first by rewrite map_length; lia.
move=> k Hk; rewrite S in Hk; rewrite (permute4_pos _ _ _ E) Eq //.
have M := Nat.mod_upper_bound k 4; have D := Nat.div_mod_eq k 4.
have K : k / 4 < q by apply: Nat.div_lt_upper_bound; lia.
set x := k / 4 + q * (k mod 4).
have Hx : x < 4 * q by rewrite /x; nia.
rewrite !nth_error_map (nth_error_nth' _ 0) ?seq_length // seq_nth //= /f.
have -> : x mod q = k / 4 by rewrite /x (Nat.mul_comm q) Nat.mod_add // Nat.mod_small.
have -> : x / q = k mod 4 by rewrite /x (Nat.mul_comm q) Nat.div_add // Nat.div_small.
by rewrite -D (nth_error_nth' P []) //; lia.
Qed.

Lemma mapM_LBytes (l : list bytes) : mapM leaf_bytes (map LBytes l) = Ok l.
Proof. by elim: l => [|x l IH] //=; rewrite IH. Qed.

Lemma inner_nodes H L q t : length L = 8 * q -> merkelize H L = Ok t ->
  exists L', [/\ length L' = 4 * q, merkelize H (map LBytes L') = Ok (firstn (8 * q) t) &
                 forall x, In x L' -> exists y, x = H y].
Proof.
move=> HL T; have [o [r [P R S [LT Z N Y]]]] := merkelize_tree _ _ _ T.
rewrite (_ : length L / 4 = 2 * q) in S; last by rewrite HL (_ : 8 * q = 2 * q * 4) ?Nat.div_mul //; lia.
have [|L' [HL' [P' I]]] := permute4_onto (firstn (4 * q) (skipn (4 * q) t)) q.
  by rewrite firstn_length skipn_length; lia.
have nthP : forall y, y < 4 * q -> nth_error (firstn (4 * q) (skipn (4 * q) t)) y = nth_error t (4 * q + y).
  move=> y Hy; rewrite nth_error_firstn //.
  rewrite -{2}(firstn_skipn (4 * q) t) nth_error_app2; rewrite firstn_length Nat.min_l; try lia.
  by congr nth_error; lia.
exists L'; split=> //; last first.
  move=> x /I /(@In_nth_error _ _ _) [y Hy]; have := nth_error_in_lt _ _ _ Hy.
  rewrite firstn_length skipn_length => Hlt.
  rewrite nthP in Hy; last by lia.
  have [|a [b [_ [_ A]]]] := N (4 * q + y); first by lia.
  by exists (a ++ b); move: Hy; rewrite A => -[<-].
apply: (merkelize_of _ _ _ _ _ P' (mapM_LBytes _)).
have SP : length (firstn (4 * q) (skipn (4 * q) t)) = 4 * q by rewrite firstn_length skipn_length; lia.
split; rewrite ?SP.
- by rewrite firstn_length; lia.
- by move=> Hq; rewrite nth_error_firstn; [apply: Z | ]; lia.
- move=> j Hj; have [|a [b [A [B C]]]] := N j; first by lia.
  by exists a, b; rewrite !nth_error_firstn //; lia.
by move=> y Hy; rewrite nth_error_firstn ?nthP //; lia.
Qed.
