(** Proofs about Merkle trees of values whose bytes may not exist. *)
From Coq Require Import Bool ZArith List Lia Permutation.
From Coq Require Import ssreflect ssrbool.
From Verif Require Import Base BaseProofs ModpModel PolyBytesModel MerkleModel MerkleProofs ExtMerkleModel.
Import ListNotations.
Local Open Scope Z_scope.
Local Set SsrOldRewriteGoalsOrder.
Local Set Implicit Arguments.
Local Unset Strict Implicit.

(** a polynomial or an element of an extension field *)
Definition polynomial_like (x : value) : Prop :=
  match x with VPoly _ | VExt _ => True | _ => False end.
(** an int or residue fits into 32 bytes *)
Definition in_range (x : value) : Prop :=
  match x with VInt z | VModp z => 0 <= z < 2 ^ 256 | _ => True end.

Definition leaf_of (x : value) : leaf :=
  match x with
  | VInt z => LInt z
  | VBytes b => LBytes b
  | VModp n => LObj (modp_to_bytes n)
  | _ => LObj (Err TypeError)
  end.

Lemma node_of_like x : polynomial_like x -> node_of x = Ok None \/ node_of x = Err TypeError.
Proof. by case: x => //= -[|c l] _; [left|right|left|right]. Qed.

Lemma node_of_plain x : ~ polynomial_like x -> node_of x = rmap Some (leaf_bytes (leaf_of x)).
Proof. by case: x => //= c H; case: H. Qed.

Lemma in_range_bytes x : in_range x -> ~ polynomial_like x -> exists b, node_of x = Ok (Some b).
Proof.
have B : forall z, 0 <= z < 2 ^ 256 -> exists b, to_bytes_be 32 z = Ok b.
  by move=> z Hz; have [b [E _]] := to_bytes_be_ok 32 z Hz; exists b.
case: x => [z|b|z|c|c] //= H N; try by case: N.
- by have [b ->] := B z H; exists b.
- by exists b.
- by rewrite /modp_to_bytes; have [b ->] := B z H; exists b.
Qed.

Lemma ext_hash_none H i nodes n k : length nodes = (2 * n)%nat -> (i < n)%nat ->
  (n <= k)%nat -> (2 <= k <= 2 * i + 1)%nat -> nth_error nodes k = Some None ->
  ext_hash_loop H i nodes = Err TypeError.
Proof.
elim: i nodes => [|i IH] nodes HL Hi Hn Hk Ek; first by lia.
have [a Ea] : exists a, nth_error nodes (S i * 2) = Some a by apply: nth_error_lt; lia.
have [b Eb] : exists b, nth_error nodes (S i * 2 + 1) = Some b by apply: nth_error_lt; lia.
rewrite /ext_hash_loop -/(ext_hash_loop H i _) (lget_some _ _ _ Ea) /= (lget_some _ _ _ Eb) /=.
case: a Ea => [a|] Ea //; case: b Eb => [b|] Eb //=.
have N1 : k <> (S i * 2)%nat by move=> E; rewrite E Ea in Ek.
have N2 : k <> (S i * 2 + 1)%nat by move=> E; rewrite E Eb in Ek.
apply: IH => //.
- by rewrite set_nth_length.
- lia.
- lia.
- by rewrite set_nth_other //; lia.
Qed.

Lemma set_nth_map {A B} (f : A -> B) l i v : set_nth_list (map f l) i (f v) = map f (set_nth_list l i v).
Proof. by elim: l i => [|x l IH] [|i] //=; rewrite IH. Qed.

Lemma ext_hash_some H i nodes : ext_hash_loop H i (map Some nodes) = rmap (map Some) (hash_loop H i nodes).
Proof.
elim: i nodes => [//|i IH] nodes.
rewrite /ext_hash_loop -/(ext_hash_loop H i _) /hash_loop -/(hash_loop H i _) /lget !nth_error_map.
move: (nth_error nodes (S i * 2)) (nth_error nodes (S i * 2 + 1)) => [a|] [b|]; rewrite /bind /option_map //.
rewrite [node_add _ _]/=.
rewrite -[LHS]/(ext_hash_loop H i (set_nth_list (map Some nodes) (S i) (Some (H (a ++ b))))).
by rewrite set_nth_map IH.
Qed.

Lemma permute4_map {A B} (f : A -> B) l : permute4 (map f l) = rmap (map f) (permute4 l).
Proof.
rewrite /permute4 map_length.
set q := (length l / 4)%nat.
set F := (fun o i => _ : result (list B)); set G := (fun o i => _ : result (list A)).
have E : forall o i, F (map f o) i = rmap (map f) (G o i).
  move=> o i; rewrite /F /G /lget !nth_error_map.
  by do 4 (case: nth_error => [?|] //=); rewrite map_app.
have K : forall s o, foldM F s (map f o) = rmap (map f) (foldM G s o).
  by elim=> [//|i s IH] o /=; rewrite E; case: (G o i) => //= o'.
exact: (K _ []).
Qed.

Lemma mapM_node L : (forall x, In x L -> ~ polynomial_like x) ->
  mapM node_of L = rmap (map Some) (mapM leaf_bytes (map leaf_of L)).
Proof.
elim: L => //= x L IH N; rewrite node_of_plain; last by apply: N; left.
rewrite IH; last by move=> y Hy; apply: N; right.
by case: (leaf_bytes _) => //= b; case: (mapM _ _).
Qed.

Lemma mapM_type_error {A B} (f : A -> result B) (l : list A) :
  (forall x, In x l -> (exists b, f x = Ok b) \/ f x = Err TypeError) ->
  (exists r, mapM f l = Ok r) \/ mapM f l = Err TypeError.
Proof.
elim: l => [|x l IH] H /=; first by left; exists [].
have [[b ->]|->] := H x (or_introl (eq_refl _)); last by right.
have [[r ->]|->] := IH (fun y Hy => H y (or_intror Hy)); last by right.
by left; exists (b :: r).
Qed.

Lemma ext_merkelize_like H L : (forall x, In x L -> in_range x) ->
  (exists x, In x (firstn (4 * (length L / 4)) L) /\ polynomial_like x) ->
  ext_merkelize H L = Err TypeError.
Proof.
move=> R [x [Ix Px]]; rewrite /ext_merkelize.
have [o [Eo [Lo _]]] := permute4_ok L; rewrite Eo /=.
have [o2 [Eo2 P]] := permute4_perm L; move: Eo2; rewrite Eo => -[Eo2]; subst o2.
have Ro : forall y, In y o -> (exists b, node_of y = Ok b) \/ node_of y = Err TypeError.
  move=> y /(Permutation_in _ (Permutation_sym P)) Hy.
  have Ry : in_range y by apply: R; rewrite -(firstn_skipn (4 * (length L / 4)) L); apply/in_app_iff; left.
  have D : polynomial_like y \/ ~ polynomial_like y by case: (y) => *; by [left|right].
  case: D => [/node_of_like [->|->]|D]; [by left; exists None|by right|].
  by have [b ->] := in_range_bytes Ry D; left; exists (Some b).
have [[r Er]|->] := mapM_type_error Ro => //; rewrite Er /=.
have [Lr Nr] := mapM_nth _ _ _ Er.
have [i Hi] := In_nth_error _ _ (Permutation_in _ P Ix).
have [b [Eb Nb]] := Nr _ _ Hi.
have Enone : b = None by have [E|E] := node_of_like Px; rewrite E in Eb; case: Eb.
subst b.
have Li := nth_error_in_lt _ _ _ Hi.
have Q : (0 < length L / 4)%nat by lia.
apply: (@ext_hash_none H _ _ (length o) (length o + i)).
- by rewrite app_length repeat_length Lr; lia.
- lia.
- lia.
- lia.
- rewrite nth_error_app2 repeat_length; last by lia.
  by rewrite (_ : (length o + i - length o)%nat = i) //; lia.
Qed.

Lemma ext_merkelize_plain H L : (forall x, In x (firstn (4 * (length L / 4)) L) -> ~ polynomial_like x) ->
  ext_merkelize H L = rmap (map Some) (merkelize H (map leaf_of L)).
Proof.
move=> N; rewrite /ext_merkelize /merkelize permute4_map.
have [o [Eo P]] := permute4_perm L; rewrite Eo /= map_length.
rewrite mapM_node; last by move=> x /(Permutation_in _ (Permutation_sym P)) /N.
case: (mapM _ _) => //= leaves.
rewrite -ext_hash_some map_app; do 2 f_equal.
by elim: (length o) => //= n <-.
Qed.

Lemma py_join_none l : l <> [] -> (forall x, In x l -> x = None) -> py_join l = Err TypeError.
Proof. by case: l => //= x l _ H; rewrite (H x) //; left. Qed.

Lemma first_column (rows : list (list value)) : rows <> [] -> (forall r, In r rows -> r <> []) ->
  exists col cols, zip_star rows = col :: cols /\ col <> [] /\
    forall x, In x col -> exists r, In r rows /\ In x r.
Proof.
case: rows => [//|r rs] _ N; rewrite /zip_star.
set n := fold_left _ rs _.
have Hn : (0 < n)%nat.
  have G : forall rs m, (0 < m)%nat -> (forall r, In r rs -> r <> []) ->
      (0 < fold_left (fun m r' => Nat.min m (length r')) rs m)%nat.
    move=> A; elim=> [//|x l IH] m Hm Hl /=; apply: IH; last by move=> y Hy; apply: Hl; right.
    have : x <> [] by apply: Hl; left.
    by case: (x) => //= a x' _; lia.
  apply: G; last by move=> x Hx; apply: N; right.
  have : r <> [] by apply: N; left.
  by case: (r) => //= a x' _; lia.
case: n Hn => [/Nat.lt_irrefl //|n _].
exists (flat_map (fun r' => match nth_error r' 0 with Some a => [a] | None => [] end) (r :: rs)).
eexists; split; first by [].
split.
  have : r <> [] by apply: N; left.
  by case: (r).
move=> x Hx; have [r' [Hr']] := proj1 (in_flat_map _ _ _) Hx.
case E: (nth_error r' 0) => [y|] //= [<-|//].
by exists r'; split=> //; apply: nth_error_In E.
Qed.

Lemma ext_evaluations_like H rows : rows <> [] -> (forall r, In r rows -> r <> []) ->
  (forall r x, In r rows -> In x r -> polynomial_like x) ->
  ext_merkelize_evaluations H rows = Err TypeError.
Proof.
move=> R0 N P; rewrite /ext_merkelize_evaluations.
have [col [cols [-> [Nc Pc]]]] := first_column R0 N.
rewrite /=.
have V : forall x, In x col -> value_to_bytes x = Ok None \/ value_to_bytes x = Err TypeError.
  move=> x /Pc [r [Hr Hx]]; have := P r x Hr Hx.
  by case: (x) => //= -[|c l] _; [left|right|left|right].
have D : (exists r, mapM value_to_bytes col = Ok r) \/ mapM value_to_bytes col = Err TypeError.
  apply: mapM_type_error => x /V [->|->]; [by left; exists None|by right].
case: D => [[r Er]|->] //; rewrite Er /= py_join_none //.
- by case: (col) Nc Er => //= a l _; case: (value_to_bytes a) => //= b; case: (mapM _ _) => //= ? [<-].
- elim: (col) r V Er => [|a l IH] r V /=; first by move=> [<-].
  have [->|->] // := V a (or_introl (eq_refl _)).
  case E: (mapM _ _) => [r'|] //= [<-] x [<-//|Hx].
  by apply: (IH r') => // y Hy; apply: V; right.
Qed.

Lemma ext_evaluations_empty H rows : rows = [] \/ (exists r, In r rows /\ r = []) ->
  ext_merkelize_evaluations H rows = Ok [].
Proof.
move=> D; have E : zip_star rows = [].
  case: D => [->//|[r [Hr E]]]; subst r.
  case: rows Hr => [//|r rs] Hr; rewrite /zip_star.
  suff -> : fold_left (fun m r' => Nat.min m (length r')) rs (length r) = 0%nat by [].
  have G0 : forall rs : list (list value), fold_left (fun m r' => Nat.min m (length r')) rs 0%nat = 0%nat by elim.
  have G : forall (rs : list (list value)) m, In [] rs -> fold_left (fun m r' => Nat.min m (length r')) rs m = 0%nat.
    elim=> [//|x l IH] m /= [->|Hx]; last exact: IH.
    by rewrite Nat.min_0_r G0.
  case: Hr => [->|Hr]; [exact: G0|exact: G].
by rewrite /ext_merkelize_evaluations E.
Qed.
