(** Merkle trees of extension field elements and polynomials *)
From Coq Require Import Bool ZArith List Lia Strings.Byte.
From Coq Require Import ssreflect ssrbool.
From Verif Require Import Base BaseProofs ModpModel PolyBytesModel MerkleModel MerkleProofs.
From Verif Require Import ExtMerkleModel ExtMerkleProofs.
Import ListNotations.
Local Open Scope Z_scope.
Local Set SsrOldRewriteGoalsOrder.

(** C117: if an element of a FiniteField or a polynomial is among the leaves that
    permute4 keeps (the first 4 * (len(L) // 4)), [merkelize] raises TypeError,
    whatever the other leaves are (ints and residues within 32 bytes).  That holds
    for the zero element as well: it has no coefficients, so its [to_bytes] does not
    raise but returns None, and the failure is that of adding None. *)
Theorem C117_tree_fails : forall (H : bytes -> bytes) (L : list value),
  (forall z, In (VInt z) L \/ In (VModp z) L -> 0 <= z < 2 ^ 256) ->
  (exists i c, (i < 4 * (length L / 4))%nat /\
     (nth_error L i = Some (VExt c) \/ nth_error L i = Some (VPoly c))) ->
  ext_merkelize H L = Err TypeError.
Proof.
move=> H L R [i [c [Hi E]]]; apply: ext_merkelize_like.
- by case=> [z|b|z|k|k] //= Hx; apply: R; [left|right].
- have F : forall x, nth_error L i = Some x -> In x (firstn (4 * (length L / 4)) L).
    move=> x Ex; apply: (nth_error_In _ i).
    move: Hi; move: (4 * _)%nat => n Hi.
    by rewrite -Ex -{2}(firstn_skipn n L) nth_error_app1 // firstn_length;
       have := nth_error_in_lt _ _ _ Ex; lia.
  by case: E => E; [exists (VExt c)|exists (VPoly c)]; split=> //; apply: F.
Qed.
Print Assumptions C117_tree_fails.

(** Leaves that permute4 drops do no harm, and without such leaves the tree is the
    tree of ints, byte strings and residues of MerkleModel. *)
Theorem C117_tree_plain : forall (H : bytes -> bytes) (L : list value),
  (forall i c, (i < 4 * (length L / 4))%nat ->
     nth_error L i <> Some (VExt c) /\ nth_error L i <> Some (VPoly c)) ->
  ext_merkelize H L = rmap (map Some) (merkelize H (map (fun x =>
    match x with
    | VInt z => LInt z
    | VBytes b => LBytes b
    | VModp n => LObj (modp_to_bytes n)
    | _ => LObj (Err TypeError)
    end) L)).
Proof.
move=> H L N; apply: ext_merkelize_plain => x Hx Px.
have [i Hi] := In_nth_error _ _ Hx.
have Li := nth_error_in_lt _ _ _ Hi.
have Lf : (i < 4 * (length L / 4))%nat by move: Li; rewrite firstn_length; lia.
have Ei : nth_error L i = Some x.
  rewrite -(firstn_skipn (4 * (length L / 4)) L) nth_error_app1 //.
by have [] := N i (match x with VExt c => c | VPoly c => c | _ => [] end) Lf; rewrite Ei; case: (x) Px.
Qed.
Print Assumptions C117_tree_plain.

(** A list of FiniteField elements: TypeError from four elements on, the empty tree
    below. *)
Theorem C117_extension_elements : forall (H : bytes -> bytes) (L : list (list Z)),
  ext_merkelize H (map VExt L) = if (4 <=? length L)%nat then Err TypeError else Ok [].
Proof.
move=> H L; case: Nat.leb_spec => HL.
- apply: C117_tree_fails.
    by move=> z [] /in_map_iff [x []].
  have Q : (1 <= length L / 4)%nat by apply: Nat.div_le_lower_bound; lia.
  exists 0%nat; rewrite map_length.
  by case: L HL Q => [|c L] /=; [lia|move=> _ Q; exists c; split; [lia|left]].
- case: L HL => [|a [|b [|c [|d L]]]] //=; lia.
Qed.
Print Assumptions C117_extension_elements.

(** The annotation of [merkelize] (starks/merkle_tree.py:36) promises a tree for
    every list of FieldElement. *)
Theorem C117_field_elements_refuted :
  ~ (forall (H : bytes -> bytes) (L : list (list Z)),
       exists tree, ext_merkelize H (map VExt L) = Ok tree).
Proof.
move=> /(_ (fun b => b) [[]; [1]; []; [1]]) [tree].
by rewrite C117_extension_elements.
Qed.
Print Assumptions C117_field_elements_refuted.

(** [merkelize_polynomial_evaluations] on evaluations in a FiniteField: TypeError as
    soon as there is one row and no row is empty, otherwise the empty tree.  The
    STARK prover commits to its evaluations with this function, so it has no
    proofs over extension fields. *)
Theorem C117_evaluations : forall (H : bytes -> bytes) (rows : list (list (list Z))),
  (rows <> [] -> (forall row, In row rows -> row <> []) ->
     ext_merkelize_evaluations H (map (map VExt) rows) = Err TypeError) /\
  (rows = [] \/ In [] rows -> ext_merkelize_evaluations H (map (map VExt) rows) = Ok []).
Proof.
move=> H rows; split.
- move=> R0 N; apply: ext_evaluations_like.
  + by case: (rows) R0.
  + by move=> r /in_map_iff [row [<- /N]]; case: row.
  + by move=> r x /in_map_iff [row [<- _]] /in_map_iff [c [<- _]].
- move=> D; apply: ext_evaluations_empty; case: D => [->|I]; first by left.
  right; exists []; split=> //; exact: (in_map (map VExt) _ _ I).
Qed.
Print Assumptions C117_evaluations.

(** Byte strings as evaluations: they lack the method. *)
Theorem C117_bytes_evaluations : forall (H : bytes -> bytes) (rows : list (list bytes)),
  rows <> [] -> (forall row, In row rows -> row <> []) ->
  ext_merkelize_evaluations H (map (map VBytes) rows) = Err AttributeError.
Proof.
move=> H rows R0 N; rewrite /ext_merkelize_evaluations.
have [||col [cols [-> [Nc Pc]]]] := first_column (rows := map (map VBytes) rows).
- by case: (rows) R0.
- by move=> r /in_map_iff [row [<- /N]]; case: row.
- case: col Nc Pc => [//|x col] _ /(_ x (or_introl (eq_refl _))) [r [/in_map_iff [row [<- _]]]].
  by case/in_map_iff => b [<- _].
Qed.
Print Assumptions C117_bytes_evaluations.

(** Ints as evaluations: the method needs two arguments. *)
Theorem C117_int_evaluations : forall (H : bytes -> bytes) (rows : list (list Z)),
  rows <> [] -> (forall row, In row rows -> row <> []) ->
  ext_merkelize_evaluations H (map (map VInt) rows) = Err TypeError.
Proof.
move=> H rows R0 N; rewrite /ext_merkelize_evaluations.
have [||col [cols [-> [Nc Pc]]]] := first_column (rows := map (map VInt) rows).
- by case: (rows) R0.
- by move=> r /in_map_iff [row [<- /N]]; case: row.
- case: col Nc Pc => [//|x col] _ /(_ x (or_introl (eq_refl _))) [r [/in_map_iff [row [<- _]]]].
  by case/in_map_iff => b [<- _].
Qed.
Print Assumptions C117_int_evaluations.

(** Five leaves, the fifth (an extension field element) is dropped by permute4; with
    the same element at the front the call fails, and so it does for zero. *)
Example C117_example :
  let H := fun b : bytes => firstn 2 (rev b) in
  let b := fun z => VBytes [z] in
  ext_merkelize H [b x01; b x02; b x03; b x04; VExt [1; 1]] =
    Ok [Some []; Some [x03; x04]; Some [x02; x01]; Some [x04; x03]; Some [x01]; Some [x02]; Some [x03]; Some [x04]]
  /\ ext_merkelize H [VExt [1; 1]; b x02; b x03; b x04; b x05] = Err TypeError
  /\ ext_merkelize H [b x01; b x02; VExt []; b x04] = Err TypeError
  /\ ext_merkelize_evaluations H [[VExt []; VExt [1]]; [VExt [2]; VExt []]] = Err TypeError
  /\ ext_merkelize_evaluations H [[VExt []; VExt [1]]; []] = Ok [].
Proof. by vm_compute. Qed.
