(** Property theorems C127: exactly what starks/compression.py writes, which proofs it
    compresses, and what it raises otherwise. *)
From Coq Require Import Bool ZArith List Lia ssreflect ssrbool.
From Coq.Strings Require Import Byte.
From Verif Require Import Base BaseProofs MerkleModel CompressionModel CompressionProofs CompressionExact.
Import ListNotations.
Local Open Scope Z_scope.
Local Set Bullet Behavior "None".

(** [x] occurs in [xs] for the first time at position [j]. *)
Definition first_occurrence (xs : list bytes) (x : bytes) (j : nat) : Prop :=
  nth_error xs j = Some x /\ ~ In x (firstn j xs).

(** All objects of a list of branches, and of a FRI proof, in the order in which they
    are passed to [add_obj]. *)
Definition objects_of_branches (bs : list (list bytes)) : list bytes :=
  concat (map (fun b => b ++ [dashes]) bs).
Definition objects_of_fri (p : fri_proof) : list bytes :=
  flat_map (fun it => dashes :: fst it ::
    flat_map (fun yp => flat_map (fun b => b ++ [pluses]) yp ++ [equals]) (snd it)) (fst p)
  ++ slashes :: snd p.

Lemma objects_of_branchesE bs : objects_of_branches bs = branches_objs bs.
Proof. by rewrite /objects_of_branches /branches_objs -flat_map_concat_map. Qed.

(** What is written for [xs]: an object in full where it occurs first, afterwards the
    two-byte position of that place. *)
Definition references (xs o : list bytes) : Prop :=
  length o = length xs /\
  forall i j x, first_occurrence xs x j -> nth_error xs i = Some x ->
    (i = j -> nth_error o i = Some x) /\
    (i <> j -> exists b, [/\ nth_error o i = Some b, length b = 2%nat & from_bytes_be b = Z.of_nat j]).

(** A repeated object whose first position does not fit into two bytes. *)
Definition too_far (xs : list bytes) : Prop :=
  exists i j x, [/\ first_occurrence xs x j, nth_error xs i = Some x, i <> j & 65536 <= Z.of_nat j].

(** An object of two bytes that does not stand at the position it would refer to. *)
Definition confusable (xs : list bytes) : Prop :=
  exists j x, [/\ first_occurrence xs x j, length x = 2%nat & from_bytes_be x <> Z.of_nat j].

Lemma no_overflowP xs : no_overflow xs <-> ~ too_far xs.
Proof.
split=> [N [i [j [x [F H ne ge]]]]|N i j x F H ne]; first by have := N _ _ _ F H ne; lia.
case: (Z_lt_le_dec (Z.of_nat j) 65536) => // ge; case: N; by exists i, j, x.
Qed.

Lemma fixedP xs : fixed xs <-> ~ confusable xs.
Proof.
split=> [N [j [x [F H ne]]]|N x j F H]; first by apply: ne; exact: N F H.
case: (Z.eq_dec (from_bytes_be x) (Z.of_nat j)) => // ne; case: N; by exists j, x.
Qed.

(** C127 (1), (2): the output, for every list of branches and every FRI proof. *)
Theorem C127_branches_written : forall (bs : list (list bytes)) (o : list bytes),
  compress_branches bs = Ok o -> references (objects_of_branches bs) o.
Proof. by move=> bs o; rewrite objects_of_branchesE; exact: compress_branches_entries. Qed.
Print Assumptions C127_branches_written.

Theorem C127_fri_written : forall (p : fri_proof) (o : list bytes),
  compress_fri p = Ok o -> references (objects_of_fri p) o.
Proof. exact compress_fri_entries. Qed.
Print Assumptions C127_fri_written.

(** C127 (3): which lists of branches can be compressed: exactly those in which no
    branch contains the delimiter, no two-byte object can be taken for a
    reference to another place, and no repeated object lies too far from the start. *)
Theorem C127_branches_iff : forall bs : list (list bytes),
  (exists o, compress_branches bs = Ok o) <->
  [/\ forall b, In b bs -> ~ In dashes b,
      ~ confusable (objects_of_branches bs) & ~ too_far (objects_of_branches bs)].
Proof.
move=> bs; rewrite objects_of_branchesE.
split=> [/compress_branches_iff [H1 H2 H3]|[H1 H2 H3]].
  by split=> //; [apply/fixedP|apply/no_overflowP].
by apply/compress_branches_iff; split=> //; [apply/fixedP|apply/no_overflowP].
Qed.
Print Assumptions C127_branches_iff.

(** C127 (4): for FRI proofs the delimiters are forbidden only where the reader looks
    for them: ++++ inside a branch, ==== at the start of a branch, ---- at the start
    of the first branch of a yproof, and //// anywhere before the last item. *)
Theorem C127_fri_iff : forall p : fri_proof,
  (exists o, compress_fri p = Ok o) <->
  [/\ forall it yp b, In it (fst p) -> In yp (snd it) -> In b yp ->
        [/\ ~ In pluses b, hd_error b <> Some equals & ~ In slashes b],
      forall it yp, In it (fst p) -> In yp (snd it) -> hd_error (hd [] yp) <> Some dashes,
      forall it, In it (fst p) -> fst it <> slashes,
      ~ confusable (objects_of_fri p) & ~ too_far (objects_of_fri p)].
Proof.
move=> p; split=> [/compress_fri_iff [[H1 H4] H2 H3]|[H1 H4 H5 H2 H3]].
  split; [|..|exact/fixedP|exact/no_overflowP].
  - move=> it yp b Hi Hy Hb; have [[P E] _] := conj (proj1 (H1 _ _ Hi Hy) _ Hb) I.
    split=> // S; apply: H4; apply/in_flat_map; exists it; split=> //; right; right.
    apply/in_flat_map; exists yp; split=> //; apply/in_or_app; left.
    by apply/in_flat_map; exists b; split=> //; apply/in_or_app; left.
  - by move=> it yp Hi Hy; have [_ []] := H1 _ _ Hi Hy.
  - move=> it Hi E; apply: H4; apply/in_flat_map; exists it; split=> //.
    by right; left.
apply/compress_fri_iff; split; [|exact/fixedP|exact/no_overflowP].
split.
  move=> it yp Hi Hy; split; first by move=> b Hb; have [] := H1 _ _ _ Hi Hy Hb.
  split; first exact: H4 Hi Hy.
  case: yp Hy => [|b yp] Hy //= E; have [_ _] := H1 _ _ b Hi Hy (or_introl eq_refl).
  by case: b E {Hy} => [|x b] //= [->]; apply; left.
move=> /in_flat_map [it [Hi [//|[E|]]]]; first exact: H5 Hi E.
move=> /in_flat_map [yp [Hy /(@in_app_or _ _ _ _) [|[//|//]]]].
move=> /in_flat_map [b [Hb /(@in_app_or _ _ _ _) [Hx|[//|//]]]].
by have [_ _] := H1 _ _ _ Hi Hy Hb; apply.
Qed.
Print Assumptions C127_fri_iff.

(** C127 (5): failures.  OverflowError exactly for the third reason; otherwise
    the final comparison or the reading before it fails. *)
Theorem C127_branches_errors : forall bs : list (list bytes),
  (compress_branches bs = Err OverflowError <-> too_far (objects_of_branches bs)) /\
  forall e, compress_branches bs = Err e ->
    [\/ e = OverflowError, e = IndexError | e = AssertionError].
Proof.
move=> bs; split; last by move=> e; exact: compress_branches_err.
rewrite objects_of_branchesE; exact: compress_branches_overflow.
Qed.
Print Assumptions C127_branches_errors.

Theorem C127_fri_errors : forall p : fri_proof,
  (compress_fri p = Err OverflowError <-> too_far (objects_of_fri p)) /\
  forall e, compress_fri p = Err e ->
    [\/ e = OverflowError, e = IndexError | e = AssertionError].
Proof.
move=> p; split; last by move=> e; exact: compress_fri_err.
exact: compress_fri_overflow.
Qed.
Print Assumptions C127_fri_errors.

(** C127 (6): reading arbitrary data always comes to an end.  decompress_branches
    fails exactly if a two-byte object refers beyond the end. *)
Theorem C127_decompress_branches : forall o : list bytes,
  (exists bs, decompress_branches o = Ok bs /\
     forall b, In b o -> length b = 2%nat -> from_bytes_be b < Z.of_nat (length o)) \/
  (decompress_branches o = Err IndexError /\
     exists b, [/\ In b o, length b = 2%nat & Z.of_nat (length o) <= from_bytes_be b]).
Proof.
move=> o; case D: (decompress_branches o) => [bs|e].
  by left; exists bs; split=> //; apply/decompress_branches_total; exists bs.
right; rewrite (decompress_branches_err _ _ D); split=> //.
have N : ~ in_range o by move=> /decompress_branches_total [bs]; rewrite D.
case: (Exists_dec (fun b => length b = 2%nat /\ Z.of_nat (length o) <= from_bytes_be b) o).
- move=> b; case: (Nat.eq_dec (length b) 2) => E; last by right; case.
  by case: (Z_le_gt_dec (Z.of_nat (length o)) (from_bytes_be b)) => ?; [left|right; case; lia].
- by move=> /Exists_exists [b [H1 [H2 H3]]]; exists b.
move=> H; case: N => b Hb E; case: (Z_lt_le_dec (from_bytes_be b) (Z.of_nat (length o))) => // ge.
by case: H; apply/Exists_exists; exists b.
Qed.
Print Assumptions C127_decompress_branches.

Theorem C127_decompress_fri : forall (o : list bytes) (e : exn),
  decompress_fri o = Err e -> e = IndexError \/ e = AssertionError.
Proof. exact decompress_fri_err. Qed.
Print Assumptions C127_decompress_fri.

(** C127 (7), deviation: compressed data is not unique; "what decompresses is what
    compression writes" is false of the code. *)
Theorem C127_canonical_refuted :
  ~ (forall (o : list bytes) (bs : list (list bytes)),
       decompress_branches o = Ok bs -> compress_branches bs = Ok o).
Proof. by move=> H; have := H [[x01]] [[[x01]]] eq_refl. Qed.
Print Assumptions C127_canonical_refuted.

(** A two-byte object survives exactly at its own position; delimiters are accepted as
    root and inside a branch; reading stops with an exception on bad references. *)
Example C127_example :
  let a := [x01; x02; x03] in
  compress_branches [[a; [x00; x01]; a]] = Ok [a; [x00; x01]; [x00; x00]; dashes] /\
  compress_branches [[a; [x00; x02]; a]] = Err AssertionError /\
  compress_branches [[a; [x01; x02]; a]] = Err IndexError /\
  compress_fri ([(dashes, [[[a; equals; dashes]]])], [pluses])
    = Ok [dashes; [x00; x00]; a; equals; [x00; x00]; pluses; [x00; x03]; slashes; [x00; x05]] /\
  compress_fri ([(a, [[[equals]]])], []) = Err AssertionError /\
  decompress_branches [a; [xff; xff]] = Err IndexError /\
  decompress_fri [a] = Err AssertionError.
Proof. by repeat split; vm_compute. Qed.
