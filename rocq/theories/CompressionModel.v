(** Model of starks/compression.py.  Objects are byte strings; [oindex] (a dict)
    is an association list from byte strings to positions. *)
From Coq Require Import Bool ZArith List.
From Coq.Strings Require Import Byte.
From Verif Require Import Base MerkleModel.
Import ListNotations.
Local Open Scope Z_scope.

Definition dashes : bytes := [x2d; x2d; x2d; x2d].  (* b'----' *)
Definition pluses : bytes := [x2b; x2b; x2b; x2b].  (* b'++++' *)
Definition equals : bytes := [x3d; x3d; x3d; x3d].  (* b'====' *)
Definition slashes : bytes := [x2f; x2f; x2f; x2f]. (* b'////' *)

Fixpoint dict_get (d : list (bytes * nat)) (x : bytes) : option nat :=
  match d with
  | [] => None
  | (k, v) :: d' => if bytes_eqb k x then Some v else dict_get d' x
  end.

(** The state shared by the nested function: the output [o] and [oindex]. *)
Definition cstate := (list bytes * list (bytes * nat))%type.

(** starks/compression.py:9-14 and 71-76 [add_obj] *)
Definition add_obj (st : cstate) (x : bytes) : result cstate :=
  let '(o, oindex) := st in
  match dict_get oindex x with
  | Some i => let* b := to_bytes_be 2 (Z.of_nat i) in Ok (o ++ [b], oindex)
  | None => Ok (o ++ [x], (x, length o) :: oindex)
  end.

(** starks/compression.py:37-39 and 88-90 [get_obj] *)
Definition get_obj (proof : list bytes) (pos : nat) : result bytes :=
  let* x := lget proof pos in
  if (length x =? 2)%nat then lget proof (Z.to_nat (from_bytes_be x)) else Ok x.

(** starks/compression.py:95-98: inner loop of [decompress_branches]; returns
    the branch and the new position. *)
Fixpoint db_inner (fuel : nat) (proof : list bytes) (pos : nat) (branch : list bytes)
  : result (list bytes * nat) :=
  if (pos <? length proof)%nat then
    let* x := get_obj proof pos in
    if bytes_eqb x dashes then Ok (branch, pos)
    else match fuel with
         | O => Err Diverges
         | S fuel' => db_inner fuel' proof (S pos) (branch ++ [x])
         end
  else Ok (branch, pos).

(** starks/compression.py:94-100: outer loop *)
Fixpoint db_outer (fuel : nat) (proof : list bytes) (pos : nat) (o : list (list bytes))
  : result (list (list bytes)) :=
  if (pos <? length proof)%nat then
    match fuel with
    | O => Err Diverges
    | S fuel' =>
      let* (branch, pos) := db_inner (length proof) proof pos [] in
      db_outer fuel' proof (S pos) (o ++ [branch])
    end
  else Ok o.

(** starks/compression.py:86-101 [decompress_branches] *)
Definition decompress_branches (proof : list bytes) : result (list (list bytes)) :=
  db_outer (length proof) proof 0 [].

(** Python [==] on lists, given [==] on elements. *)
Fixpoint list_eqb {A} (eqb : A -> A -> bool) (a b : list A) : bool :=
  match a, b with
  | [], [] => true
  | x :: a', y :: b' => eqb x y && list_eqb eqb a' b'
  | _, _ => false
  end.

(** starks/compression.py:67-83 [compress_branches] *)
Definition compress_branches (branches : list (list bytes)) : result (list bytes) :=
  let* (o, _) :=
    foldM (fun st branch =>
             let* st := foldM add_obj branch st in
             add_obj st dashes) branches ([], []) in
  let* d := decompress_branches o in
  assert_ (list_eqb (list_eqb bytes_eqb) d branches) ;;*
  Ok o.

(** A FRI proof: the items [[root, yproofs]] (a yproof is a list of branches)
    followed by the last item, a list of byte strings.  A Python list whose
    last item is missing (the empty list) would raise IndexError at line 29;
    it is not representable here. *)
Definition yproof := list (list bytes).
Definition fri_proof := (list (bytes * list yproof) * list bytes)%type.

(** starks/compression.py:1-32 [compress_fri], up to the final assertion *)
Definition compress_fri_objs (prf : fri_proof) : result cstate :=
  let* st :=
    foldM (fun st '(root, yproofs) =>
      let* st := add_obj st dashes in
      let* st := add_obj st root in
      foldM (fun st yp =>
        let* st := foldM (fun st branch =>
          let* st := foldM add_obj branch st in
          add_obj st pluses) yp st in
        add_obj st equals) yproofs st) (fst prf) ([], []) in
  let* st := add_obj st slashes in
  foldM add_obj (snd prf) st.

(** starks/compression.py:52-55: loop over the elements of a branch *)
Fixpoint df_branch (fuel : nat) (proof : list bytes) (pos : nat) (branch : list bytes)
  : result (list bytes * nat) :=
  let* x := get_obj proof pos in
  if bytes_eqb x pluses then Ok (branch, pos)
  else match fuel with
       | O => Err Diverges
       | S fuel' => df_branch fuel' proof (S pos) (branch ++ [x])
       end.

(** starks/compression.py:51-57: loop over the branches of a yproof *)
Fixpoint df_yproof (fuel : nat) (proof : list bytes) (pos : nat) (yp : yproof)
  : result (yproof * nat) :=
  let* x := get_obj proof pos in
  if bytes_eqb x equals then Ok (yp, pos)
  else match fuel with
       | O => Err Diverges
       | S fuel' =>
         let* (branch, pos) := df_branch (length proof) proof pos [] in
         df_yproof fuel' proof (S pos) (yp ++ [branch])
       end.

(** starks/compression.py:49-59: loop over the yproofs of an item *)
Fixpoint df_yproofs (fuel : nat) (proof : list bytes) (pos : nat) (yps : list yproof)
  : result (list yproof * nat) :=
  let* x := get_obj proof pos in
  if bytes_eqb x dashes || bytes_eqb x slashes then Ok (yps, pos)
  else match fuel with
       | O => Err Diverges
       | S fuel' =>
         let* (yp, pos) := df_yproof (length proof) proof pos [] in
         df_yproofs fuel' proof (S pos) (yps ++ [yp])
       end.

(** starks/compression.py:43-60: loop over the items *)
Fixpoint df_items (fuel : nat) (proof : list bytes) (pos : nat) (o : list (bytes * list yproof))
  : result (list (bytes * list yproof) * nat) :=
  let* raw := lget proof pos in
  if bytes_eqb raw slashes then Ok (o, pos)
  else match fuel with
       | O => Err Diverges
       | S fuel' =>
         let* x := get_obj proof pos in
         assert_ (bytes_eqb x dashes) ;;*
         let* root := get_obj proof (pos + 1) in
         let* (yps, pos) := df_yproofs (length proof) proof (pos + 2) [] in
         df_items fuel' proof pos (o ++ [(root, yps)])
       end.

(** starks/compression.py:35-64 [decompress_fri] *)
Definition decompress_fri (proof : list bytes) : result fri_proof :=
  let* (o, pos) := df_items (length proof) proof 0 [] in
  let pos := S pos in
  let* last := mapM (get_obj proof) (seq pos (length proof - pos)) in
  Ok (o, last).

Definition fri_item_eqb (a b : bytes * list yproof) : bool :=
  bytes_eqb (fst a) (fst b) && list_eqb (list_eqb (list_eqb bytes_eqb)) (snd a) (snd b).

Definition fri_eqb (a b : fri_proof) : bool :=
  list_eqb fri_item_eqb (fst a) (fst b) && list_eqb bytes_eqb (snd a) (snd b).

(** starks/compression.py:1-32 [compress_fri] *)
Definition compress_fri (prf : fri_proof) : result (list bytes) :=
  let* (o, _) := compress_fri_objs prf in
  let* d := decompress_fri o in
  assert_ (fri_eqb d prf) ;;*
  Ok o.

(** starks/compression.py:104-105 [bin_length] *)
Definition bin_length (c : list bytes) : nat :=
  length (concat (map (fun x => (if (length x =? 32)%nat then [xff] else []) ++ x) c)).
