(** Property theorems C58, C59: starks/compression.py. *)
From Coq Require Import Bool ZArith List Lia ssreflect ssrbool.
From Coq.Strings Require Import Byte.
From Verif Require Import Base BaseProofs MerkleModel CompressionModel CompressionProofs.
Import ListNotations.
Local Open Scope Z_scope.

(** C58 *)
Theorem C58_compress_branches_round_trip : forall bs : list (list bytes),
  (forall b, In b bs -> ~ In dashes b) -> (forall b x, In b bs -> In x b -> length x <> 2%nat) ->
  Z.of_nat (length (concat bs) + length bs) <= 65536 ->
  exists o, [/\ compress_branches bs = Ok o, decompress_branches o = Ok bs &
                length o = (length (concat bs) + length bs)%nat].
Proof. exact compress_branches_ok. Qed.
Print Assumptions C58_compress_branches_round_trip.

(** whatever is returned decompresses to the input *)
Theorem C58_compress_branches_sound : forall (bs : list (list bytes)) (o : list bytes),
  compress_branches bs = Ok o -> decompress_branches o = Ok bs.
Proof. exact compress_branches_sound. Qed.
Print Assumptions C58_compress_branches_sound.

(** an element equal to the delimiter is always rejected *)
Theorem C58_delimiter_rejected : forall bs : list (list bytes),
  (exists b, In b bs /\ In dashes b) -> (forall b x, In b bs -> In x b -> length x <> 2%nat) ->
  Z.of_nat (length (concat bs) + length bs) <= 65536 ->
  compress_branches bs = Err AssertionError.
Proof. exact compress_branches_delimiter. Qed.
Print Assumptions C58_delimiter_rejected.

Example C58_example :
  let a := [x01; x02; x03] in let b := [x04] in
  compress_branches [[a; b; a]; [a]; []]
    = Ok [a; b; [x00; x00]; dashes; [x00; x00]; [x00; x03]; [x00; x03]] /\
  decompress_branches [a; b; [x00; x00]; dashes; [x00; x00]; [x00; x03]; [x00; x03]]
    = Ok [[a; b; a]; [a]; []] /\
  compress_branches [[[x01; x02]]] = Err IndexError /\
  compress_branches [[a; [x00; x00]]] = Err AssertionError.
Proof. by vm_compute. Qed.

(** C59: [fri_objs p] is the sequence of all objects written for [p],
    delimiters included. *)
Theorem C59_compress_fri_round_trip : forall p : fri_proof,
  (forall it yp b, In it (fst p) -> In yp (snd it) -> In b yp -> forall x, In x b -> ~ In x delims) ->
  (forall it, In it (fst p) -> fst it <> slashes) ->
  (forall x, In x (fri_objs p) -> length x <> 2%nat) -> Z.of_nat (length (fri_objs p)) <= 65536 ->
  exists o, compress_fri p = Ok o /\ decompress_fri o = Ok p.
Proof. exact compress_fri_ok. Qed.
Print Assumptions C59_compress_fri_round_trip.

Theorem C59_compress_fri_sound : forall (p : fri_proof) (o : list bytes),
  compress_fri p = Ok o -> decompress_fri o = Ok p.
Proof. exact compress_fri_sound. Qed.
Print Assumptions C59_compress_fri_sound.

(** [bin_length] counts every byte, and one more for each 32-byte object. *)
Theorem C59_bin_length : forall c : list bytes,
  bin_length c = (list_sum (map (@length _) c) +
                  length (filter (fun x => Nat.eqb (length x) 32) c))%nat.
Proof. exact bin_length_spec. Qed.
Print Assumptions C59_bin_length.

Example C59_bin_length_example : bin_length [repeat x00 32; [x01]; []] = 34%nat.
Proof. reflexivity. Qed.

Example C59_example :
  let a := [x01; x02; x03] in let b := [x04] in
  compress_fri ([(a, [[[a; b]; [b]]])], [b; a])
    = Ok [dashes; a; [x00; x01]; b; pluses; [x00; x03]; [x00; x04]; equals; slashes; [x00; x03]; [x00; x01]] /\
  decompress_fri [dashes; a; [x00; x01]; b; pluses; [x00; x03]; [x00; x04]; equals; slashes; [x00; x03]; [x00; x01]]
    = Ok ([(a, [[[a; b]; [b]]])], [b; a]).
Proof. by vm_compute. Qed.
