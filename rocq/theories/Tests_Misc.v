(** Replay of the repository's unit tests on the model, third part: Merkle trees (for every hash
    function) and the modules of misc/.  The files misc/test_*.py import [starks.commitment] etc.,
    which do not exist (the modules live in misc/), so that these tests cannot run; the calls they
    make are replayed here.  See Tests_Algebra.v. *)
From Coq Require Import Bool ZArith List ssreflect Lia.
From Verif Require Import Base MerkleModel MerkleProofs RationalModel PrimalityModel CommitmentModel.
Import ListNotations.
Local Open Scope Z_scope.

Definition is_ok {A} (r : result A) : bool := match r with Ok _ => true | Err _ => false end.
Definition yes (r : result bool) : bool := match r with Ok b => b | Err _ => false end.

(** ** starks/test/test_merkle_tree.py *)
Section MerkleTests.
Variable H : bytes -> bytes.
(** [x.to_bytes(32, 'big') for x in range(n)] *)
Definition int32 (x : nat) : bytes := match to_bytes_be 32 (Z.of_nat x) with Ok b => b | Err _ => [] end.
Definition byte_leaves (n : nat) : list leaf := map LBytes (map int32 (seq 0 n)).

(** lines 16-22, 53-60: [verify_branch(t[1], 59, b, output_as_int=True) == 59] *)
Lemma test_merkletree :
  exists t root b, merkelize H (byte_leaves 128) = Ok t /\ py_nth t 1 = Ok root /\
    mk_branch t 59 = Ok b /\ length b = 8%nat /\ verify_branch_int H root 59 b = Ok 59.
Proof.
have E l : mapM leaf_bytes (map LBytes l) = Ok l by elim: l => [//|x l IH] /=; rewrite IH.
have [t [root [Et Er V]]] := merkle_complete H (byte_leaves 128) _ 7 eq_refl ltac:(lia) (E _).
have [b [Eb Lb Vb]] := V 59%nat (int32 59) eq_refl.
exists t, root, b; refine (conj Et (conj Er (conj Eb (conj Lb _)))).
have -> : Ok 59 = rmap from_bytes_be (Ok (int32 59)) by vm_compute.
exact: (f_equal (rmap from_bytes_be) Vb).
Qed.
(** lines 24-30: field elements, modulo 7 *)
Example test_merkletree_zmodp :
  rmap (@length _) (merkelize H (map (fun i => LObj (to_bytes_be 32 (Z.of_nat i mod 7))) (seq 0 128))) = Ok 256%nat.
Proof. by vm_compute. Qed.
(** lines 32-38: the denominator 0 is accepted by the constructor *)
Example test_merkletree_qmodp :
  rmap (@length _) (merkelize H (flat_map (fun i => map (fun j =>
    LObj (let* x := rat_mk 7 (Z.of_nat i) (Z.of_nat j) in rat_to_bytes x)) (seq 0 12)) (seq 0 12))) = Ok 288%nat.
Proof. by vm_compute. Qed.
(** lines 41-51 *)
Example test_mk_branch :
  let n k := (let* t := merkelize H (byte_leaves k) in let* b := mk_branch t 59 in Ok (length t, length b)) in
  n 128%nat = Ok (256, 8)%nat /\ n 256%nat = Ok (512, 9)%nat.
Proof. by vm_compute. Qed.
End MerkleTests.
(** lines 62-79 *)
Example test_unpack_merkle_leaf :
  match mapM (fun c => to_bytes_be 32 (Z.of_nat c)) (seq 0 6) with
  | Ok parts => unpack_merkle_leaf (concat parts) 2 3 = parts
  | Err _ => False
  end.
Proof. by vm_compute. Qed.

(** ** misc/test_bbs.py *)
Example test_parity : parity 3 = Ok 0 /\ parity 4 = Ok 1.
Proof. by vm_compute. Qed.

(** ** misc/test_zero_knowledge.py, for each of the 720 values of [random_permutation(6)] *)
Fixpoint inserts (x : Z) (l : list Z) : list (list Z) :=
  match l with [] => [[x]] | y :: l' => (x :: l) :: map (cons y) (inserts x l') end.
Fixpoint perms (l : list Z) : list (list Z) :=
  match l with [] => [[]] | x :: l' => flat_map (inserts x) (perms l') end.
Definition perms6 : list (list Z) := perms [0; 1; 2; 3; 4; 5].
Definition G1 : graph := [(1, 2); (1, 4); (1, 3); (2, 5); (2, 5); (3, 6); (5, 6)].

(** lines 21-28 *)
Example test_graph_ops : num_vertices G1 = Ok 6 /\ length perms6 = 720%nat.
Proof. by vm_compute. Qed.
(** lines 30-39, 157-169 (the assertions on [p], [f], [finv]) *)
Definition permutation_ops (p : list Z) : bool :=
  yes (let* G2 := apply_isomorphism G1 (make_permutation_function p) in
       let* n := num_vertices G2 in
       let* G := apply_isomorphism G2 (make_inverse_permutation_function p) in
       Ok ((length G2 =? 7)%nat && (n =? 6) && graph_eqb G G1)).
Example test_permutation_ops : forallb permutation_ops perms6 = true.
Proof. by vm_compute. Qed.
(** lines 101-112, 149-155: the verifier accepts, for both choices; ten of the 720 values of the
    prover's own permutation *)
Definition accepts_run (p L : list Z) (choice : Z) : bool :=
  yes (let* G2 := apply_isomorphism G1 (make_permutation_function p) in run_protocol G1 G2 p L choice).
Example test_run_protocol :
  forallb (fun p => forallb (fun L => accepts_run p L 1 && accepts_run p L 2) (firstn 10 perms6)) perms6 = true.
Proof. by vm_compute. Qed.
(** lines 114-126 *)
Example test_zk_verifier_id_acceptance :
  forallb (fun L => yes (run_protocol G1 G1 [0; 1; 2; 3; 4; 5] L 1) &&
                    yes (run_protocol G1 G1 [0; 1; 2; 3; 4; 5] L 2)) perms6 = true.
Proof. by vm_compute. Qed.
(** lines 128-147: each trial is rejected for the choice 2 and accepted for the choice 1, so that
    the test fails when all ten choices are 1 *)
Example test_zk_verifier_nonacceptance :
  forallb (fun L => negb (yes (run_protocol G1 (G1 ++ [(1, 6)]) [1; 2; 3; 4; 5; 6] L 2)) &&
                    yes (run_protocol G1 (G1 ++ [(1, 6)]) [1; 2; 3; 4; 5; 6] L 1)) perms6 = true.
Proof. by vm_compute. Qed.
(** lines 180-190 *)
Example test_simulate_protocol :
  forallb (fun L => is_ok (simulate_protocol G1 G1 1 L) && is_ok (simulate_protocol G1 G1 2 L)) perms6 = true.
Proof. by vm_compute. Qed.

(** ** misc/test_zero_knowledge_3_coloring.py with the modulus 7 * 11: every permutation of the
    colours, every edge *)
Definition coloring : list (Z * Z) := [(1, 0); (2, 1); (3, 2); (4, 1); (5, 2); (6, 0)].
Definition owp77 : Z -> Z := bbs 77.
Definition secrets (v : Z) : Z * Z := (owp77 (v * 5 + 3), owp77 (v * 7 + 2)).
(** lines 31-47 *)
Example test_commit_to_coloring :
  forallb (fun p => match commit_to_coloring owp77 parity G1 coloring secrets p with
                    | Ok c => (length c =? 6)%nat | Err _ => false end) (perms [0; 1; 2]) = true.
Proof. by vm_compute. Qed.
(** lines 49-78: the protocol runs through and the verifier accepts *)
Example test_basic_3_coloring :
  forallb (fun p => forallb (fun e => yes (col_run_protocol owp77 parity G1 coloring secrets p e)) G1)
          (perms [0; 1; 2]) = true.
Proof. by vm_compute. Qed.
