(** Properties C60-C62 and C82: misc/blockchain.py. *)
From Coq Require Import Bool ZArith List Lia.
From Coq Require Import DecimalString.
From Coq Require Import ssreflect ssrbool.
From Coq.Strings Require String.
From Verif Require Import Base BaseProofs BlockchainModel BlockchainProofs.
Import String.StringSyntax.
Import ListNotations.
Local Open Scope Z_scope.
Local Set SsrOldRewriteGoalsOrder.
Local Set Implicit Arguments.
Local Unset Strict Implicit.

(** A toy hash for the examples: strings whose length leaves remainder 1 modulo
    3 are "mined". *)
Definition toy_sha (s : String.string) : String.string :=
  if Nat.eqb (Nat.modulo (String.length s) 3) 1 then String.append "0000"%string s
  else String.append "1"%string s.
Definition toy_enc (b : block) : String.string :=
  String.append (str_int (index b)) (str_int (Z.of_nat (length (transactions b)))).

Definition toy_tx (n : Z) : tx := Tx "alice"%string "bob"%string n.
Definition toy_history : list request :=
  [ReqTx (toy_tx 5); ReqMine 200 11; ReqTx (toy_tx 6); ReqTx (toy_tx 7); ReqMine 200 12;
   ReqTx (toy_tx 8)].

(** C60.  A proof is valid when the digest of the two proofs, in decimal, and the hash
    starts with four zeros.  [valid_chain] is exactly the chain condition: every block but the
    first records the hash of its predecessor and carries a valid proof. *)
Theorem C60_valid_proof_iff (sha : String.string -> String.string) lp p lh :
  valid_proof sha lp p lh = true <->
  exists rest, sha (String.append (NilZero.string_of_int (Z.to_int lp))
                   (String.append (NilZero.string_of_int (Z.to_int p)) lh))
    = String.append "0000"%string rest.
Proof.
rewrite /valid_proof /str_int String.eqb_eq.
case: (sha _) => [|a [|b [|c [|d r]]]] /=; split=> //; try by case.
  by case: r => [|r0 r] [-> -> -> ->]; eexists.
by move=> [rest [-> -> -> -> ->]]; case: rest.
Qed.
Print Assumptions C60_valid_proof_iff.

Theorem C60_valid_chain_iff (sha : String.string -> String.string)
    (enc : block -> String.string) (c : list block) :
  valid_chain sha enc c = Ok true <->
  c <> [] /\
  forall i a b, nth_error c i = Some a -> nth_error c (S i) = Some b ->
    previous_hash b = sha (enc a) /\
    valid_proof sha (proof a) (proof b) (sha (enc a)) = true.
Proof. exact: valid_chain_spec. Qed.
Print Assumptions C60_valid_chain_iff.

(** [valid_chain] answers on every non-empty chain and raises IndexError on the
    empty one. *)
Theorem C60_valid_chain_total sha enc (c : list block) :
  match valid_chain sha enc c with
  | Ok _ => c <> []
  | Err e => c = [] /\ e = IndexError
  end.
Proof. by case: c. Qed.
Print Assumptions C60_valid_chain_total.

(** Every history of a node (transactions, mining, conflict resolution with
    arbitrary neighbours) leads to a chain that [valid_chain] accepts, for every
    hash function and block encoding. *)
Theorem C60_histories_valid sha enc me t0 (rs : list request) s :
  serve_all sha enc me t0 rs = Ok s -> valid_chain sha enc (chain s) = Ok true.
Proof. by move=> /serve_all_linked H; apply/valid_chain_spec. Qed.
Print Assumptions C60_histories_valid.

(** Without conflict resolution the blocks are numbered 1, 2, 3, ... *)
Theorem C60_indices sha enc me t0 (rs : list request) s :
  Forall no_resolve rs -> serve_all sha enc me t0 rs = Ok s ->
  forall i b, nth_error (chain s) i = Some b -> index b = Z.of_nat i + 1.
Proof.
move=> F; rewrite /serve_all init_spec /= => H.
have N0 : numbered [Block 1 t0 [] 100 "1"%string] by case=> [|[|i]] b //= [<-].
by case: (serve_fold_local (s := State [] [_]) _ N0 F H) => // _ [].
Qed.
Print Assumptions C60_indices.

(** [proof_of_work] returns the least proof that [valid_proof] accepts, and finds
    it whenever one exists below the budget. *)
Theorem C60_proof_of_work_least sha enc fuel b p :
  proof_of_work sha enc fuel b = Ok p ->
  0 <= p /\ valid_proof sha (proof b) p (sha (enc b)) = true /\
  forall q, 0 <= q < p -> valid_proof sha (proof b) q (sha (enc b)) = false.
Proof. exact: pow_loop_sound. Qed.
Print Assumptions C60_proof_of_work_least.

Theorem C60_proof_of_work_found sha enc fuel b q :
  0 <= q < Z.of_nat fuel -> valid_proof sha (proof b) q (sha (enc b)) = true ->
  exists p, proof_of_work sha enc fuel b = Ok p.
Proof. move=> H V; apply: pow_loop_complete V _; lia. Qed.
Print Assumptions C60_proof_of_work_found.

Example C60_example :
  rmap (fun s => (map index (chain s), map proof (chain s)))
       (serve_all toy_sha toy_enc "me"%string 10 toy_history)
  = Ok ([1; 2; 3], [100; 0; 100]) /\
  (let* s := serve_all toy_sha toy_enc "me"%string 10 toy_history in
   valid_chain toy_sha toy_enc (chain s)) = Ok true /\
  (let* s := serve_all toy_sha toy_enc "me"%string 10 toy_history in
   valid_chain toy_sha toy_enc (rev (chain s))) = Ok false.
Proof. by vm_compute. Qed.

(** C61.  Conservation: the transactions in the chain followed by the pending
    ones are exactly the submitted ones (with a reward at every mining call), in
    order, none lost and none duplicated. *)
Theorem C61_conservation sha enc me t0 (rs : list request) s :
  Forall no_resolve rs -> serve_all sha enc me t0 rs = Ok s ->
  flat_map transactions (chain s) ++ current_transactions s =
  flat_map (fun r => match r with
                     | ReqTx t => [t]
                     | ReqMine _ _ => [Tx "0"%string me 1]
                     | ReqResolve _ => []
                     end) rs.
Proof.
move=> F; rewrite /serve_all init_spec /= => H.
have N0 : numbered [Block 1 t0 [] 100 "1"%string] by case=> [|[|i]] b //= [<-].
by case: (serve_fold_local (s := State [] [_]) _ N0 F H) => // _ [_ [-> _]].
Qed.
Print Assumptions C61_conservation.

(** The index [new_transaction] returns is the index of the block that will
    contain the transaction: after any further requests it is still pending, or
    it sits in the block with that index. *)
Theorem C61_returned_index sha enc me t0 (rs1 rs2 : list request) s1 t s2 i s3 :
  Forall no_resolve rs1 -> Forall no_resolve rs2 ->
  serve_all sha enc me t0 rs1 = Ok s1 ->
  new_transaction s1 t = Ok (s2, i) ->
  foldM (serve sha enc me) rs2 s2 = Ok s3 ->
  (chain s3 = chain s1 /\
   nth_error (current_transactions s3) (length (current_transactions s1)) = Some t) \/
  (exists b, nth_error (chain s3) (Z.to_nat (i - 1)) = Some b /\ index b = i /\
     nth_error (transactions b) (length (current_transactions s1)) = Some t).
Proof.
move=> F1 F2; rewrite /serve_all init_spec /= => H.
have N0 : numbered [Block 1 t0 [] 100 "1"%string] by case=> [|[|j]] b //= [<-].
case: (serve_fold_local (s := State [] [_]) _ N0 F1 H) => // N1 [I1 _].
case: s1 N1 I1 H => t1 c1 /= /snoc_case [c [a ->]] I1 _.
rewrite new_transaction_snoc => -[<- <-] H3.
have Ia : index a = Z.of_nat (length c) + 1 by apply: I1; rewrite nth_error_mid.
have K : nth_error (t1 ++ [t]) (length t1) = Some t by rewrite nth_error_mid.
have N2 : c ++ [a] <> [] by case: (c).
have El : length (c ++ [a]) = (length c + 1)%nat by rewrite app_length.
case: (tx_placed (s := State (t1 ++ [t]) (c ++ [a])) N2 I1 F2 K H3) => [[C P]|[b [B [Ib T]]]].
  by left.
right; exists b; move: B Ib; rewrite /= Ia El => B Ib; split; last by split=> //; rewrite Ib; lia.
by rewrite -B; congr nth_error; lia.
Qed.
Print Assumptions C61_returned_index.

Example C61_example :
  rmap (fun s => (map (fun b => map amount (transactions b)) (chain s),
                  map amount (current_transactions s)))
       (serve_all toy_sha toy_enc "me"%string 10 toy_history)
  = Ok ([[]; [5; 1]; [6; 7; 1]], [8]).
Proof. by vm_compute. Qed.

(** With conflict resolution conservation is false: adopting a neighbour's chain
    drops the transactions of our own blocks without putting them back into the
    pending list (here a neighbour that claims length 9 for its genesis block). *)
Definition liar : answer := Answer 200 9 [Block 1 10 [] 100 "1"%string].

Theorem C61_conservation_with_resolve_refuted :
  exists rs s, serve_all toy_sha toy_enc "me"%string 10 rs = Ok s /\
    In (ReqTx (toy_tx 5)) rs /\
    ~ In (toy_tx 5) (flat_map transactions (chain s) ++ current_transactions s).
Proof.
exists [ReqTx (toy_tx 5); ReqMine 200 11; ReqResolve [liar]].
exists (State [] [Block 1 10 [] 100 "1"%string]).
by split; [vm_compute|split; [left|case]].
Qed.
Print Assumptions C61_conservation_with_resolve_refuted.

(** C62.  A successful [resolve_conflicts] installs a chain that some neighbour
    sent with status 200, that [valid_chain] accepts and whose claimed length is
    more than ours and the largest claimed for a valid chain; an unsuccessful one
    changes nothing. Pending transactions are kept either way. *)
Theorem C62_resolve_spec sha enc s answers s' replaced :
  resolve_conflicts sha enc s answers = Ok (s', replaced) ->
  current_transactions s' = current_transactions s /\
  (replaced = true ->
    exists a, In a answers /\ status a = 200 /\ chain s' = their_chain a /\
      claimed a > Z.of_nat (length (chain s)) /\
      valid_chain sha enc (chain s') = Ok true /\
      forall a', In a' answers -> status a' = 200 ->
        valid_chain sha enc (their_chain a') = Ok true -> claimed a' <= claimed a) /\
  (replaced = false ->
    chain s' = chain s /\
    forall a', In a' answers -> status a' = 200 ->
      valid_chain sha enc (their_chain a') = Ok true ->
      claimed a' <= Z.of_nat (length (chain s))).
Proof.
move=> /resolve_inv; case: replaced => [[T [a [I [S [G [V [C M]]]]]]]|[-> M]].
  by split=> //; split=> // _; exists a; rewrite C.
by split.
Qed.
Print Assumptions C62_resolve_spec.

(** If neighbours report the true length, the new chain is strictly longer than
    ours and no valid chain offered is longer. *)
Theorem C62_honest_neighbours sha enc s answers s' replaced :
  (forall a, In a answers -> claimed a = Z.of_nat (length (their_chain a))) ->
  resolve_conflicts sha enc s answers = Ok (s', replaced) ->
  (length (chain s) <= length (chain s'))%nat /\
  (replaced = true -> (length (chain s) < length (chain s'))%nat) /\
  forall a, In a answers -> status a = 200 ->
    valid_chain sha enc (their_chain a) = Ok true ->
    (length (their_chain a) <= length (chain s'))%nat.
Proof.
move=> H /resolve_inv; case: replaced => [[T [a [I [S [G [V [C M]]]]]]]|[-> M]].
  have Ha := H _ I; rewrite C; split; [lia|split; [lia|move=> b Ib Sb Vb]].
  have Hb := H _ Ib; have := M _ Ib Sb Vb; lia.
split=> //; split=> // b Ib Sb Vb; have Hb := H _ Ib; have := M _ Ib Sb Vb; lia.
Qed.
Print Assumptions C62_honest_neighbours.

(** The advertised length is trusted: for every node, hash function and one-block
    chain, a neighbour that claims a large length replaces our chain by it, so
    "the longest chain wins" is false. *)
Theorem C62_longest_chain_wins_refuted sha enc (s : state) (g : block) :
  resolve_conflicts sha enc s [Answer 200 (Z.of_nat (length (chain s)) + 1) [g]]
  = Ok (State (current_transactions s) [g], true).
Proof.
rewrite /resolve_conflicts /= /resolve_step /=.
by have -> /= : (Z.of_nat (length (chain s)) + 1 >? Z.of_nat (length (chain s))) = true by lia.
Qed.
Print Assumptions C62_longest_chain_wins_refuted.

(** A neighbour that claims a large length for an empty chain makes
    [resolve_conflicts] raise IndexError, whatever the honest ones answer before. *)
Theorem C62_empty_chain_raises sha enc (s : state) (before after : list answer) n :
  (forall a, In a before -> their_chain a <> []) ->
  (forall a, In a before -> claimed a < n) -> Z.of_nat (length (chain s)) < n ->
  resolve_conflicts sha enc s (before ++ Answer 200 n [] :: after) = Err IndexError.
Proof.
move=> NE Lt L; rewrite /resolve_conflicts.
suff H : forall m nc, m < n -> foldM (resolve_step sha enc)
   (before ++ Answer 200 n [] :: after) (m, nc) = Err IndexError by rewrite H.
elim: before NE Lt => [|a before IH] NE Lt m nc Hm.
  by rewrite [_ ++ _]/= foldM_cons /resolve_step /=; have -> : n >? m = true by lia.
rewrite -app_comm_cons foldM_cons.
have [m1 [nc1 [E Hm1]]] : exists m1 nc1, resolve_step sha enc (m, nc) a = Ok (m1, nc1) /\ m1 < n.
  rewrite /resolve_step; case: (status a =? 200); last by exists m, nc.
  case: (claimed a >? m); last by exists m, nc.
  have := NE a (or_introl Logic.eq_refl); case: (their_chain a) => // x c _ /=.
  case: valid_loop; last by exists m, nc.
  by exists (claimed a), (Some (x :: c)); split=> //; apply: Lt; left.
by rewrite E /=; apply: IH => // x Hx; [apply: NE|apply: Lt]; right.
Qed.
Print Assumptions C62_empty_chain_raises.

Example C62_example :
  let g := Block 1 10 [] 100 "1"%string in
  rmap (fun p => (map index (chain (fst p)), snd p))
   (let* s := serve_all toy_sha toy_enc "me"%string 10 toy_history in
    resolve_conflicts toy_sha toy_enc s [Answer 404 9 [g]; Answer 200 3 [g]])
  = Ok ([1; 2; 3], false) /\
  rmap (fun p => (map index (chain (fst p)), snd p))
   (let* s := serve_all toy_sha toy_enc "me"%string 10 toy_history in
    resolve_conflicts toy_sha toy_enc s [Answer 404 9 [g]; Answer 200 4 [g]])
  = Ok ([1], true).
Proof. by vm_compute. Qed.

(** C82.  The proof of work hashes the bare concatenation of the two decimal
    proofs, so a proof for one predecessor proof is a proof for others: whenever
    the digit strings agree the verdicts agree, for every hash function. *)
Theorem C82_proof_concatenation_ambiguous (sha : String.string -> String.string)
    (a b c d : Z) (last_hash : String.string) :
  String.append (str_int a) (str_int b) = String.append (str_int c) (str_int d) ->
  valid_proof sha a b last_hash = valid_proof sha c d last_hash.
Proof. exact: valid_proof_concat. Qed.
Print Assumptions C82_proof_concatenation_ambiguous.

(** Distinct pairs of proofs with equal verdicts for every hash exist. *)
Theorem C82_distinct_pairs_same_verdict (sha : String.string -> String.string) lh :
  valid_proof sha 12 345 lh = valid_proof sha 1234 5 lh.
Proof. by apply: valid_proof_concat; vm_compute. Qed.
Print Assumptions C82_distinct_pairs_same_verdict.

(** [valid_chain] checks neither block numbers nor timestamps nor transactions:
    whatever the hash and the encoding, those fields of the last block can be
    replaced by anything and the chain stays valid. *)
Theorem C82_last_block_unconstrained sha enc (c : list block) (b : block) i ts txs :
  valid_chain sha enc (c ++ [b]) = Ok true ->
  valid_chain sha enc (c ++ [Block i ts txs (proof b) (previous_hash b)]) = Ok true.
Proof.
move=> /valid_chain_spec [_ L]; apply/valid_chain_spec; split; first by case: (c).
move=> k x y Hx Hy.
have Lk : (S k < length (c ++ [Block i ts txs (proof b) (previous_hash b)]))%nat.
  by apply/nth_error_Some; rewrite Hy.
move: Lk; rewrite app_length /= => Lk.
rewrite nth_error_app1 in Hx; last by lia.
have Hx' : nth_error (c ++ [b]) k = Some x by rewrite nth_error_app1 //; lia.
case: (PeanoNat.Nat.eq_dec (S k) (length c)) => E.
  move: Hy; rewrite E nth_error_mid => -[<-] /=.
  apply: (L k) => //; by rewrite E nth_error_mid.
rewrite nth_error_app1 in Hy; last by lia.
apply: (L k) => //; rewrite nth_error_app1 //; lia.
Qed.
Print Assumptions C82_last_block_unconstrained.

Example C82_example :
  str_int 1234 = "1234"%string /\
  (let* s := serve_all toy_sha toy_enc "me"%string 10 toy_history in
   let* b := last_block s in
   valid_chain toy_sha toy_enc (firstn 2 (chain s) ++
      [Block 77 (-5) [toy_tx 1000000] (proof b) (previous_hash b)])) = Ok true.
Proof. by vm_compute. Qed.
