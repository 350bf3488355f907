(** Proofs about the model of misc/blockchain.py. *)
From Coq Require Import Bool ZArith List Lia.
From Coq Require Import ssreflect ssrbool.
From Coq.Strings Require String.
From Verif Require Import Base BaseProofs BlockchainModel.
Import String.StringSyntax.
Import ListNotations.
Local Open Scope Z_scope.
Local Set SsrOldRewriteGoalsOrder.
Local Set Bullet Behavior "None".
Local Set Implicit Arguments.
Local Unset Strict Implicit.

Section Chain.
Variable sha : String.string -> String.string.
Variable enc : block -> String.string.
Local Notation hash := (hash sha enc).
Local Notation valid_proof := (valid_proof sha).
Local Notation valid_loop := (valid_loop sha enc).
Local Notation serve := (serve sha enc).

(** The chain condition, stated on positions: every block but the first one
    records the hash of its predecessor and carries a proof of work for it. *)
Definition linked (c : list block) : Prop :=
  forall i a b, nth_error c i = Some a -> nth_error c (S i) = Some b ->
    previous_hash b = hash a /\ valid_proof (proof a) (proof b) (hash a) = true.

Lemma valid_loop_spec rest : forall a, valid_loop a rest = true <-> linked (a :: rest).
Proof.
elim: rest => [|b rest IH] a /=.
  split => // _ [|i] x y //=; case: i => //.
case: (String.eqb_spec (previous_hash b) (hash a)) => [E|E] /=; last first.
  split => // H; case: E; by case: (H 0%nat a b eq_refl eq_refl).
case V: (valid_proof (proof a) (proof b) (hash a)) => /=; last first.
  split => // H; case: (H 0%nat a b eq_refl eq_refl) => _; by rewrite V.
rewrite IH; split => H.
  case=> [|i] x y /=; last by exact: H.
  by case=> <- [<-].
by move=> i x y Hx Hy; apply: (H (S i)).
Qed.

Lemma valid_chain_spec c : valid_chain sha enc c = Ok true <-> c <> [] /\ linked c.
Proof.
case: c => [|a rest] /=; first by split => // -[].
rewrite -valid_loop_spec; split; first by case=> ->.
by case=> _ ->.
Qed.

Lemma nth_error_mid {A} (c : list A) a d : nth_error (c ++ a :: d) (length c) = Some a.
Proof. by rewrite nth_error_app2 // PeanoNat.Nat.sub_diag. Qed.

Lemma linked_snoc c a b :
  linked (c ++ [a]) -> previous_hash b = hash a ->
  valid_proof (proof a) (proof b) (hash a) = true -> linked ((c ++ [a]) ++ [b]).
Proof.
move=> L P V i x y Hx Hy.
have Lx : (S i < length ((c ++ [a]) ++ [b]))%nat.
  apply/nth_error_Some; by rewrite Hy.
move: Lx; rewrite !app_length /= => Lx.
case: (PeanoNat.Nat.eq_dec i (length c)) => E.
  move: Hx Hy; rewrite E -app_assoc nth_error_mid => -[<-].
  rewrite app_assoc -[S (length c)](_ : length (c ++ [a]) = _); last by rewrite app_length /=; lia.
  by rewrite nth_error_mid => -[<-].
rewrite nth_error_app1 in Hx; last by rewrite app_length /=; lia.
rewrite nth_error_app1 in Hy; last by rewrite app_length /=; lia.
exact: L Hx Hy.
Qed.

Lemma pow_loop_sound fuel lp lh : forall p q,
  pow_loop sha fuel lp p lh = Ok q ->
  p <= q /\ valid_proof lp q lh = true /\
  forall r, p <= r < q -> valid_proof lp r lh = false.
Proof.
elim: fuel => [|fuel IH] p q //=.
case V: (valid_proof lp p lh); first by case=> <-; split; [lia|split=> // r; lia].
move=> /IH [H1 [H2 H3]]; split; [lia|split=> // r Hr].
case: (Z.eq_dec r p) => [->//|N]; apply: H3; lia.
Qed.

Lemma pow_loop_complete fuel lp lh : forall p q,
  p <= q -> valid_proof lp q lh = true -> (Z.to_nat (q - p) < fuel)%nat ->
  exists r, pow_loop sha fuel lp p lh = Ok r.
Proof.
elim: fuel => [|fuel IH] p q Hpq V Hf /=; first by lia.
case V': (valid_proof lp p lh); first by exists p.
have N : p <> q by move=> E; rewrite E V in V'.
apply: (IH (p + 1) q) => //; lia.
Qed.

Lemma snoc_case {A} (l : list A) : l <> [] -> exists c a, l = c ++ [a].
Proof. move=> /exists_last [c [a ->]]; by exists c, a. Qed.

Lemma last_block_snoc t c a : last_block (State t (c ++ [a])) = Ok a.
Proof.
rewrite /last_block /py_nth [chain _]/=.
have -> : (if -1 <? 0 then -1 + Z.of_nat (length (c ++ [a])) else -1) = Z.of_nat (length c).
  rewrite app_length (_ : (-1 <? 0) = true) // [length [a]]/=; lia.
have -> : (Z.of_nat (length c) <? 0) || (Z.of_nat (length (c ++ [a])) <=? Z.of_nat (length c)) = false.
  rewrite app_length [length [a]]/=; apply/orb_false_iff; split; [apply/Z.ltb_ge|apply/Z.leb_gt]; lia.
by rewrite Znat.Nat2Z.id nth_error_mid.
Qed.

Lemma init_spec now :
  init sha enc now = Ok (State [] [Block 1 now [] 100 "1"%string]).
Proof. by []. Qed.

Lemma new_transaction_snoc t0 c a t :
  new_transaction (State t0 (c ++ [a])) t =
  Ok (State (t0 ++ [t]) (c ++ [a]), index a + 1).
Proof. by rewrite /new_transaction /= last_block_snoc. Qed.

(** Mining on a non-empty chain, when the search ends. *)
Lemma mine_snoc fuel me now t0 c a s' b :
  mine sha enc fuel me now (State t0 (c ++ [a])) = Ok (s', b) ->
  b = Block (Z.of_nat (length c) + 2) now (t0 ++ [Tx "0"%string me 1]) (proof b) (hash a)
  /\ s' = State [] ((c ++ [a]) ++ [b])
  /\ valid_proof (proof a) (proof b) (hash a) = true.
Proof.
rewrite /mine last_block_snoc /=.
rewrite /proof_of_work; case P: (pow_loop sha _ _ _ _) => [q|//] /=.
rewrite new_transaction_snoc /= /new_block last_block_snoc /=.
have -> : (if str_truth (hash a) then Ok (hash a) else Ok (hash a)) = Ok (hash a).
  by case: str_truth.
rewrite /= app_length /= => -[<- <-] /=; split; [|split=> //].
  by congr Block; lia.
by case: (pow_loop_sound P) => _ [].
Qed.

Definition no_resolve (r : request) : Prop :=
  match r with ReqResolve _ => False | _ => True end.

Lemma foldM_cons {A S} (f : S -> A -> result S) x l s :
  foldM f (x :: l) s = let* s' := f s x in foldM f l s'.
Proof. by []. Qed.

Lemma resolve_step_inv st a st' :
  resolve_step sha enc st a = Ok st' ->
  st' = st \/ (status a = 200 /\ claimed a > fst st /\
               valid_chain sha enc (their_chain a) = Ok true /\
               st' = (claimed a, Some (their_chain a))).
Proof.
case: st => m nc; rewrite /resolve_step.
case: (Z.eqb_spec (status a) 200) => S; last by case=> <-; left.
case G: (claimed a >? m); last by case=> <-; left.
case V: (valid_chain _ _ _) => [[]|] //= -[<-]; [right|by left].
by repeat split => //; lia.
Qed.

(** What the loop over the neighbours establishes. *)
Lemma resolve_fold_inv answers : forall m nc m' nc',
  foldM (resolve_step sha enc) answers (m, nc) = Ok (m', nc') ->
  m <= m' /\
  ((m' = m /\ nc' = nc) \/
   exists a, In a answers /\ status a = 200 /\ claimed a > m /\
     valid_chain sha enc (their_chain a) = Ok true /\
     m' = claimed a /\ nc' = Some (their_chain a)).
Proof.
elim: answers => [|a answers IH] m nc m' nc'; first by case=> <- <-; split; [lia|left].
rewrite foldM_cons; case E: (resolve_step sha enc (m, nc) a) => [[m1 nc1]|//] /= /IH [L H].
case: (resolve_step_inv E) => [[-> ->]|[S [G [V [E1 E2]]]]] in L H *.
  split=> //; case: H => [H|[x [I H]]]; [by left|right; exists x; split=> //; by right].
simpl in G; subst m1 nc1; split; first lia.
right; case: H => [[-> ->]|[x [I [H1 [H2 H]]]]].
  by exists a; repeat split=> //; left.
exists x; repeat split=> //; try (by right); lia || by case: H => [? []].
Qed.

Lemma resolve_fold_max answers : forall m nc m' nc',
  foldM (resolve_step sha enc) answers (m, nc) = Ok (m', nc') ->
  forall a, In a answers -> status a = 200 ->
    valid_chain sha enc (their_chain a) = Ok true -> claimed a <= m'.
Proof.
elim: answers => [|a answers IH] m nc m' nc' //.
rewrite foldM_cons; case E: (resolve_step sha enc (m, nc) a) => [[m1 nc1]|//] F x [<-|I]; last by exact: IH F x I.
move=> S V; case: (resolve_fold_inv F) => L _.
move: E; rewrite /resolve_step S /= V /=.
case G: (claimed a >? m) => /= -[E1 E2]; subst; lia.
Qed.

Lemma resolve_inv s answers s' b :
  resolve_conflicts sha enc s answers = Ok (s', b) ->
  if b then
    current_transactions s' = current_transactions s /\
    exists a, In a answers /\ status a = 200 /\
      claimed a > Z.of_nat (length (chain s)) /\
      valid_chain sha enc (their_chain a) = Ok true /\ chain s' = their_chain a /\
      forall a', In a' answers -> status a' = 200 ->
        valid_chain sha enc (their_chain a') = Ok true -> claimed a' <= claimed a
  else s' = s /\
    forall a', In a' answers -> status a' = 200 ->
        valid_chain sha enc (their_chain a') = Ok true ->
        claimed a' <= Z.of_nat (length (chain s)).
Proof.
rewrite /resolve_conflicts.
case F: (foldM _ _ _) => [[m nc]|//] /=.
have M := resolve_fold_max F.
case: (resolve_fold_inv F) => L [[Em En]|[a [I [S [G [V [Em En]]]]]]]; subst.
  by case=> <- <-; split.
case E: (their_chain a) => [|x c]; first by move: V; rewrite E.
case=> <- <- /=; split=> //; exists a; rewrite -E; by repeat split.
Qed.

(** Every request preserves: the chain is non-empty and linked. *)
Lemma serve_linked me s r s' :
  chain s <> [] -> linked (chain s) -> serve me s r = Ok s' ->
  chain s' <> [] /\ linked (chain s').
Proof.
case: s => t0 c /= /snoc_case [c0 [a ->]] L.
case: r => [t|fuel now|answers]; rewrite /BlockchainModel.serve.
- by rewrite new_transaction_snoc /= => -[<-] /=; split=> //; case: c0 {L}.
- case M: (mine _ _ _ _ _ _) => [[s1 b]|//] /= [<-].
  case: (mine_snoc M) => Eb [-> V] /=; split; first by case: c0 {L M Eb}.
  apply: linked_snoc => //; by rewrite Eb.
- case R: (resolve_conflicts _ _ _ _) => [[s1 b]|//] /= [<-].
  move: (resolve_inv R); case: b {R} => [[_ [x [_ [_ [_ [V [-> _]]]]]]]|[-> _]] /=.
    by apply/valid_chain_spec.
  by split=> //; case: c0 {L}.
Qed.

Lemma serve_fold_linked me rs : forall s s',
  chain s <> [] -> linked (chain s) -> foldM (serve me) rs s = Ok s' ->
  chain s' <> [] /\ linked (chain s').
Proof.
elim: rs => [|r rs IH] s s' N L /=; first by case=> <-.
case E: (serve me s r) => [s1|//] /=.
by case: (serve_linked N L E) => N1 L1; apply: IH.
Qed.

Lemma serve_all_linked me now rs s :
  serve_all sha enc me now rs = Ok s -> chain s <> [] /\ linked (chain s).
Proof.
rewrite /serve_all init_spec /=; apply: serve_fold_linked => //=.
by case=> [|[|i]].
Qed.

(** Indices of a node that never adopted a foreign chain. *)
Definition numbered (c : list block) : Prop :=
  forall i b, nth_error c i = Some b -> index b = Z.of_nat i + 1.

Lemma numbered_snoc c b :
  numbered c -> index b = Z.of_nat (length c) + 1 -> numbered (c ++ [b]).
Proof.
move=> N E i x Hx.
have Li : (i < length (c ++ [b]))%nat by apply/nth_error_Some; rewrite Hx.
move: Li; rewrite app_length /= => Li.
case: (PeanoNat.Nat.eq_dec i (length c)) => Ei.
  by move: Hx; rewrite Ei nth_error_app2 // PeanoNat.Nat.sub_diag /= => -[<-].
rewrite nth_error_app1 in Hx; [exact: N|lia].
Qed.

(** The transactions a request adds to the node, in order. *)
Definition submits (me : String.string) (r : request) : list tx :=
  match r with
  | ReqTx t => [t]
  | ReqMine _ _ => [Tx "0"%string me 1]
  | ReqResolve _ => []
  end.

(** One request on a node with a non-empty, numbered chain. *)
Lemma serve_local me s r s' :
  chain s <> [] -> numbered (chain s) -> no_resolve r -> serve me s r = Ok s' ->
  chain s' <> [] /\ numbered (chain s') /\
  flat_map transactions (chain s') ++ current_transactions s' =
  (flat_map transactions (chain s) ++ current_transactions s) ++ submits me r /\
  (exists ext, chain s' = chain s ++ ext) /\
  match r with
  | ReqMine _ _ => exists b, chain s' = chain s ++ [b] /\
      transactions b = current_transactions s ++ submits me r /\ current_transactions s' = []
  | _ => chain s' = chain s /\ current_transactions s' = current_transactions s ++ submits me r
  end.
Proof.
case: s => t0 c /= /snoc_case [c0 [a ->]] N.
case: r => [t|fuel now|answers] //= _; rewrite /BlockchainModel.serve.
- rewrite new_transaction_snoc /= => -[<-] /=; rewrite app_assoc; split; first by case: c0 {N}.
  by do !split=> //; exists []; rewrite app_nil_r.
- case M: (mine _ _ _ _ _ _) => [[s1 b]|//] /= [<-].
  case: (mine_snoc M) => Eb [-> V] /=; split; first by case: c0 {N M Eb}.
  have Et : transactions b = t0 ++ [Tx "0"%string me 1] by rewrite Eb.
  split; [|split; [|split]].
  + apply: numbered_snoc => //; rewrite Eb app_length /=; lia.
  + by rewrite flat_map_app /= !app_nil_r Et app_assoc.
  + by exists [b].
  + by exists b.
Qed.

Lemma serve_fold_local me rs : forall s s',
  chain s <> [] -> numbered (chain s) -> Forall no_resolve rs ->
  foldM (serve me) rs s = Ok s' ->
  chain s' <> [] /\ numbered (chain s') /\
  flat_map transactions (chain s') ++ current_transactions s' =
  (flat_map transactions (chain s) ++ current_transactions s) ++ flat_map (submits me) rs /\
  (exists ext, chain s' = chain s ++ ext).
Proof.
elim: rs => [|r rs IH] s s' N I F /=.
  by case=> <-; do !split=> //; [rewrite app_nil_r|exists []; rewrite app_nil_r].
case E: (serve me s r) => [s1|//] /= F1.
have Hr := Forall_inv F; have Hrs := Forall_inv_tail F.
case: (serve_local N I Hr E) => N1 [I1 [T1 [[x X1] _]]].
case: (IH _ _ N1 I1 Hrs F1) => N2 [I2 [T2 [y X2]]]; do !split=> //.
  by rewrite T2 T1 !app_assoc.
by exists (x ++ y); rewrite X2 X1 app_assoc.
Qed.

(** Where a submitted transaction ends up. *)
Lemma tx_placed me rs : forall s s' k t,
  chain s <> [] -> numbered (chain s) -> Forall no_resolve rs ->
  nth_error (current_transactions s) k = Some t ->
  foldM (serve me) rs s = Ok s' ->
  (chain s' = chain s /\ nth_error (current_transactions s') k = Some t) \/
  (exists b, nth_error (chain s') (length (chain s)) = Some b /\
     index b = Z.of_nat (length (chain s)) + 1 /\ nth_error (transactions b) k = Some t).
Proof.
elim: rs => [|r rs IH] s s' k t N I F K /=; first by case=> <-; left.
case E: (serve me s r) => [s1|//] /= F1.
have Hr := Forall_inv F; have Hrs := Forall_inv_tail F.
case: (serve_local N I Hr E) => N1 [I1 [_ [_ L]]].
have Kl : (k < length (current_transactions s))%nat by apply/nth_error_Some; rewrite K.
case: r Hr {E F} L => [u|fuel now|//] _.
  case=> C T; have K1 : nth_error (current_transactions s1) k = Some t.
    by rewrite T nth_error_app1.
  by move: (IH _ _ _ _ N1 I1 Hrs K1 F1); rewrite C.
case=> b [C [T Z]]; right; exists b.
case: (serve_fold_local N1 I1 Hrs F1) => _ [I2 [_ [x X]]].
have B : nth_error (chain s') (length (chain s)) = Some b.
  rewrite X C -app_assoc nth_error_app2 // PeanoNat.Nat.sub_diag //.
by split=> //; split; [apply: I2 B|rewrite T nth_error_app1].
Qed.

(** [valid_proof] only sees the concatenation of the two proofs. *)
Lemma valid_proof_concat a b c d lh :
  String.append (str_int a) (str_int b) = String.append (str_int c) (str_int d) ->
  valid_proof a b lh = valid_proof c d lh.
Proof.
have A : forall x y z, String.append x (String.append y z) = String.append (String.append x y) z.
  by elim=> //= ch x IH y z; rewrite IH.
by move=> E; rewrite /BlockchainModel.valid_proof !A E.
Qed.
End Chain.
