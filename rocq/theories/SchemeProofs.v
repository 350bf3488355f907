(** Proofs about the objects of misc/commitment.py and misc/zkp_3_coloring.py. *)
From Coq Require Import Bool ZArith List Lia Permutation.
From Coq Require Import ssreflect ssrbool.
From Verif Require Import Base BaseProofs PrimalityModel CommitmentModel CommitmentProofs SchemeModel.
Import ListNotations.
Local Open Scope Z_scope.
Local Set SsrOldRewriteGoalsOrder.
Local Set Implicit Arguments.
Local Unset Strict Implicit.

Lemma bits_value_cons a l : bits_value (a :: l) = a * 2 ^ Z.of_nat (length l) + bits_value l.
Proof. by rewrite -[a :: l]/([a] ++ l) bits_value_app. Qed.

(** the digits of a bit list are the bits of its value *)
Lemma bits_testbit l i b : Forall isbit l -> nth_error l i = Some b ->
  b = Z.b2z (Z.testbit (bits_value l) (Z.of_nat (length l) - 1 - Z.of_nat i)).
Proof.
elim: l i => [|a l IH] [|i] //= H.
  move=> [<-]; rewrite bits_value_cons.
  have R := bits_value_range (Forall_inv_tail H).
  rewrite (_ : Z.pos (Pos.of_succ_nat (length l)) - 1 - 0 = Z.of_nat (length l)); last by lia.
  rewrite Z.testbit_spec' ?Z.div_add_l; try lia.
  rewrite Z.div_small // Z.add_0_r.
  by case: (Forall_inv H) => ->.
move=> E; have Hl := Forall_inv_tail H; rewrite (IH _ Hl E) bits_value_cons.
have Li : (i < length l)%nat by apply/nth_error_Some; rewrite E.
rewrite (_ : Z.pos (Pos.of_succ_nat (length l)) - 1 - Z.pos (Pos.of_succ_nat i) =
  Z.of_nat (length l) - 1 - Z.of_nat i); last by lia.
f_equal; rewrite -[RHS](@Z.mod_pow2_bits_low _ (Z.of_nat (length l))); last by lia.
rewrite Z.add_comm Z.mod_add ?Z.mod_small //; last by apply: Z.pow_nonzero; lia.
exact: bits_value_range.
Qed.

Section Schemes.
Variable owp : Z -> Z.
Variable hcp : Z -> result Z.

Lemma bit_commit_inv s b c : bit_commit owp hcp s b = Ok c ->
  exists g, hcp s = Ok g /\ c = (owp s, Z.lxor g b).
Proof. by rewrite /bit_commit; case: (hcp s) => //= g [<-]; exists g. Qed.

Definition keeps (e : bit_event) : Prop := match e with BGenerate _ => False | _ => True end.

Lemma bit_run_keeps s es as' s' : (forall e, In e es -> keeps e) -> bit_run owp hcp s es = Ok (as', s') ->
  s' = s /\ length as' = length es /\
  (forall i b, nth_error es i = Some (BCommit b) -> exists c,
     nth_error as' i = Some (ACommitment c) /\ bit_commit owp hcp s b = Ok c) /\
  (forall i, nth_error es i = Some BReveal -> nth_error as' i = Some (ASecret s)).
Proof.
elim: es as' s' => [|e es IH] as' s' K /=.
  by case=> <- <-; do 2 split=> //; split; case.
have K' : forall e, In e es -> keeps e by move=> x Hx; apply: K; right.
case: e K => [b|| d] K /=; last by case: (K (BGenerate d)); left.
- case C: (bit_commit owp hcp s b) => [c|] //=.
  case R: (bit_run _ _ _ _) => [[as1 s1]|] //= [<- <-].
  have [-> [L [H1 H2]]] := IH _ _ K' R.
  split=> //; split; first by rewrite /= L.
  split=> [[|i] b' /=|[|i] //=]; [case=> <-; by exists c|exact: H1|exact: H2].
- case R: (bit_run _ _ _ _) => [[as1 s1]|] //= [<- <-].
  have [-> [L [H1 H2]]] := IH _ _ K' R.
  split=> //; split; first by rewrite /= L.
  split=> [[|i] b' //=|[|i] //=]; [exact: H1|exact: H2].
Qed.

Lemma bit_run_total s g es : hcp s = Ok g -> (forall e, In e es -> keeps e) ->
  exists as', bit_run owp hcp s es = Ok (as', s).
Proof.
move=> G; elim: es => [|e es IH] K; first by exists [].
have [as' R] := IH (fun x Hx => K x (or_intror Hx)).
case: e K => [b|| d] K /=; last by case: (K (BGenerate d)); left.
- by rewrite /bit_commit G /= R /=; eexists.
- by rewrite R /=; eexists.
Qed.

(** ** Int schemes *)
Lemma new_int_schemeE draws : new_int_scheme owp draws =
  Ok {| is_schemes := map owp draws; is_secret := map owp draws |}.
Proof.
rewrite /new_int_scheme.
suff -> : mapM (new_bit_scheme owp) draws = Ok (map owp draws) by [].
by elim: draws => //= d l ->.
Qed.

Lemma int_commit_nth secrets x cs i s c : 0 <= x < 2 ^ Z.of_nat (length secrets) -> secrets <> [] ->
  int_commit owp hcp secrets x = Ok cs ->
  nth_error secrets i = Some s -> nth_error cs i = Some c ->
  exists g, hcp s = Ok g /\
    c = (owp s, Z.lxor g (Z.b2z (Z.testbit x (Z.of_nat (length secrets) - 1 - Z.of_nat i)))).
Proof.
move=> [H0 H1] N; rewrite /int_commit.
have [bits [-> [B [V L]]]] := padded_bits_spec (length secrets) H0; rewrite /=.
have Lb : length bits = length secrets.
  apply: Nat2Z.inj; rewrite L Z.max_l //.
  case: (Z.eq_dec x 0) => [->|Nx].
    by case: (secrets) N => // a l _; rewrite [length _]/= Nat2Z.inj_succ; rewrite [Z.log2 0]/=; lia.
  have := proj1 (Z.log2_lt_pow2 x (Z.of_nat (length secrets)) ltac:(lia)) H1; lia.
rewrite -V -Lb => R Es Ec.
have Li : (i < length bits)%nat by rewrite Lb; apply/nth_error_Some; rewrite Es.
case Eb: (nth_error bits i) => [b|]; last by move: Li => /nth_error_Some; rewrite Eb.
rewrite -(bits_testbit B Eb).
suff C : bit_commit owp hcp s b = Ok c by have [g [G ->]] := bit_commit_inv C; exists g.
move: R Es Ec Eb; clear; elim: i secrets bits cs => [|i IH] [|s0 secrets] [|b0 bits] [|c0 cs] //=.
- case C: (bit_commit owp hcp s0 b0) => [c1|] //=; case: (mapM _ _) => //= cs1 [E _] [<-] [Ec] [<-].
  by rewrite C E Ec.
- case: (bit_commit owp hcp s0 b0) => [c1|] //=.
  case R: (mapM _ _) => [cs1|] //= [_ E]; rewrite -E; exact: IH R.
Qed.

Lemma int_commit_len secrets x cs : 0 <= x -> int_commit owp hcp secrets x = Ok cs ->
  length cs = length secrets.
Proof.
move=> H0; rewrite /int_commit.
have [bits [-> [B [V L]]]] := padded_bits_spec (length secrets) H0; rewrite /=.
have : (length secrets <= length bits)%nat by lia.
clear; elim: secrets bits cs => [|s l IH] [|b bits] cs //=; try (by move=> _ [<-]); try lia.
move=> H; case: (bit_commit _ _ _ _) => //= c; case R: (mapM _ _) => [cs1|] //= [<-] /=.
by rewrite (IH _ _ _ R) //; lia.
Qed.

Definition int_keeps (e : int_event) : Prop := match e with IMember _ _ => False | _ => True end.

Lemma int_run_keeps secrets es as' o' : (forall e, In e es -> int_keeps e) ->
  int_run owp hcp {| is_schemes := secrets; is_secret := secrets |} es = Ok (as', o') ->
  o' = {| is_schemes := secrets; is_secret := secrets |} /\ length as' = length es /\
  (forall i x, nth_error es i = Some (ICommit x) -> exists cs,
     nth_error as' i = Some (ICommitment cs) /\ int_commit owp hcp secrets x = Ok cs) /\
  (forall i, nth_error es i = Some IReveal \/ nth_error es i = Some IGenerate ->
     nth_error as' i = Some (ISecret secrets)).
Proof.
elim: es as' o' => [|e es IH] as' o' K /=.
  by case=> <- <-; split=> //; split=> //; split=> [[]|[|i] []].
have K' : forall e, In e es -> int_keeps e by move=> x Hx; apply: K; right.
case: e K => [x|||i d] K /=; last by case: (K (IMember i d)); left.
- case C: (int_commit owp hcp secrets x) => [cs|] //=.
  case R: (int_run _ _ _ _) => [[as1 s1]|] //= [<- <-].
  have [-> [L [H1 H2]]] := IH _ _ K' R.
  split=> //; split; first by rewrite /= L.
  split=> [[|i] b' /=|[|i] //=]; [case=> <-; by exists cs|exact: H1|by case|exact: H2].
- case R: (int_run _ _ _ _) => [[as1 s1]|] //= [<- <-].
  have [-> [L [H1 H2]]] := IH _ _ K' R.
  split=> //; split; first by rewrite /= L.
  split=> [[|i] b' //=|[|i] //=]; [exact: H1|exact: H2].
- rewrite /int_generateSecret; case R: (int_run _ _ _ _) => [[as1 s1]|] //= [<- <-].
  have [-> [L [H1 H2]]] := IH _ _ K' R.
  split=> //; split; first by rewrite /= L.
  split=> [[|i] b' //=|[|i] //=]; [exact: H1|exact: H2].
Qed.

(** ** The 3-colouring prover *)
Lemma commit_coloring G n coloring (col : Z -> Z) secrets perm :
  num_vertices G = Ok n ->
  (forall v, 1 <= v <= n -> lookup coloring v = Ok (col v) /\ 0 <= col v < 3) ->
  (forall v, 1 <= v <= n -> defined hcp (fst (secrets v)) /\ defined hcp (snd (secrets v))) ->
  Permutation perm (zrange 0 3) ->
  exists com, commit_to_coloring owp hcp G coloring secrets perm = Ok com /\
    forall v, 1 <= v <= n -> exists cv, lookup com v = Ok cv /\
      int_decode hcp 2 (secret_list secrets v) cv = Ok (pfun perm (col v + 1) - 1) /\
      int_verify owp hcp 2 (secret_list secrets v) cv = Ok true.
Proof.
move=> N HC HD P.
pose vs := zrange 1 (n + 1).
have vsP : forall v, In v vs <-> 1 <= v <= n by move=> v; rewrite zrange_In; lia.
pose pc v := pfun perm (col v + 1) - 1.
have HV : forall v, In v vs ->
    defined hcp (fst (secrets v)) /\ defined hcp (snd (secrets v)) /\ 0 <= pc v < 4.
  move=> v /vsP Hv; have [D1 D2] := HD v Hv; have [_ C] := HC v Hv.
  have [c' [_ [B E]]] := py_nth_perm3 P C; rewrite E in B; rewrite -/(pc v) in B.
  by split=> //; split=> //; lia.
have [com HCom] := commit_all owp HV.
exists (map (fun v => (v, com v)) vs); split.
  rewrite /commit_to_coloring /prover_vertices N [bind (Ok n) _]/= [bind (Ok (zrange _ _)) _]/= -/vs.
  rewrite (@mapM_In _ _ _ (fun v => (v, pc v))) => [|v Hv]; last first.
    have [-> C] := HC v (proj1 (vsP v) Hv); rewrite /=.
    by have [c' [-> [_ ->]]] := py_nth_perm3 P C.
  rewrite [bind _ _]/=; apply: mapM_In => v Hv; rewrite lookup_map //=.
  have [H _] := HCom v Hv; move: H; rewrite /secret_list.
  by case: (secrets v) => a b /= ->.
move=> v /vsP Hv; exists (com v); rewrite lookup_map //.
by have [_ [H1 H2]] := HCom v Hv.
Qed.

Lemma reveal_edge G n secrets u v :
  num_vertices G = Ok n -> (forall v, vertex G v -> 1 <= v) -> In (u, v) G \/ In (v, u) G ->
  reveal_colors G secrets u v = Ok [secret_list secrets (Z.min u v); secret_list secrets (Z.max u v)].
Proof.
move=> N V1 I.
have [_ Mn] := proj1 (num_vertices_spec _ _) N.
have Is : In (Z.min u v, Z.max u v) (sorted_graph G).
  rewrite /sorted_graph; apply/in_map_iff; case: I => I; [exists (u, v)|exists (v, u)]; split=> //=.
  by rewrite Z.min_comm Z.max_comm.
have [Vu Vv] := sorted_graph_vertex Is; rewrite /= in Vu Vv.
rewrite /reveal_colors edge_memP //= /prover_vertices N /=.
have X : forall w, vertex G w -> existsb (Z.eqb w) (zrange 1 (n + 1)) = true.
  move=> w Hw; apply/existsb_exists; exists w; rewrite Z.eqb_refl; split=> //; apply/zrange_In.
  have := V1 _ Hw; have := Mn _ Hw; lia.
rewrite !X //= /secret_list; by case: (secrets (Z.min u v)) => *; case: (secrets (Z.max u v)).
Qed.
End Schemes.
