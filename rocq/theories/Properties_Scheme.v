(** Properties C115 and C116: the objects of misc/commitment.py and the stateful
    prover of misc/zkp_3_coloring.py, over sequences of method calls.

    [owp] and [hcp] are an arbitrary one-way function and hardcore predicate. *)
From Coq Require Import Bool ZArith List Lia Permutation.
From Coq Require Import ssreflect ssrbool.
From Verif Require MerkleProofs.
From Verif Require Import Base BaseProofs PrimalityModel CommitmentModel CommitmentProofs SchemeModel SchemeProofs Properties_Crypto.
Import ListNotations.
Local Open Scope Z_scope.
Local Set SsrOldRewriteGoalsOrder.
Local Set Implicit Arguments.
Local Unset Strict Implicit.

(** ** C115 *)
(** One object uses one secret: as long as [generateSecret] is not called again, the
    calls all return, all commitments have the same first component and the secret that
    [reveal] answers opens every one of them to its bit. *)
Theorem C115_bit_history (owp : Z -> Z) (hcp : Z -> result Z) (draw g : Z) (es : list bit_event) :
  hcp (owp draw) = Ok g -> (forall d, ~ In (BGenerate d) es) ->
  exists o answers, new_bit_scheme owp draw = Ok o /\ bit_run owp hcp o es = Ok (answers, o) /\
    length answers = length es /\
    (forall i bit, nth_error es i = Some (BCommit bit) -> exists c,
       nth_error answers i = Some (ACommitment c) /\ fst c = owp (owp draw) /\
       forall j, nth_error es j = Some BReveal -> exists s,
         nth_error answers j = Some (ASecret s) /\
         bit_verify owp hcp s c = Ok true /\ bit_decode hcp s c = Ok bit).
Proof.
move=> G NG.
have K : forall e, In e es -> keeps e by case=> // d /NG.
have [as' R] := bit_run_total owp G K.
exists (owp draw), as'; split=> //; split=> //.
have [_ [L [H1 H2]]] := bit_run_keeps K R; split=> // i bit /H1 [c [E C]].
exists c; split=> //.
have [g' [G' Ec]] := bit_commit_inv C; split; first by rewrite Ec.
move=> j /H2 Es; exists (owp draw); split=> //.
by rewrite (bit_verify_spec _ _ G) (bit_decode_commit G C) Ec /= Z.eqb_refl.
Qed.
Print Assumptions C115_bit_history.

(** Without any opening, two commitments of one object tell whether the bits are equal, and
    are equal exactly if they are. *)
Theorem C115_bits_linkable (owp : Z -> Z) (hcp : Z -> result Z) (o : Z) es answers o' i j b b' c c' :
  (forall d, ~ In (BGenerate d) es) -> bit_run owp hcp o es = Ok (answers, o') ->
  nth_error es i = Some (BCommit b) -> nth_error es j = Some (BCommit b') ->
  nth_error answers i = Some (ACommitment c) -> nth_error answers j = Some (ACommitment c') ->
  Z.lxor (snd c) (snd c') = Z.lxor b b' /\ (c = c' <-> b = b').
Proof.
move=> NG R Ei Ej Ai Aj.
have K : forall e, In e es -> keeps e by case=> // d /NG.
have [_ [_ [H _]]] := bit_run_keeps K R.
have [c1 [E1 C1]] := H _ _ Ei; have [c2 [E2 C2]] := H _ _ Ej.
rewrite Ai in E1; rewrite Aj in E2; case: E1 C1 => <- C1; case: E2 C2 => <- C2.
have [g [G ->]] := bit_commit_inv C1; have [g2 [G2 ->]] := bit_commit_inv C2.
rewrite G in G2; case: G2 => <- /=.
have X : Z.lxor (Z.lxor g b) (Z.lxor g b') = Z.lxor b b'.
  rewrite (Z.lxor_comm g b) Z.lxor_assoc -(Z.lxor_assoc g g b') Z.lxor_nilpotent.
  by rewrite Z.lxor_0_l.
split=> //; split=> [[E]|-> //].
by apply: Z.lxor_eq; rewrite -X E Z.lxor_nilpotent.
Qed.
Print Assumptions C115_bits_linkable.

(** The comment "used only once per commitment" is refuted: two commitments, to different
    bits, with the same secret. *)
Theorem C115_secret_used_once_refuted : exists o c c' s,
  new_bit_scheme (bbs 209) 5 = Ok o /\
  bit_run (bbs 209) parity o [BCommit 0; BCommit 1; BReveal] = Ok ([ACommitment c; ACommitment c'; ASecret s], o) /\
  bit_decode parity s c = Ok 0 /\ bit_decode parity s c' = Ok 1 /\ fst c = fst c'.
Proof. by do 4 eexists; vm_compute. Qed.
Print Assumptions C115_secret_used_once_refuted.

(** After [generateSecret] the object reveals the new secret, which opens the commitments
    made before exactly if the one-way function takes it to the same value. *)
Theorem C115_generate_secret (owp : Z -> Z) (hcp : Z -> result Z) (o bit draw : Z) g g' :
  hcp o = Ok g -> hcp (owp draw) = Ok g' ->
  exists c b, bit_run owp hcp o [BCommit bit; BGenerate draw; BReveal] =
      Ok ([ACommitment c; ASecret (owp draw); ASecret (owp draw)], owp draw) /\
    bit_verify owp hcp (owp draw) c = Ok b /\ (b = true <-> owp (owp draw) = owp o).
Proof.
move=> G G'; exists (owp o, Z.lxor g bit), (owp o =? owp (owp draw)); rewrite /= /bit_commit G /=.
split=> //; rewrite (bit_verify_spec _ _ G') /=; split=> //.
by split=> [/Z.eqb_eq ->|->]; rewrite ?Z.eqb_refl.
Qed.
Print Assumptions C115_generate_secret.

(** An int scheme: [generateSecret] answers the secret of the constructor, there is never a
    new one, and every [reveal] opens every commitment of the object. *)
Theorem C115_int_history (owp : Z -> Z) (hcp : Z -> result Z) (draws : list Z) (es : list int_event) answers o' :
  (forall i d, ~ In (IMember i d) es) ->
  forall o, new_int_scheme owp draws = Ok o -> int_run owp hcp o es = Ok (answers, o') ->
  o' = o /\ length answers = length es /\
  (forall i, nth_error es i = Some IReveal \/ nth_error es i = Some IGenerate ->
     nth_error answers i = Some (ISecret (map owp draws))) /\
  (forall i x, nth_error es i = Some (ICommit x) -> 0 <= x < 2 ^ Z.of_nat (length draws) -> draws <> [] ->
     (forall d, In d draws -> exists g, hcp (owp d) = Ok g) ->
     exists cs, nth_error answers i = Some (ICommitment cs) /\
       int_verify owp hcp (length draws) (map owp draws) cs = Ok true /\
       int_decode hcp (length draws) (map owp draws) cs = Ok x).
Proof.
move=> NM o; rewrite new_int_schemeE => -[<-] R.
have K : forall e, In e es -> int_keeps e by case=> // i d /NM.
have [-> [L [H1 H2]]] := int_run_keeps K R.
split=> //; split=> //; split=> // i x /H1 [cs [E C]] Hx N T.
have Lm : length (map owp draws) = length draws by rewrite map_length.
have N' : map owp draws <> [] by case: (draws) N.
have T' : forall s, In s (map owp draws) -> exists g, hcp s = Ok g by move=> s /in_map_iff [d [<- /T]].
have [|cs' [C' [V D]]] := @C63_int_correct owp hcp (map owp draws) x N' T'; first by rewrite Lm.
by rewrite C' in C; case: C E V D => <- E; rewrite Lm => V D; exists cs'.
Qed.
Print Assumptions C115_int_history.

(** Without any opening, two commitments of one int scheme give the exclusive or of the two
    integers, bit by bit; they are equal exactly if the integers are. *)
Theorem C115_ints_linkable (owp : Z -> Z) (hcp : Z -> result Z) (secrets : list Z) x y cs ds :
  secrets <> [] -> 0 <= x < 2 ^ Z.of_nat (length secrets) -> 0 <= y < 2 ^ Z.of_nat (length secrets) ->
  int_commit owp hcp secrets x = Ok cs -> int_commit owp hcp secrets y = Ok ds ->
  length cs = length secrets /\ length ds = length secrets /\
  (forall i c d, nth_error cs i = Some c -> nth_error ds i = Some d ->
     fst c = fst d /\
     Z.lxor (snd c) (snd d) = Z.b2z (Z.testbit (Z.lxor x y) (Z.of_nat (length secrets) - 1 - Z.of_nat i))) /\
  (cs = ds <-> x = y).
Proof.
move=> N Hx Hy Cx Cy.
have Lx := int_commit_len (proj1 Hx) Cx; have Ly := int_commit_len (proj1 Hy) Cy.
have B : forall i c d, nth_error cs i = Some c -> nth_error ds i = Some d -> fst c = fst d /\
     Z.lxor (snd c) (snd d) = Z.b2z (Z.testbit (Z.lxor x y) (Z.of_nat (length secrets) - 1 - Z.of_nat i)).
  move=> i c d Ec Ed.
  have Li : (i < length secrets)%nat by rewrite -Lx; apply/nth_error_Some; rewrite Ec.
  case Es: (nth_error secrets i) => [s|]; last by move: Li => /nth_error_Some; rewrite Es.
  have [g [G ->]] := int_commit_nth Hx N Cx Es Ec.
  have [g' [G' ->]] := int_commit_nth Hy N Cy Es Ed.
  rewrite G in G'; case: G' => <- /=; split=> //.
  rewrite (Z.lxor_comm g) Z.lxor_assoc -(Z.lxor_assoc g g) Z.lxor_nilpotent Z.lxor_0_l Z.lxor_spec.
  by case: Z.testbit; case: Z.testbit.
split=> //; split=> //; split=> //; split=> [E|E]; last by move: Cy; rewrite -E Cx => -[].
apply: Z.lxor_eq; apply: Z.bits_inj' => k Hk; rewrite Z.bits_0.
have [Lk|Lk] := Z_lt_le_dec k (Z.of_nat (length secrets)); last first.
  rewrite Z.lxor_spec.
  have Z0 : forall z, 0 <= z < 2 ^ Z.of_nat (length secrets) -> Z.testbit z k = false.
    move=> z Hz; rewrite -(Z.mod_small z (2 ^ Z.of_nat (length secrets))) //.
    by apply: Z.mod_pow2_bits_high; lia.
  by rewrite !Z0.
pose i := Z.to_nat (Z.of_nat (length secrets) - 1 - k).
have Hi : (i < length cs)%nat by rewrite Lx /i; lia.
case Ec: (nth_error cs i) => [c|]; last by move: Hi => /nth_error_Some; rewrite Ec.
have Ed := Ec; rewrite E in Ed.
have [_] := B _ _ _ Ec Ed; rewrite Z.lxor_nilpotent.
rewrite (_ : Z.of_nat (length secrets) - 1 - Z.of_nat i = k); last by rewrite /i; lia.
by case: Z.testbit.
Qed.
Print Assumptions C115_ints_linkable.

(** A new secret of one of the bit schemes is not the one that the int scheme reveals: its
    openings are then rejected, unless the one-way function takes both secrets to the same
    value. *)
Theorem C115_stale_secret (owp : Z -> Z) (hcp : Z -> result Z) (draws : list Z) (k : nat) (d dk x : Z) :
  nth_error draws k = Some dk -> 0 <= x < 2 ^ Z.of_nat (length draws) ->
  (forall e, In e (d :: draws) -> exists g, hcp (owp e) = Ok g) ->
  exists o o' cs b, new_int_scheme owp draws = Ok o /\
    int_run owp hcp o [IMember (Z.of_nat k) d; ICommit x; IReveal] =
      Ok ([IMemberSecret (owp d); ICommitment cs; ISecret (map owp draws)], o') /\
    int_verify owp hcp (length draws) (map owp draws) cs = Ok b /\
    (b = true <-> owp (owp d) = owp (owp dk)).
Proof.
move=> Ek Hx T.
have Lk : (k < length draws)%nat by apply/nth_error_Some; rewrite Ek.
have Lm : length (map owp draws) = length draws by rewrite map_length.
pose sec := set_nth_list (map owp draws) k (owp d).
have Ls : length sec = length draws by rewrite /sec MerkleProofs.set_nth_length map_length.
have N : sec <> [] by move=> E; move: Ls Lk; rewrite E /=; lia.
have Ts : forall s, In s sec -> exists g, hcp s = Ok g.
  move=> s /(@In_nth_error _ _ _) [i].
  case: (Nat.eq_dec i k) => [->|Ni].
    by rewrite /sec MerkleProofs.set_nth_same ?map_length // => -[<-]; apply: T; left.
  rewrite /sec MerkleProofs.set_nth_other //; last by move=> E; case: Ni.
  by move=> Hs; have := nth_error_In _ _ Hs; rewrite in_map_iff => -[e [<- He]]; apply: T; right.
have Hx' : 0 <= x < 2 ^ Z.of_nat (length sec) by rewrite Ls.
have [cs [C [V D]]] := @C63_int_correct owp hcp sec x N Ts Hx'.
have T0 : forall s, In s (map owp draws) -> exists g, hcp s = Ok g.
  by move=> s /in_map_iff [e [<- He]]; apply: T; right.
have [b [Vb Hb]] := @C64_int_verify_iff owp hcp (length draws) (map owp draws) cs T0.
exists {| is_schemes := map owp draws; is_secret := map owp draws |},
  {| is_schemes := sec; is_secret := map owp draws |}, cs, b.
split; first exact: new_int_schemeE.
split.
  have P : py_nth (map owp draws) (Z.of_nat k) = Ok (owp dk).
    by apply: py_nth_nat; rewrite nth_error_map Ek.
  rewrite /= P /= (_ : Z.of_nat k <? 0 = false) ?Nat2Z.id -/sec; last by lia.
  by rewrite /= C.
split=> //; rewrite Hb.
have Ck : exists c, nth_error cs k = Some c.
  case E: (nth_error cs k) => [c|]; first by exists c.
  by have := int_commit_len (proj1 Hx) C; move/nth_error_None: E; rewrite Ls; lia.
case: Ck => c Ec.
have Sk : nth_error sec k = Some (owp d) by rewrite /sec MerkleProofs.set_nth_same ?map_length.
have Mk : nth_error (map owp draws) k = Some (owp dk) by rewrite nth_error_map Ek.
split=> [H|E i s c' Hi Es Ec'].
  have [g [_ Eg]] := int_commit_nth Hx' N C Sk Ec.
  by have := H k _ c Lk Mk Ec; rewrite Eg.
case: (Nat.eq_dec i k) => [Ei|Ni].
  subst i; rewrite Mk in Es; case: Es => <-; rewrite Ec in Ec'; case: Ec' => <-.
  by have [g [_ ->]] := int_commit_nth Hx' N C Sk Ec.
have Si : nth_error sec i = Some s by rewrite /sec MerkleProofs.set_nth_other //; move=> E'; case: Ni.
by have [g [_ ->]] := int_commit_nth Hx' N C Si Ec'.
Qed.
Print Assumptions C115_stale_secret.

(** The base class cannot be instantiated, and its [commit] raises as well. *)
Theorem C115_base_class (x : Z) :
  scheme_init base_generateSecret = Err TypeError /\ base_commit x = Err TypeError.
Proof. by []. Qed.
Print Assumptions C115_base_class.

(** The members are indexed like a list: -k is the k-th from the end, anything beyond the
    ends raises IndexError. *)
Theorem C115_member_index (owp : Z -> Z) (hcp : Z -> result Z) (o : int_scheme) (d : Z) :
  let n := Z.of_nat (length (is_schemes o)) in
  (forall k, 1 <= k <= n -> int_run owp hcp o [IMember (- k) d] = int_run owp hcp o [IMember (n - k) d]) /\
  (forall i, i < - n \/ n <= i -> int_run owp hcp o [IMember i d] = Err IndexError).
Proof.
move=> n; split=> [k Hk|i Hi].
- rewrite /= /py_nth -/n (proj2 (Z.ltb_lt (- k) 0)); last by lia.
  rewrite (proj2 (Z.ltb_ge (n - k) 0)); last by lia.
  by rewrite (_ : - k + n = n - k); last by lia.
- have E : py_nth (is_schemes o) i = Err IndexError.
    have := Nat2Z.is_nonneg (length (is_schemes o)); rewrite /py_nth -/n => Hn.
    case: (Z.ltb_spec i 0) => Hi0; case: Z.ltb_spec => //= H1; case: Z.leb_spec => //= H2; lia.
  by rewrite /= E.
Qed.
Print Assumptions C115_member_index.

Example C115_example :
  new_int_scheme (bbs 209) [5; 6; 7] = Ok {| is_schemes := [25; 36; 49]; is_secret := [25; 36; 49] |} /\
  int_run (bbs 209) parity {| is_schemes := [25; 36; 49]; is_secret := [25; 36; 49] |} [ICommit 5; IGenerate; ICommit 3; IReveal] =
    Ok ([ICommitment [(207, 0); (42, 0); (102, 0)]; ISecret [25; 36; 49]; ICommitment [(207, 1); (42, 1); (102, 0)];
         ISecret [25; 36; 49]], {| is_schemes := [25; 36; 49]; is_secret := [25; 36; 49] |}) /\
  scheme_init base_generateSecret = Err TypeError /\
  bit_run (bbs 209) parity 25 [BCommit 1; BGenerate 6; BReveal] = Ok ([ACommitment (207, 0); ASecret 36; ASecret 36], 36).
Proof. by vm_compute. Qed.

(** ** C116 *)
(** The prover object answers any number of queries about one commitment: after
    [commit_to_coloring], every sequence of queries of edges is answered, and the answers
    decode to the colours under one and the same permutation.  A verifier that asks for all
    edges learns which vertices have the same colour, so the protocol is not zero knowledge
    if the prover object is queried more than once. *)
Theorem C116_repeated_queries (owp : Z -> Z) (hcp : Z -> result Z) (G : graph) (n : Z)
    (coloring : list (Z * Z)) (col : Z -> Z) (secrets : Z -> Z * Z) (perm : list Z) (qs : list (Z * Z)) :
  num_vertices G = Ok n -> (forall a b, In (a, b) G -> 1 <= a /\ 1 <= b) ->
  (forall v, 1 <= v <= n -> lookup coloring v = Ok (col v) /\ 0 <= col v < 3) ->
  (forall v, 1 <= v <= n ->
     (exists g, hcp (fst (secrets v)) = Ok g) /\ (exists g, hcp (snd (secrets v)) = Ok g)) ->
  Permutation perm (zrange 0 3) ->
  (forall u v, In (u, v) qs -> In (u, v) G \/ In (v, u) G) ->
  exists o o' com answers, new_col_prover G coloring = Ok o /\
    col_run owp hcp o (CCommit secrets perm :: map (fun e => CReveal (fst e) (snd e)) qs) =
      Ok (CCommitted com :: map CRevealed answers, o') /\
    length answers = length qs /\
    (** what the verifier computes from the i-th answer about the smaller (k = 0) or larger
        (k = 1) end point *)
    let view i k := let* r := py_nth answers i in let* s := py_nth r k in
                    let* e := py_nth qs i in
                    let* c := lookup com (if k =? 0 then Z.min (fst e) (snd e) else Z.max (fst e) (snd e)) in
                    int_decode hcp 2 s c in
    forall i j e f, nth_error qs i = Some e -> nth_error qs j = Some f ->
      forall k l u v, (k = 0 /\ u = Z.min (fst e) (snd e) \/ k = 1 /\ u = Z.max (fst e) (snd e)) ->
        (l = 0 /\ v = Z.min (fst f) (snd f) \/ l = 1 /\ v = Z.max (fst f) (snd f)) ->
      exists a b, view (Z.of_nat i) k = Ok a /\ view (Z.of_nat j) l = Ok b /\ (a = b <-> col u = col v).
Proof.
move=> N Ge HC HD P Q.
have V1 : forall v, vertex G v -> 1 <= v by move=> v [[a b] [/Ge [Ha Hb] /= [<-|<-]]].
have [_ Mn] := proj1 (num_vertices_spec _ _) N.
have [com [EC HCom]] := commit_coloring owp N HC HD P.
pose o := {| cp_graph := G; cp_coloring := coloring; cp_schemes := None |}.
pose o1 := {| cp_graph := G; cp_coloring := coloring; cp_schemes := Some secrets |}.
pose ans (e : Z * Z) := [secret_list secrets (Z.min (fst e) (snd e)); secret_list secrets (Z.max (fst e) (snd e))].
exists o, o1, com, (map ans qs); split; first by rewrite /new_col_prover /prover_vertices N.
split.
  rewrite [LHS]/= EC /= -/o1.
  suff -> : col_run owp hcp o1 (map (fun e => CReveal (fst e) (snd e)) qs) = Ok (map CRevealed (map ans qs), o1) by [].
  elim: qs Q => //= -[u v] qs IH Q.
  rewrite (reveal_edge secrets N V1) /=; last by apply: Q; left.
  by rewrite IH // => u' v' H; apply: Q; right.
split; first by rewrite map_length.
move=> view i j e f Ei Ej k l u v Hk Hl.
have View : forall i e k u, nth_error qs i = Some e ->
    (k = 0 /\ u = Z.min (fst e) (snd e) \/ k = 1 /\ u = Z.max (fst e) (snd e)) ->
    1 <= u <= n /\ view (Z.of_nat i) k = Ok (pfun perm (col u + 1) - 1).
  move=> {i j e f Ei Ej k l u v Hk Hl} i e k u Ei Hk.
  have Ve : In e qs by apply: nth_error_In Ei.
  have Vx : vertex G (fst e) /\ vertex G (snd e).
    case: e Ve {Ei Hk} => a b /Q [I|I]; split; by [exists (a, b); split=> //; left|exists (a, b); split=> //; right
      |exists (b, a); split=> //; right|exists (b, a); split=> //; left].
  have Hu : 1 <= u <= n.
    have := V1 _ (proj1 Vx); have := V1 _ (proj2 Vx); have := Mn _ (proj1 Vx); have := Mn _ (proj2 Vx); lia.
  split=> //; rewrite /view.
  rewrite (py_nth_nat _ _ (ans e)) ?nth_error_map ?Ei //= (py_nth_nat _ _ e) //.
  have [cu [L [D _]]] := HCom u Hu.
  by case: Hk => -[-> E] /=; rewrite -E L.
have [Hu Eu] := View _ _ _ _ Ei Hk; have [Hv Ev] := View _ _ _ _ Ej Hl.
rewrite Eu Ev; do 2 eexists; split; first by []; split; first by [].
split=> [E|-> //].
have [_ Cu] := HC _ Hu; have [_ Cv] := HC _ Hv.
have : col u + 1 = col v + 1 by apply: (pfun_inj P); lia.
lia.
Qed.
Print Assumptions C116_repeated_queries.

(** A query before the first commitment raises TypeError (or Exception, if it is not an
    edge); a pair that is not an edge always raises Exception. *)
Theorem C116_other_queries (owp : Z -> Z) (hcp : Z -> result Z) (G : graph) coloring o u v :
  new_col_prover G coloring = Ok o ->
  (In (u, v) G \/ In (v, u) G -> col_step owp hcp o (CReveal u v) = Err TypeError) /\
  (~ (In (u, v) G \/ In (v, u) G) -> forall secrets,
     col_step owp hcp o (CReveal u v) = Err GenericException /\
     col_step owp hcp {| cp_graph := G; cp_coloring := coloring; cp_schemes := secrets |} (CReveal u v) =
       Err GenericException).
Proof.
rewrite /new_col_prover; case: (prover_vertices G) => //= _ [<-].
have M : edge_mem (Z.min u v, Z.max u v) (sorted_graph G) = true <-> In (u, v) G \/ In (v, u) G.
  rewrite /edge_mem existsb_exists /sorted_graph; split.
    move=> [e [/in_map_iff [[a b] [<- I]] /= /andP [/Z.eqb_eq E1 /Z.eqb_eq E2]]].
    have : (a = u /\ b = v) \/ (a = v /\ b = u) by lia.
    by case=> -[<- <-]; [left|right].
  move=> H; exists (Z.min u v, Z.max u v); rewrite /= !Z.eqb_refl; split=> //.
  apply/in_map_iff; case: H => I; [exists (u, v)|exists (v, u)]; split=> //=.
  by rewrite Z.min_comm Z.max_comm.
split=> [/M -> //|H secrets].
have E : edge_mem (Z.min u v, Z.max u v) (sorted_graph G) = false.
  by apply: not_true_is_false => /M.
by rewrite /= /reveal_colors E /=; case: secrets.
Qed.
Print Assumptions C116_other_queries.

(** The path 1 - 2 - 3: two queries and the verifier knows that 1 and 3, which are not
    adjacent, have the same colour. *)
Example C116_example :
  let G := [(1, 2); (3, 2)] in
  let secrets v := (bbs 209 (2 * v), bbs 209 (2 * v + 1)) in
  let* o := new_col_prover G [(1, 0); (2, 1); (3, 0)] in
  let* (answers, _) := col_run (bbs 209) parity o [CCommit secrets [2; 0; 1]; CReveal 1 2; CReveal 2 3] in
  match answers with
  | [CCommitted com; CRevealed [s1; s2]; CRevealed [t2; t3]] =>
    let* c1 := lookup com 1 in let* c2 := lookup com 2 in let* c3 := lookup com 3 in
    let* a := int_decode parity 2 s1 c1 in let* b := int_decode parity 2 s2 c2 in
    let* b' := int_decode parity 2 t2 c2 in let* c := int_decode parity 2 t3 c3 in
    Ok (a, b, b', c)
  | _ => Err GenericException
  end = Ok (2, 0, 0, 2).
Proof. by vm_compute. Qed.
