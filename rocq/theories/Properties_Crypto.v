(** Properties C63-C68 and C83-C86: misc/commitment.py, misc/zero_knowledge.py,
    misc/zkp_3_coloring.py, misc/primality.py and misc/blum_blum_shub.py. *)
From Coq Require Import Bool ZArith List Lia Permutation Znumtheory.
From Coq Require Import ssreflect ssrbool.
From Coq.Strings Require String.
From Verif Require Import Base BaseProofs PrimalityModel PrimalityProofs CommitmentModel CommitmentProofs.
Import String.StringSyntax.
Import ListNotations.
Local Open Scope Z_scope.
Local Set SsrOldRewriteGoalsOrder.
Local Set Implicit Arguments.
Local Unset Strict Implicit.

(** ** C63: correctness of the commitments *)

(** For every one-way function, predicate (even one that does not return bits),
    secret and bit, the opened commitment verifies and decodes to the bit. *)
Theorem C63_bit_correct (owp : Z -> Z) (hcp : Z -> result Z) (secret bit g : Z) :
  hcp secret = Ok g ->
  exists c, bit_commit owp hcp secret bit = Ok c /\
    bit_verify owp hcp secret c = Ok true /\ bit_decode hcp secret c = Ok bit.
Proof.
move=> G; exists (owp secret, Z.lxor g bit); rewrite (bit_verify_spec _ _ G) /= Z.eqb_refl.
by rewrite {1}/bit_commit G; do !split=> //; apply: (bit_decode_commit (owp := owp) G); rewrite /bit_commit G.
Qed.
Print Assumptions C63_bit_correct.

(** With a secret made by [generateSecret] the published string is the one-way
    function applied twice to the random draw. *)
Theorem C63_generated_secret (owp : Z -> Z) (hcp : Z -> result Z) (draw bit g : Z) :
  hcp (owp draw) = Ok g ->
  exists b, bit_commit owp hcp (generateSecret owp draw) bit = Ok (owp (owp draw), b) /\
    Z.lxor b g = bit.
Proof.
move=> G; exists (Z.lxor g bit); rewrite /bit_commit /generateSecret G; split=> //.
by rewrite Z.lxor_comm -Z.lxor_assoc Z.lxor_nilpotent Z.lxor_0_l.
Qed.
Print Assumptions C63_generated_secret.

Example C63_generated_secret_example :
  bit_commit (bbs 209) parity (generateSecret (bbs 209) 5) 1 = Ok (207, 0).
Proof. by vm_compute. Qed.

(** Integers that fit are recovered exactly. *)
Theorem C63_int_correct (owp : Z -> Z) (hcp : Z -> result Z) (secrets : list Z) (x : Z) :
  secrets <> [] -> (forall s, In s secrets -> exists g, hcp s = Ok g) ->
  0 <= x < 2 ^ Z.of_nat (length secrets) ->
  exists cs, int_commit owp hcp secrets x = Ok cs /\
    int_verify owp hcp (length secrets) secrets cs = Ok true /\
    int_decode hcp (length secrets) secrets cs = Ok x.
Proof.
move=> N T [H0 H1].
have [cs [C1 [_ [C2 C3]]]] := @int_commit_total owp hcp secrets x H0 T N.
exists cs; split=> //; split=> //; rewrite C3; f_equal.
rewrite Z.max_l ?Z.pow_0_r ?Z.div_1_r //.
case: (Z.eq_dec x 0) => [->|Nx].
  by case: (secrets) N => // a l _; rewrite [length _]/= Nat2Z.inj_succ; rewrite [Z.log2 0]/=; lia.
have := Z.log2_lt_pow2 x (Z.of_nat (length secrets)) ltac:(lia); lia.
Qed.
Print Assumptions C63_int_correct.

(** Larger integers are accepted and silently truncated to their leading bits. *)
Theorem C63_int_truncates (owp : Z -> Z) (hcp : Z -> result Z) (secrets : list Z) (x : Z) :
  secrets <> [] -> (forall s, In s secrets -> exists g, hcp s = Ok g) ->
  2 ^ Z.of_nat (length secrets) <= x ->
  exists cs, int_commit owp hcp secrets x = Ok cs /\
    int_verify owp hcp (length secrets) secrets cs = Ok true /\
    int_decode hcp (length secrets) secrets cs =
      Ok (x / 2 ^ (Z.log2 x + 1 - Z.of_nat (length secrets))).
Proof.
move=> N T H; have P := Z.pow_pos_nonneg 2 (Z.of_nat (length secrets)) ltac:(lia) ltac:(lia).
have [cs [C1 [_ [C2 C3]]]] := @int_commit_total owp hcp secrets x ltac:(lia) T N.
exists cs; split=> //; split=> //; rewrite C3 Z.max_r //.
have := Z.log2_le_pow2 x (Z.of_nat (length secrets)) ltac:(lia); lia.
Qed.
Print Assumptions C63_int_truncates.

(** Negative integers raise ValueError; with no bit schemes decoding raises. *)
Theorem C63_int_errors (owp : Z -> Z) (hcp : Z -> result Z) :
  (forall secrets x, x < 0 -> int_commit owp hcp secrets x = Err ValueError) /\
  (forall secrets cs, int_decode hcp 0 secrets cs = Err ValueError).
Proof. by split=> // secrets [|p|p]. Qed.
Print Assumptions C63_int_errors.

(** A decoded "bit" between 2 and 9 makes the decoding raise ValueError, whatever the other
    bits are: the opening of a commitment whose second component is not a bit. *)
Theorem C63_decode_not_a_bit (hcp : Z -> result Z) (n : nat) (secrets : list Z) (cs : list (Z * Z))
    (bits : list Z) (k : nat) (d : Z) :
  length bits = Nat.min n (Nat.min (length secrets) (length cs)) ->
  (forall i s c b, nth_error secrets i = Some s -> nth_error cs i = Some c -> nth_error bits i = Some b ->
     exists g, hcp s = Ok g /\ b = Z.lxor (snd c) g) ->
  nth_error bits k = Some d -> 2 <= d <= 9 ->
  int_decode hcp n secrets cs = Err ValueError.
Proof.
move=> L H K D; rewrite /int_decode.
suff -> : decodeBits hcp n secrets cs = Ok bits by apply: (int2_bad (d := d)) => //; apply: nth_error_In K.
rewrite /decodeBits; move: L H {K D}; elim: n secrets cs bits => [|n IH] [|s secrets] [|c cs] [|b bits] //= [L] H.
have [g [Eg ->]] := H 0%nat s c b eq_refl eq_refl eq_refl.
rewrite /bit_decode Eg /= (IH secrets cs bits L) //= => i; exact: (H (S i)).
Qed.
Print Assumptions C63_decode_not_a_bit.

Example C63_example :
  (let* cs := int_commit (bbs 209) parity [5; 36; 100; 9] 11 in
   let* ok := int_verify (bbs 209) parity 4 [5; 36; 100; 9] cs in
   let* x := int_decode parity 4 [5; 36; 100; 9] cs in Ok (cs, ok, x))
  = Ok ([(25, 1); (42, 0); (177, 0); (81, 1)], true, 11) /\
  (let* cs := int_commit (bbs 209) parity [5; 36; 100; 9] 333 in
   int_decode parity 4 [5; 36; 100; 9] cs) = Ok 10 /\
  int_decode parity 2 [5; 36] [(25, 1); (42, 4)] = Err ValueError.
Proof. by vm_compute. Qed.

(** ** C64: binding *)

(** The bit verifier accepts exactly when the secret maps to the first component. *)
Theorem C64_bit_verify_iff (owp : Z -> Z) (hcp : Z -> result Z) (s g : Z) (c : Z * Z) :
  hcp s = Ok g -> exists b, bit_verify owp hcp s c = Ok b /\ (b = true <-> owp s = fst c).
Proof.
move=> G; exists (fst c =? owp s); rewrite (bit_verify_spec _ _ G); split=> //.
by split=> [/Z.eqb_eq ->|->]; rewrite ?Z.eqb_refl.
Qed.
Print Assumptions C64_bit_verify_iff.

(** Opening one commitment to two different bits exhibits a collision of the
    one-way function. *)
Theorem C64_bit_binding (owp : Z -> Z) (hcp : Z -> result Z) (s s' b b' : Z) (c : Z * Z) :
  bit_verify owp hcp s c = Ok true -> bit_verify owp hcp s' c = Ok true ->
  bit_decode hcp s c = Ok b -> bit_decode hcp s' c = Ok b' -> b <> b' ->
  s <> s' /\ owp s = owp s'.
Proof.
move=> V V' D D' N; split; first by move=> E; subst s'; case: N; rewrite D in D'; case: D'.
move: D D'; rewrite /bit_decode.
case G: (hcp s) => [g|//] _; case G': (hcp s') => [g'|//] _.
move: V V'; rewrite (bit_verify_spec _ _ G) (bit_verify_spec _ _ G') => -[/Z.eqb_eq <-] [/Z.eqb_eq].
by [].
Qed.
Print Assumptions C64_bit_binding.

(** The integer verifier accepts exactly when every opened position matches; the
    number of opened positions is the prover's choice. *)
Theorem C64_int_verify_iff (owp : Z -> Z) (hcp : Z -> result Z) (n : nat)
    (secrets : list Z) (cs : list (Z * Z)) :
  (forall s, In s secrets -> exists g, hcp s = Ok g) ->
  exists b, int_verify owp hcp n secrets cs = Ok b /\
    (b = true <-> forall i s c, (i < n)%nat -> nth_error secrets i = Some s ->
                    nth_error cs i = Some c -> fst c = owp s).
Proof.
move=> T; rewrite /int_verify.
have ZI : forall (l : list Z) (m : list (Z * Z)) k s c, In (s, c) (firstn k (zip l m)) <->
   exists i, (i < k)%nat /\ nth_error l i = Some s /\ nth_error m i = Some c.
  elim=> [|x l IH] m k s c.
    by rewrite (_ : zip [] m = []) // firstn_nil; split=> // -[[|i] []] // _ [].
  case: m => [|y m]; first by rewrite (_ : zip (x :: l) [] = []) // firstn_nil; split=> // -[[|i] [_ [_]]].
  case: k => [|k]; first by split=> // -[i []]; lia.
  rewrite /=; split.
    case=> [[<- <-]|/IH [i [Hi H]]]; first by exists 0%nat; split; [lia|].
    by exists (S i); split; [lia|].
  move=> [[|i] [Hi [H1 H2]]]; first by left; case: H1 => <-; case: H2 => <-.
  by right; apply/IH; exists i; split; [lia|].
have [|b [E B]] := @allM_verify owp hcp (firstn n (zip secrets cs)).
  by move=> s c /ZI [i [_ [H _]]]; apply: T; apply: nth_error_In H.
exists b; split=> //; rewrite B; split=> W.
  by move=> i s c Hi H1 H2; apply: W; apply/ZI; exists i.
by move=> s c /ZI [i [Hi [H1 H2]]]; apply: (W i).
Qed.
Print Assumptions C64_int_verify_iff.

(** An empty opening verifies against every commitment. *)
Theorem C64_empty_opening_accepted (owp : Z -> Z) (hcp : Z -> result Z) n cs :
  int_verify owp hcp n [] cs = Ok true.
Proof. by case: n. Qed.
Print Assumptions C64_empty_opening_accepted.

(** The instance used by the project is not binding: the verifier does not check
    that the opening is a quadratic residue, so every commitment to a bit opens to
    the other bit whenever [s] and [M - s] have different parities. *)
Theorem C64_bbs_binding_refuted (M s bit : Z) (g g' : Z) :
  0 < s < M -> parity s = Ok g -> parity (M - s) = Ok g' -> g <> g' ->
  0 <= bit <= 1 ->
  exists c, bit_commit (bbs M) parity s bit = Ok c /\
    bit_verify (bbs M) parity s c = Ok true /\
    bit_decode parity s c = Ok bit /\
    bit_verify (bbs M) parity (M - s) c = Ok true /\
    bit_decode parity (M - s) c = Ok (1 - bit).
Proof.
move=> Hs G G' N Hb; exists (bbs M s, Z.lxor g bit).
rewrite !(bit_verify_spec _ _ G) (bit_verify_spec _ _ G') /= bbs_neg; last by lia.
rewrite !Z.eqb_refl /bit_commit /bit_decode G G' /=; do !split=> //.
  by rewrite (Z.lxor_comm g bit) Z.lxor_assoc Z.lxor_nilpotent Z.lxor_0_r.
have := parity_bit (n := s) ltac:(lia); have := parity_bit (n := M - s) ltac:(lia).
rewrite G G'; move=> [[E']|[E']] [[E]|[E]]; subst g g' => //;
  have [->|->] : bit = 0 \/ bit = 1 by [lia|].
all: by [].
Qed.
Print Assumptions C64_bbs_binding_refuted.

Example C64_example :
  (let* c := bit_commit (bbs 21) parity 4 1 in
   let* a := bit_verify (bbs 21) parity 4 c in
   let* b := bit_verify (bbs 21) parity 17 c in
   let* d := bit_verify (bbs 21) parity 5 c in
   let* x := bit_decode parity 4 c in
   let* y := bit_decode parity 17 c in Ok (a, b, d, x, y))
  = Ok (true, true, false, 1, 0).
Proof. by vm_compute. Qed.

(** ** C65: completeness of the graph isomorphism protocol *)

(** Honest runs are accepted for every graph, permutation and challenge, provided
    both graphs have the same largest vertex. *)
Theorem C65_completeness (G1 G2 : graph) (n : Z) (iso L : list Z) (choice : Z) :
  (forall a b, In (a, b) G1 -> 1 <= a /\ 1 <= b) ->
  num_vertices G1 = Ok n -> num_vertices G2 = Ok n ->
  Permutation iso (zrange 0 n) -> Permutation L (zrange 0 n) ->
  apply_isomorphism G1 (make_permutation_function iso) = Ok G2 ->
  choice = 1 \/ choice = 2 ->
  run_protocol G1 G2 iso L choice = Ok true.
Proof.
move=> V; apply: zk_complete => v [[a b] [/V [Ha Hb] /= [<-|<-]]] //.
Qed.
Print Assumptions C65_completeness.

(** In particular when every vertex 1..n lies on an edge. *)
Theorem C65_completeness_no_isolated (G1 : graph) (n : Z) (iso L : list Z) (choice : Z) :
  1 <= n ->
  (forall v, (exists e, In e G1 /\ (fst e = v \/ snd e = v)) <-> 1 <= v <= n) ->
  Permutation iso (zrange 0 n) -> Permutation L (zrange 0 n) ->
  choice = 1 \/ choice = 2 ->
  exists G2, apply_isomorphism G1 (make_permutation_function iso) = Ok G2 /\
    run_protocol G1 G2 iso L choice = Ok true.
Proof.
move=> Hn V Pi PL C; have [G2 [E [N1 N2]]] := image_vertices V Hn Pi.
exists G2; split=> //; apply: (zk_complete (n := n)) => // v /V; lia.
Qed.
Print Assumptions C65_completeness_no_isolated.

(** With isolated vertices completeness is false: the image of a graph under a
    permutation of its vertices is rejected by an AssertionError. *)
Theorem C65_completeness_isolated_refuted :
  exists G1 G2 n iso, num_vertices G1 = Ok n /\ Permutation iso (zrange 0 n) /\
    apply_isomorphism G1 (make_permutation_function iso) = Ok G2 /\
    forall L choice, run_protocol G1 G2 iso L choice = Err AssertionError.
Proof.
exists [(1, 3)], [(2, 1)], 3, [1; 2; 0]; do !split=> //.
apply: (Permutation_trans (l' := [1; 0; 2])); first by apply: perm_skip; apply: perm_swap.
exact: perm_swap.
Qed.
Print Assumptions C65_completeness_isolated_refuted.

(** The constructors reject, before anything is sent: an empty graph raises ValueError, and
    graphs with different largest vertices AssertionError. *)
Theorem C65_constructor_errors (G1 G2 : graph) (iso L : list Z) (choice : Z) :
  let vertex (G : graph) v := exists e, In e G /\ (fst e = v \/ snd e = v) in
  (G1 = [] \/ G2 = [] -> run_protocol G1 G2 iso L choice = Err ValueError) /\
  ((exists v, vertex G1 v /\ forall w, vertex G2 w -> w < v) -> G2 <> [] ->
     run_protocol G1 G2 iso L choice = Err AssertionError) /\
  ((exists v, vertex G2 v /\ forall w, vertex G1 w -> w < v) -> G1 <> [] ->
     run_protocol G1 G2 iso L choice = Err AssertionError).
Proof.
rewrite /run_protocol /zk_init; split; last split.
- case=> ->; first by [].
  by case E: (num_vertices G1) => [n|x] //=; move: E; case: (G1) => [|[a b] G] //= [<-].
- move=> [v [V M]] /num_vertices_total [n2 E2].
  have [n1 E1] : exists n, num_vertices G1 = Ok n by apply: num_vertices_total => E; case: V => e []; rewrite E.
  rewrite E1 E2 /=; have [V1 M1] := proj1 (num_vertices_spec _ _) E1; have [V2 M2] := proj1 (num_vertices_spec _ _) E2.
  by have := M1 _ V; have := M _ V2; case: Z.eqb_spec => //; lia.
- move=> [v [V M]] /num_vertices_total [n1 E1].
  have [n2 E2] : exists n, num_vertices G2 = Ok n by apply: num_vertices_total => E; case: V => e []; rewrite E.
  rewrite E1 E2 /=; have [V1 M1] := proj1 (num_vertices_spec _ _) E1; have [V2 M2] := proj1 (num_vertices_spec _ _) E2.
  by have := M2 _ V; have := M _ V1; case: Z.eqb_spec => //; lia.
Qed.
Print Assumptions C65_constructor_errors.

(** The map the prover answers with raises ValueError at a vertex that the permutation does
    not reach. *)
Theorem C65_answer_outside (iso L : list Z) (choice v : Z) :
  ~ In (v - 1) L -> prove_isomorphic_to iso L choice v = Err ValueError.
Proof.
move=> H; have E : forall i, list_index L (v - 1) i = Err ValueError.
  elim: L H => //= y L IH H i; case: Z.eqb_spec => [X|_]; first by case: H; left.
  by apply: IH => I; apply: H; right.
by rewrite /prove_isomorphic_to /make_inverse_permutation_function; case: ifP => _; rewrite E.
Qed.
Print Assumptions C65_answer_outside.

Example C65_example :
  run_protocol [(1, 2); (1, 4); (1, 3); (2, 5); (3, 4)] [(3, 1); (3, 5); (3, 2); (1, 4); (2, 5)]
     [2; 0; 1; 4; 3] [4; 2; 0; 1; 3] 2 = Ok true /\
  run_protocol [(1, 2); (1, 4); (1, 3); (2, 5); (3, 4)] [(3, 1); (3, 5); (3, 2); (1, 4); (2, 4)]
     [2; 0; 1; 4; 3] [4; 2; 0; 1; 3] 2 = Ok false /\
  run_protocol [(1, 2); (2, 3)] [(1, 2); (2, 4)] [0; 1; 2] [0; 1; 2] 1 = Err AssertionError /\
  prove_isomorphic_to [0; 1; 2] [2; 1; 0] 1 5 = Err ValueError.
Proof. by vm_compute. Qed.

(** ** C66: soundness *)

(** Two accepted answers by maps that are injective on the vertices of [H] yield
    an isomorphism (a relabelling that respects the order of the edge lists). *)
Theorem C66_special_soundness (G1 G2 H : graph) (f1 f2 : Z -> result Z) :
  zk_accepts G1 G2 f1 1 H = Ok true -> zk_accepts G1 G2 f2 2 H = Ok true ->
  (forall v w x, (exists e, In e H /\ (fst e = v \/ snd e = v)) ->
     (exists e, In e H /\ (fst e = w \/ snd e = w)) -> f1 v = Ok x -> f1 w = Ok x -> v = w) ->
  (forall v w x, (exists e, In e H /\ (fst e = v \/ snd e = v)) ->
     (exists e, In e H /\ (fst e = w \/ snd e = w)) -> f2 v = Ok x -> f2 w = Ok x -> v = w) ->
  exists sigma : Z -> Z,
    G2 = map (fun e => (sigma (fst e), sigma (snd e))) G1 /\
    forall v w, (exists e, In e G1 /\ (fst e = v \/ snd e = v)) ->
      (exists e, In e G1 /\ (fst e = w \/ snd e = w)) -> sigma v = sigma w -> v = w.
Proof.
move=> /zk_acceptsP [X [[<-] E1]] /zk_acceptsP [Y [[<-] E2]] I1 I2.
have [sigma [S1 S2]] := zk_special (proj1 E1 Logic.eq_refl) (proj1 E2 Logic.eq_refl) I1.
by exists sigma; split=> //; apply: S2.
Qed.
Print Assumptions C66_special_soundness.

(** But the verifier does not check injectivity: for all graphs with equally many
    edges (isomorphic or not) there is an [H] and an answer for each challenge. *)
Theorem C66_soundness_refuted (G1 G2 : graph) :
  length G1 = length G2 ->
  exists H f1 f2, zk_accepts G1 G2 f1 1 H = Ok true /\ zk_accepts G1 G2 f2 2 H = Ok true.
Proof.
move=> L; exists (fresh_edges (length G1) 1), (cheat G1), (cheat G2).
rewrite /zk_accepts /= cheat_ok L cheat_ok /=.
by split; f_equal; apply/graph_eqbP.
Qed.
Print Assumptions C66_soundness_refuted.

(** The edge count is the only protection. *)
Theorem C66_edge_count (G1 G2 H : graph) f choice b :
  zk_accepts G1 G2 f choice H = Ok b -> b = true ->
  length H = length G1 \/ length H = length G2.
Proof.
move=> /zk_acceptsP [G [P E]] Eb; have /apply_inv [L _] := proj1 E Eb.
move: P; rewrite /py_nth.
case: (_ || _) => //; set k := Z.to_nat _; case: k => [|[|[|k]]] //= [EG]; subst G; by [left|right].
Qed.
Print Assumptions C66_edge_count.

Example C66_example :
  let triangle := [(1, 2); (2, 3); (1, 3)] in
  let path := [(1, 2); (2, 3); (2, 3)] in
  zk_accepts triangle path (cheat triangle) 1 [(1, 2); (3, 4); (5, 6)] = Ok true /\
  zk_accepts triangle path (cheat path) 2 [(1, 2); (3, 4); (5, 6)] = Ok true /\
  zk_accepts triangle path (cheat path) 1 [(1, 2); (3, 4); (5, 6)] = Ok false.
Proof. by vm_compute. Qed.

(** ** C67: the primality test *)

(** Primes are accepted whatever is drawn. *)
Theorem C67_no_false_negatives (p : Z) (draws : list Z) :
  prime p -> (forall a, In a draws -> 2 <= a <= p - 2) -> probablyPrime p draws = Ok true.
Proof.
move=> Hp Hd; have H2 := prime_ge_2 _ Hp.
case: (Z.eq_dec p 2) => [->//|N2]; case: (Z.eq_dec p 3) => [->//|N3].
have Ho : p mod 2 = 1.
  have B := Z.mod_pos_bound p 2 ltac:(lia).
  case: (Z.eq_dec (p mod 2) 0) => [E|N]; last by clear -B N; lia.
  have D : (2 | p) by apply Z.mod_divide; lia.
  by have := prime_div_prime 2 p prime_2 Hp D; lia.
have H3 : 3 < p by clear -H2 N2 N3; lia.
have [s [r [Hs [Hr [_ [E ->]]]]]] := probablyPrime_odd draws H3 Ho.
f_equal; apply/witness_loopP; try lia.
apply/Forall_forall => a /Hd Ha; apply: prime_strong_liar => //; try lia.
by move=> D; have := Z.divide_pos_le p a ltac:(lia) D; lia.
Qed.
Print Assumptions C67_no_false_negatives.

(** The answer is total, and False is always right. *)
Theorem C67_false_means_composite (p : Z) (draws : list Z) :
  (forall a, In a draws -> 2 <= a <= p - 2) ->
  exists b, probablyPrime p draws = Ok b /\ (b = false -> ~ prime p).
Proof.
move=> Hd.
have [b E] : exists b, probablyPrime p draws = Ok b.
  rewrite /probablyPrime; case: (_ || _); first by exists true.
  case C: (_ || _); first by exists false.
  have [s [r [-> _]]] := @decompose_ok (p - 1) ltac:(move: C => /orb_false_iff [/Z.ltb_ge]; lia).
  by eexists.
exists b; split=> // Eb Hp; subst b.
by have := C67_no_false_negatives Hp Hd; rewrite E.
Qed.
Print Assumptions C67_false_means_composite.

(** For an odd number the test computes the Miller-Rabin criterion. *)
Theorem C67_miller_rabin (p s r : Z) (draws : list Z) :
  3 < p -> 0 <= s -> r mod 2 = 1 -> p - 1 = 2 ^ s * r ->
  p mod 2 = 1 ->
  exists b, probablyPrime p draws = Ok b /\
   (b = true <-> forall a, In a draws ->
      a ^ r mod p = 1 \/ exists i, 0 <= i < s /\ a ^ (2 ^ i * r) mod p = p - 1).
Proof.
move=> Hp Hs Hr E Ho.
have [s' [r' [Hs' [Hr' [Hro' [E' X]]]]]] := probablyPrime_odd draws Hp Ho.
have [Es Er] := @two_power_odd_unique s' r' s r ltac:(lia) Hs Hro' Hr ltac:(lia); subst s' r'.
exists (witness_loop p s r draws); split=> //.
rewrite witness_loopP; try lia.
have W : forall a, strong_liar p s r a <->
   (a ^ r mod p = 1 \/ exists i, 0 <= i < s /\ a ^ (2 ^ i * r) mod p = p - 1).
  have M1 : cg p (p - 1) (-1) by exists 1; lia.
  move=> a; rewrite /strong_liar; split=> -[H|[i [Hi H]]].
  - by left; apply/cg_val; [lia|].
  - by right; exists i; split=> //; apply/cg_val; [lia|apply: cg_trans H (cg_sym M1)].
  - by left; apply/cg_val; [lia|].
  - by right; exists i; split=> //; apply: cg_trans M1; apply/cg_val; [lia|].
rewrite Forall_forall; split=> H a Ha; by apply/W; apply: H.
Qed.
Print Assumptions C67_miller_rabin.

(** Every composite number is exposed by some draw: each proper divisor is a
    witness. *)
Theorem C67_composite_has_witness (p : Z) :
  2 <= p -> ~ prime p ->
  forall draws, (exists d, In d draws /\ 1 < d < p /\ (d | p)) ->
  probablyPrime p draws = Ok false.
Proof.
move=> H2 Np draws [d [I [Hd D]]].
case: (Z.eq_dec p 2) => [E|N2]; first by case: Np; rewrite E; exact: prime_2.
case: (Z.eq_dec p 3) => [E|N3]; first by case: Np; rewrite E; exact: prime_3.
case: (Z.eq_dec (p mod 2) 0) => [E|Ho].
  rewrite /probablyPrime E /=.
  have -> : (p =? 2) = false by apply/Z.eqb_neq.
  have -> : (p =? 3) = false by apply/Z.eqb_neq.
  by rewrite orb_true_r.
have {}Ho : p mod 2 = 1 by have := Z.mod_pos_bound p 2 ltac:(lia); clear -Ho; lia.
have H3 : 3 < p by clear -H2 N2 N3; lia.
have [s [r [Hs [Hr [_ [E ->]]]]]] := probablyPrime_odd draws H3 Ho.
f_equal; apply/not_true_iff_false => /witness_loopP W.
have /Forall_forall F := W ltac:(lia) ltac:(lia).
by apply: (divisor_not_liar (p := p) (s := s) (r := r) (d := d)); try lia; [|apply: F].
Qed.
Print Assumptions C67_composite_has_witness.

(** [decompose] is the exact splitting, and does not terminate on 0. *)
Theorem C67_decompose (n : Z) :
  (0 < n -> exists s r, decompose n = Ok (s, r) /\ 0 <= s /\ r mod 2 = 1 /\ n = 2 ^ s * r) /\
  (forall fuel, decompose_loop fuel 0 0 = Err Diverges).
Proof.
split=> [H|fuel]; last exact: decompose_zero.
by have [s [r [E [Hs [_ [Hr Hn]]]]]] := decompose_ok H; exists s, r.
Qed.
Print Assumptions C67_decompose.

Example C67_example :
  probablyPrime 101 [2; 3; 50; 99] = Ok true /\ decompose 560 = Ok (4, 35) /\
  probablyPrime 561 [2] = Ok false /\ probablyPrime 561 [50] = Ok true /\
  probablyPrime 561 [] = Ok true /\ probablyPrime 2047 [2] = Ok true /\
  probablyPrime (-7) [2] = Ok false.
Proof. by vm_compute. Qed.

(** ** C68: the 3-colouring protocol *)

(** The verifier accepts exactly when both openings match their commitments and the two
    decoded colours differ. *)
Theorem C68_accept_iff (owp : Z -> Z) (hcp : Z -> result Z) (committed : list (Z * list (Z * Z)))
    (e : Z * Z) (ru rv : list Z) cu cv du dv bu bv :
  lookup committed (fst e) = Ok cu -> lookup committed (snd e) = Ok cv ->
  int_decode hcp 2 ru cu = Ok du -> int_decode hcp 2 rv cv = Ok dv ->
  int_verify owp hcp 2 ru cu = Ok bu -> int_verify owp hcp 2 rv cv = Ok bv ->
  exists b, col_accepts owp hcp committed e [ru; rv] = Ok b /\
    (b = true <-> bu = true /\ bv = true /\ du <> dv).
Proof.
move=> Lu Lv Du Dv Vu Vv; rewrite /col_accepts /= Lu /= Du /= Vu /=.
case: bu {Vu}; last by exists false; split=> //; split=> // -[].
rewrite /= Lv /= Dv /= Vv /=; case: bv {Vv}; last by exists false; split=> //; split=> // -[_ []].
rewrite /=; eexists; split; first by [].
rewrite negb_true_iff Z.eqb_neq; tauto.
Qed.
Print Assumptions C68_accept_iff.

(** An honest run accepts exactly when the challenged edge is properly coloured;
    for every graph, colouring, permutation of the colours, secrets, one-way
    function and predicate. *)
Theorem C68_honest_run (owp : Z -> Z) (hcp : Z -> result Z) (G : graph) (n : Z)
    (coloring : list (Z * Z)) (col : Z -> Z) (secrets : Z -> Z * Z) (perm : list Z) (e : Z * Z) :
  num_vertices G = Ok n ->
  (forall a b, In (a, b) G -> 1 <= a /\ 1 <= b) ->
  (forall v, 1 <= v <= n -> lookup coloring v = Ok (col v) /\ 0 <= col v < 3) ->
  (forall v, 1 <= v <= n ->
     (exists g, hcp (fst (secrets v)) = Ok g) /\ (exists g, hcp (snd (secrets v)) = Ok g)) ->
  Permutation perm (zrange 0 3) ->
  In e (sorted_graph G) ->
  col_run_protocol owp hcp G coloring secrets perm e = Ok (negb (col (fst e) =? col (snd e))).
Proof.
move=> N V; apply: col_protocol => // v [[a b] [/V [Ha Hb] /= [<-|<-]]] //.
Qed.
Print Assumptions C68_honest_run.

(** Hence completeness: a proper colouring is accepted on every edge. *)
Theorem C68_completeness (owp : Z -> Z) (hcp : Z -> result Z) (G : graph) (n : Z)
    (coloring : list (Z * Z)) (col : Z -> Z) (secrets : Z -> Z * Z) (perm : list Z) (e : Z * Z) :
  num_vertices G = Ok n ->
  (forall a b, In (a, b) G -> 1 <= a /\ 1 <= b /\ col a <> col b) ->
  (forall v, 1 <= v <= n -> lookup coloring v = Ok (col v) /\ 0 <= col v < 3) ->
  (forall v, 1 <= v <= n ->
     (exists g, hcp (fst (secrets v)) = Ok g) /\ (exists g, hcp (snd (secrets v)) = Ok g)) ->
  Permutation perm (zrange 0 3) ->
  In e (sorted_graph G) ->
  col_run_protocol owp hcp G coloring secrets perm e = Ok true.
Proof.
move=> N V HC HD P I; rewrite (@C68_honest_run owp hcp G n coloring col) //; last first.
  by move=> a b /V [? []].
f_equal; apply/negb_true_iff/Z.eqb_neq.
move: I => /in_map_iff [[a b] [<- /V [_ [_ D]]]] /=.
by case: (Z.le_ge_cases a b) => H X; case: D; move: X;
   rewrite ?(Z.min_l _ _ H) ?(Z.max_r _ _ H) ?(Z.min_r _ _ H) ?(Z.max_l _ _ H).
Qed.
Print Assumptions C68_completeness.

(** The verifier does not check the range of colours: a prover with a proper
    4-colouring is accepted on every edge. *)
Theorem C68_four_colours_accepted (owp : Z -> Z) (hcp : Z -> result Z) (G : graph) (n : Z)
    (col : Z -> Z) (secrets : Z -> Z * Z) :
  num_vertices G = Ok n ->
  (forall a b, In (a, b) G -> 1 <= a /\ 1 <= b) ->
  (forall v, 1 <= v <= n -> 0 <= col v < 4) ->
  (forall v, 1 <= v <= n ->
     (exists g, hcp (fst (secrets v)) = Ok g) /\ (exists g, hcp (snd (secrets v)) = Ok g)) ->
  exists committed, forall e, In e (sorted_graph G) ->
    col_accepts owp hcp committed e
      [[fst (secrets (fst e)); snd (secrets (fst e))]; [fst (secrets (snd e)); snd (secrets (snd e))]]
    = Ok (negb (col (fst e) =? col (snd e))).
Proof.
move=> N V; apply: col_four => // v [[a b] [/V [Ha Hb] /= [<-|<-]]] //.
Qed.
Print Assumptions C68_four_colours_accepted.

(** Soundness is false for every graph, colourable or not: commit to colour 3
    everywhere and open one end point of the challenged edge with only one of its
    two secrets. *)
Theorem C68_soundness_refuted (owp : Z -> Z) (hcp : Z -> result Z) (G : graph) (n : Z)
    (secrets : Z -> Z * Z) :
  num_vertices G = Ok n ->
  (forall a b, In (a, b) G -> 1 <= a /\ 1 <= b) ->
  (forall v, 1 <= v <= n ->
     (exists g, hcp (fst (secrets v)) = Ok g) /\ (exists g, hcp (snd (secrets v)) = Ok g)) ->
  exists committed, forall e, In e (sorted_graph G) ->
    exists revealed, col_accepts owp hcp committed e revealed = Ok true.
Proof.
move=> N V HD.
have V1 : forall v, vertex G v -> 1 <= v by move=> v [[a b] [/V [Ha Hb] /= [<-|<-]]].
have [committed H] := col_cheat owp N V1 HD; exists committed => e I.
by eexists; apply: H.
Qed.
Print Assumptions C68_soundness_refuted.

(** What is revealed: the two secrets of the smaller and then of the larger end point, for
    an edge given in either order; any other pair of vertices is refused, and an edge at a
    vertex below 1 raises KeyError. *)
Theorem C68_reveal (G : graph) (secrets : Z -> Z * Z) (u v : Z) :
  let two w := [fst (secrets w); snd (secrets w)] in
  (In (u, v) G \/ In (v, u) G -> 1 <= u -> 1 <= v ->
     reveal_colors G secrets u v = Ok [two (Z.min u v); two (Z.max u v)]) /\
  (In (u, v) G \/ In (v, u) G -> u < 1 \/ v < 1 -> reveal_colors G secrets u v = Err KeyError) /\
  (~ In (u, v) G -> ~ In (v, u) G -> reveal_colors G secrets u v = Err GenericException).
Proof.
move=> two.
have M : In (u, v) G \/ In (v, u) G -> edge_mem (Z.min u v, Z.max u v) (sorted_graph G) = true.
  move=> I; apply: edge_memP; apply/in_map_iff.
  by case: I => I; [exists (u, v)|exists (v, u)]; split=> //=; f_equal; lia.
have VV : In (u, v) G \/ In (v, u) G -> exists n, num_vertices G = Ok n /\ u <= n /\ v <= n.
  move=> I; have [n E] : exists n, num_vertices G = Ok n by apply: num_vertices_total => X; move: I; rewrite X /=; tauto.
  exists n; split=> //; have [_ Mn] := proj1 (num_vertices_spec _ _) E.
  by split; apply: Mn; case: I => I; [exists (u, v)|exists (v, u)|exists (u, v)|exists (v, u)]; split=> //=; tauto.
have X n w : existsb (Z.eqb w) (zrange 1 (n + 1)) = (1 <=? w) && (w <=? n).
  apply/idP/idP; first by move=> /existsb_exists [z [/zrange_In I /Z.eqb_eq E]]; lia.
  by move=> H; apply/existsb_exists; exists w; rewrite Z.eqb_refl zrange_In; split=> //; lia.
rewrite /reveal_colors /prover_vertices; split; last split.
- move=> I Hu Hv; rewrite (M I) /=; have [n [-> [Nu Nv]]] := VV I; rewrite /= !X.
  have -> : (1 <=? Z.min u v) && (Z.min u v <=? n) by lia.
  have -> : (1 <=? Z.max u v) && (Z.max u v <=? n) by lia.
  by rewrite /= /two; case: (secrets _) => *; case: (secrets _).
- move=> I H; rewrite (M I) /=; have [n [-> [Nu Nv]]] := VV I; rewrite /= !X.
  by have -> : (1 <=? Z.min u v) && (Z.min u v <=? n) = false by lia.
- move=> H1 H2; case E: (edge_mem _ _) => //; move: E => /existsb_exists [[a b] [/in_map_iff [[c d] [[<- <-] I]] E]].
  move: E => /= /andP [/Z.eqb_eq E1 /Z.eqb_eq E2].
  have [[A B]|[A B]] : (c = u /\ d = v) \/ (c = v /\ d = u) by lia.
    by case: H1; rewrite -A -B.
  by case: H2; rewrite -A -B.
Qed.
Print Assumptions C68_reveal.

(** Committing to an incomplete colouring raises KeyError at the first vertex that has no
    colour, to an empty graph ValueError, and a colour other than -3..2 raises IndexError. *)
Theorem C68_commit_errors (owp : Z -> Z) (hcp : Z -> result Z) (G : graph)
    (coloring : list (Z * Z)) (secrets : Z -> Z * Z) (perm : list Z) (v : Z) :
  (G = [] -> commit_to_coloring owp hcp G coloring secrets perm = Err ValueError) /\
  ((exists e, In e G /\ (v <= fst e \/ v <= snd e)) -> 1 <= v ->
   (forall w, 1 <= w < v -> In w (map fst coloring)) ->
   (forall w c, 1 <= w < v -> In (w, c) coloring -> - Z.of_nat (length perm) <= c < Z.of_nat (length perm)) ->
   (~ In v (map fst coloring) ->
      commit_to_coloring owp hcp G coloring secrets perm = Err KeyError) /\
   (In v (map fst coloring) ->
    (forall c, In (v, c) coloring -> c < - Z.of_nat (length perm) \/ Z.of_nat (length perm) <= c) ->
      commit_to_coloring owp hcp G coloring secrets perm = Err IndexError)).
Proof.
split=> [->//|[e [Ie Ve]] Hv HK HC].
have [n E] : exists n, num_vertices G = Ok n by apply: num_vertices_total => X; rewrite X in Ie.
have [_ Mn] := proj1 (num_vertices_spec _ _) E.
have Bv : v <= n.
  have := Mn (fst e) (ex_intro _ e (conj Ie (or_introl eq_refl))).
  have := Mn (snd e) (ex_intro _ e (conj Ie (or_intror eq_refl))); lia.
pose f w := let* c := lookup coloring w in let* c' := py_nth perm c in Ok (w, c').
have LK w : In w (map fst coloring) -> exists c, lookup coloring w = Ok c /\ In (w, c) coloring.
  elim: (coloring) => //= -[k c] d IH I; case: Z.eqb_spec => [<-|N]; first by exists c; split=> //; left.
  by case: I => [//|/IH [c' [-> I']]]; exists c'; split=> //; right.
have NK w : ~ In w (map fst coloring) -> lookup coloring w = Err KeyError.
  elim: (coloring) => //= -[k c] d IH I; case: Z.eqb_spec => [X|_]; first by case: I; left.
  by apply: IH => J; apply: I; right.
have PRE w : 1 <= w < v -> exists r, f w = Ok r.
  move=> Hw; have [c [L I]] := LK w (HK w Hw); have := HC w c Hw I; rewrite /f L /= /py_nth.
  set m := Z.of_nat (length perm) => B.
  case: ifP => H; first by move: H; case: ifP; lia.
  case N: (nth_error perm _) => [x|] /=; first by eexists.
  by move: N => /nth_error_None; move: H; case: ifP; lia.
have GO x : f v = Err x -> forall k a, a + Z.of_nat k = v -> 1 <= a -> forall l,
    mapM f (map (fun i => a + Z.of_nat i) (seq 0 (k + S l))) = Err x.
  move=> X; elim=> [|k IH] a Ea Ha l.
    by rewrite /= (_ : a + 0 = v) ?X //; lia.
  rewrite /= (_ : a + 0 = a); last lia; have [r ->] := PRE a ltac:(lia); rewrite /=.
  have -> : map (fun i => a + Z.of_nat i) (seq 1 (k + S l)) = map (fun i => (a + 1) + Z.of_nat i) (seq 0 (k + S l)).
    by rewrite -seq_shift map_map; apply: map_ext => i; lia.
  by rewrite (IH (a + 1)) //; lia.
have GO2 x : f v = Err x -> commit_to_coloring owp hcp G coloring secrets perm = Err x.
  move=> X; rewrite /commit_to_coloring /prover_vertices E /= /zrange.
  have -> : Z.to_nat (n + 1 - 1) = (Z.to_nat (v - 1) + S (Z.to_nat (n - v)))%nat by lia.
  by rewrite -/f (GO x X) //; lia.
split=> [H|I H]; apply: GO2; rewrite /f; first by rewrite NK.
have [c [-> J]] := LK v I; rewrite /= /py_nth; have := H c J.
set m := Z.of_nat (length perm) => B.
by have -> : ((if c <? 0 then c + m else c) <? 0) || (m <=? (if c <? 0 then c + m else c)) by case: ifP; lia.
Qed.
Print Assumptions C68_commit_errors.

Example C68_example :
  let G := [(1, 2); (1, 4); (3, 1); (2, 5); (2, 3)] in
  let coloring := [(1, 0); (2, 1); (3, 2); (4, 1); (5, 2)] in
  let secrets v := (v ^ 4 mod 209, (v + 7) ^ 2 mod 209) in
  col_run_protocol (bbs 209) parity G coloring secrets [2; 0; 1] (1, 3) = Ok true /\
  col_run_protocol (bbs 209) parity G ((5, 1) :: coloring) secrets [2; 0; 1] (2, 5) = Ok false /\
  col_run_protocol (bbs 209) parity G coloring secrets [2; 0; 1] (4, 5) = Err GenericException /\
  reveal_colors G secrets 3 1 = Ok [[1; 64]; [81; 100]] /\
  commit_to_coloring (bbs 209) parity G [(1, 0); (2, 1); (4, 1); (5, 2)] secrets [2; 0; 1] = Err KeyError /\
  commit_to_coloring (bbs 209) parity G [(1, 0); (2, 3); (3, 2); (4, 1)] secrets [2; 0; 1] = Err IndexError.
Proof. by vm_compute. Qed.

(** ** C83: the simulator of the graph isomorphism protocol *)

(** What a simulated transcript satisfies: [H] is the image of the chosen graph
    under the returned map, i.e. the map points from the graph to [H]. *)
Theorem C83_simulated_map_direction (G1 G2 : graph) choice L H c f :
  simulate_protocol G1 G2 choice L = Ok (H, c, f) ->
  c = choice /\ exists G, py_nth [G1; G2] (choice - 1) = Ok G /\ apply_isomorphism G f = Ok H.
Proof.
rewrite /simulate_protocol; case P: (py_nth _ _) => [G|//] /=.
case: num_vertices => [n|//] /=; case A: (apply_isomorphism _ _) => [I|//] /= [<- <- <-].
by split=> //; exists G.
Qed.
Print Assumptions C83_simulated_map_direction.

(** The verifier wants a map from [H] to the graph, so "simulated transcripts are
    accepted" is false. *)
Theorem C83_simulated_transcripts_accepted_refuted :
  exists G1 G2 choice n L H f,
    num_vertices G1 = Ok n /\ num_vertices G2 = Ok n /\ Permutation L (zrange 0 n) /\
    simulate_protocol G1 G2 choice L = Ok (H, choice, f) /\
    zk_accepts G1 G2 f choice H = Ok false.
Proof.
exists [(1, 2); (2, 3)], [(1, 3); (3, 2)], 1, 3, [1; 2; 0], [(2, 3); (3, 1)].
exists (make_permutation_function [1; 2; 0]); do !split=> //.
apply: (Permutation_trans (l' := [1; 0; 2])); first by apply: perm_skip; apply: perm_swap.
exact: perm_swap.
Qed.
Print Assumptions C83_simulated_transcripts_accepted_refuted.

(** Exactly when a simulated transcript is accepted: the permutation drawn must undo
    itself on every vertex that lies on an edge of the chosen graph. *)
Theorem C83_accepted_iff (G1 G2 G : graph) choice n L H c f :
  simulate_protocol G1 G2 choice L = Ok (H, c, f) ->
  py_nth [G1; G2] (choice - 1) = Ok G -> num_vertices G = Ok n ->
  (forall a b, In (a, b) G -> 1 <= a /\ 1 <= b) -> Permutation L (zrange 0 n) ->
  exists b, zk_accepts G1 G2 f choice H = Ok b /\
    (b = true <->
     forall e v, In e G -> v = fst e \/ v = snd e -> exists w, f v = Ok w /\ f w = Ok v).
Proof.
rewrite /simulate_protocol => S P N V PL; move: S; rewrite P /= N /=.
have [Vn Mn] := proj1 (num_vertices_spec _ _) N.
have B : forall v, vertex G v -> 1 <= v <= n.
  by move=> v Hv; split; [case: Hv => -[a b] [/V [Ha Hb] /= [<-|<-]]|apply: Mn].
rewrite (@apply_ok G _ (pfun L)) => [|v /B Hv]; last by have [] := perm_fun PL Hv.
move=> [<- _ <-]; rewrite /zk_accepts P /=.
rewrite (@apply_ok _ _ (pfun L)); last first.
  by move=> v /vertex_map [w [/B Hw ->]]; have [_ /(perm_fun PL) []] := perm_fun PL Hw.
rewrite /= map_graph_comp; eexists; split; first by [].
have F v : vertex G v -> make_permutation_function L v = Ok (pfun L v) /\
    make_permutation_function L (pfun L v) = Ok (pfun L (pfun L v)).
  by move=> /B Hv; have [E /(perm_fun PL) [E' _]] := perm_fun PL Hv.
split=> [/graph_eqbP X e v I Ev|X].
  have Hv : vertex G v by exists e; split=> //; case: Ev; auto.
  have [E1 E2] := F v Hv; exists (pfun L v); split=> //; rewrite E2; f_equal.
  have M : In e G -> (pfun L (pfun L (fst e)), pfun L (pfun L (snd e))) = e.
    move: X; rewrite /map_graph; elim: (G) => //= e' G' IH [E'].
    by move=> /IH {}IH [<-|/IH].
  have E := M I; case: Ev => ->; [exact: (f_equal fst E)|exact: (f_equal snd E)].
apply/graph_eqbP; rewrite map_graph_id // => v Hv; have [E1 E2] := F v Hv.
case: (Hv) => e [I Ev]; have [|w [W1 W2]] := X e v I; first by case: Ev; auto.
by move: W1; rewrite E1 => -[W1]; move: W2; rewrite -W1 E2 => -[].
Qed.
Print Assumptions C83_accepted_iff.

(** Returning the inverse map (as the prover does) would always be accepted. *)
Theorem C83_inverse_would_be_accepted (G1 G2 G : graph) choice n L H c f :
  simulate_protocol G1 G2 choice L = Ok (H, c, f) ->
  py_nth [G1; G2] (choice - 1) = Ok G -> num_vertices G = Ok n ->
  (forall a b, In (a, b) G -> 1 <= a /\ 1 <= b) -> Permutation L (zrange 0 n) ->
  zk_accepts G1 G2 (make_inverse_permutation_function L) choice H = Ok true.
Proof.
rewrite /simulate_protocol => S P N V PL; move: S; rewrite P /= N /=.
have [Vn Mn] := proj1 (num_vertices_spec _ _) N.
have B : forall v, vertex G v -> 1 <= v <= n.
  by move=> v Hv; split; [case: Hv => -[a b] [/V [Ha Hb] /= [<-|<-]]|apply: Mn].
rewrite (@apply_ok G _ (pfun L)) => [|v /B Hv]; last by have [] := perm_fun PL Hv.
move=> [<- _ _]; rewrite /zk_accepts P /=.
rewrite (@apply_ok _ _ (fun v => val (make_inverse_permutation_function L v))); last first.
  by move=> v /vertex_map [w [/B Hw ->]]; rewrite (perm_inv_fun PL Hw).
rewrite /= map_graph_comp map_graph_id; last by move=> v /B Hv; rewrite (perm_inv_fun PL Hv).
by f_equal; apply/graph_eqbP.
Qed.
Print Assumptions C83_inverse_would_be_accepted.

Example C83_example :
  (let* t := simulate_protocol [(1, 2); (2, 3); (3, 4)] [(1, 3)] 1 [3; 0; 1; 2] in
  let '(H, c, f) := t in
  let* a := zk_accepts [(1, 2); (2, 3); (3, 4)] [(1, 3)] f c H in
  let* b := zk_accepts [(1, 2); (2, 3); (3, 4)] [(1, 3)]
              (make_inverse_permutation_function [3; 0; 1; 2]) c H in
  Ok (H, a, b))
  = Ok ([(4, 1); (1, 2); (2, 3)], false, true).
Proof. by vm_compute. Qed.

Example C83_involution_example :
  (let* t := simulate_protocol [(1, 2); (2, 3); (3, 4)] [(1, 3)] 1 [1; 0; 3; 2] in
  let '(H, c, f) := t in
  let* a := zk_accepts [(1, 2); (2, 3); (3, 4)] [(1, 3)] f c H in Ok (H, a))
  = Ok ([(2, 1); (1, 4); (4, 3)], true).
Proof. by vm_compute. Qed.

(** ** C84: Blum-Blum-Shub *)

(** For primes [p], [q] congruent to 3 modulo 4 (equal or not) squaring modulo
    [p * q] permutes the quadratic residues: it maps residues to residues, is
    injective on them, and reaches all of them. *)
Theorem C84_bbs_permutes_residues (p q : Z) :
  prime p -> prime q -> p mod 4 = 3 -> q mod 4 = 3 ->
  let M := p * q in
  let qr x := 0 <= x < M /\ exists a, x = a ^ 2 mod M in
  (forall x, qr x -> qr (bbs M x)) /\
  (forall x y, qr x -> qr y -> bbs M x = bbs M y -> x = y) /\
  (forall y, qr y -> exists x, qr x /\ bbs M x = y).
Proof.
move=> Hp Hq Hp4 Hq4 M qr; have p2 := prime_ge_2 _ Hp; have q2 := prime_ge_2 _ Hq.
have M0 : 0 < M by rewrite /M; nia.
have R : forall x, qr x -> residue M x.
  by move=> x [_ [a ->]]; exists a; apply: cg_mod; lia.
have Q : forall x, 0 <= x < M -> residue M x -> qr x.
  by move=> x Bx [a Ha]; split=> //; exists a; symmetry; apply/cg_val => //; apply: cg_sym.
split; [|split].
- by move=> x _; split; [apply: Z.mod_pos_bound|exists x].
- move=> x y Hx Hy E.
  have : cg M x y by apply: squares_inj => //; [exact: R|exact: R|apply/cg_eq; [lia|]].
  move=> /cg_eq X; have {}X := X ltac:(lia).
  by rewrite !Z.mod_small in X; [|case: Hy|case: Hx].
- move=> y Hy; have [x [Bx [Rx E]]] := squares_onto Hp Hq Hp4 Hq4 (proj1 Hy) (R _ Hy).
  by exists x; split=> //; apply: Q.
Qed.
Print Assumptions C84_bbs_permutes_residues.

(** On all integers it is two-to-one at least: [x] and [M - x] collide. *)
Theorem C84_bbs_not_injective (M x : Z) : M <> 0 -> bbs M (M - x) = bbs M x.
Proof. exact: bbs_neg. Qed.
Print Assumptions C84_bbs_not_injective.

(** The modulus is a product of two numbers congruent to 3 modulo 4 that passed
    the primality test; they can be equal. *)
Theorem C84_make_modulus (c1 c2 : list (Z * list Z)) (M : Z) :
  make_modulus c1 c2 = Ok M ->
  exists p q dp dq, M = p * q /\ In (p, dp) c1 /\ In (q, dq) c2 /\
    p mod 4 = 3 /\ q mod 4 = 3 /\
    probablyPrime p dp = Ok true /\ probablyPrime q dq = Ok true.
Proof.
rewrite /make_modulus; case P: (find_good_prime c1) => [p|//] /=.
case Q: (find_good_prime c2) => [q|//] /= [<-].
have [dp [I1 [H1 H2]]] := find_good_prime_inv P; have [dq [I2 [H3 H4]]] := find_good_prime_inv Q.
by exists p, q, dp, dq.
Qed.
Print Assumptions C84_make_modulus.

(** [parity] is the number of one bits modulo 2, for every non-negative number;
    negative numbers raise ValueError. *)
Theorem C84_parity (n : Z) (L : nat) :
  (0 <= n < 2 ^ Z.of_nat L ->
   parity n = Ok (Z.of_nat (length (filter (fun i => Z.testbit n (Z.of_nat i)) (seq 0 L))) mod 2)) /\
  (n < 0 -> parity n = Err ValueError).
Proof. split; [exact: parity_spec|exact: parity_neg]. Qed.
Print Assumptions C84_parity.

Example C84_example :
  map (bbs 21) [1; 4; 16; 7; 15; 18; 9; 0] = [1; 16; 4; 7; 15; 9; 18; 0] /\
  bbs 21 4 = bbs 21 17 /\ parity 1234567 = Ok 1 /\
  make_modulus [(4, []); (21, [2]); (19, [5; 6])] [(35, [3]); (11, [])] = Ok 209.
Proof. by vm_compute. Qed.

(** ** C85: error probability of the primality test *)

(** At most half of the possible draws fool the test on an odd composite number. *)
Theorem C85_liars_at_most_half (n : Z) :
  3 < n -> n mod 2 = 1 -> ~ prime n ->
  (2 * length (filter (fun a => match probablyPrime n [a] with Ok b => b | Err _ => true end)
                 (zrange 2 (n - 1))) <= length (zrange 2 (n - 1)))%nat.
Proof.
move=> Hn Ho Np; have := pp_error 1 Hn Ho Np.
rewrite /zrange (_ : n - 1 - 2 = n - 3); last by lia.
set l := map _ _; have -> : vectors 1 l = map (fun a => [a]) l.
  by elim: (l) => //= a m ->.
rewrite filter_map_length /l map_length seq_length !PeanoNat.Nat.pow_1_r; exact.
Qed.
Print Assumptions C85_liars_at_most_half.

(** With [k] independent draws at most a fraction [2^-k] of the possible outcomes
    accept an odd composite number. *)
Theorem C85_error_bound (n : Z) (k : nat) :
  3 < n -> n mod 2 = 1 -> ~ prime n ->
  (forall d, In d (vectors k (zrange 2 (n - 1))) <->
     length d = k /\ forall a, In a d -> 2 <= a <= n - 2) /\
  (PeanoNat.Nat.pow 2 k *
   length (filter (fun d => match probablyPrime n d with Ok b => b | Err _ => true end)
             (vectors k (zrange 2 (n - 1))))
   <= PeanoNat.Nat.pow (Z.to_nat (n - 3)) k)%nat.
Proof.
move=> Hn Ho Np; split.
  move=> d; rewrite vectors_In; split=> -[L H]; split=> // a Ha.
    by have /zrange_In := H _ Ha; lia.
  by apply/zrange_In; have := H _ Ha; lia.
by have := pp_error k Hn Ho Np; rewrite /zrange (_ : n - 1 - 2 = n - 3) //; lia.
Qed.
Print Assumptions C85_error_bound.

Example C85_example :
  filter (fun a => match probablyPrime 65 [a] with Ok b => b | Err _ => true end)
    (zrange 2 64) = [8; 18; 47; 57] /\
  length (zrange 2 64) = 62%nat.
Proof. by vm_compute. Qed.
