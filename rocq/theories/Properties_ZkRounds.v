(** Properties C102-C104: the random permutations, the repeated protocol and the
    transcripts of misc/zero_knowledge.py.  Draws are inputs; [draw j <= j] is the range of
    [randbelow(j + 1)]. *)
From Coq Require Import Bool ZArith List Lia Permutation.
From Coq Require Import ssreflect ssrbool.
From Verif Require Import Base BaseProofs CommitmentModel CommitmentProofs ZkRoundsModel ZkRoundsProofs.
Import ListNotations.
Local Open Scope Z_scope.
Local Set SsrOldRewriteGoalsOrder.
Local Set Implicit Arguments.
Local Unset Strict Implicit.

(** ** C102: random_permutation *)

(** The result is a permutation of 0..n-1, whatever is drawn. *)
Theorem C102_is_permutation (draw : nat -> nat) (n : Z) :
  (forall j, draw j <= j)%nat -> Permutation (random_permutation draw n) (zrange 0 n).
Proof. exact: random_permutation_perm. Qed.
Print Assumptions C102_is_permutation.

(** Every permutation is the result of exactly one sequence of draws (the draws used are
    those at 1..n-1), so that independent uniform draws give a uniform permutation. *)
Theorem C102_uniform (n : Z) (T : list Z) : Permutation T (zrange 0 n) ->
  (exists draw, (forall j, draw j <= j)%nat /\ random_permutation draw n = T) /\
  (forall draw draw', (forall j, draw j <= j)%nat -> (forall j, draw' j <= j)%nat ->
     random_permutation draw n = T -> random_permutation draw' n = T ->
     forall j, (1 <= j < Z.to_nat n)%nat -> draw j = draw' j) /\
  (forall draw draw', (forall j, 1 <= j < Z.to_nat n -> draw j = draw' j)%nat ->
     random_permutation draw n = random_permutation draw' n).
Proof.
move=> P; split; first exact: random_permutation_surj.
split=> [draw draw' D D' E E' j Hj|draw draw' H].
  by apply: (random_permutation_inj D D' _ Hj); rewrite E E'.
by apply: shuffle_ext => j Hj; apply: H; lia.
Qed.
Print Assumptions C102_uniform.

Example C102_example :
  random_permutation (fun j => match j with 4 => 1 | 3 => 3 | 2 => 0 | 1 => 0 | _ => 0 end%nat) 5 = [4; 2; 0; 3; 1] /\
  random_permutation (fun j => j) 5 = [0; 1; 2; 3; 4] /\ random_permutation (fun j => 0%nat) 3 = [1; 2; 0].
Proof. by vm_compute. Qed.

(** ** C103: convince_beyond_doubt *)

(** The number of rounds is the least K with 2^-K at most the tolerance (given as a
    multiple of 2^-1074); the call returns exactly when all K rounds accept, and fails with
    AssertionError at the first round that rejects, with its exception at the first that
    raises. *)
Theorem C103_rounds (G1 G2 : graph) (iso : list Z) (tol : Z) (draws : nat -> (nat -> nat) * Z) (fuel : nat) :
  let round k := run_protocol_drawn G1 G2 iso (draws k) in
  1 <= tol -> (1074 <= fuel)%nat ->
  exists K, 2 ^ Z.of_nat 1074 <= tol * 2 ^ Z.of_nat K /\ (forall j, (j < K)%nat -> tol * 2 ^ Z.of_nat j < 2 ^ Z.of_nat 1074) /\
    ((forall j, (j < K)%nat -> round j = Ok true) ->
       convince_beyond_doubt fuel G1 G2 iso tol draws = Ok K) /\
    (forall j, (j < K)%nat -> (forall i, (i < j)%nat -> round i = Ok true) ->
       (round j = Ok false -> convince_beyond_doubt fuel G1 G2 iso tol draws = Err AssertionError) /\
       (forall e, round j = Err e -> convince_beyond_doubt fuel G1 G2 iso tol draws = Err e)).
Proof.
move=> round Ht Hf; have [K [HK HJ]] := threshold_exists 1074 Ht; exists K; split; first exact: HK.
split; first exact: HJ.
exact: (rounds_gen (W := 1074) round Ht Hf HK HJ).
Qed.
Print Assumptions C103_rounds.

(** With tolerance 0 the product underflows: 1075 rounds.  With a negative tolerance the
    loop does not end. *)
Theorem C103_degenerate_tolerance (G1 G2 : graph) (iso : list Z) (draws : nat -> (nat -> nat) * Z) (tol : Z) (fuel : nat) :
  (forall k, run_protocol_drawn G1 G2 iso (draws k) = Ok true) ->
  (tol = 0 -> (1075 <= fuel)%nat -> convince_beyond_doubt fuel G1 G2 iso tol draws = Ok 1075%nat) /\
  (tol < 0 -> convince_beyond_doubt fuel G1 G2 iso tol draws = Err Diverges).
Proof.
move=> R; rewrite /convince_beyond_doubt; split=> [-> Hf|Ht]; last first.
  by apply: loop_negative => //; apply: Z.pow_nonneg.
exact: (zero_gen (W := 1074)).
Qed.
Print Assumptions C103_degenerate_tolerance.

(** The honest prover convinces, for every graph whose isolated vertices do not matter
    (C65), permutation and draws; with the default tolerance after 67 rounds. *)
Theorem C103_honest (G1 G2 : graph) (n : Z) (iso : list Z) (draws : nat -> (nat -> nat) * Z) (fuel : nat) :
  (forall a b, In (a, b) G1 -> 1 <= a /\ 1 <= b) ->
  num_vertices G1 = Ok n -> num_vertices G2 = Ok n -> Permutation iso (zrange 0 n) ->
  apply_isomorphism G1 (make_permutation_function iso) = Ok G2 ->
  (forall k j, fst (draws k) j <= j)%nat -> (forall k, snd (draws k) = 0 \/ snd (draws k) = 1) ->
  (1074 <= fuel)%nat ->
  (forall tol, 1 <= tol -> exists K, convince_beyond_doubt fuel G1 G2 iso tol draws = Ok K) /\
  convince_beyond_doubt fuel G1 G2 iso default_tolerance draws = Ok 67%nat.
Proof.
move=> V N1 N2 Pi E D C Hf.
have V1 : forall v, vertex G1 v -> 1 <= v by move=> v [[a b] [/V [Ha Hb] /= [<-|<-]]].
have R k : run_protocol_drawn G1 G2 iso (draws k) = Ok true.
  rewrite (surjective_pairing (draws k)).
  have [c [Ec Hc]] : exists c, choose_graph (snd (draws k)) = Ok c /\ (c = 1 \/ c = 2).
    by case: (C k) => ->; [exists 1|exists 2]; split=> //; [left|right].
  rewrite (run_drawn _ N1 N2 _ Ec); apply: (zk_complete (n := n)) => //.
  by apply: random_permutation_perm; apply: D.
split=> [tol Ht|].
  by have [K [_ [_ [H _]]]] := C103_rounds G1 G2 iso draws Ht Hf; exists K; apply: H.
have Hd : 1 <= default_tolerance by apply/Z.leb_le; vm_compute.
have [K [H1 [H2 [H _]]]] := C103_rounds G1 G2 iso draws Hd Hf.
rewrite H //; f_equal.
have X : default_tolerance * 2 ^ Z.of_nat 66 < 2 ^ Z.of_nat 1074 by apply/Z.ltb_lt; vm_compute.
have Y : 2 ^ Z.of_nat 1074 <= default_tolerance * 2 ^ Z.of_nat 67 by apply/Z.leb_le; vm_compute.
have M a b : (a <= b)%nat -> default_tolerance * 2 ^ Z.of_nat a <= default_tolerance * 2 ^ Z.of_nat b.
  move=> Hab; apply: Z.mul_le_mono_nonneg_l; first by apply: Z.le_trans Hd.
  by apply: Z.pow_le_mono_r; [|apply: inj_le].
have K1 : ~ (K <= 66)%nat.
  by move=> HK; apply: (Z.lt_irrefl (2 ^ Z.of_nat 1074)); apply: Z.le_lt_trans H1 _; apply: Z.le_lt_trans (M _ _ HK) X.
have K2 : ~ (67 < K)%nat.
  by move=> HK; apply: (Z.lt_irrefl (2 ^ Z.of_nat 1074)); apply: Z.le_lt_trans Y (H2 67%nat HK).
by move: K1 K2; clear; lia.
Qed.
Print Assumptions C103_honest.

(** A prover that runs this code with anything that is not an isomorphism convinces
    exactly when all K challenges ask for the first graph, that is for one of the 2^K
    sequences of challenges. *)
Theorem C103_wrong_isomorphism (G1 G2 : graph) (n : Z) (iso : list Z) (draws : nat -> (nat -> nat) * Z)
    (tol : Z) (K fuel : nat) :
  (forall a b, In (a, b) G1 -> 1 <= a /\ 1 <= b) ->
  num_vertices G1 = Ok n -> num_vertices G2 = Ok n ->
  apply_isomorphism G1 (make_permutation_function iso) <> Ok G2 ->
  (forall k j, fst (draws k) j <= j)%nat -> (forall k, snd (draws k) = 0 \/ snd (draws k) = 1) ->
  1 <= tol -> 2 ^ Z.of_nat 1074 <= tol * 2 ^ Z.of_nat K -> (forall j, (j < K)%nat -> tol * 2 ^ Z.of_nat j < 2 ^ Z.of_nat 1074) ->
  (1074 <= fuel)%nat ->
  (exists k, convince_beyond_doubt fuel G1 G2 iso tol draws = Ok k) <->
  (forall j, (j < K)%nat -> snd (draws j) = 0).
Proof.
move=> V N1 N2 Ni D C Ht HK HJ Hf.
have V1 : forall v, vertex G1 v -> 1 <= v by move=> v [[a b] [/V [Ha Hb] /= [<-|<-]]].
have [A1 A2] := rounds_gen (W := 1074) (fun k => run_protocol_drawn G1 G2 iso (draws k)) Ht Hf HK HJ.
have PL k : Permutation (random_permutation (fst (draws k)) n) (zrange 0 n).
  by apply: random_permutation_perm; apply: D.
have R1 k : snd (draws k) = 0 -> run_protocol_drawn G1 G2 iso (draws k) = Ok true.
  rewrite (surjective_pairing (draws k)) /= => ->.
  by rewrite (@run_drawn _ _ _ _ N1 N2 _ 0 1) //; apply: (run_one iso V1 N1 N2).
have R2 k : snd (draws k) = 1 -> run_protocol_drawn G1 G2 iso (draws k) <> Ok true.
  rewrite (surjective_pairing (draws k)) /= => ->.
  rewrite (@run_drawn _ _ _ _ N1 N2 _ 1 2) // (run_two iso V1 N1 N2) //.
  case E: (apply_isomorphism _ _) => [image|e] //= [] /graph_eqbP X; apply: Ni; by rewrite E X.
split=> [[k Ek]|H]; last by exists K; apply: A1 => j Hj; apply: R1; apply: H.
suff : forall m j, (j < m)%nat -> (m <= K)%nat -> snd (draws j) = 0 by move=> H j Hj; apply: (H K).
elim=> [|m IH] j Hj Hm; first lia.
have [Hj'|->] : (j < m)%nat \/ j = m by lia.
  by apply: IH => //; lia.
case: (C m) => // X.
have B : forall i, (i < m)%nat -> run_protocol_drawn G1 G2 iso (draws i) = Ok true.
  by move=> i Hi; apply: R1; apply: IH => //; lia.
have [B1 B2] := A2 m ltac:(lia) B.
have := R2 m X; case E: (run_protocol_drawn G1 G2 iso (draws m)) => [[]|e] // _.
  by have := B1 E; rewrite -/(convince_beyond_doubt _ _ _ _ _ _) Ek.
by have := B2 _ E; rewrite -/(convince_beyond_doubt _ _ _ _ _ _) Ek.
Qed.
Print Assumptions C103_wrong_isomorphism.

Example C103_example :
  let G1 := [(1, 2); (1, 4); (1, 3); (2, 5); (3, 4)] in
  let G2 := [(3, 1); (3, 5); (3, 2); (1, 4); (2, 5)] in
  let draws c k := (fun j => Nat.div j 2, if (k =? 3)%nat then c else 0) in
  convince_beyond_doubt 1100 G1 G2 [2; 0; 1; 4; 3] default_tolerance (draws 1) = Ok 67%nat /\
  convince_beyond_doubt 1100 G1 G2 [2; 0; 1; 3; 4] default_tolerance (draws 1) = Err AssertionError /\
  convince_beyond_doubt 1100 G1 G2 [2; 0; 1; 3; 4] default_tolerance (draws 0) = Ok 67%nat /\
  convince_beyond_doubt 1100 G1 G2 [2; 0; 1; 3; 4] (2 ^ 1071) (draws 1) = Ok 3%nat.
Proof. by vm_compute. Qed.

(** ** C104: transcripts *)

(** A transcript of the honest parties passes the check of the verifier, and its map
    carries H onto the chosen graph. *)
Theorem C104_transcript (G1 G2 : graph) (n : Z) (iso : list Z) (draw : nat -> nat) (d : Z) :
  (forall a b, In (a, b) G1 -> 1 <= a /\ 1 <= b) ->
  num_vertices G1 = Ok n -> num_vertices G2 = Ok n -> Permutation iso (zrange 0 n) ->
  apply_isomorphism G1 (make_permutation_function iso) = Ok G2 ->
  (forall j, draw j <= j)%nat -> d = 0 \/ d = 1 ->
  exists H f, messages_from_protocol G1 G2 iso (draw, d) = Ok (H, d + 1, f) /\
    zk_accepts G1 G2 f (d + 1) H = Ok true /\
    apply_isomorphism H f = Ok (if d =? 0 then G1 else G2).
Proof.
move=> V N1 N2 Pi E D C.
have V1 : forall v, vertex G1 v -> 1 <= v by move=> v [[a b] [/V [Ha Hb] /= [<-|<-]]].
have PL := random_permutation_perm n D.
have Ec : choose_graph d = Ok (d + 1) by case: C => ->.
have A : run_protocol G1 G2 iso (random_permutation draw n) (d + 1) = Ok true.
  by apply: (zk_complete (n := n)) => //; lia.
move: A; rewrite /run_protocol /messages_from_protocol /zk_init N1 N2 /= Z.eqb_refl /=.
rewrite (send_ok V1 N1 PL) /= Ec /= => A; do 2 eexists; split; first by [].
split=> //; move: A; rewrite /zk_accepts.
by case: C => -> /=; case: (apply_isomorphism _ _) => //= image [] /graph_eqbP ->.
Qed.
Print Assumptions C104_transcript.

(** The transcripts of the simulator have the same distribution as the real ones once the
    map is inverted: for the same challenge, the draws of the real run and those of the
    simulation correspond to each other (both ways; each side determines the other by
    C102), with the same H and with maps that are inverse to each other. *)
Theorem C104_simulation (G1 G2 : graph) (n : Z) (iso : list Z) (d : Z) :
  (forall a b, In (a, b) G1 -> 1 <= a /\ 1 <= b) ->
  num_vertices G1 = Ok n -> num_vertices G2 = Ok n -> Permutation iso (zrange 0 n) ->
  apply_isomorphism G1 (make_permutation_function iso) = Ok G2 -> d = 0 \/ d = 1 ->
  let matching draw draw' := exists H f pi,
    messages_from_protocol G1 G2 iso (draw, d) = Ok (H, d + 1, f) /\
    simulate_drawn G1 G2 (draw', d) = Ok (H, d + 1, pi) /\
    forall i, 1 <= i <= n -> exists j, 1 <= j <= n /\ pi i = Ok j /\ f j = Ok i in
  (forall draw, (forall j, draw j <= j)%nat ->
     exists draw', (forall j, draw' j <= j)%nat /\ matching draw draw') /\
  (forall draw', (forall j, draw' j <= j)%nat ->
     exists draw, (forall j, draw j <= j)%nat /\ matching draw draw').
Proof.
move=> V N1 N2 Pi E C matching.
have V1 : forall v, vertex G1 v -> 1 <= v by move=> v [[a b] [/V [Ha Hb] /= [<-|<-]]].
have B1 := bound1 V1 N1.
have E' : G2 = map_graph (pfun iso) G1.
  move: E; rewrite (@apply_ok G1 _ (pfun iso)) => [|v /B1 Hv]; first by case.
  by have [] := perm_fun Pi Hv.
have [inv [Hi1 Hi2]] : exists inv, (forall i, 1 <= i <= n -> 1 <= inv i <= n /\ pfun iso (inv i) = i) /\
    (forall i, 1 <= i <= n -> inv (pfun iso i) = i).
  exists (fun v => match make_inverse_permutation_function iso v with Ok i => i | Err _ => 0 end).
  split=> i Hi; last by rewrite (perm_inv_fun Pi Hi).
  by have [j [-> [Hj Ej]]] := perm_inv Pi Hi.
have R i : 1 <= i <= n -> 1 <= pfun iso i <= n by move=> Hi; have [] := perm_fun Pi Hi.
(** the permutations correspond: the same for the first graph, composed with iso for the
    second *)
have M draw draw' : (forall j, draw j <= j)%nat -> (forall j, draw' j <= j)%nat ->
   (forall i, 1 <= i <= n -> pfun (random_permutation draw' n) (if d =? 0 then i else pfun iso i) =
                             pfun (random_permutation draw n) i) -> matching draw draw'.
  move=> D D' X; have PL := random_permutation_perm n D; have PL' := random_permutation_perm n D'.
  set L := random_permutation draw n in PL X; set L' := random_permutation draw' n in PL' X.
  rewrite /matching /messages_from_protocol /simulate_drawn /zk_init N1 N2 /= Z.eqb_refl /=.
  rewrite -/L (send_ok V1 N1 PL) /=.
  case: C X => -> X /=.
    rewrite N1 /= -/L' (@apply_ok G1 _ (pfun L)) /=; last first.
      by move=> v /B1 Hv; rewrite -X //=; have [] := perm_fun PL' Hv.
    do 3 eexists; split; first by []; split; first by [].
    move=> i Hi; have [H1 H2] := perm_fun PL' Hi; exists (pfun L' i); split=> //; split=> //.
    by have /= -> := X i Hi; apply: (perm_inv_fun PL Hi).
  rewrite N2 /= -/L'.
  have -> : apply_isomorphism G2 (make_permutation_function L') = Ok (map_graph (pfun L) G1).
    rewrite E' (@apply_map _ _ _ (fun v => Ok (pfun L v))) => [|v /B1 Hv].
      by apply: apply_ok.
    by have [-> _] := perm_fun PL' (R v Hv); rewrite -(X v Hv).
  do 3 eexists; split; first by []; split; first by [].
  move=> i Hi; have [H1 H2] := perm_fun PL' Hi; exists (pfun L' i); split=> //; split=> //.
  have [Hv Ev] := Hi1 i Hi; have /= := X _ Hv; rewrite Ev => ->.
  rewrite -[LHS]/(let* j := make_inverse_permutation_function L (pfun L (inv i)) in make_permutation_function iso j).
  by rewrite (perm_inv_fun PL Hv) /=; have [-> _] := perm_fun Pi Hv; rewrite Ev.
split=> draw D; have PL := random_permutation_perm n D; set L := random_permutation draw n in PL.
- pose p i := if d =? 0 then pfun L i else pfun L (inv i).
  have RL i : 1 <= i <= n -> 1 <= pfun L i <= n by move=> Hi; have [] := perm_fun PL Hi.
  have [||PT ET] := @perm_of_fun n p.
  + move=> i Hi; rewrite /p; case: (d =? 0); first exact: RL.
    by apply: RL; have [] := Hi1 i Hi.
  + move=> i j Hi Hj; rewrite /p; case: (d =? 0); first exact: (pfun_inj PL).
    have [Bi Ei] := Hi1 i Hi; have [Bj Ej] := Hi1 j Hj.
    by move/(pfun_inj PL Bi Bj) => X; rewrite -Ei X.
  + have [draw' [D' ED']] := random_permutation_surj PT; exists draw'; split=> //; apply: M => // i Hi.
    rewrite ED' ET /p; last by case: (d =? 0) => //; apply: R.
    by case: (d =? 0) => //; rewrite Hi2.
- pose p i := if d =? 0 then pfun L i else pfun L (pfun iso i).
  have RL i : 1 <= i <= n -> 1 <= pfun L i <= n by move=> Hi; have [] := perm_fun PL Hi.
  have [||PT ET] := @perm_of_fun n p.
  + by move=> i Hi; rewrite /p; case: (d =? 0); apply: RL => //; apply: R.
  + move=> i j Hi Hj; rewrite /p; case: (d =? 0); first exact: (pfun_inj PL).
    by move/(pfun_inj PL (R i Hi) (R j Hj)); apply: (pfun_inj Pi).
  + have [draw' [D' ED']] := random_permutation_surj PT; exists draw'; split=> //; apply: M => // i Hi.
    by rewrite ED' ET // /p; case: (d =? 0).
Qed.
Print Assumptions C104_simulation.

Example C104_example :
  let G1 := [(1, 2); (2, 3)] in let G2 := [(2, 3); (3, 1)] in
  let draw := fun j => if (j =? 2)%nat then 0%nat else 1%nat in
  rmap (fun t => (fst t, map (snd t) [1; 2; 3])) (messages_from_protocol G1 G2 [1; 2; 0] (draw, 1))
    = Ok ([(3, 2); (2, 1)], 2, [Ok 1; Ok 3; Ok 2]) /\
  rmap (fun t => (fst t, map (snd t) [1; 2; 3])) (simulate_drawn G1 G2 (fun j => 1%nat, 1))
    = Ok ([(3, 2); (2, 1)], 2, [Ok 1; Ok 3; Ok 2]).
Proof. by vm_compute. Qed.
