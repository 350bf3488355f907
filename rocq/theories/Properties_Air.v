(** Property theorems C46-C48: starks/air.py.

    Vocabulary: [wf n p] (MultiProofs.v): p is a well-formed polynomial object in n
    variables; [polys_ok w ps] (AirProofs.v): ps has at least w entries, the first
    w of which are well-formed in w variables;
    [peval p s] (AirProofs.v): the sum over the entries (k, c) of p of
    c * s_0^k_0 * ... * s_{w-1}^k_{w-1}. *)
From mathcomp Require Import zify ssrZ.
From Verif Require Import Prelude BaseProofs PolyModel PolyProofs ModpModel ModpField FinFld
  InterpProofs FftProofs FiniteFieldProofs MultiModel MultiProofs MultiUtilsProofs AirModel AirProofs.
Set Implicit Arguments.
Unset Strict Implicit.
Unset Printing Implicit Defensive.
Import GRing.Theory.
Local Open Scope ring_scope.
Local Open Scope py_scope.

Local Notation F5 := (modp_finFieldType P5).
Local Notation z5 := (in_modp P5).
Local Notation rd l := [seq (kc.1, in_modp P5 kc.2) | kc <- l].
Local Notation show p := [seq (kc.1, mval kc.2) | kc <- p].

(** (x, y) |-> (y, x + y), the Fibonacci computation *)
Definition fib : seq (mpoly F5) :=
  [:: rd [:: ([:: 0; 1]%N, 1)]%Z; rd [:: ([:: 1; 0]%N, 1); ([:: 0; 1]%N, 1)]%Z].

(** ** C46 *)
Theorem C46_trace : forall (F : fieldType) (inp : seq F) steps w ps,
  polys_ok w ps -> size inp = w ->
  exists trace, get_computational_trace inp steps w ps = Ok (trace, last [::] trace) /\
    size trace = maxn 1 steps /\ nth [::] trace 0 = inp /\
    forall i, (i.+1 < steps)%N ->
      nth [::] trace i.+1 = [seq peval (nth [::] ps j) (nth [::] trace i) | j <- iota 0 w].
Proof.
move=> F inp steps w ps O S; exists (traj w ps inp (steps - 1).+1).
have L : last [::] (traj w ps inp (steps - 1).+1) = iter (steps - 1) (step w ps) inp.
  by rewrite traj_last last_rcons.
rewrite get_traceE // L size_traj; split=> //; split; first by lia.
rewrite nth_traj //; split=> // i Hi; rewrite !nth_traj //; by lia.
Qed.
Print Assumptions C46_trace.

(** a state of the wrong length, and too few step polynomials *)
Theorem C46_errors : forall (F : fieldType) (inp : seq F) steps w ps, (1 < steps)%N ->
  (size inp <> w -> (0 < w)%N -> (0 < size ps)%N ->
     get_computational_trace inp steps w ps = Err AssertionError) /\
  (size inp = w -> all (wf w) ps -> (size ps < w)%N ->
     get_computational_trace inp steps w ps = Err IndexError).
Proof.
move=> F inp steps w ps Hs; rewrite /get_computational_trace.
have -> : iota 0 (steps - 1) = 0%N :: iota 1 (steps - 2) by case: steps Hs => [|[|k]] // _; rewrite !subSS !subn0.
rewrite foldMS -[[:: inp]]/(rcons [::] inp) py_nth_last bind_ok; split=> [S Hw Hp|S A L].
  rewrite /next_state; case: w S Hw => // w S _; rewrite [iota _ _]/=.
  rewrite [mapM _ _]/= (py_nth_ok [::] (i := 0%N)) // bind_ok.
  by rewrite {1}/mcall mcall_gen_size //; apply/eqP.
suff -> : next_state w ps inp = Err IndexError by [].
have I : iota 0 w = iota 0 (size ps) ++ size ps :: iota (size ps).+1 (w - (size ps).+1).
  by rewrite -{1}(subnKC L) addSnnS iotaD.
rewrite /next_state I.
suff H : forall l1 l2 (f : nat -> result F), (forall x, x \in l1 -> exists y, f x = Ok y) ->
    (exists x t, l2 = x :: t /\ f x = Err IndexError) -> mapM f (l1 ++ l2) = Err IndexError.
  apply: H; last first.
    by exists (size ps), (iota (size ps).+1 (w - (size ps).+1)); rewrite py_nth_err.
  move=> j; rewrite mem_iota add0n => Hj; rewrite (py_nth_ok [::]) // bind_ok.
  by exists (peval (nth [::] ps j) inp); apply: mcall_peval S; apply: (allP A); exact: mem_nth.
elim=> [|x l1 IH] l2 f H1 H2; first by case: H2 => x [t [-> E]]; rewrite /= E.
have [y Ey] := H1 x (mem_head _ _); rewrite /= Ey /= IH // => z Hz; apply: H1.
by rewrite inE Hz orbT.
Qed.
Print Assumptions C46_errors.

Example C46_example :
  rmap (fun to => [seq [seq mval x | x <- s] | s <- to.1])
    (get_computational_trace [:: z5 1; z5 1] 6 2 fib) =
  Ok [:: [:: 1; 1]; [:: 1; 2]; [:: 2; 3]; [:: 3; 0]; [:: 0; 3]; [:: 3; 3]]%Z.
Proof. by vm_compute. Qed.

(** ** C47 *)
(** the constraint polynomials are Y_j - step_j(X) *)
Theorem C47_constraint_polynomials : forall (F : fieldType) w ps, polys_ok w ps ->
  exists cs, generate_constraint_polynomials w ps = Ok cs /\ size cs = w /\
  forall j, (j < w)%N -> wf (2 * w) (nth [::] cs j) /\
    forall (R : comRingType) (phi : {rmorphism F -> R}) v,
      meval phi v (nth [::] cs j) = v (w + j)%N - meval phi v (nth [::] ps j).
Proof.
move=> F w ps O; have [cs [E [S H]]] := constraintsE O; exists cs; split=> //; split=> // j Hj.
have [W [c [-> Wc Ec]]] := H _ Hj; have Hv : (w + j < 2 * w)%N by lia.
split=> [|R phi v]; first by apply: wf_sub => //; exact: wf_mvar.
by rewrite (meval_sub _ _ (wf_mvar F Hv) Wc) meval_mvar // Ec.
Qed.
Print Assumptions C47_constraint_polynomials.

Theorem C47_circuit_iff_valid : forall (F : fieldType) steps w ps cs (tr : seq (seq F)),
  polys_ok w ps -> generate_constraint_polynomials w ps = Ok cs ->
  (steps <= size tr)%N -> (forall i, (i < steps)%N -> size (nth [::] tr i) = w) ->
  exists b, generate_monotone_circuit steps w tr cs = Ok b /\
    (b <-> forall i, (i.+1 < steps)%N ->
       nth [::] tr i.+1 = [seq peval (nth [::] ps j) (nth [::] tr i) | j <- iota 0 w]).
Proof.
move=> F steps w ps cs tr O E S H; rewrite (circuitE O E S H); eexists; split; first by [].
split=> [/allP A i Hi|A]; first by apply/eqP; apply: A; rewrite mem_iota add0n; lia.
by apply/allP => i; rewrite mem_iota add0n => Hi; rewrite A //; lia.
Qed.
Print Assumptions C47_circuit_iff_valid.

Theorem C47_generated_trace_accepted : forall (F : fieldType) (inp : seq F) steps w ps cs tr out,
  polys_ok w ps -> size inp = w -> generate_constraint_polynomials w ps = Ok cs ->
  get_computational_trace inp steps w ps = Ok (tr, out) ->
  generate_monotone_circuit steps w tr cs = Ok true.
Proof.
move=> F inp steps w ps cs tr out O S E; rewrite get_traceE // => -[<- _].
rewrite (circuitE O E); first last.
- by move=> i Hi; rewrite nth_traj ?iter_size //; lia.
- by rewrite size_traj; lia.
congr Ok; apply/allP => i; rewrite mem_iota add0n => Hi.
by rewrite !nth_traj //; lia.
Qed.
Print Assumptions C47_generated_trace_accepted.

(** a trace with one wrong state is rejected *)
Example C47_example :
  (let* cs := generate_constraint_polynomials 2 fib in
   generate_monotone_circuit 3 2 [:: [:: z5 1; z5 1]; [:: z5 1; z5 2]; [:: z5 2; z5 3]] cs) = Ok true /\
  (let* cs := generate_constraint_polynomials 2 fib in
   generate_monotone_circuit 3 2 [:: [:: z5 1; z5 1]; [:: z5 1; z5 2]; [:: z5 2; z5 4]] cs) = Ok false /\
  rmap (fun cs => [seq show p | p <- cs]) (generate_constraint_polynomials 2 fib) =
    Ok [:: [:: ([:: 0; 0; 1; 0]%N, 1); ([:: 0; 1; 0; 0]%N, 4)];
           [:: ([:: 0; 0; 0; 1]%N, 1); ([:: 0; 1; 0; 0]%N, 4); ([:: 1; 0; 0; 0]%N, 4)]]%Z.
Proof. by vm_compute. Qed.

(** ** C48 *)
(** The deviation: only steps = 511 is accepted (so no power of two is). *)
Theorem C48_only_511_steps : forall (F : fieldType) w (inp : seq F) steps ps ext,
  steps <> 511%N -> mk_air w inp steps ps ext = Err AssertionError.
Proof. by move=> F w inp steps ps ext H; rewrite /mk_air (_ : (_ == _) = false) //; apply/eqP. Qed.
Print Assumptions C48_only_511_steps.

(** With 511 steps the constructor succeeds iff the degree of the step polynomials
    is at most 1024, and the object it builds is the intended one. *)
Theorem C48_constructor : forall (F : fieldType) w (inp : seq F) ps ext,
  polys_ok w ps -> size inp = w -> (0 < w)%N ->
  if (\max_(p <- take w ps) mdegree p <= 1024)%N then
    exists a, mk_air w inp 511 ps ext = Ok a /\
      [/\ air_C a = true, air_CDegree a = maxn 1 (\max_(p <- take w ps) mdegree p)%N,
          generate_constraint_polynomials w ps = Ok (air_Polys a),
          get_computational_trace inp 511 w ps = Ok (air_trace a, air_output a) &
          air_B a = [seq (0%N, j, inp`_j) | j <- iota 0 w]] /\
      [/\ air_width a = w, air_inp a = inp, air_steps a = 511%N, air_step_polys a = ps &
          air_extension_factor a = ext]
  else mk_air w inp 511 ps ext = Err AssertionError.
Proof.
move=> F w inp ps ext O S Hw.
have [cs [E _]] := constraintsE O.
have G : get_computational_trace inp 511 w ps =
    Ok (traj w ps inp 511, iter 510 (step w ps) inp) by exact: get_traceE.
have C := C47_generated_trace_accepted O S E G.
have D := C_degreeE O E; rewrite Hw in D.
rewrite /mk_air (_ : (_ == _)%N = true) // {1}/assert_ [_ ;;* _]/=.
rewrite G bind_ok E bind_ok C bind_ok D bind_ok boundaryE ?S //.
rewrite (_ : (maxn 1 _ <= 2 ^ 10)%N = (\max_(p <- take w ps) mdegree p <= 1024)%N); last by rewrite geq_max.
by case: (_ <= 1024)%N => //; eexists; split; first by rewrite !bind_ok.
Qed.
Print Assumptions C48_constructor.

Theorem C48_no_registers : forall (F : fieldType) (inp : seq F) ps ext,
  size inp = 0%N -> mk_air 0 inp 511 ps ext = Err ValueError.
Proof.
move=> F inp ps ext S.
have O : polys_ok 0 ps by rewrite /polys_ok take0.
have [cs [E _]] := constraintsE O.
have G : get_computational_trace inp 511 0 ps =
    Ok (traj 0 ps inp 511, iter 510 (step 0 ps) inp) by exact: get_traceE.
have C := C47_generated_trace_accepted O S E G.
by rewrite /mk_air G bind_ok E bind_ok C bind_ok (C_degreeE O E).
Qed.
Print Assumptions C48_no_registers.

(** the witness is the transposed trace *)
Theorem C48_witness : forall (F : fieldType) (inp : seq F) steps w ps tr out,
  polys_ok w ps -> size inp = w -> get_computational_trace inp steps w ps = Ok (tr, out) ->
  exists wit, generate_witness steps w tr = Ok wit /\ size wit = w /\
    forall j, (j < w)%N -> size (nth [::] wit j) = steps /\
      forall i, (i < steps)%N -> (nth [::] wit j)`_i = (nth [::] tr i)`_j.
Proof.
move=> F inp steps w ps tr out O S; rewrite get_traceE // => -[<- _].
rewrite generate_witnessE; first last.
- by move=> i Hi; rewrite nth_traj ?iter_size //; lia.
- by rewrite size_traj; lia.
eexists; split; first by []; rewrite size_map size_iota; split=> // j Hj.
rewrite (nth_map 0%N) ?size_iota // nth_iota // size_map size_iota; split=> // i Hi.
by rewrite (nth_map 0%N) ?size_iota // nth_iota.
Qed.
Print Assumptions C48_witness.

(** the boundary constraints pin the first entry of each register of the witness *)
Theorem C48_boundary : forall (F : fieldType) (inp : seq F) steps w ps tr out wit,
  polys_ok w ps -> size inp = w -> (0 < steps)%N ->
  get_computational_trace inp steps w ps = Ok (tr, out) -> generate_witness steps w tr = Ok wit ->
  exists B, generate_boundary_constraints w inp = Ok B /\ size B = w /\
    forall j, (j < w)%N -> nth (0%N, 0%N, 0) B j = (0%N, j, (nth [::] wit j)`_0).
Proof.
move=> F inp steps w ps tr out wit O S Hs G Ew.
have [wit' [E' [Sw H]]] := C48_witness O S G; move: E'; rewrite Ew => -[E']; subst wit'.
rewrite boundaryE ?S //; eexists; split; first by []; rewrite size_map size_iota; split=> // j Hj.
rewrite (nth_map 0%N) ?size_iota // nth_iota // add0n; congr (_, _).
have [_ ->] := H _ Hj; last by [].
by move: G; rewrite get_traceE // => -[<- _]; rewrite nth_traj.
Qed.
Print Assumptions C48_boundary.

(** [get_degree] is the largest total degree of the step polynomials. *)
Theorem C48_get_degree : forall (F : fieldType) (ps : seq (mpoly F)),
  (ps <> [::] -> exists d, [/\ get_degree ps = Ok d, (forall p, List.In p ps -> (mdegree p <= d)%N) &
     exists2 p, List.In p ps & mdegree p = d]) /\
  (ps = [::] -> get_degree ps = Err ValueError).
Proof.
move=> F ps; split=> [nps|->//]; rewrite /get_degree.
rewrite py_maxE ?size_map; last by case: (ps) nps.
have [H1 H2] := max_spec (@mdegree F) ps.
by eexists; split; [reflexivity|exact: H1|exact: H2].
Qed.
Print Assumptions C48_get_degree.

Example C48_get_degree_example : get_degree fib = Ok 1%N.
Proof. by vm_compute. Qed.

Example C48_example :
  rmap (fun a => (air_C a, air_CDegree a, [seq (x.1, mval x.2) | x <- air_B a],
                  [seq mval x | x <- air_output a]))
    (mk_air 2 [:: z5 1; z5 2] 511 fib 8) =
    Ok (true, 1%N, [:: (0%N, 0%N, 1); (0%N, 1%N, 2)], [:: 4; 3])%Z /\
  rmap (fun a => air_C a) (mk_air 2 [:: z5 1; z5 2] 512 fib 8) = Err AssertionError.
Proof. by vm_compute. Qed.
