(** Model of starks/air.py over an arbitrary field [F].

    A state is a list of field elements.  The step polynomials are multivariate
    polynomials in [width] variables (MultiModel.v).  Simplifications: the 1-d
    convenience of lines 94-95 (an int [inp] is wrapped into a list) is left to the
    caller; [print] is dropped; [steps] and [width] are natural numbers (for a
    negative number of steps every [range] of the file is empty, as for 0). *)
From Verif Require Import Prelude PowModel PolyModel MultiModel.
Set Implicit Arguments.
Unset Strict Implicit.
Unset Printing Implicit Defensive.
Import GRing.Theory.
Local Open Scope ring_scope.
Local Open Scope py_scope.

Section AirModel.
Variable F : fieldType.
Notation state := (seq F).

(** starks/air.py:48, the comprehension computing the next state *)
Definition next_state (width : nat) (step_polys : seq (mpoly F)) (s : state) : result state :=
  mapM (fun i : nat =>
    let* p := py_nth step_polys (Z.of_nat i) in mcall width p s) (iota 0 width).

(** starks/air.py:31-52 [get_computational_trace] *)
Definition get_computational_trace (inp : state) (steps width : nat) (step_polys : seq (mpoly F))
  : result (seq state * state) :=
  let* trace := foldM (fun trace (_ : nat) =>
      let* prev := py_nth trace (-1) in
      let* next := next_state width step_polys prev in
      Ok (trace ++ [:: next])) (iota 0 (steps - 1)) [:: inp] in
  let* output := py_nth trace (-1) in
  Ok (trace, output).

(** starks/air.py:122-124 [generate_witness]; [tr] is [self.computational_trace] *)
Definition generate_witness (steps w : nat) (tr : seq state) : result (seq (seq F)) :=
  mapM (fun j : nat => mapM (fun i : nat =>
    let* s := py_nth tr (Z.of_nat i) in py_nth s (Z.of_nat j)) (iota 0 steps)) (iota 0 w).

(** starks/air.py:126-132 [generate_boundary_constraints] *)
Definition generate_boundary_constraints (w : nat) (inp : state) : result (seq (nat * nat * F)) :=
  mapM (fun ind : nat => let* x := py_nth inp (Z.of_nat ind) in Ok (0%N, ind, x)) (iota 0 w).

(** starks/air.py:134-158 [generate_monotone_circuit] *)
Definition generate_monotone_circuit (steps width : nat) (tr : seq state) (Polys : seq (mpoly F))
  : result bool :=
  let* output_eval := mapM (fun i : nat =>
      let* Wt := py_nth tr (Z.of_nat i) in
      let* Wt1 := py_nth tr (Z.of_nat i + 1) in
      mapM (fun j : nat =>
        let* p := py_nth Polys (Z.of_nat j) in mcall (2 * width) p (Wt ++ Wt1)) (iota 0 width))
    (iota 0 (steps - 1)) in
  let output := [seq foldl (fun t j => t && (nth 0 (nth [::] output_eval i) j == 0)) true (iota 0 width)
                | i <- iota 0 (steps - 1)] in
  Ok (~~ has (fun i => nth true output i == false) (iota 0 (steps - 1))).

(** [max] of a list of ints: ValueError for the empty list *)
Definition py_max (l : seq nat) : result nat :=
  if l is x :: l' then Ok (foldl maxn x l') else Err ValueError.

(** starks/air.py:160-164 [C_degree] *)
Definition C_degree (width : nat) (Polys : seq (mpoly F)) : result nat :=
  let* ds := mapM (fun j : nat => let* p := py_nth Polys (Z.of_nat j) in Ok (mdegree p))
               (iota 0 width) in
  py_max ds.

(** starks/air.py:167-168 and starks/stark.py:226-227 [get_degree] *)
Definition get_degree (step_polys : seq (mpoly F)) : result nat :=
  py_max [seq mdegree p | p <- step_polys].

(** starks/air.py:170-193 [generate_constraint_polynomials].  [step_poly(Xs)] is
    [__call__] at multivariate polynomials in 2*width variables. *)
Definition generate_constraint_polynomials (width : nat) (step_polys : seq (mpoly F))
  : result (seq (mpoly F)) :=
  let multivars := generate_Xi_s F (2 * width) in
  let Xs := take width multivars in
  let Ys := drop width multivars in
  mapM (fun i : nat =>
    let* step_poly := py_nth step_polys (Z.of_nat i) in
    let* Y_i := py_nth Ys (Z.of_nat i) in
    let* v := mcompose width (2 * width) step_poly Xs in
    Ok (msub Y_i v)) (iota 0 width).

(** An AIR object: the attributes computed by the constructor. *)
Record air := Air {
  air_width : nat; air_inp : state; air_steps : nat; air_step_polys : seq (mpoly F);
  air_trace : seq state; air_output : state; air_extension_factor : nat;
  air_Polys : seq (mpoly F); air_C : bool; air_CDegree : nat; air_B : seq (nat * nat * F) }.

(** starks/air.py:90-120 [AIR.__init__] with [self.t = 9], [self.d = 10] *)
Definition mk_air (width : nat) (inp : state) (steps : nat) (step_polys : seq (mpoly F))
    (extension_factor : nat) : result air :=
  assert_ (steps == 2 ^ 9 - 1)%N ;;*
  let* to := get_computational_trace inp steps width step_polys in
  let* Polys := generate_constraint_polynomials width step_polys in
  let* C := generate_monotone_circuit steps width to.1 Polys in
  let* CDegree := C_degree width Polys in
  assert_ (CDegree <= 2 ^ 10)%N ;;*
  let* B := generate_boundary_constraints width inp in
  Ok (Air width inp steps step_polys to.1 to.2 extension_factor Polys C CDegree B).
End AirModel.
