(** Model of the parts of misc/zero_knowledge.py that draw random values or run the
    protocol more than once.  The draws of the generator are inputs: [draw i] is the value
    of [randbelow(i + 1)], a number from 0 to i. *)
From Coq Require Import Bool ZArith List.
From Verif Require Import Base CommitmentModel.
Import ListNotations.
Local Open Scope Z_scope.

(** [l[i] = x] for an index in range *)
Fixpoint upd (l : list Z) (i : nat) (x : Z) : list Z :=
  match l, i with
  | [], _ => []
  | _ :: l', O => x :: l'
  | y :: l', S i' => y :: upd l' i' x
  end.

(** [x[i], x[j] = x[j], x[i]]: both right-hand sides are read first, then [x[i]] is
    assigned before [x[j]] *)
Definition swap (l : list Z) (i j : nat) : list Z :=
  let a := nth j l 0 in
  let b := nth i l 0 in
  upd (upd l i a) j b.

(** [random.shuffle] of the standard library:
    [for i in reversed(range(1, len(x))): j = randbelow(i + 1); x[i], x[j] = x[j], x[i]];
    the argument [i] counts down from [len(x) - 1] *)
Fixpoint shuffle_loop (draw : nat -> nat) (i : nat) (l : list Z) : list Z :=
  match i with
  | O => l
  | S i' => shuffle_loop draw i' (swap l i (draw i))
  end.

(** zero_knowledge.py:8-12 [random_permutation] for an [n] that is not negative *)
Definition random_permutation (draw : nat -> nat) (n : Z) : list Z :=
  shuffle_loop draw (Z.to_nat n - 1) (zrange 0 n).

(** zero_knowledge.py:119-122 [choose_graph] and 176 [random.choice([1, 2])]; [d] is the
    value of [randbelow(2)] *)
Definition choose_graph (d : Z) : result Z := py_nth [1; 2] d.

(** zero_knowledge.py:140-149 [run_protocol] with the values it draws *)
Definition run_protocol_drawn (G1 G2 : graph) (iso : list Z) (r : (nat -> nat) * Z) : result bool :=
  zk_init G1 G2 ;;*
  let* n := zk_init G1 G2 in
  let L := random_permutation (fst r) n in
  let* H := send_isomorphic_copy G1 L in
  let* choice := choose_graph (snd r) in
  zk_accepts G1 G2 (prove_isomorphic_to iso L choice) choice H.

(** zero_knowledge.py:152-160, the loop.  Both floats are given as multiples of 2^-1074,
    the least positive double: every finite double is one.  [probability_fooled * 0.5]
    is then [prob / 2]: exact for powers of two down to 2^-1074, and the half of 2^-1074
    is rounded to the even neighbour 0.  [round k] is the value of the k-th call of
    [run_protocol]; the number of rounds run is returned instead of None. *)
Fixpoint convince_loop (fuel : nat) (prob tol : Z) (round : nat -> result bool) (k : nat) : result nat :=
  if tol <? prob then
    match fuel with
    | O => Err Diverges
    | S fuel' =>
      let* r := round k in
      assert_ r ;;*
      convince_loop fuel' (prob / 2) tol round (S k)
    end
  else Ok k.

(** zero_knowledge.py:152-160 [convince_beyond_doubt] *)
Definition convince_beyond_doubt (fuel : nat) (G1 G2 : graph) (iso : list Z) (tol : Z)
    (draws : nat -> (nat -> nat) * Z) : result nat :=
  convince_loop fuel (2 ^ Z.of_nat 1074) tol (fun k => run_protocol_drawn G1 G2 iso (draws k)) 0.

(** the double nearest to 1e-20, the default of [error_tolerance] (line 152):
    6646139978924579 * 2^-119 *)
Definition default_tolerance : Z := 6646139978924579 * 2 ^ 955.

(** zero_knowledge.py:163-171 [messages_from_protocol] *)
Definition messages_from_protocol (G1 G2 : graph) (iso : list Z) (r : (nat -> nat) * Z)
  : result (graph * Z * (Z -> result Z)) :=
  zk_init G1 G2 ;;*
  let* n := zk_init G1 G2 in
  let L := random_permutation (fst r) n in
  let* H := send_isomorphic_copy G1 L in
  let* choice := choose_graph (snd r) in
  Ok (H, choice, prove_isomorphic_to iso L choice).

(** zero_knowledge.py:174-185 [simulate_protocol] with the values it draws *)
Definition simulate_drawn (G1 G2 : graph) (r : (nat -> nat) * Z)
  : result (graph * Z * (Z -> result Z)) :=
  let* choice := choose_graph (snd r) in
  let* G := py_nth [G1; G2] (choice - 1) in
  let* n := num_vertices G in
  let pi := make_permutation_function (random_permutation (fst r) n) in
  let* H := apply_isomorphism G pi in
  Ok (H, choice, pi).
