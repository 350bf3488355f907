(** Model of the remaining functions of starks/utils.py and of [memoize]
    (starks/numbertype.py:7-22). *)
From Coq Require Import Bool ZArith List.
From Verif Require Import Base.
Import ListNotations.
Local Open Scope Z_scope.

(** starks/utils.py:20-27 [mimc]; the timing print is dropped.
    [i % len(round_constants)] raises ZeroDivisionError for an empty list. *)
Definition mimc_modulus : Z := 2 ^ 256 - 2 ^ 32 * 351 + 1.

Definition mimc (inp steps : Z) (round_constants : list Z) : result Z :=
  foldM (fun inp i =>
    if (length round_constants =? 0)%nat then Err ZeroDivisionError
    else let* c := py_nth round_constants (Z.of_nat i mod Z.of_nat (length round_constants)) in
         Ok ((inp ^ 3 + c) mod mimc_modulus))
    (seq 0 (Z.to_nat (steps - 1))) inp.

(** starks/utils.py:74-75: [while len(data) < 4*count: data += blake(data[-32:])] *)
Definition last32 (data : bytes) : bytes := skipn (length data - 32) data.

Fixpoint expand (H : bytes -> bytes) (fuel : nat) (data : bytes) (count : Z) : result bytes :=
  if Z.of_nat (length data) <? 4 * count then
    match fuel with
    | O => Err Diverges
    | S fuel' => expand H fuel' (data ++ H (last32 data)) count
    end
  else Ok data.

(** starks/utils.py:77-81 and 85-89:
    [int.from_bytes(data[i:i+4],'big') % m for i in range(0, count*4, 4)] *)
Definition samples (data : bytes) (count m : Z) : result (list Z) :=
  mapM (fun i => if m =? 0 then Err ZeroDivisionError
                 else Ok (from_bytes_be (slice data (4 * i) (4 * i + 4)) mod m))
       (seq 0 (Z.to_nat count)).

(** starks/utils.py:60-90 [get_pseudorandom_indices].  [fuel] bounds the
    expansion loop.  All divisors in the comprehension at line 90 equal
    [exclude_multiples_of - 1]. *)
Definition get_pseudorandom_indices (H : bytes -> bytes) (fuel : nat) (entropy : bytes)
    (modulus count exclude : Z) : result (list Z) :=
  assert_ (modulus <? 2 ^ 24) ;;*
  let* data := expand H fuel entropy count in
  if exclude =? 0 then samples data count modulus
  else
    let real_modulus := modulus * (exclude - 1) / exclude in
    let* o := samples data count real_modulus in
    mapM (fun x => if exclude - 1 =? 0 then Err ZeroDivisionError
                   else Ok (x + 1 + x / (exclude - 1))) o.

(** starks/utils.py:93-94 [is_a_power_of_2]; [fuel] bounds the recursion depth
    (CPython's own recursion limit is not modelled). *)
Fixpoint is_a_power_of_2 (fuel : nat) (x : Z) : result bool :=
  match fuel with
  | O => Err Diverges
  | S fuel' =>
    if x =? 1 then Ok true
    else if negb (x mod 2 =? 0) then Ok false
    else is_a_power_of_2 fuel' (x / 2)
  end.

(** starks/numbertype.py:7-22 [memoize].  [V] is the type of Python values
    (keyword names included), [veq] Python's [==] on them, [R] the results and
    [St] whatever state the wrapped function [f] reads and writes.  The cache is
    an association list from argument tuples to results. *)
Section Memoize.
  Context {V R St : Type}.
  Variable veq : V -> V -> bool.
  Variable f : list V -> list (V * V) -> St -> result R * St.

  Fixpoint tuple_eqb (a b : list V) : bool :=
    match a, b with
    | [], [] => true
    | x :: a', y :: b' => veq x y && tuple_eqb a' b'
    | _, _ => false
    end.

  Fixpoint cache_get (c : list (list V * R)) (k : list V) : option R :=
    match c with
    | [] => None
    | (k', r) :: c' => if tuple_eqb k' k then Some r else cache_get c' k
    end.

  (** lines 15-19: [argTuple = args + tuple(kwargs)]: iterating a dict yields
      its keys only. *)
  Definition memoized (args : list V) (kwargs : list (V * V)) (st : list (list V * R) * St)
    : result R * (list (list V * R) * St) :=
    let '(cache, s) := st in
    let argTuple := args ++ map fst kwargs in
    match cache_get cache argTuple with
    | Some r => (Ok r, (cache, s))
    | None =>
      match f args kwargs s with
      | (Ok r, s') => (Ok r, ((argTuple, r) :: cache, s'))
      | (Err e, s') => (Err e, (cache, s'))
      end
    end.

  (** a sequence of calls *)
  Fixpoint run_calls (calls : list (list V * list (V * V))) (st : list (list V * R) * St)
    : list (result R) * (list (list V * R) * St) :=
    match calls with
    | [] => ([], st)
    | (a, k) :: cs =>
      let '(r, st1) := memoized a k st in
      let '(rs, st2) := run_calls cs st1 in
      (r :: rs, st2)
    end.
End Memoize.
