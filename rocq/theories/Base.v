(** Base vocabulary of the model: Python exceptions as values, byte strings,
    Python list indexing.  No /repo code is modelled here; these are the pieces
    of Python itself that the modelled functions use. *)
From Coq Require Import Bool ZArith List Lia.
From Coq.Strings Require Import Byte.
Import ListNotations.
Local Open Scope Z_scope.

(** The Python exceptions the modelled code can raise, plus two model-only
    outcomes: [InverseError] (the exception raised by a field's [inverse] on a
    non-invertible element: AttributeError for Z/p, because
    starks/modp.py:77 formats [self.__name__]; ZeroDivisionError for
    FiniteField) and [Diverges] (a loop budget ran out, or infinite recursion). *)
Inductive exn : Set :=
| TypeError | ValueError | ZeroDivisionError | IndexError | KeyError
| AssertionError | AttributeError | NameError | OverflowError
| UnboundLocalError | NotImplementedError | RecursionError
| GenericException | InverseError | Diverges.

Inductive result (A : Type) : Type :=
| Ok (a : A)
| Err (e : exn).
Arguments Ok {A} a.
Arguments Err {A} e.

Definition bind {A B} (x : result A) (f : A -> result B) : result B :=
  match x with Ok a => f a | Err e => Err e end.

Definition rmap {A B} (f : A -> B) (x : result A) : result B :=
  match x with Ok a => Ok (f a) | Err e => Err e end.

Declare Scope py_scope.
Delimit Scope py_scope with py.
Notation "'let*' p := e 'in' f" := (bind e (fun p => f))
  (at level 61, p pattern, e at next level, right associativity) : py_scope.
Notation "e1 ;;* e2" := (bind e1 (fun _ => e2))
  (at level 61, right associativity) : py_scope.
Open Scope py_scope.

(** [for x in l: st = f(st, x)] where the body may raise. *)
Fixpoint foldM {A S} (f : S -> A -> result S) (l : list A) (s : S) : result S :=
  match l with
  | [] => Ok s
  | x :: l' => let* s' := f s x in foldM f l' s'
  end.

(** [[f(x) for x in l]] where [f] may raise. *)
Fixpoint mapM {A B} (f : A -> result B) (l : list A) : result (list B) :=
  match l with
  | [] => Ok []
  | x :: l' => let* y := f x in let* ys := mapM f l' in Ok (y :: ys)
  end.

(** [assert b] *)
Definition assert_ (b : bool) : result unit :=
  if b then Ok tt else Err AssertionError.

(** Python [l[i]], negative indices included. *)
Definition py_nth {A} (l : list A) (i : Z) : result A :=
  let n := Z.of_nat (length l) in
  let j := if i <? 0 then i + n else i in
  if (j <? 0) || (n <=? j) then Err IndexError
  else match nth_error l (Z.to_nat j) with
       | Some a => Ok a
       | None => Err IndexError
       end.

(** Python [l[a:b]] for [0 <= a], [0 <= b]. *)
Definition slice {A} (l : list A) (a b : nat) : list A :=
  firstn (b - a) (skipn a l).

(** [l[i] = v] for an in-range natural index (identity out of range: every
    use in the model is guarded or proved in range). *)
Fixpoint set_nth_list {A} (l : list A) (i : nat) (v : A) : list A :=
  match l, i with
  | [], _ => []
  | _ :: l', O => v :: l'
  | x :: l', S i' => x :: set_nth_list l' i' v
  end.

(** Byte strings. *)
Definition bytes := list byte.

Definition byte_val (b : byte) : Z := Z.of_N (Byte.to_N b).

(** Total inverse of [byte_val] on [0,256). *)
Definition byte_of (z : Z) : byte :=
  match Byte.of_N (Z.to_N (z mod 256)) with Some b => b | None => x00 end.

(** [int.from_bytes(b, 'big')] *)
Definition from_bytes_be (b : bytes) : Z :=
  fold_left (fun acc x => acc * 256 + byte_val x) b 0.

(** big-endian digits, exactly [len] of them *)
Fixpoint be_digits (len : nat) (n : Z) : bytes :=
  match len with
  | O => []
  | S k => be_digits k (n / 256) ++ [byte_of n]
  end.

(** [n.to_bytes(len, 'big')]: OverflowError when negative or too big. *)
Definition to_bytes_be (len : nat) (n : Z) : result bytes :=
  if (n <? 0) || (256 ^ Z.of_nat len <=? n) then Err OverflowError
  else Ok (be_digits len n).

Fixpoint bytes_eqb (a b : bytes) : bool :=
  match a, b with
  | [], [] => true
  | x :: a', y :: b' => Byte.eqb x y && bytes_eqb a' b'
  | _, _ => false
  end.
