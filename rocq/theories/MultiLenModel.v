(** Model of [__len__] of starks/multivariate_polynomial.py, beside MultiModel.v. *)
From Verif Require Import Prelude MultiModel.
Set Implicit Arguments.
Unset Strict Implicit.
Unset Printing Implicit Defensive.

(** starks/multivariate_polynomial.py:93-94 [__len__]: the number of entries of the dict *)
Definition mlen (F : fieldType) (p : mpoly F) : nat := size p.

(** starks/multivariate_polynomial.py:340-341 [Zero]: the constructor on the empty dict *)
Definition mzero (F : fieldType) : mpoly F := mmk [::].

(** What the constructor can be given: an object of the same class, an element of the ring,
    a dict of ring elements, an int (or bool), or an object of another type.  Dicts with
    coefficients that are not ring elements are not modelled. *)
Inductive marg (F : fieldType) : Type :=
  | AMulti of mpoly F | AElem of F | ADict of mpoly F | AInt of Z | AOther.
Arguments AOther {F}.

(** starks/multivariate_polynomial.py:79-91 [__init__] with [num_vars = n]; [cast] is
    [ring(c)] for an int.  The value bound at line 85 is not used. *)
Definition mctor (F : fieldType) (cast : Z -> F) (n : nat) (c : marg F) : result (mpoly F) :=
  match c with
  | AMulti p => Ok (remove_zero_coefficients p)
  | AElem x => Ok (remove_zero_coefficients [:: (nseq n 0%N, x)])
  | ADict d => Ok (remove_zero_coefficients d)
  | AInt z => Ok (remove_zero_coefficients [:: (nseq n 0%N, cast z)])
  | AOther => Err ValueError
  end.

(** starks/multivariate_polynomial.py:69-77 [factory]; [None] arguments are [None], the
    result [None] is [Ok None].  construct_multivariate_coefficients is not imported (line 12
    is commented out); the type of [step_fn] is irrelevant. *)
Definition mfactory (F : fieldType) (cast : Z -> F) (n : nat) (S : Type)
    (coefficients : option (marg F)) (step_fn : option S) : result (option (mpoly F)) :=
  match coefficients, step_fn with
  | Some c, _ => rmap Some (mctor cast n c)
  | None, Some _ => Err NameError
  | None, None => Ok None
  end.
