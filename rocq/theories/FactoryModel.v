(** Model of the memoized class factories [FiniteField] (starks/finitefield.py:57-72) and
    [IntegersModP] (starks/modp.py:25-27) as functions of Python call histories.

    UtilsModel has [memoize] for hashable arguments.  Here the cache lookup also hashes
    its key: [Polynomial] defines [__eq__] (starks/polynomial.py:99) and no [__hash__], so
    Python makes its objects unhashable and a key that contains one raises TypeError. *)
From Coq Require Import Bool ZArith List String.
From Verif Require Import Base UtilsModel.
Import ListNotations.
Local Open Scope Z_scope.

(** The Python values that occur in the calls: ints, strings (keyword names), None and
    polynomials over IntegersModP (the ints of their coefficients). *)
Inductive arg : Type :=
| AInt (z : Z)
| AStr (s : string)
| ANone
| APoly (coefficients : list Z).

Definition hashable (a : arg) : bool := match a with APoly _ => false | _ => true end.

Fixpoint zlist_eqb (a b : list Z) : bool :=
  match a, b with
  | [], [] => true
  | x :: a', y :: b' => (x =? y) && zlist_eqb a' b'
  | _, _ => false
  end.

(** [==] of keys; two polynomials are never compared, since neither can be in a key *)
Definition arg_eqb (a b : arg) : bool :=
  match a, b with
  | AInt x, AInt y => x =? y
  | AStr s, AStr t => String.eqb s t
  | ANone, ANone => true
  | APoly c, APoly d => zlist_eqb c d
  | _, _ => false
  end.

Section Memo.
  Context {R St : Type}.
  Variable f : list arg -> list (arg * arg) -> St -> result R * St.

  (** starks/numbertype.py:15-19 with the hashing of [argTuple] *)
  Definition hash_memoized (args : list arg) (kwargs : list (arg * arg)) (st : list (list arg * R) * St)
    : result R * (list (list arg * R) * St) :=
    if forallb hashable (args ++ map fst kwargs) then memoized arg_eqb f args kwargs st
    else (Err TypeError, st).

  (** a sequence of calls *)
  Fixpoint hash_run (calls : list (list arg * list (arg * arg))) (st : list (list arg * R) * St)
    : list (result R) * (list (list arg * R) * St) :=
    match calls with
    | [] => ([], st)
    | (a, k) :: cs =>
      let '(r, st1) := hash_memoized a k st in
      let '(rs, st2) := hash_run cs st1 in
      (r :: rs, st2)
    end.
End Memo.

(** Python's binding of arguments to parameter names: too many positional arguments, an
    unknown keyword or a keyword for a parameter that is already bound raise TypeError. *)
Definition bind_args (params : list string) (args : list arg) (kwargs : list (arg * arg))
  : result (list (arg * arg)) :=
  if (List.length params <? List.length args)%nat then Err TypeError
  else
    let env := combine (map AStr params) args in
    let free := skipn (List.length args) (map AStr params) in
    if forallb (fun kv => existsb (arg_eqb (fst kv)) free) kwargs then Ok (env ++ kwargs)
    else Err TypeError.

Fixpoint env_get (env : list (arg * arg)) (name : string) : option arg :=
  match env with
  | [] => None
  | (n, v) :: env' => if arg_eqb n (AStr name) then Some v else env_get env' name
  end.

(** The classes: IntegersModP(p), or Fq for p, m and a modulus. *)
Inductive class : Type :=
| ClassZp (p : Z)
| ClassFq (p m : Z) (modulus : list Z).

Section FiniteField.
  Context {St : Type}.
  (** [is_irreducible] (starks/poly_utils.py) on a modulus p and coefficients, and
      [generate_primitive_polynomial], which draws random numbers from the state *)
  Variable irreducible : Z -> list Z -> result bool.
  Variable generate : Z -> Z -> St -> result (list Z) * St.

  (** starks/finitefield.py:58-72, on ints p and m and a modulus that is None or a
      polynomial.  Simplification: other arguments are all given the outcome TypeError. *)
  Definition ff_body (p m modulus : arg) (s : St) : result class * St :=
    match p, m, modulus with
    | AInt p, AInt m, APoly g =>
      (let* b := irreducible p g in
       if b then Ok (if m =? 1 then ClassZp p else ClassFq p m g) else Err ValueError, s)
    | AInt p, AInt m, ANone =>
      if m =? 1 then (Ok (ClassZp p), s)
      else let '(g, s') := generate p m s in (rmap (ClassFq p m) g, s')
    | _, _, _ => (Err TypeError, s)
    end.

  (** the undecorated function *)
  Definition ff_fun (args : list arg) (kwargs : list (arg * arg)) (s : St) : result class * St :=
    match bind_args ["p"; "m"; "polynomialModulus"]%string args kwargs with
    | Err e => (Err e, s)
    | Ok env =>
      match env_get env "p", env_get env "m" with
      | Some p, Some m =>
        ff_body p m (match env_get env "polynomialModulus" with Some g => g | None => ANone end) s
      | _, _ => (Err TypeError, s)
      end
    end.
End FiniteField.

(** starks/modp.py:25-27 *)
Definition imp_fun (args : list arg) (kwargs : list (arg * arg)) (s : unit) : result class * unit :=
  (let* env := bind_args ["p"%string] args kwargs in
   match env_get env "p" with
   | Some (AInt p) => Ok (ClassZp p)
   | _ => Err TypeError
   end, s).
