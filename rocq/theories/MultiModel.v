(** Model of starks/multivariate_polynomial.py, of starks/utils.py:40-56 and of
    the multivariate part of starks/poly_utils.py, over an arbitrary field [F].

    A MultivariatePolynomial object is represented by its attribute
    [coefficients], a dict: the list of its (power tuple, coefficient) entries in
    insertion order.  Power tuples may have any length; exponents are natural
    numbers (negative exponents are not modelled).  Simplifications: int
    coefficients are identified with their image in the ring; the casts of
    [@typecheck] are written out as [mconst]; ring elements that Python leaves
    unwrapped where a polynomial is expected (the value of an empty sum) are
    identified with constant polynomials.  The sympy/string based division
    (lines 170-326) and [__repr__] are modelled in ParserModel.v. *)
From Verif Require Import Prelude PowModel PolyModel.
Set Implicit Arguments.
Unset Strict Implicit.
Unset Printing Implicit Defensive.
Import GRing.Theory.
Local Open Scope ring_scope.
Local Open Scope py_scope.

(** A power tuple. *)
Notation key := (seq nat).

(** Python's [<=] on tuples of ints. *)
Fixpoint tuple_leq (a b : key) : bool :=
  match a, b with
  | [::], _ => true
  | _ :: _, [::] => false
  | x :: a', y :: b' => (x < y)%N || (x == y) && tuple_leq a' b'
  end.

(** starks/multivariate_polynomial.py:33-45 [add_power_tuples]; the indices
    [b[i]], [a[i]] of lines 41 and 44 restart from 0. *)
Definition add_power_tuples (a b : key) : key :=
  let m := minn (size a) (size b) in
  let add_l := [seq (nth 0%N a i + nth 0%N b i)%N | i <- iota 0 m] in
  if size a == m then add_l ++ [seq nth 0%N b i | i <- iota 0 (size b - m)]
  else add_l ++ [seq nth 0%N a i | i <- iota 0 (size a - m)].

(** starks/multivariate_polynomial.py:47-51 [sum_power_tuple] *)
Definition sum_power_tuple (a : key) : nat := foldl addn 0%N a.

Section MultiModel.
Variable F : fieldType.

(** The attribute [coefficients]. *)
Definition mpoly := seq (key * F).
Implicit Types (a b : mpoly) (k : key) (x : F).

Definition mkeys a : seq key := [seq kc.1 | kc <- a].

(** [d[k] = v]: replaces in place or appends. *)
Fixpoint dict_set a k x : mpoly :=
  if a is (k', x') :: a' then
    if k' == k then (k', x) :: a' else (k', x') :: dict_set a' k x
  else [:: (k, x)].

(** [d[k]] of a present key (0 for an absent one: every use is guarded). *)
Fixpoint dict_get a k : F :=
  if a is (k', x') :: a' then if k' == k then x' else dict_get a' k else 0.

(** starks/multivariate_polynomial.py:24-31 [remove_zero_coefficients] *)
Definition remove_zero_coefficients a : mpoly := [seq kc <- a | kc.2 != 0].

(** starks/multivariate_polynomial.py:79-91 constructor from a dict *)
Definition mmk a : mpoly := remove_zero_coefficients a.

(** starks/multivariate_polynomial.py:82-83, 87-88 constructor from a ring
    element or an int *)
Definition mconst (n : nat) x : mpoly := remove_zero_coefficients [:: (nseq n 0%N, x)].

(** starks/multivariate_polynomial.py:96-97 *)
Definition mis_zero a : bool := size a == 0%N.

(** starks/multivariate_polynomial.py:111-117 [degree] *)
Definition mdegree a : nat :=
  foldl (fun m k => if (m < sum_power_tuple k)%N then sum_power_tuple k else m) 0%N (mkeys a).

(** starks/multivariate_polynomial.py:122-126 [__iter__] *)
Definition miter a : seq (key * F) :=
  [seq (k, dict_get a k) | k <- sort tuple_leq (mkeys a)].

(** starks/multivariate_polynomial.py:128-129 [__neg__] *)
Definition mneg a : mpoly := mmk [seq (kc.1, - kc.2) | kc <- miter a].

(** starks/multivariate_polynomial.py:139-144 [__getitem__] *)
Definition mgetitem a k : F := if k \in mkeys a then dict_get a k else 0.

(** starks/multivariate_polynomial.py:131-137 [__eq__] *)
Definition meq a b : bool :=
  [&& mdegree a == mdegree b,
      all (fun k => k \in mkeys b) (mkeys a) && all (fun k => k \in mkeys a) (mkeys b) &
      all (fun k => mgetitem a k == mgetitem b k) (mkeys a)].

(** starks/multivariate_polynomial.py:146-153 [__add__].  The order of the set
    [joint_monomials] is unspecified in Python; the model uses one order. *)
Definition madd a b : mpoly :=
  let joint := mkeys a ++ [seq k <- mkeys b | k \notin mkeys a] in
  mmk [seq (k, mgetitem a k + mgetitem b k) | k <- joint].

(** starks/multivariate_polynomial.py:119-120 [__sub__] *)
Definition msub a b : mpoly := madd a (mneg b).

(** starks/multivariate_polynomial.py:163-167, the body of the nested loops *)
Definition mmul_step (nc : mpoly) (ka kb : key * F) : mpoly :=
  let prod := add_power_tuples ka.1 kb.1 in
  let coeff := ka.2 * kb.2 in
  let nc' := if prod \notin mkeys nc then dict_set nc prod 0 else nc in
  dict_set nc' prod (dict_get nc' prod + coeff).

(** starks/multivariate_polynomial.py:155-168 [__mul__] *)
Definition mmul a b : mpoly :=
  if mis_zero a || mis_zero b then mmk [::]
  else mmk (foldl (fun nc ka => foldl (fun nc kb => mmul_step nc ka kb) nc (miter b)) [::] (miter a)).

(** [p ** d], inherited from starks/numbertype.py:68-84 *)
Definition mpow (n : nat) a (d : nat) : result mpoly :=
  dom_pow (mconst n 1) mmul a (Z.of_nat d).

(** starks/multivariate_polynomial.py:329-338 [__call__], for values in any
    Python type: [emb] casts ring elements, [radd], [rmul], [rpow] are its
    operations. *)
Section Call.
Variables (R : Type) (emb : F -> R) (radd rmul : R -> R -> R) (rpow : R -> nat -> result R).

Definition mcall_gen (num_vars : nat) a (vals : seq R) : result R :=
  assert_ (size vals == num_vars) ;;*
  foldM (fun y (kc : key * F) =>
    let* prod := foldM (fun prod (ip : nat * nat) =>
        let* v := py_nth vals (Z.of_nat ip.1) in
        let* w := rpow v ip.2 in
        Ok (rmul prod w)) (enumerate kc.1) (emb 1) in
    Ok (radd y (rmul (emb kc.2) prod))) (miter a) (emb 0).
End Call.

(** [__call__] at field elements *)
Definition mcall (num_vars : nat) a (vals : seq F) : result F :=
  mcall_gen id +%R *%R (fun x d => dom_pow 1 *%R x (Z.of_nat d)) num_vars a vals.

(** [__call__] at multivariate polynomials in [n'] variables *)
Definition mcompose (num_vars n' : nat) a (vals : seq mpoly) : result mpoly :=
  mcall_gen (mconst n') madd mmul (mpow n') num_vars a vals.

(** [__call__] at univariate polynomials *)
Definition mcall_poly (num_vars : nat) a (vals : seq (seq F)) : result (seq F) :=
  mcall_gen (@pconst F) (@padd F) (@pmul F) (fun p d => ppow p (Z.of_nat d)) num_vars a vals.

(** starks/utils.py:51-54: the generator X_{i+1} of [width] variables *)
Definition unit_tuple (i width : nat) : key := nseq i 0%N ++ 1%N :: nseq (width - i.+1) 0%N.
Definition mvar (width i : nat) : mpoly := mmk [:: (unit_tuple i width, 1)].

(** starks/utils.py:40-56 [generate_Xi_s] *)
Definition generate_Xi_s (width : nat) : seq mpoly := [seq mvar width i | i <- iota 0 width].

(** starks/poly_utils.py:24-41 [make_multivar] *)
Definition make_multivar (p : seq F) (i width : nat) : result mpoly :=
  foldM (fun up (dc : nat * F) =>
    let* w := mpow width (mvar width i) dc.1 in
    Ok (madd up (mmul (mconst width dc.2) w))) (enumerate p) (mconst width 0).

(** starks/poly_utils.py:242-261 [construct_multivariate_dirac_delta]; [q] is
    [field.field_size].  [x_i_term[i] = 1] raises IndexError for [i >= n]. *)
Definition dirac_delta (q n : nat) (values : seq F) : result mpoly :=
  foldM (fun base (iv : nat * F) =>
    if (iv.1 < n)%N then
      let x_i_term := set_nth 0%N (nseq n 0%N) iv.1 1%N in
      let term := mmk [:: (nseq n 0%N, - iv.2); (x_i_term, 1)] in
      let* w := mpow n term (q - 1) in
      Ok (mmul base (msub (mconst n 1) w))
    else Err IndexError) (enumerate values) (mconst n 1).

(** [itertools.product] of [m] copies of [range(p)] *)
Fixpoint int_product (p m : nat) : seq (seq nat) :=
  if m is m'.+1 then [seq i :: l | i <- iota 0 p, l <- int_product p m'] else [:: [::]].

(** starks/poly_utils.py:264-299 [construct_multivariate_coefficients] for a
    field with characteristic [p] and degree [m] ([m = 1] for Z/p); [field(ind)]
    is [ind%:R]. *)
Definition construct_multivariate_coefficients (p m q : nat) (step_fn : seq F -> result F)
    (n : nat) : result mpoly :=
  foldM (fun poly (index : seq nat) =>
    let index := [seq i%:R | i <- index] in
    let* term := dirac_delta q n index in
    let* y := step_fn index in
    Ok (madd poly (mmul (mconst n y) term))) (int_product p m) (mconst n 0).
End MultiModel.

(** ** Univariate polynomials over the ring of multivariate polynomials *)
(** starks/polynomial.py at [ring = multivariates_over(field, w)], needed by
    [project_to_univariate]; the coefficients are [mpoly] objects in [w]
    variables, compared with [meq]. *)
Section ProjModel.
Variable F : fieldType.
Variable w : nat.
Notation T := (mpoly F).
Implicit Types (a b : seq T).

(** starks/polynomial.py:13-21 [strip], with [elt = ring(0)] *)
Fixpoint qstrip_from (L : seq T) (k : nat) : nat :=
  if k is k'.+1 then
    if meq (nth [::] L k') (mconst w 0) then qstrip_from L k' else k
  else 0%N.
Definition qmk a : seq T := take (qstrip_from a (size a)) a.

(** starks/polynomial.py:108-113 [__add__]: [zip_longest] with fill value
    [ring(0)], then [sum], which starts from 0 *)
Definition qadd a b : seq T :=
  qmk [seq madd (madd (nth (mconst w 0) a i) (mconst w 0)) (nth (mconst w 0) b i)
      | i <- iota 0 (maxn (size a) (size b))].

(** starks/polynomial.py:115-126 [__mul__] *)
Definition qmul a b : seq T :=
  if (size a == 0%N) || (size b == 0%N) then qmk [::]
  else qmk (foldl (fun nc (ix : nat * T) =>
         foldl (fun nc (jy : nat * T) =>
           set_nth (mconst w 0) nc (ix.1 + jy.1)
             (madd (nth (mconst w 0) nc (ix.1 + jy.1)) (mmul ix.2 jy.2))) nc (enumerate b))
         (nseq (size a + size b - 1) (mconst w 0)) (enumerate a)).

(** [p ** d], starks/numbertype.py:68-84 *)
Definition qpow a (d : nat) : result (seq T) :=
  dom_pow (qmk [:: mconst w 1]) qmul a (Z.of_nat d).
End ProjModel.

(** starks/poly_utils.py:43-55 [project_to_univariate], [0 <= i]; [term[i]]
    raises IndexError for too short tuples. *)
Definition project_to_univariate (F : fieldType) (p : mpoly F) (i width : nat)
  : result (seq (mpoly F)) :=
  let w := (width - 1)%N in
  let X := qmk w [:: mconst w (0 : F); mconst w (1 : F)] in
  foldM (fun out (tc : key * F) =>
    let term_minus_i := take i tc.1 ++ drop i.+1 tc.1 in
    let coeff := mmk [:: (term_minus_i, tc.2)] in
    let* d := py_nth tc.1 (Z.of_nat i) in
    let* xd := qpow w X d in
    Ok (qadd w out (qmul w (qmk w [:: coeff]) xd))) (miter p) (qmk w [:: mconst w (0 : F)]).
