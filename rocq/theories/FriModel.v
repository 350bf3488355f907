(** Model of starks/fri.py (the commented out class [SmoothSubgroupFRI], lines 176-366,
    is not code).

    [AffineSpace.__iter__] calls [field.__iter__()], which only IntegersModP defines
    (starks/modp.py:104; Fq of starks/finitefield.py has no [__iter__]), and
    [select_random] needs an extension field, so the objects with which [commit] and
    [query] can work are those of starks/test/test_fri.py: a space over Z/p whose basis
    and shift are elements of (polynomials cast to) the field [F] of characteristic p.
    The elements of the space are identified with their image in [F].

    Simplifications: the number of rounds [r], computed from Python floats
    ([int(math.floor((k_0 - R)/eta))]), is an argument; so are the values of
    [select_random] inside [commit] and [query] (the hashed strings contain floats and
    object addresses) and the numbers drawn by [randint]. *)
From Verif Require Import Prelude ModpModel ModpField PolyModel InterpModel FiniteFieldModel.
Set Implicit Arguments.
Unset Strict Implicit.
Unset Printing Implicit Defensive.
Import GRing.Theory.
Local Open Scope ring_scope.
Local Open Scope py_scope.

(** starks/fri.py:31-34: [while num > 0: bStr = str(num % 2) + bStr; num = num >> 1]; the
    digits in the order of the string *)
Fixpoint hextobin_loop (fuel : nat) (num : Z) (bStr : seq Z) : result (seq Z) :=
  if (0 <? num)%Z then
    if fuel is f.+1 then hextobin_loop f (Z.shiftr num 1) ((num mod 2)%Z :: bStr)
    else Err Diverges
  else Ok bStr.

(** starks/fri.py:29-38 [HextoBin] of the hexadecimal digits of a byte string:
    [int(Hexnum, 16)] is the big-endian value.  The characters '0' and '1' of the result
    are given as the integers 0 and 1. *)
Definition hextobin (digest : bytes) : result (seq Z) :=
  let num := from_bytes_be digest in
  hextobin_loop (Z.to_nat (Z.log2 num)).+1 num [::].

Section SelectRandom.
Variable P : primeZ.
Local Notation K := (modp_fieldType P).

(** starks/fri.py:23-27 [select_random]; [sha] is sha384 and [x] the encoded string.
    IntegersModP applied to a polynomial raises TypeError ([int()] fails,
    starks/modp.py:35-38). *)
Definition select_random (sha : bytes -> bytes) (c : field_class K) (x : bytes) : result (seq K) :=
  let* num := hextobin (sha x) in
  let poly := pmk [seq in_modp P d | d <- num] in
  match c with
  | CZp => Err TypeError
  | CFq g => fq_poly g poly
  end.
End SelectRandom.

Section FriModel.
Variable F : fieldType.
Variable p : nat.

(** A Python object used as a domain: an AffineSpace over Z/p (basis, shift) or a list *)
Inductive domain := DSpace (basis : seq F) (shift : F) | DList (l : seq F).

(** The values yielded by [for elt in space]; the coefficients run through the images
    in [F] of 0..p-1 (starks/modp.py:11-16, starks/reedsolomon.py:36-45) *)
Definition zp_images : seq F := [seq n%:R | n <- iota 0 p].
Definition elements (d : domain) : seq F :=
  match d with
  | DSpace basis shift => affine_iter zp_images (basis : seq F^o) (shift : F^o)
  | DList l => l
  end.

(** The builtin [len]: [__len__] (starks/reedsolomon.py:28-34) must fit a signed 64 bit
    integer *)
Definition domain_len (d : domain) : result Z :=
  match d with
  | DSpace basis _ =>
      let n := affine_len (Z.of_nat p) 1 (basis : seq F^o) in
      if (2 ^ 63 <=? n)%Z then Err OverflowError else Ok n
  | DList l => Ok (Z.of_nat (size l))
  end.

(** starks/fri.py:40-44 [select_subspace]; a list has no attribute [field].  The new
    space has no shift argument: its shift is [field(0)]. *)
Definition select_subspace (d : domain) (eta : nat) : result domain :=
  match d with
  | DSpace basis _ => Ok (DSpace (take eta basis) 0)
  | DList _ => Err AttributeError
  end.

(** starks/fri.py:46-53 [eval_on_subspace] *)
Definition eval_on_subspace (q : seq F) (d : domain) : domain :=
  DList [seq pcall q x | x <- elements d].

(** starks/poly_utils.py:62-70 [construct_affine_vanishing_polynomial] *)
Definition vanishing (d : domain) : seq F := zpoly (elements d).

(** [self.rho]: an int or a float (only its sign matters) *)
Inductive rate := RateInt (z : Z) | RateFloat (positive : bool).

(** [math.log(self.rho, 2)] raises ValueError for a rate that is not positive *)
Definition check_rate (rho : rate) : result unit :=
  match rho with
  | RateInt z => if (0 <? z)%Z then Ok tt else Err ValueError
  | RateFloat b => if b then Ok tt else Err ValueError
  end.

(** starks/fri.py:68 and 107: [eta] *)
Definition fri_eta : nat := 2.

(** starks/fri.py:75-101: the loop of [commit] from round [i] on, [n] rounds remaining.
    After the first of several rounds [f_i] is bound to a function that subscripts a
    field element (TypeError). *)
Fixpoint commit_loop (rho : rate) (r : Z) (rnd : nat -> result F)
    (n i : nat) (L_i L_i_0 : domain) (f_i : F -> result F) : result (option (seq F)) :=
  if n is n'.+1 then
    let* x_i := rnd i in
    let q_i := vanishing L_i_0 in
    let L_i_plus_1 := eval_on_subspace q_i L_i in
    if (Z.of_nat i <? r - 1)%Z then
      mapM (fun y =>
        let coset := [seq y + l_i | l_i <- elements L_i_0] in
        let* coset_eval := mapM f_i coset in
        let* interp := lagrange_interp coset coset_eval in
        Ok (pcall interp x_i)) (elements L_i_plus_1) ;;*
      let* L' := select_subspace L_i_plus_1 fri_eta in
      commit_loop rho r rnd n' i.+1 L_i_plus_1 L' (fun _ => Err TypeError)
    else
      let* vals := mapM f_i (elements L_i) in
      let* interp := lagrange_interp (elements L_i) vals in
      let* len := domain_len L_i in
      match rho with
      | RateInt z => Ok (Some (take (Z.to_nat (z * len - 1 + 1)) interp))
      | RateFloat _ => Err TypeError
      end
  else Ok None.

(** starks/fri.py:62-101 [commit]; the value [None] is returned when the loop is empty *)
Definition commit (L : domain) (rho : rate) (r : Z) (rnd : nat -> result F)
    (f : F -> result F) : result (option (seq F)) :=
  check_rate rho ;;*
  let* _ := domain_len L in
  let* L_0 := select_subspace L fri_eta in
  commit_loop rho r rnd (Z.to_nat r) 0 L L_0 f.

(** starks/fri.py:111-120: the lists L, L_0 and q *)
Definition query_spaces (L : domain) (r : Z) : result (seq domain * seq domain * seq (seq F)) :=
  let* sp := select_subspace L fri_eta in
  let* (Ls, L0s, q) := foldM (fun (st : seq domain * seq domain * seq (seq F)) (_ : nat) =>
      let '(Ls, L0s, q) := st in
      let* sp := py_nth L0s (-1) in
      let q := rcons q (vanishing sp) in
      let* D := py_nth Ls (-1) in
      let* qi := py_nth q (-1) in
      let D' := eval_on_subspace qi D in
      let Ls := rcons Ls D' in
      let* sp' := select_subspace D' fri_eta in
      Ok (Ls, rcons L0s sp', q)) (iota 0 (Z.to_nat (r - 1))) ([:: L], [:: sp], [::]) in
  let* sp := py_nth L0s (-1) in
  Ok (Ls, L0s, rcons q (vanishing sp)).

(** starks/fri.py:141-166: one iteration of the loop over [j]; [random_n] is the number
    drawn.  [false] stands for the early [return False]. *)
Definition query_round (Ls L0s : seq domain) (q : seq (seq F)) (x : seq F) (r : Z)
    (f : seq (F -> result F)) (random_n : Z) : result bool :=
  let* L := py_nth Ls 0 in
  let elts := elements L in
  let s_i := [seq ce.2 | ce <- zip (iota 1 (size elts)) elts & (Z.of_nat ce.1 =? random_n)%Z] in
  let rounds := iota 0 (Z.to_nat r) in
  let* s_i := foldM (fun s i =>
      let* qi := py_nth q (Z.of_nat i) in
      let* s' := py_nth s (-1) in
      Ok (rcons s (pcall qi s'))) rounds s_i in
  let* S_i := mapM (fun i =>
      let* sp := py_nth L0s (Z.of_nat i) in
      let* s := py_nth s_i (Z.of_nat i) in
      Ok [seq s + l_i | l_i <- elements sp]) rounds in
  let* P := mapM (fun i =>
      let* sp := py_nth S_i (Z.of_nat i) in
      let* fi := py_nth f (Z.of_nat i) in
      let* coset_eval := mapM fi sp in
      lagrange_interp sp coset_eval) rounds in
  foldM (fun (go : bool) i =>
      if go then
        let* fi := py_nth f (Z.of_nat i + 1) in
        let* s := py_nth s_i (Z.of_nat i + 1) in
        let* v := fi s in
        let* Pi := py_nth P (Z.of_nat i) in
        let* xi := py_nth x (Z.of_nat i) in
        Ok (v != pcall Pi xi)
      else Ok false) rounds true.

(** starks/fri.py:103-167 [query], together with the list [f] after the call (the
    interpolant is appended to the caller's list).  [coeff] is the value returned by
    [commit]; iterating over [None] raises TypeError.  [draw j] is the number drawn in
    iteration [j]. *)
Definition query (L : domain) (rho : rate) (r : Z) (rnd : nat -> result F) (draw : nat -> Z)
    (f : seq (F -> result F)) (coeff : option (seq F)) : result (bool * seq (F -> result F)) :=
  check_rate rho ;;*
  let* _ := domain_len L in
  let* (Ls, L0s, q) := query_spaces L r in
  let* P_prime := (if coeff is Some c then Ok (pmk c) else Err TypeError) in
  let* qr := py_nth q (-1) in
  let* Lr := py_nth Ls (-1) in
  let x_ply := elements (eval_on_subspace qr Lr) in
  let y_ply := [seq pcall P_prime v | v <- x_ply] in
  let* g := lagrange_interp x_ply y_ply in
  let f := rcons f (fun v => Ok (pcall g v)) in
  let* x := mapM (fun i => py_nth Ls (Z.of_nat i) ;;* py_nth L0s (Z.of_nat i) ;;* rnd i)
                 (iota 0 (Z.to_nat r)) in
  let* ok := foldM (fun (go : bool) j =>
      if go then query_round Ls L0s q x r f (draw j) else Ok false) (iota 0 2) true in
  Ok (ok, f).
End FriModel.
