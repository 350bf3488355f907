(** Model of the multiplicative FFT of starks/fft.py and of [get_power_cycle]
    (starks/utils.py), over an arbitrary field [F].  Python ints 0/1 that are
    mixed with field elements are the field's 0 and 1.  Loops without a
    syntactic bound take a [fuel] argument and yield [Err Diverges] when it runs
    out; "never terminates" means [Err Diverges] for every fuel. *)
From Verif Require Import Prelude PolyModel InterpModel.
Set Implicit Arguments.
Unset Strict Implicit.
Unset Printing Implicit Defensive.
Import GRing.Theory.
Local Open Scope ring_scope.
Local Open Scope py_scope.

Section FftModel.
Variable F : fieldType.
Implicit Types (vals roots : seq F).

(** [l[::2]] and [l[1::2]] *)
Fixpoint evens (T : Type) (l : seq T) : seq T :=
  match l with
  | x :: _ :: l' => x :: evens l'
  | [:: x] => [:: x]
  | [::] => [::]
  end.
Definition odds (T : Type) (l : seq T) : seq T := evens (behead l).

(** [l[i] = v] with its IndexError *)
Definition set_idx (l : seq F) (i : nat) (v : F) : result (seq F) :=
  if (i < size l)%N then Ok (set_nth 0 l i v) else Err IndexError.

(** starks/fft.py:287-300 [_simple_ft]; the root index [(i*j) % L] is in range *)
Definition simple_ft vals roots : result (seq F) :=
  let L := size roots in
  mapM (fun i =>
    foldM (fun last j => let* v := idx vals j in
                         Ok (last + v * nth 0 roots ((i * j) %% L)))
          (iota 0 L) 0)
    (iota 0 L).

(** starks/fft.py:310-313: the butterfly loop *)
Definition butterfly (roots L R : seq F) (n : nat) : result (seq F) :=
  foldM (fun o (ixy : nat * (F * F)) =>
      let '(i, (x, y)) := ixy in
      let* w := idx roots i in
      let y_times_root := y * w in
      let* o := set_idx o i (x + y_times_root) in
      set_idx o (i + size L) (x - y_times_root))
    (enumerate (zip L R)) (nseq n 0).

(** starks/fft.py:303-314 [_fft]; the recursion halves [vals], so [size vals]
    levels always suffice (see [fft_rec] below). *)
Fixpoint fft_loop (fuel : nat) vals roots : result (seq F) :=
  if fuel is f.+1 then
    if (size vals <= 4)%N then simple_ft vals roots
    else
      let* L := fft_loop f (evens vals) (evens roots) in
      let* R := fft_loop f (odds vals) (evens roots) in
      butterfly roots L R (size vals)
  else Err Diverges.
Definition fft_rec vals roots := fft_loop (size vals).+1 vals roots.

(** starks/fft.py:319-321 (and 336-338, utils.py:35-37): the loop extending
    [[1, r]] until the last entry is 1; [last] is [rootz[-1]]. *)
Fixpoint power_loop (fuel : nat) (r : F) (rootz : seq F) : result (seq F) :=
  if fuel is f.+1 then
    if last 1 rootz != 1 then power_loop f r (rcons rootz (last 1 rootz * r))
    else Ok rootz
  else Err Diverges.

(** starks/utils.py:30-38 [get_power_cycle]; [o[:-1]] *)
Definition get_power_cycle (fuel : nat) (r : F) : result (seq F) :=
  let* o := power_loop fuel r [:: 1; r] in
  Ok (take (size o).-1 o).

(** [rootz[:-1]] and [rootz[:0:-1]] *)
Definition but_last (l : seq F) := take (size l).-1 l.
Definition rev_but_first (l : seq F) := rev (behead l).

(** starks/fft.py:323-324: pad with zeros *)
Definition pad (rootz vals : seq F) : seq F :=
  if (size rootz > size vals + 1)%N then vals ++ nseq (size rootz - size vals - 1) 0 else vals.

(** starks/fft.py:316-331 [fft_1d]; [pow(len, modulus-2, modulus)] is an int,
    cast into the field by multiplication (for [modulus >= 2]). *)
Definition fft_1d (fuel : nat) vals (modulus : Z) (root : F) (inv : bool) : result (seq F) :=
  let* rootz := power_loop fuel root [:: 1; root] in
  let vals := pad rootz vals in
  if inv then
    let invlen := (Z.of_nat (size vals) ^ (modulus - 2) mod modulus)%Z in
    let* o := fft_rec vals (rev_but_first rootz) in
    Ok [seq x * (Z.to_nat invlen)%:R | x <- o]
  else fft_rec vals (but_last rootz).

(** starks/fft.py:263-272 [NonBinaryFFT.fft] / [inv_fft] *)
Definition nb_fft (fuel : nat) (modulus : Z) (root : F) (poly : seq F) : result (seq F) :=
  fft_1d fuel poly modulus root false.
Definition nb_inv_fft (fuel : nat) (modulus : Z) (root : F) (values : seq F) : result (seq F) :=
  let* coeffs := fft_1d fuel values modulus root true in Ok (pmk coeffs).

(** starks/fft.py:334-345 [mul_polys] *)
Definition mul_polys (fuel : nat) (a b : seq F) (root : F) : result (seq F) :=
  let* rootz := power_loop fuel root [:: 1; root] in
  let a := pad rootz a in
  let b := pad rootz b in
  let* x1 := fft_rec a (but_last rootz) in
  let* x2 := fft_rec b (but_last rootz) in
  fft_rec [seq xy.1 * xy.2 | xy <- zip x1 x2] (rev_but_first rootz).
End FftModel.
