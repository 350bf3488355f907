(** Property theorems C27-C33: interpolation (starks/poly_utils.py) and affine
    spaces (starks/reedsolomon.py). *)
From Verif Require Import Prelude ModpModel ModpField PolyModel PolyProofs InterpModel InterpProofs.
Import GRing.Theory.
Local Open Scope ring_scope.

Local Notation z7 l := [seq in_modp P7 z | z <- l].
Local Notation z17 l := [seq in_modp P17 z | z <- l].

(** C27: [zpoly] is the monic polynomial with exactly the given roots. *)
Theorem C27_zpoly : forall (F : fieldType) (xs : seq F),
  [/\ normal (zpoly xs), Poly (zpoly xs) = \prod_(x <- xs) ('X - x%:P),
      pdegree (zpoly xs) = Z.of_nat (size xs), plead (zpoly xs) = Ok 1 &
      forall x, (pcall (zpoly xs) x == 0) = (x \in xs)].
Proof. exact zpoly_spec. Qed.
Print Assumptions C27_zpoly.

Example C27_example : [seq mval x | x <- zpoly (z7 [:: 1; 2; 2]%Z)] = [:: 3; 1; 2; 1]%Z.
Proof. by vm_compute. Qed.

(** C28: [multi_inv] never raises; entry [i] is the inverse of the [i]-th value,
    and 1 where that value is zero. *)
Theorem C28_multi_inv : forall (F : fieldType) (vs : seq F),
  exists out, multi_inv vs = Ok out /\ size out = size vs /\
    forall i, (i < size vs)%N ->
      (nth 0 vs i != 0 -> nth 0 vs i * nth 0 out i = 1) /\
      (nth 0 vs i = 0 -> nth 0 out i = 1).
Proof.
move=> F vs; rewrite multi_invE; eexists; split; first by [].
rewrite size_map; split=> // i Hi; rewrite (nth_map 0) // /nz.
by split=> [H|->]; rewrite ?(negbTE H) ?mulfV // eqxx invr1.
Qed.
Print Assumptions C28_multi_inv.

(** The intended "zero maps to zero" is false. *)
Theorem C28_zero_to_zero_refuted :
  ~ (forall (F : fieldType) (vs out : seq F) i, multi_inv vs = Ok out -> (i < size vs)%N ->
       nth 0 vs i = 0 -> nth 0 out i = 0).
Proof.
move=> H; have := H (modp_fieldType P7) [:: 0] _ 0%N (Logic.eq_refl _) isT (Logic.eq_refl _).
by move=> /(congr1 (@mval P7)).
Qed.
Print Assumptions C28_zero_to_zero_refuted.

Example C28_example : rmap (map (@mval P7)) (multi_inv (z7 [:: 3; 0; 2; 6]%Z)) = Ok [:: 5; 1; 4; 6]%Z.
Proof. by vm_compute. Qed.

(** C29: Lagrange interpolation: existence ... *)
Theorem C29_interpolates : forall (F : fieldType) (xs ys : seq F), uniq xs -> size xs = size ys ->
  exists l, [/\ lagrange_interp xs ys = Ok l, normal l, (size l <= size xs)%N &
    forall i, (i < size xs)%N -> pcall l (nth 0 xs i) = nth 0 ys i].
Proof. exact lagrange_spec. Qed.
Print Assumptions C29_interpolates.

(** ... uniqueness (any polynomial of degree < n through the points is what is returned) ... *)
Theorem C29_unique : forall (F : fieldType) (xs ys l : seq F),
  uniq xs -> size xs = size ys -> normal l -> (size l <= size xs)%N ->
  (forall i, (i < size xs)%N -> pcall l (nth 0 xs i) = nth 0 ys i) ->
  lagrange_interp xs ys = Ok l.
Proof. exact lagrange_unique. Qed.
Print Assumptions C29_unique.

(** ... and mismatched lengths raise AssertionError. *)
Theorem C29_length_mismatch : forall (F : fieldType) (xs ys : seq F), size xs <> size ys ->
  lagrange_interp xs ys = Err AssertionError.
Proof. exact lagrange_mismatch. Qed.
Print Assumptions C29_length_mismatch.

Example C29_example : uniq (z17 [:: 1; 2; 3]%Z) /\
  rmap (map (@mval P17)) (lagrange_interp (z17 [:: 1; 2; 3]%Z) (z17 [:: 2; 5; 10]%Z)) = Ok [:: 1; 0; 1]%Z.
Proof. by split; vm_compute. Qed.

(** C30: the specialised versions agree with the general one (extra entries of
    the argument lists are ignored). *)
Theorem C30_interp_2 : forall (F : fieldType) (x0 x1 y0 y1 : F) (xs' ys' : seq F), x0 != x1 ->
  lagrange_interp_2 (x0 :: x1 :: xs') (y0 :: y1 :: ys') = lagrange_interp [:: x0; x1] [:: y0; y1].
Proof. exact interp2_ok. Qed.
Print Assumptions C30_interp_2.

Theorem C30_interp_4 : forall (F : fieldType) (x0 x1 x2 x3 y0 y1 y2 y3 : F) (xs' ys' : seq F),
  uniq [:: x0; x1; x2; x3] ->
  lagrange_interp_4 [:: x0, x1, x2, x3 & xs'] [:: y0, y1, y2, y3 & ys'] =
  lagrange_interp [:: x0; x1; x2; x3] [:: y0; y1; y2; y3].
Proof. exact interp4_ok. Qed.
Print Assumptions C30_interp_4.

Theorem C30_multi_interp_4 : forall (F : fieldType) (xsets ysets : seq (seq F)),
  all (fun xy : seq F * seq F => [&& (4 <= size xy.1)%N, (4 <= size xy.2)%N & uniq (take 4 xy.1)])
      (zip xsets ysets) ->
  multi_interp_4 xsets ysets =
  mapM (fun xy => lagrange_interp (take 4 xy.1) (take 4 xy.2)) (zip xsets ysets).
Proof. exact multi4_ok. Qed.
Print Assumptions C30_multi_interp_4.

(** Repeated points raise in the 2- and 4-point versions. *)
Theorem C30_repeated_points_raise : forall (F : fieldType),
  (forall (x : F) (xs' ys : seq F), lagrange_interp_2 (x :: x :: xs') ys = Err InverseError) /\
  (forall (x0 x1 x2 x3 : F) (xs' ys : seq F), ~~ uniq [:: x0; x1; x2; x3] ->
     lagrange_interp_4 [:: x0, x1, x2, x3 & xs'] ys = Err InverseError).
Proof. by move=> F; split; [exact: interp2_raises | exact: interp4_raises]. Qed.
Print Assumptions C30_repeated_points_raise.

(** Fewer than two entries raise IndexError (in particular for the coefficient
    list of a polynomial whose second value is 0, see C51). *)
Theorem C30_interp_2_short : forall (F : fieldType),
  (forall xs ys : seq F, (size xs < 2)%N -> lagrange_interp_2 xs ys = Err IndexError) /\
  (forall (x0 x1 : F) (xs' ys : seq F), x0 != x1 -> (size ys < 2)%N ->
     lagrange_interp_2 (x0 :: x1 :: xs') ys = Err IndexError).
Proof. by move=> F; split; [exact: interp2_short | exact: interp2_short_ys]. Qed.
Print Assumptions C30_interp_2_short.

Example C30_example :
  [/\ rmap (map (@mval P17)) (lagrange_interp_2 (z17 [:: 1; 2]%Z) (z17 [:: 5; 9]%Z)) = Ok [:: 1; 4]%Z,
      rmap (map (@mval P17)) (lagrange_interp_4 (z17 [:: 1; 2; 3; 4]%Z) (z17 [:: 1; 8; 10; 13]%Z))
        = Ok [:: 0; 0; 0; 1]%Z &
      rmap (map (map (@mval P17))) (multi_interp_4 [:: z17 [:: 1; 2; 3; 4]%Z; z17 [:: 0; 1; 2; 3]%Z]
         [:: z17 [:: 1; 8; 10; 13]%Z; z17 [:: 7; 7; 7; 7]%Z]) = Ok [:: [:: 0; 0; 0; 1]; [:: 7]]%Z].
Proof. by split; vm_compute. Qed.

(** C31: whatever the points, equal lengths never raise ... *)
Theorem C31_never_raises : forall (F : fieldType) (xs ys : seq F), size xs = size ys ->
  exists l, [/\ lagrange_interp xs ys = Ok l, normal l & (size l <= size xs)%N].
Proof. exact lagrange_never_raises. Qed.
Print Assumptions C31_never_raises.

(** ... but with a repeated x the result can miss the values, even when a
    consistent interpolant exists. *)
Theorem C31_repeated_points_refuted :
  ~ (forall (F : fieldType) (xs ys l : seq F), size xs = size ys ->
       lagrange_interp xs ys = Ok l ->
       (exists q : seq F, forall i, (i < size xs)%N -> pcall q (nth 0 xs i) = nth 0 ys i) ->
       forall i, (i < size xs)%N -> pcall l (nth 0 xs i) = nth 0 ys i).
Proof.
move=> H.
pose one := in_modp P7 1; pose xs := [:: one; one].
have [l [E _ _]] := @lagrange_never_raises (modp_fieldType P7) xs xs (Logic.eq_refl _).
have : exists q : seq (modp_fieldType P7), forall i, (i < size xs)%N -> pcall q (nth 0 xs i) = nth 0 xs i.
  exists [:: one] => -[|[|i]] // _; exact: mval_inj.
move=> /(H _ _ _ _ (Logic.eq_refl _) E) /(_ 0%N isT) /(congr1 (@mval P7)).
by move: E; vm_compute => -[<-].
Qed.
Print Assumptions C31_repeated_points_refuted.

Example C31_example :
  rmap (map (@mval P7)) (lagrange_interp (z7 [:: 1; 1]%Z) (z7 [:: 3; 4]%Z)) = Ok [::].
Proof. by vm_compute. Qed.

(** C32: AffineSpace over Z/p with basis and shift in any Z/p-vector space [V].
    [lin c basis] is [sum_i c_i b_i]; [independent basis] says that only the zero
    coefficients give 0. *)
Theorem C32_affine_space : forall (P : primeZ) (V : lmodType (modp_fieldType P)) (basis : seq V) (shift : V),
  [/\ forall x, x \in affine_iter (zp_felts P) basis shift <->
        exists c : seq (modp P), size c = size basis /\
          x = shift + \sum_(i < size basis) (nth 0 c i : modp_fieldType P) *: nth 0 basis i,
      Z.of_nat (size (affine_iter (zp_felts P) basis shift)) = affine_len (pz P) 1 basis &
      uniq (affine_iter (zp_felts P) basis shift) <->
      (forall c : seq (modp_fieldType P), size c = size basis ->
         \sum_(i < size basis) nth 0 c i *: nth 0 basis i = 0 -> all (pred1 0) c)].
Proof. exact zp_affine_spec. Qed.
Print Assumptions C32_affine_space.

(** Elements of [field.__iter__] for Z/p: every residue exactly once. *)
Theorem C32_field_iteration : forall (P : primeZ),
  uniq (zp_felts P) /\ (forall x : modp P, x \in zp_felts P).
Proof. by move=> P; split; [exact: zp_felts_uniq | exact: zp_felts_all]. Qed.
Print Assumptions C32_field_iteration.

Example C32_example :
  [seq mval x | x <- affine_iter (zp_felts P3) ([:: in_modp P3 2] : seq (modp_fieldType P3)^o) (in_modp P3 1)]
  = [:: 1; 0; 2]%Z.
Proof. by vm_compute. Qed.

(** C33: the vanishing polynomial of an affine space. *)
Theorem C33_affine_vanishing : forall (F : fieldType) (felts : seq F) (basis : seq F^o) (shift : F^o),
  [/\ normal (affine_vanishing felts basis shift),
      forall x : F, (pcall (affine_vanishing felts basis shift) x == 0) = (x \in affine_iter felts basis shift),
      pdegree (affine_vanishing felts basis shift) = Z.of_nat (size felts ^ size basis) &
      plead (affine_vanishing felts basis shift) = Ok 1].
Proof. exact affine_vanishing_spec. Qed.
Print Assumptions C33_affine_vanishing.

Example C33_example :
  [seq mval x | x <- affine_vanishing (zp_felts P3) [:: in_modp P3 2] (in_modp P3 1)] = [:: 0; 2; 0; 1]%Z.
Proof. by vm_compute. Qed.
