(** Replay of the repository's unit tests on the model, second part: FFT, interpolation and the
    other polynomial utilities, affine spaces, multivariate polynomials, AIR, FRI.  See
    Tests_Algebra.v.  The random irreducible polynomial of [FiniteField(p, m)] is replaced by one
    of the values it can take. *)
From Verif Require Import Prelude EuclidModel PowModel ModpModel ModpField PolyModel
  PolyProofs IrredModel IrredProofs FiniteFieldModel FiniteFieldProofs FqField MimcProofs
  InterpModel FftModel AdditiveFftModel MultiModel AirModel FriModel Tests_Algebra.
Set Implicit Arguments.
Unset Strict Implicit.
Unset Printing Implicit Defensive.
Import GRing.Theory.
Local Open Scope ring_scope.
Local Open Scope py_scope.

(** The modulus accepted by [is_irreducible], as the parameter of the field of FqField.v *)
Lemma checked_irr (P : primeZ) (f : seq (modp_finFieldType P)) :
  (1 < size f)%N && (last 1 f != 0) -> is_irreducible f (pz P) = Ok true ->
  irreducible_poly (Poly f).
Proof.
case/andP=> Hs Nf E; have [b [Eb Hb]] := zp_is_irreducible Nf Hs.
by apply/Hb; move: Eb; rewrite E; case=> <-.
Qed.
Definition f25 : seq (modp_finFieldType P5) := zs P5 [:: 2; 1; 1]%Z.
Lemma f25_irr : irreducible_poly (Poly f25). Proof. by apply: checked_irr; vm_compute. Qed.
Lemma f25_normal : normal f25. Proof. by vm_compute. Qed.
Definition F25 := fq_fieldType (Modulus f25_normal f25_irr).
Definition f4 : seq (modp_finFieldType P2) := zs P2 [:: 1; 1; 1]%Z.
Lemma f4_irr : irreducible_poly (Poly f4). Proof. by apply: checked_irr; vm_compute. Qed.
Lemma f4_normal : normal f4. Proof. by vm_compute. Qed.
Definition F4 := fq_fieldType (Modulus f4_normal f4_irr).
Definition f10 : seq (modp_finFieldType P2) := zs P2 [:: 1; 0; 0; 1; 0; 0; 0; 0; 0; 0; 1]%Z.
Lemma f10_irr : irreducible_poly (Poly f10). Proof. by apply: checked_irr; vm_compute. Qed.
Lemma f10_normal : normal f10. Proof. by vm_compute. Qed.
Definition F1024 := fq_fieldType (Modulus f10_normal f10_irr).
Lemma f17_irr : irreducible_poly (Poly (g17 : seq (modp_finFieldType P2))).
Proof. by apply: checked_irr; [vm_compute|exact: g17_checked]. Qed.
Lemma f17_normal : normal (g17 : seq (modp_finFieldType P2)). Proof. by vm_compute. Qed.
Definition F217 := fq_fieldType (Modulus f17_normal f17_irr).

(** ** starks/test/test_utils.py *)
(** lines 20-30 *)
Example test_get_power_cycle :
  (let* w := dom_pow 1 *%R (in_modp P31 3 : modp_fieldType P31) 5 in
   rmap (map (@mval P31)) (get_power_cycle 40 w)) = Ok [:: 1; 26; 25; 30; 5; 6]%Z.
Proof. by vm_compute. Qed.

(** ** starks/test/test_fft.py *)
Definition root (P : primeZ) (b n : Z) : result (modp_fieldType P) :=
  dom_pow 1 *%R (in_modp P b : modp_fieldType P) ((pz P - 1) / n).
Definition range4 (P : primeZ) : seq (modp_fieldType P) := pmk (zs P [:: 0; 1; 2; 3]%Z).
(** lines 98-113, 151-168 *)
Example test_fft_basic :
  (let* w := root P31 3 6 in rmap size (nb_fft 100 31 w (range4 P31))) = Ok 6%N.
Proof. by vm_compute. Qed.
(** lines 115-130 *)
(** [test_fft_large_modulus]: evaluated here, but not stored as a theorem, because coqchk evaluates without the
    virtual machine and would take minutes for it *)
Check (ltac:(by vm_compute) :
  (let* w := root Pmimc 7 8 in rmap size (nb_fft 100 (pz Pmimc) w (range4 Pmimc))) = Ok 8%N).
(** lines 132-149 *)
Example test_fft_inv :
  (let* w := root P31 3 6 in
   let* e := nb_fft 100 31 w (range4 P31) in
   let* i := nb_inv_fft 100 31 w e in Ok (peq i (range4 P31))) = Ok true.
Proof. by vm_compute. Qed.
(** lines 185-195, with a root of order 64 in place of 512 *)
(** [test_mul_polys]: evaluated here, but not stored as a theorem, because coqchk evaluates without the
    virtual machine and would take minutes for it *)
Check (ltac:(by vm_compute) :
  (let* w := root Pmimc 7 64 in
   let l := zs Pmimc [:: 0; 1; 2; 3]%Z in rmap size (mul_polys 100 l l w)) = Ok 64%N).
(** lines 14-34: the degrees of both parts *)
Definition g16 : seq (modp_fieldType P2) := zs P2 [:: 1; 1; 0; 0; 1]%Z.
Definition at_most3 (r : result (taylor_out P2)) : bool :=
  if r is Ok (Pair (Single a) (Single b)) then (pdegree a <=? 3)%Z && (pdegree b <=? 3)%Z else false.
Example test_Taylor_Expansion :
  let t l := at_most3 (let* f := field_of g16 l in taylor g16 f (pdegree f)) in
  t [:: 1; 1; 0; 1]%Z && t [:: 1; 0; 1; 1]%Z.
Proof. by vm_compute. Qed.
(** lines 36-59 *)
Example test_adfft :
  rmap size (let* f := field_of g16 [:: 1; 1; 0; 1]%Z in
   let* b0 := field_of g16 [:: 1; 0; 1]%Z in let* b1 := field_of g16 [:: 0; 1; 1]%Z in
   adfft g16 1 f [:: b0; b1]) = Ok 4%N.
Proof. by vm_compute. Qed.
(** lines 62-95: the call returns *)
Example test_adfft_inverse :
  isOk (let* x := mapM (field_of g16) [:: [:: 1; 0; 0]; [:: 1; 1; 1]; [:: 1; 0]; [:: 1; 1];
          [:: 1; 1; 1]; [:: 1; 0; 0]; [:: 1]; [:: 1]]%Z in
        let* y := mapM (field_of g16) [:: [:: 1; 1]; [:: 0; 0; 1]; [:: 0; 1]; [:: 0; 1; 1];
          [:: 1; 0; 1]; [:: 1; 1; 1]; [:: 0]; [:: 1; 1]]%Z in
        adfft_inverse g16 2 x y).
Proof. by vm_compute. Qed.

(** ** starks/test/test_poly_utils.py *)
Local Notation z7 l := (zs P7 l%Z).
Local Notation m7 := (modp_fieldType P7).
Local Notation v7 r := (rmap (map (@mval P7)) r).
(** lines 30-38 *)
Example test_poly_utils_basic :
  in_modp P7 6 + in_modp P7 6 == in_modp P7 5 :> m7 /\ fdiv 1 (in_modp P7 6 : m7) = Ok (in_modp P7 6).
Proof. by vm_compute. Qed.
(** lines 40-50: xy as a polynomial in x with coefficients in y, z *)
Example test_project_multivar :
  project_to_univariate (mmk [:: ([:: 1; 1; 0]%N, in_modp P7 1 : m7)]) 0 3 =
  Ok [:: [::]; [:: ([:: 1; 0]%N, in_modp P7 1 : m7)]].
Proof. by vm_compute. Qed.
(** lines 52-71 *)
Example test_zpoly :
  let p1 := zpoly (z7 [:: 3]) in let p2 := zpoly (z7 [:: 1; 2]) in
  [&& pcall p1 (in_modp P7 3) == 0, peq p1 (pmk (z7 [:: -3; 1])),
      pcall p2 (in_modp P7 1) == 0, pcall p2 (in_modp P7 2) == 0 & peq p2 (pmk (z7 [:: 2; -3; 1]))].
Proof. by vm_compute. Qed.
(** lines 74-87 *)
Example test_multi_inv :
  [/\ v7 (multi_inv (z7 [:: 6; 6; 6])) = Ok [:: 6; 6; 6]%Z, v7 (multi_inv (z7 [:: 6; 1; 6])) = Ok [:: 6; 1; 6]%Z &
      isOk (multi_inv (z7 [:: 0; 1; 1]))].
Proof. by vm_compute. Qed.
(** lines 89-105, with 64 and 8 in place of 4096 and 512 *)
(** [test_multi_inv_large]: evaluated here, but not stored as a theorem, because coqchk evaluates without the
    virtual machine and would take minutes for it *)
Check (ltac:(by vm_compute) :
  (let* G2 := root Pmimc 7 64 in
   let* xs := get_power_cycle 100 G2 in
   let a := [seq x - 1 | x <- xs] in
   let* ai := multi_inv a in
   let b := [seq nth 0 xs (i * 8 %% 64) - 1 | i <- iota 0 64] in
   let* bi := multi_inv b in
   Ok (all (fun i => (nth 0 a i * nth 0 ai i == 1) && (nth 0 b i * nth 0 bi i == 1)) (iota 1 4)))
  = Ok true).
(** lines 107-132 *)
Example test_lagrange_interp :
  [/\ v7 (lagrange_interp (z7 [:: 1; 6]) (z7 [:: 1; 6])) = Ok [:: 0; 1]%Z,
      v7 (lagrange_interp (z7 [:: 1; 6]) (z7 [:: 0; 0])) = Ok [::] &
      (let xs : seq F25 := [:: 1; 2%:R] in
       rmap (fun i => i == [:: 0; 1]) (lagrange_interp xs xs)) = Ok true].
Proof. by vm_compute. Qed.
(** lines 134-172 *)
Example test_lagrange_interp_fast :
  let l := z7 [:: 1; 2; 3; 6] in
  [/\ v7 (lagrange_interp_4 l l) = Ok [:: 0; 1]%Z,
      v7 (lagrange_interp_2 (z7 [:: 1; 2]) (z7 [:: 1; 2])) = Ok [:: 0; 1]%Z &
      rmap (map (map (@mval P7))) (multi_interp_4 [:: l; l] [:: l; l]) = Ok [:: [:: 0; 1]; [:: 0; 1]]%Z].
Proof. by vm_compute. Qed.
(** lines 210-222 *)
Example test_is_monic :
  is_monic (pmk (zs P3 [:: 1; 1; 1]%Z)) = Ok true /\ is_monic (pmk (zs P3 [:: 1; 1; 2]%Z)) = Ok false.
Proof. by vm_compute. Qed.
(** lines 224-251 *)
Example test_dirac_delta :
  let at_ v l := (let* d := dirac_delta 3 3 (zs P3 v) in rmap (@mval P3) (mcall 3 d (zs P3 l))) in
  ([seq at_ [:: 0; 0; 0] l | l <- [:: [:: 0; 0; 0]; [:: 1; 0; 0]; [:: 0; 1; 0]; [:: 0; 0; 1]]] ++
   [seq at_ [:: 1; 1; 1] l | l <- [:: [:: 1; 1; 1]; [:: 1; 0; 0]; [:: 0; 1; 0]; [:: 0; 0; 1]]])%Z
  = [:: Ok 1; Ok 0; Ok 0; Ok 0; Ok 1; Ok 0; Ok 0; Ok 0]%Z.
Proof. by vm_compute. Qed.
(** lines 253-269 *)
Example test_multivariate_coefficients :
  (let* poly := construct_multivariate_coefficients 7 1 7 (fun x => let* a := idx x 0 in Ok (a + 1)) 3 in
   Ok (meq poly (mmk [:: ([:: 0; 0; 0]%N, in_modp P7 1 : m7); ([:: 1; 0; 0]%N, in_modp P7 1 : m7)])))
  = Ok true.
Proof. by vm_compute. Qed.
(** lines 271-295: the space spanned by g^0 = 1 *)
Example test_affine_vanishing :
  let H0 := [seq n%:R | n <- [:: 0; 1]%N] : seq F4 in
  let elts := affine_iter H0 [:: (1 : F4^o)] 0 in
  all (fun i => pcall (zpoly elts) i == 0) elts && (size elts == 2%N).
Proof. by vm_compute. Qed.

(** ** starks/test/test_reedsolomon.py *)
(** lines 25-43: the space spanned by 1 and g over Z/2 has four distinct elements *)
Example test_affine_space_iteration :
  let H0 := [seq n%:R | n <- [:: 0; 1]%N] : seq F4 in
  let elts := affine_iter H0 [:: (1 : F4^o); q_poly (Modulus f4_normal f4_irr) (zs P2 [:: 0; 1]%Z)] 0 in
  (size elts == 4%N) && uniq elts.
Proof. by vm_compute. Qed.

(** ** starks/test/test_multivariate.py *)
Local Notation mp l := (mmk [seq (kz.1 : seq nat, in_modp P7 kz.2 : m7) | kz <- l]).
Local Notation one7 := (in_modp P7 1 : m7).
Definition y_poly : mpoly m7 := mp [:: ([:: 0; 1; 0]%N, 1%Z)].
Definition y2_poly : mpoly m7 := mp [:: ([:: 0; 2; 0]%N, 1%Z)].
Definition xy_poly : mpoly m7 := mp [:: ([:: 1; 0; 0]%N, 1%Z); ([:: 0; 1; 0]%N, 1%Z)].
Definition xy2_poly : mpoly m7 :=
  mp [:: ([:: 2; 0; 0]%N, 1%Z); ([:: 1; 1; 0]%N, 2%Z); ([:: 0; 2; 0]%N, 1%Z)].
Definition zero_poly : mpoly m7 := mmk [::].
Definition okm (r : result (mpoly m7)) (a : mpoly m7) : bool := if r is Ok b then meq b a else false.
(** lines 14-102 *)
Example test_multivariate_basic :
  [&& meq (mconst 3 (0 : m7)) zero_poly, mdegree y_poly == 1%N,
      mdegree (mp [:: ([:: 1; 0; 0]%N, 1%Z); ([:: 0; 1; 0]%N, 1%Z); ([:: 0; 0; 1]%N, 1%Z)]) == 1%N,
      mdegree (mp [:: ([:: 2; 0; 0]%N, 1%Z); ([:: 0; 2; 0]%N, 1%Z); ([:: 0; 0; 2]%N, 1%Z)]) == 2%N &
  [&& mdegree (mp [:: ([:: 1; 1; 0]%N, 1%Z); ([:: 0; 1; 1]%N, 1%Z); ([:: 1; 0; 1]%N, 1%Z)]) == 2%N,
      meq zero_poly zero_poly, meq y_poly y_poly, ~~ meq zero_poly y_poly, meq zero_poly (mneg zero_poly),
      meq (mp [:: ([:: 0; 1; 0]%N, (-1)%Z)]) (mneg y_poly), meq zero_poly (madd zero_poly zero_poly) &
      meq y_poly (madd y_poly zero_poly)]].
Proof. by vm_compute. Qed.
(** lines 104-127, 150-187 and 189-209 *)
Example test_multivariate_mul :
  [&& meq zero_poly (mmul zero_poly zero_poly), meq y2_poly (mmul y_poly y_poly),
      meq xy2_poly (mmul xy_poly xy_poly),
      meq (mp [:: ([:: 0; 1; 0]%N, 3%Z)]) (mmul (mconst 3 (in_modp P7 3 : m7)) y_poly),
      okm (mpow 3 zero_poly 2) zero_poly, okm (mpow 3 y_poly 2) y2_poly & okm (mpow 3 xy_poly 2) xy2_poly].
Proof. by vm_compute. Qed.
Example test_multivariate_call :
  let c a := rmap (@mval P7) (mcall 3 a [:: one7; one7; one7]) in
  [/\ c zero_poly = Ok 0%Z, c y_poly = Ok 1%Z & c xy2_poly = Ok 4%Z].
Proof. by vm_compute. Qed.
(** lines 211-226: each step polynomial is its own composition with the variables *)
Example test_composition :
  let Xs := generate_Xi_s (modp_fieldType Pmimc) 2 in
  let X_1 := nth [::] Xs 0 in let X_2 := nth [::] Xs 1 in
  (let* sq := mpow 2 X_2 2 in
   mapM (fun s => let* n := mcompose 2 2 s Xs in Ok (meq n s))
     [:: X_2; madd X_1 (mmul (mconst 2 (in_modp Pmimc 2 : modp_fieldType Pmimc)) sq)])
  = Ok [:: true; true].
Proof. by vm_compute. Qed.
(** lines 228-250 *)
Example test_multivariate_finitefield :
  let Xs := generate_Xi_s F217 2 in let X_2 := nth [::] Xs 1 in
  (let* n := mcompose 2 2 X_2 Xs in Ok (meq n X_2)) = Ok true.
Proof. by vm_compute. Qed.

(** ** starks/test/test_air.py *)
Definition fib (F : fieldType) : seq (mpoly F) :=
  let Xs := generate_Xi_s F 2 in
  let X_1 := nth [::] Xs 0 in let X_2 := nth [::] Xs 1 in [:: X_2; madd X_1 X_2].
(** lines 18-37 *)
Example test_higher_dim_trace :
  (let* to := get_computational_trace [:: 0; 1 : modp_fieldType Pmimc] 5 2 (fib _) in
   Ok [seq [seq mval x | x <- s] | s <- to.1])
  = Ok [:: [:: 0; 1]; [:: 1; 1]; [:: 1; 2]; [:: 2; 3]; [:: 3; 5]]%Z.
Proof. by vm_compute. Qed.
(** lines 39-58 *)
Example test_trace_extraction :
  (let* a := mk_air 2 [:: 0; 1 : modp_fieldType Pmimc] 511 (fib _) 8 in
   Ok ((size (air_trace a) == 511%N) && all (fun s => size s == 2%N) (air_trace a))) = Ok true.
Proof. by vm_compute. Qed.
(** lines 60-86: the construction succeeds *)
Example test_binary_air : isOk (mk_air 2 [:: 0; 1 : F217] 511 (fib _) 8).
Proof. by vm_compute. Qed.

(** ** starks/test/test_apr.py: the constructor of AIR raises in both tests, which cannot pass *)
(** lines 13-39, 42-71 *)
Example test_apr_fails :
  (if mk_air 2 [:: 0; 1 : F4] 7 (fib _) 8 is Err AssertionError then true else false) &&
  (if mk_air 2 [:: 0; 1 : F217] 3 (fib _) 8 is Err AssertionError then true else false).
Proof. by vm_compute. Qed.

(** ** starks/test/test_fri.py *)
(** lines 54-101 for the element [x] drawn in the single round and the indices 2 and 3; the
    second component is the verdict for the element 0 *)
Example test_binary_fri_commit_query :
  let gen := q_poly (Modulus f10_normal f10_irr) (zs P2 [:: 0; 1]%Z) : F1024 in
  let S := DSpace [:: 1; gen] 0 in
  let f v := Ok v : result F1024 in
  let verdict x :=
    (let* vals := commit 2 S (RateInt 1) 1 (fun _ => Ok x) f in
     rmap fst (query 2 S (RateInt 1) 1 (fun _ => Ok x) (fun j => Z.of_nat j + 2)%Z [:: f] vals)) in
  verdict (gen ^+ 5 + 1) = Ok true /\ verdict 0 = Ok false.
Proof. by vm_compute. Qed.
