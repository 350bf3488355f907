(** Model of starks/stark.py.

    The polynomial constructions (lines 27-104, 130-177) are over an arbitrary
    field [F]; the class STARK (lines 179-402) is over Z/p, where leaves of the
    Merkle trees are 32-byte strings.  [H] is [blake].  [steps], [width] and the
    extension factor are natural numbers; [print] and timing are dropped.  [fuel]
    bounds the loops computing powers of a root of unity (FftModel.v).

    Not modelled: the FRI part of a proof.  Line 13 imports a class [FRI] that
    starks/fri.py does not define, so the module cannot be imported as it stands;
    the model follows the code with the FRI component of the proof left out
    (lines 268, 275-279, 302-310). *)
From Coq.Strings Require Import Byte.
From Verif Require Import Prelude PowModel PolyModel InterpModel FftModel MultiModel.
From Verif Require Import MerkleModel UtilsModel ModpModel ModpField.
Set Implicit Arguments.
Unset Strict Implicit.
Unset Printing Implicit Defensive.
Import GRing.Theory.
Local Open Scope ring_scope.
Local Open Scope py_scope.

Section Polys.
Variable F : fieldType.
Notation poly := (seq F).

(** starks/stark.py:27-36 [construct_trace_polynomials] *)
Definition construct_trace_polynomials (fuel : nat) (modulus : Z) (witness : seq (seq F)) (root : F)
  : result (seq poly) :=
  mapM (nb_inv_fft fuel modulus root) witness.

(** A value that Python leaves either as a polynomial or as a bare field element *)
Inductive pval := PPoly (p : poly) | PElt (x : F).

(** starks/polynomial.py:158-164 [__call__] at a polynomial [x].  The accumulator
    [y] starts as [ring(0)] and [power_of_x] as the int 1, so the result stays a
    field element when there is no coefficient of positive degree. *)
Definition pcall_poly (a x : poly) : pval :=
  if (size a <= 1)%N then PElt (nth 0 a 0)
  else PPoly (foldl (fun (st : poly * poly) c => (padd st.1 (pmul st.2 (pconst c)), pmul st.2 x))
                    (pconst 0, pconst 1) a).1.

(** starks/multivariate_polynomial.py:329-338 [__call__] at polynomials; the
    accumulator stays [ring(0)] for the polynomial without terms. *)
Definition mcall_pval (width : nat) (p : mpoly F) (vals : seq poly) : result pval :=
  let* v := mcall_poly width p vals in
  Ok (if p is [::] then PElt 0 else PPoly v).

(** [a - b]; a field element minus a polynomial is [-b + a] (numbertype.py:61-62) *)
Definition pval_sub (a b : pval) : pval :=
  match a, b with
  | PPoly p, PPoly q => PPoly (psub p q)
  | PPoly p, PElt y => PPoly (psub p (pconst y))
  | PElt x, PPoly q => PPoly (padd (pneg q) (pconst x))
  | PElt x, PElt y => PElt (x - y)
  end.

(** starks/stark.py:38-56 [construct_constraint_polynomials] *)
Definition construct_constraint_polynomials (step_polys : seq (mpoly F)) (trace_polys : seq poly)
    (root : F) (width : nat) : result (seq pval) :=
  let X := pmk [:: 0; 1] in
  let next_traces := [seq pcall_poly t (pmul (pconst root) X) | t <- trace_polys] in
  mapM (fun ns : pval * mpoly F =>
    let* v := mcall_pval width ns.2 trace_polys in
    Ok (pval_sub ns.1 v)) (zip next_traces step_polys).

(** [cp % z] and [cp / z]: a field element has no [%], and a polynomial no
    reflected one, so this is a TypeError *)
Definition pval_mod (cp : pval) (z : poly) : result poly :=
  if cp is PPoly c then pmod c z else Err TypeError.
Definition pval_div (cp : pval) (z : poly) : result poly :=
  if cp is PPoly c then pdiv c z else Err TypeError.

(** starks/stark.py:58-83 [construct_remainder_polynomials] *)
Definition construct_remainder_polynomials (constraint_polys : seq pval) (steps : nat) (last : F)
  : result (seq poly) :=
  let X := pmk [:: 0; 1] in
  let* Xs := ppow X (Z.of_nat steps) in
  let z_num := psub Xs (pconst 1) in
  let z_den := psub X (pconst last) in
  let* r := pmod z_num z_den in
  assert_ (peq r (pconst 0)) ;;*
  let* z := pdiv z_num z_den in
  let* _ := foldM (fun (_ : unit) cp =>
    let* r := pval_mod cp z in assert_ (peq r (pconst 0))) constraint_polys tt in
  mapM (fun cp => pval_div cp z) constraint_polys.

(** starks/stark.py:94 and 352 [zeropoly2] *)
Definition zeropoly2 (last : F) : poly := pmul (pmk [:: -1; 1]) (pmk [:: - last; 1]).

(** starks/stark.py:85-104 [construct_boundary_polynomials].  Lines 98-99 pass
    Polynomial objects to [lagrange_interp_2], which takes their (stripped)
    coefficient lists. *)
Definition construct_boundary_polynomials (trace_polys : seq poly) (witness : seq (seq F))
    (boundary : seq (nat * nat * F)) (last : F) (width : nat) : result (seq poly) :=
  let* interpolants := mapM (fun dim : nat =>
      let* c := py_nth boundary (Z.of_nat dim) in
      let* w := py_nth witness (Z.of_nat dim) in
      let* out := py_nth w (-1) in
      lagrange_interp_2 (pmk [:: 1; last]) (pmk [:: c.2; out])) (iota 0 width) in
  mapM (fun pi : poly * poly => pdiv (psub pi.1 pi.2) (zeropoly2 last)) (zip trace_polys interpolants).

(** The ASCII string "0x0<d>" for a digit [d < 10] *)
Definition hex_suffix (d : nat) : bytes :=
  [:: x30; x78; x30; nth x30 [:: x30; x31; x32; x33; x34; x35; x36; x37; x38; x39] d].

(** starks/stark.py:106-126 [get_pseudorandom_ks]; [None] when neither branch
    returns.  The strings of line 119 are '0x01'...'0x04', those of line 124
    '0x00', '0x01', ... *)
Definition get_pseudorandom_ks (H : bytes -> bytes) (m_root : bytes) (num : Z) : option (seq Z) :=
  if ((0 <=? num) && (num <=? 4))%Z then
    Some [seq from_bytes_be (H (m_root ++ hex_suffix ind.+1)) | ind <- iota 0 (Z.to_nat num)]
  else if (num <? 10)%Z then
    Some [seq from_bytes_be (H (m_root ++ hex_suffix ind)) | ind <- iota 0 (Z.to_nat num)]
  else None.

(** The cast [ring(k)] of a non-negative int, by its binary digits *)
Fixpoint pos_elt (k : positive) : F :=
  match k with
  | xH => 1
  | xO k' => let v := pos_elt k' in v + v
  | xI k' => let v := pos_elt k' in v + v + 1
  end.
Definition int_elt (k : Z) : F := if k is Zpos k' then pos_elt k' else 0.

(** starks/stark.py:151-154 and 170-173: [powers] after the loop (the int 1 is
    the field's 1), and the loop variable [i] afterwards, [None] if the loop did
    not run. *)
Definition powers_of (g : F) (n : nat) : seq F := foldl (fun ps _ => rcons ps (last 1 ps * g)) [:: 1] (iota 1 n.-1).
Definition loop_i (n : nat) : option nat := if (1 < n)%N then Some n.-1 else None.

(** [powers[i]] after the loop *)
Definition power_i (root : F) (steps degree : nat) : result F :=
  let* g := dom_pow 1 *%R root (Z.of_nat steps) in
  let powers := powers_of g degree in
  if loop_i degree is Some i then py_nth powers (Z.of_nat i) else Err UnboundLocalError.

(** starks/stark.py:130-162 [compute_pseudorandom_linear_combination_1d];
    [powers[i]] is read in the loop only. *)
Definition lincomb_1d (H : bytes -> bytes) (entropy : bytes)
    (trace_polys remainder_polys boundary_polys : seq poly) (root : F) (steps degree : nat)
  : result (seq poly) :=
  if get_pseudorandom_ks H entropy 4 is Some [:: k1; k2; k3; k4] then
    mapM (fun tdb : poly * poly * poly =>
      let: (t, d, b) := tdb in
      let* pw := power_i root steps degree in
      let mulc p k := pmul p (pconst (int_elt k)) in
      Ok (padd (padd (padd (padd d (mulc t k1)) (pmul (mulc t k2) (pconst pw)))
                     (mulc b k3)) (pmul (mulc b k4) (pconst pw))))
      (zip (zip trace_polys remainder_polys) boundary_polys)
  else Err TypeError.

(** starks/stark.py:164-177 [compute_pseudorandom_linear_combination].  [zip]
    with [None] is a TypeError; [sum] starts from the int 0, which is also the
    result for an empty list ([None] here: the caller's [fft] then raises). *)
Definition lincomb (H : bytes -> bytes) (entropy : bytes)
    (trace_polys remainder_polys boundary_polys : seq poly) (root : F) (degree steps : nat) (width : Z)
  : result (option poly) :=
  let* l_polys := lincomb_1d H entropy trace_polys remainder_polys boundary_polys root steps degree in
  if get_pseudorandom_ks H entropy width is Some l_ks then
    let* ls := mapM (fun lk : poly * Z =>
        let* pw := power_i root steps degree in
        Ok (padd lk.1 (pmul (pmul lk.1 (pconst (int_elt lk.2))) (pconst pw)))) (zip l_polys l_ks) in
    Ok (if ls is l :: ls' then Some (foldl (@padd F) (padd l (pconst 0)) ls') else None)
  else Err TypeError.

(** starks/stark.py:345-372: the arithmetic checks of
    [verify_proof_at_position] on the values opened at [x]. *)
Definition check_values (width steps : nat) (last : F) (step_polys : seq (mpoly F))
    (witness : seq (seq F)) (boundary : seq (nat * nat * F))
    (x : F) (p_of_x p_of_g1x d_of_x b_of_x : seq F) : result unit :=
  let* xs := dom_pow 1 *%R x (Z.of_nat steps) in
  let* zvalue := fdiv (xs - 1) (x - last) in
  let* f_of_p_of_x := mapM (fun i : nat =>
      let* s := py_nth step_polys (Z.of_nat i) in mcall width s p_of_x) (iota 0 width) in
  let* _ := foldM (fun (_ : unit) (dim : nat) =>
      let* pg := py_nth p_of_g1x (Z.of_nat dim) in
      let* _ := py_nth p_of_x (Z.of_nat dim) in
      let* d := py_nth d_of_x (Z.of_nat dim) in
      let* f := py_nth f_of_p_of_x (Z.of_nat dim) in
      assert_ (pg - f - zvalue * d == 0)) (iota 0 width) tt in
  foldM (fun (_ : unit) (dim : nat) =>
      let* c := py_nth boundary (Z.of_nat dim) in
      let* w := py_nth witness (Z.of_nat dim) in
      let* out := py_nth w (-1) in
      let* interpolant := lagrange_interp_2 [:: 1; last] [:: c.2; out] in
      let* p := py_nth p_of_x (Z.of_nat dim) in
      let* b := py_nth b_of_x (Z.of_nat dim) in
      assert_ (p - b * pcall (zeropoly2 last) x - pcall interpolant x == 0)) (iota 0 width) tt.
End Polys.

Section Stark.
Variables (P : primeZ) (H : bytes -> bytes) (fuel : nat).
Notation F := (modp_fieldType P).
Notation p := (pz P).

(** The attributes of a STARK object *)
Record stark := Stark {
  st_width : nat; st_steps : nat; st_step_polys : seq (mpoly F); st_ext : nat;
  st_precision : nat; st_samples : Z; st_G2 : F; st_G1 : F; st_xs : seq F; st_last : F }.

(** starks/stark.py:185-224 [STARK.__init__].  For p = 2 the name [BinaryFFT] is
    not imported. *)
Definition mk_stark (steps ext width : nat) (step_polys : seq (mpoly F)) (samples : Z) : result stark :=
  let precision := (steps * ext)%N in
  if (p =? 2)%Z then Err NameError else
  if precision == 0%N then Err ZeroDivisionError else
  let* G2 := dom_pow 1 *%R (in_modp P 7 : F) ((p - 1) / Z.of_nat precision)%Z in
  let* G1 := dom_pow 1 *%R G2 (Z.of_nat ext) in
  let* xs := get_power_cycle fuel G2 in
  let* last := py_nth xs ((Z.of_nat steps - 1) * Z.of_nat ext)%Z in
  Ok (Stark width steps step_polys ext precision samples G2 G1 xs last).

(** [x.to_bytes()] of a field element, starks/modp.py:96-97 *)
Definition elt_bytes (x : F) : result bytes := to_bytes_be 32 (mval x).

(** [field(b)] of a byte string, starks/modp.py:33-34.  The code does not reduce
    modulo p; the model does, which is the same for the encoding of a field
    element. *)
Definition elt_of_bytes (b : bytes) : F := in_modp P (from_bytes_be b).

(** starks/stark.py:388-402 [compute_merkle_spot_checks]; called with the default
    [samples=80] (line 266) *)
Definition compute_merkle_spot_checks (st : stark) (mtree l_mtree : seq bytes) (samples : Z)
  : result (seq (seq bytes)) :=
  let* l_root := py_nth l_mtree 1 in
  let* positions := get_pseudorandom_indices H fuel l_root (Z.of_nat (st_precision st)) samples
                      (Z.of_nat (st_ext st)) in
  foldM (fun branches pos =>
    let* b1 := mk_branch mtree pos in
    let* b2 := mk_branch mtree ((pos + Z.of_nat (st_ext st)) mod Z.of_nat (st_precision st))%Z in
    let* b3 := mk_branch l_mtree pos in
    Ok (branches ++ [:: b1; b2; b3])) positions [::].

Definition proof := (bytes * bytes * seq (seq bytes))%type.

(** starks/stark.py:229-281 [mk_proof] without its last component, the FRI proof.
    The int 0 that [sum] gives for an empty list has no [coefficients]. *)
Definition mk_proof (st : stark) (witness : seq (seq F)) (boundary : seq (nat * nat * F)) : result proof :=
  let* trace_polys := construct_trace_polynomials fuel p witness (st_G1 st) in
  let* constraint_polys := construct_constraint_polynomials (st_step_polys st) trace_polys (st_G1 st) (st_width st) in
  let* remainder_polys := construct_remainder_polynomials constraint_polys (st_steps st) (st_last st) in
  let* boundary_polys := construct_boundary_polynomials trace_polys witness boundary (st_last st) (st_width st) in
  let polys := trace_polys ++ remainder_polys ++ boundary_polys in
  let* poly_evals := mapM (nb_fft fuel p (st_G2 st)) polys in
  let* mtree := merkelize_polynomial_evaluations H (Z.of_nat (st_width st)) [seq map elt_bytes e | e <- poly_evals] in
  let* m_root := py_nth mtree 1 in
  let* l_poly := lincomb H m_root trace_polys remainder_polys boundary_polys (st_G2 st)
                   (st_precision st) (st_steps st) (Z.of_nat (st_width st)) in
  if l_poly is Some l_poly then
    let* l_evaluations := nb_fft fuel p (st_G2 st) l_poly in
    let* l_mtree := merkelize H [seq LObj (elt_bytes v) | v <- l_evaluations] in
    let* branches := compute_merkle_spot_checks st mtree l_mtree 80 in
    let* l_root := py_nth l_mtree 1 in
    Ok (m_root, l_root, branches)
  else Err AttributeError.

(** starks/stark.py:319-372 [verify_proof_at_position]; the local [i] of the
    comprehension at line 349 does not leak.  [l_of_x] is computed and not used.  Unpacking
    [ks] raises TypeError for None and ValueError for a list of another length. *)
Definition verify_proof_at_position (st : stark) (witness : seq (seq F)) (boundary : seq (nat * nat * F))
    (ks : option (seq Z)) (pf : proof) (i : nat) (pos : Z) : result unit :=
  let w := st_width st in
  match ks with
  | Some [:: _; _; _; _] =>
    let: (m_root, l_root, branches) := pf in
    let* x := dom_pow 1 *%R (st_G2 st) pos in
    let* br1 := py_nth branches (Z.of_nat i * 3)%Z in
    let* mbranch1 := verify_branch H m_root pos br1 in
    let unpacked_leaf1 := unpack_merkle_leaf mbranch1 w 3 in
    let* br2 := py_nth branches (Z.of_nat i * 3 + 1)%Z in
    let* mbranch2 := verify_branch H m_root
                       ((pos + Z.of_nat (st_ext st)) mod Z.of_nat (st_precision st))%Z br2 in
    let unpacked_leaf2 := unpack_merkle_leaf mbranch2 w 3 in
    let* br3 := py_nth branches (Z.of_nat i * 3 + 2)%Z in
    let* l_of_x := verify_branch_int H l_root pos br3 in
    let p_of_x := [seq elt_of_bytes b | b <- take w unpacked_leaf1] in
    let p_of_g1x := [seq elt_of_bytes b | b <- take w unpacked_leaf2] in
    let d_of_x := [seq elt_of_bytes b | b <- take w (drop w unpacked_leaf1)] in
    let b_of_x := [seq elt_of_bytes b | b <- drop (2 * w) unpacked_leaf1] in
    check_values w (st_steps st) (st_last st) (st_step_polys st) witness boundary
                 x p_of_x p_of_g1x d_of_x b_of_x
  | Some _ => Err ValueError
  | None => Err TypeError
  end.

(** starks/stark.py:283-317 [verify_proof] without the FRI check (lines 301-310) *)
Definition verify_proof (st : stark) (pf : proof) (witness : seq (seq F)) (boundary : seq (nat * nat * F))
  : result bool :=
  let* positions := get_pseudorandom_indices H fuel pf.1.2 (Z.of_nat (st_precision st)) (st_samples st)
                      (Z.of_nat (st_ext st)) in
  let ks := get_pseudorandom_ks H pf.1.1 4 in
  let* _ := foldM (fun (_ : unit) (ip : nat * Z) =>
      verify_proof_at_position st witness boundary ks pf ip.1 ip.2) (enumerate positions) tt in
  Ok true.
End Stark.
