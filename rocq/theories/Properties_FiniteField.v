(** Property theorems C16-C24 and C76: starks/modp.py-based polynomial tests
    (is_irreducible, is_primitive, the generators) and starks/finitefield.py.
    [normal a]: the coefficient list [a] has no trailing zero;
    [fq_valid g x]: [x] is normal and shorter than the modulus [g];
    [bits_val x]: the integer sum of x_i 2^i (definitions in PolyProofs.v and
    FiniteFieldProofs.v). *)
From mathcomp Require Import zify ssrZ.
From Verif Require Import Prelude BaseProofs PolyModel PolyProofs ModpModel ModpField Pocklington
  QField IrredModel IrredProofs FiniteFieldModel FiniteFieldProofs FftProofs.
Import GRing.Theory.
Local Open Scope ring_scope.
Local Open Scope py_scope.

Local Notation z2 l := [seq in_modp P2 z | z <- l].
Local Notation z3 l := [seq in_modp P3 z | z <- l].

(** X^4 + X + 1 over Z/2 *)
Definition g16 : seq (modp_finFieldType P2) := z2 [:: 1; 1; 0; 0; 1]%Z.

(** C16 *)
Theorem C16_is_irreducible_decides : forall (P : primeZ) (f : seq (modp_finFieldType P)),
  normal f -> (1 < size f)%N ->
  exists b, is_irreducible f (pz P) = Ok b /\ (b <-> irreducible_poly (Poly f)).
Proof. exact zp_is_irreducible. Qed.
Print Assumptions C16_is_irreducible_decides.

(** the deviation: constants and the zero polynomial are accepted *)
Theorem C16_constants_accepted : forall (P : primeZ) (f : seq (modp_finFieldType P)),
  normal f -> (size f <= 1)%N ->
  is_irreducible f (pz P) = Ok true /\ ~ irreducible_poly (Poly f).
Proof.
move=> P f Nf Hs; split; first by apply: is_irreducible_small; rewrite (leq_trans Hs).
by case=> H _; move: H; rewrite -size_normal // ltnNge Hs.
Qed.
Print Assumptions C16_constants_accepted.

Example C16_example : is_irreducible g16 2 = Ok true /\
  is_irreducible (z2 [:: 1; 0; 1]%Z) 2 = Ok false /\ is_irreducible (z3 [:: 1; 0; 1]%Z) 3 = Ok true /\
  is_irreducible (z3 [::]%Z) 3 = Ok true.
Proof. by vm_compute. Qed.

(** C17.  [factorint n] has the prime divisors of n as its elements. *)
Theorem C17_is_primitive_decides : forall (P : primeZ) (factorint : Z -> seq Z)
    (f : seq (modp_finFieldType P)) (m : nat),
  normal f -> size f = m.+1 -> (0 < m)%N -> ~~ (Poly f %| 'X) ->
  (forall n q, (1 <= n)%Z -> reflect (Znumtheory.prime q /\ (q | n)%Z) (q \in factorint n)) ->
  exists b, is_primitive factorint f (pz P) (Z.of_nat m) = Ok b /\
    (b <-> [/\ irreducible_poly (Poly f), Poly f %| 'X^((Z.to_nat (pz P) ^ m).-1) - 1 &
              forall k, (0 < k < (Z.to_nat (pz P) ^ m).-1)%N -> ~~ (Poly f %| 'X^k - 1)]).
Proof. exact zp_is_primitive. Qed.
Print Assumptions C17_is_primitive_decides.

(** the deviation: the polynomial X is accepted for degree 1 over every Z/p *)
Theorem C17_X_accepted : forall (P : primeZ) (factorint : Z -> seq Z),
  (forall n q, (1 <= n)%Z -> reflect (Znumtheory.prime q /\ (q | n)%Z) (q \in factorint n)) ->
  is_primitive factorint (poly_x (modp_finFieldType P)) (pz P) 1 = Ok true /\
  ~~ (Poly (poly_x (modp_finFieldType P)) %| 'X^((Z.to_nat (pz P)).-1) - 1).
Proof.
move=> P factorint H; split; first exact: zp_is_primitive_X.
rewrite Poly_x; have := p_gt1 P; case E: ((Z.to_nat (pz P)).-1) => [|k] Hp; first by lia.
by rewrite exprS (dvdp_addr _ (dvdp_mulr _ (dvdpp _))) dvdpNr dvdp1 size_polyX.
Qed.
Print Assumptions C17_X_accepted.

(** a factorisation function satisfying the hypothesis *)
Definition factorint0 (n : Z) : seq Z := [seq Z.of_nat q | q <- primes (Z.to_nat n)].
Lemma factorint0P n q : (1 <= n)%Z -> reflect (Znumtheory.prime q /\ (q | n)%Z) (q \in factorint0 n).
Proof.
move=> Hn; apply: (iffP mapP) => [[k]|[Hq Hd]].
  rewrite mem_primes => /and3P [Hk _ Hd] ->; split; first exact: prime_nat_Z.
  by apply: divide_nat; rewrite ?Nat2Z.id //; have := prime_gt0 Hk; lia.
have H2 := Znumtheory.prime_ge_2 _ Hq.
exists (Z.to_nat q); last by rewrite Z2Nat.id //; lia.
rewrite mem_primes; apply/and3P; split; [exact: prime_Z_nat | by lia |].
by apply: nat_divide; rewrite !Z2Nat.id //; lia.
Qed.

(** X^4+X+1 is primitive; X^4+X^3+X^2+X+1 is irreducible, but X has order 5 *)
Example C17_example : is_primitive factorint0 g16 2 4 = Ok true /\
  is_irreducible (z2 [:: 1; 1; 1; 1; 1]%Z) 2 = Ok true /\
  is_primitive factorint0 (z2 [:: 1; 1; 1; 1; 1]%Z) 2 4 = Ok false.
Proof. by vm_compute. Qed.

(** C18 *)
Theorem C18_generated_valid : forall (P : primeZ) fuel k j factorint draw draw2 (d : nat)
    (f : seq (modp_finFieldType P)), (0 < d)%N ->
  (generate_irreducible fuel k draw (pz P) d = Ok f \/
   generate_primitive fuel j factorint draw2 (pz P) d = Ok f) ->
  [/\ normal f, size f = d.+1, last 0 f = 1 & irreducible_poly (Poly f)].
Proof. exact zp_generate. Qed.
Print Assumptions C18_generated_valid.

Theorem C18_generated_primitive : forall (P : primeZ) fuel j factorint draw (d : nat)
    (f : seq (modp_finFieldType P)),
  generate_primitive fuel j factorint draw (pz P) d = Ok f ->
  is_primitive factorint f (pz P) (Z.of_nat d) = Ok true.
Proof. by move=> P fuel j fac draw d f /generate_primitive_spec []. Qed.
Print Assumptions C18_generated_primitive.

(** ... and every monic irreducible polynomial can be drawn *)
Theorem C18_all_can_be_generated : forall (P : primeZ) (d : nat) (f : seq (modp_finFieldType P)),
  (0 < d)%N -> normal f -> size f = d.+1 -> last 0 f = 1 -> irreducible_poly (Poly f) ->
  exists draw, generate_irreducible 1 0 draw (pz P) d = Ok f.
Proof.
move=> P d f Hd Nf Hs Hl Hi; exists (fun _ i => nth 0 f i).
apply: generate_irreducible_onto => //.
have [|b [E [_ Hb]]] := C16_is_irreducible_decides P f Nf; first by rewrite Hs ltnS.
by rewrite E Hb.
Qed.
Print Assumptions C18_all_can_be_generated.

(** The loop draws anew in every round and returns the first irreducible candidate; it
    goes on for ever if there is none. *)
Theorem C18_first_irreducible : forall (P : primeZ) fuel k (draw : nat -> nat -> modp_finFieldType P) (d : nat),
  (0 < d)%N ->
  let cand i := rcons (mkseq (draw i) d) 1 in
  (forall j, (j < fuel)%N -> irreducible_poly (Poly (cand (k + j)%N)) ->
     (forall i, (i < j)%N -> ~ irreducible_poly (Poly (cand (k + i)%N))) ->
     generate_irreducible fuel k draw (pz P) d = Ok (cand (k + j)%N)) /\
  ((forall j, (j < fuel)%N -> ~ irreducible_poly (Poly (cand (k + j)%N))) ->
     generate_irreducible fuel k draw (pz P) d = Err Diverges).
Proof.
move=> P fuel k draw d Hd cand.
have Nc i : normal (cand i) by rewrite /normal /cand last_rcons oner_eq0.
have Dec i : exists b, is_irreducible (cand i) (pz P) = Ok b /\ (b <-> irreducible_poly (Poly (cand i))).
  by apply: C16_is_irreducible_decides; rewrite // size_rcons size_mkseq ltnS.
have Step fu j : generate_irreducible fu.+1 j draw (pz P) d =
    let* b := is_irreducible (cand j) (pz P) in
    if b then Ok (cand j) else generate_irreducible fu j.+1 draw (pz P) d.
  rewrite -[LHS]/(let f := pmk (mkseq (draw j) d ++ [:: 1]) in let* b := is_irreducible f (pz P) in
    if b then Ok f else generate_irreducible fu j.+1 draw (pz P) d).
  by rewrite cats1 (pmk_normal (Nc j)).
elim: fuel k => [|fu IH] k; first by split.
have [b [E Hb]] := Dec k; have [IH1 IH2] := IH k.+1; split=> [j Hj Hi Hn|H]; rewrite Step E bind_ok.
  case: b E Hb => E Hb.
    by case: j Hj Hi Hn => [|j] Hj Hi Hn; rewrite ?addn0 //; case: (Hn 0%N) => //; rewrite addn0; apply/Hb.
  case: j Hj Hi Hn => [|j] Hj Hi Hn; first by move: Hi; rewrite addn0 => /Hb.
  rewrite -addSnnS; apply: IH1 => //; first by rewrite addSnnS.
  by move=> i Hij; rewrite addSnnS; apply: Hn.
case: b E Hb => E Hb; first by case: (H 0%N) => //; rewrite addn0; apply/Hb.
by apply: IH2 => j Hj; rewrite addSnnS; apply: H.
Qed.
Print Assumptions C18_first_irreducible.

(** Likewise the outer loop returns the first of the irreducible candidates that is primitive. *)
Theorem C18_first_primitive : forall (P : primeZ) fuel j factorint (draw : nat -> nat -> nat -> modp_finFieldType P)
    (d n : nat) (c : nat -> seq (modp_finFieldType P)), (n < fuel)%N ->
  (forall i, (i <= n)%N -> generate_irreducible (fuel - i) 0 (draw (j + i)%N) (pz P) d = Ok (c i)) ->
  (forall i, (i < n)%N -> is_primitive factorint (c i) (pz P) (Z.of_nat d) = Ok false) ->
  is_primitive factorint (c n) (pz P) (Z.of_nat d) = Ok true ->
  generate_primitive fuel j factorint draw (pz P) d = Ok (c n).
Proof.
move=> P fuel j fac draw d n; elim: n fuel j => [|n IH] [//|fu] j c Hn Hc Hf Ht.
  have := Hc 0%N erefl; rewrite addn0 subn0 => E.
  by rewrite -[LHS]/(let* f := generate_irreducible fu.+1 0 (draw j) (pz P) d in
    let* b := is_primitive fac f (pz P) (Z.of_nat d) in
    if b then Ok f else generate_primitive fu j.+1 fac draw (pz P) d) E bind_ok Ht.
have := Hc 0%N erefl; rewrite addn0 subn0 => E.
rewrite -[LHS]/(let* f := generate_irreducible fu.+1 0 (draw j) (pz P) d in
    let* b := is_primitive fac f (pz P) (Z.of_nat d) in
    if b then Ok f else generate_primitive fu j.+1 fac draw (pz P) d) E bind_ok (Hf 0%N) // bind_ok.
apply: (IH fu j.+1 (fun i => c i.+1)) => // i Hi; last exact: Hf.
by have := Hc i.+1; rewrite subSS addSnnS; apply.
Qed.
Print Assumptions C18_first_primitive.

(** The degree 0: sympy's factorint(0) is {0: 1}. *)
Theorem C17_degree_zero : forall (P : primeZ) (factorint : Z -> seq Z) (f : seq (modp_finFieldType P)),
  factorint 0%Z = [:: 0%Z] -> normal f -> (size f <= 1)%N ->
  is_primitive factorint f (pz P) 0 = Err ZeroDivisionError.
Proof.
move=> P fac f E0 Nf Hs; rewrite /is_primitive (proj1 (C16_constants_accepted P f Nf Hs)) bind_ok /=.
by rewrite E0.
Qed.
Print Assumptions C17_degree_zero.

(** two rejected draws, then X^2+X+1 *)
(** [is_monic] decides whether the leading coefficient is 1; the zero polynomial
    has none. *)
Theorem C18_is_monic : forall (F : fieldType) (f : seq F), normal f ->
  (f <> [::] -> is_monic f = Ok (Poly f \is monic)) /\
  (f = [::] -> is_monic f = Err IndexError).
Proof.
by move=> F f Nf; split=> [nf|->//]; apply: is_monicE => //; apply/eqP.
Qed.
Print Assumptions C18_is_monic.

Example C18_is_monic_example : is_monic g16 = Ok true /\ is_monic (z3 [:: 1; 2]%Z) = Ok false.
Proof. by vm_compute. Qed.

Example C18_example :
  rmap (map (@mval P2)) (generate_irreducible 5 0 (fun k _ => in_modp P2 (Z.of_nat k / 2)) 2 2)
    = Ok [:: 1; 1; 1]%Z /\
  generate_irreducible 2 0 (fun k _ => in_modp P2 (Z.of_nat k / 2)) 2 2 = Err Diverges.
Proof. by vm_compute. Qed.

Lemma g16_irr : normal g16 /\ irreducible_poly (Poly g16).
Proof.
have N : normal g16 by vm_compute.
split=> //; have [//|b [E [Hb _]]] := C16_is_irreducible_decides P2 g16 N.
by apply: Hb; move: E; rewrite (proj1 C16_example) => -[<-].
Qed.

(** C19 *)
Theorem C19_field_of_p_m_elements : forall (P : primeZ) (g : seq (modp_finFieldType P)),
  normal g -> irreducible_poly (Poly g) ->
  exists (K : finFieldType) (phi : seq (modp_finFieldType P) -> K),
  [/\ #|{: K}| = (#|{: modp_finFieldType P}| ^ (size g).-1)%N,
      (forall x y, fq_valid g x -> fq_valid g y -> phi x = phi y -> x = y),
      (forall k : K, exists2 x, fq_valid g x & phi x = k),
      (forall c, phi (fq_const c) = 0 <-> c = 0) /\ phi (fq_const 1) = 1 &
      forall x y, fq_valid g x -> fq_valid g y ->
      exists za zs zm zn,
      [/\ [/\ fq_add g x y = Ok za, fq_valid g za & phi za = phi x + phi y],
          [/\ fq_sub g x y = Ok zs, fq_valid g zs & phi zs = phi x - phi y],
          [/\ fq_mul g x y = Ok zm, fq_valid g zm & phi zm = phi x * phi y],
          [/\ fq_neg g x = Ok zn, fq_valid g zn & phi zn = - phi x] &
          (fq_eq x y = (phi x == phi y)) /\ fq_ne x y = (phi x != phi y)]].
Proof. by move=> P g Ng Hirr; exact: fq_field. Qed.
Print Assumptions C19_field_of_p_m_elements.

Theorem C19_count : forall (P : primeZ) (g : seq (modp_finFieldType P)),
  normal g -> irreducible_poly (Poly g) ->
  exists s : seq (seq (modp_finFieldType P)),
  [/\ uniq s, (forall x, (x \in s) = (normal x && (size x < size g)%N)) &
      size s = (Z.to_nat (pz P) ^ (size g).-1)%N].
Proof. by move=> P g Ng Hirr; rewrite -(card_modp P); exact: fq_enum. Qed.
Print Assumptions C19_count.

Theorem C19_arithmetic_modulo : forall (P : primeZ) (g x y : seq (modp_finFieldType P)),
  normal g -> irreducible_poly (Poly g) -> fq_valid g x -> fq_valid g y ->
  exists za zs zm zn,
  [/\ fq_add g x y = Ok za /\ Poly za = Poly x + Poly y,
      fq_sub g x y = Ok zs /\ Poly zs = Poly x - Poly y,
      fq_mul g x y = Ok zm /\ Poly zm = (Poly x * Poly y) %% Poly g &
      fq_neg g x = Ok zn /\ Poly zn = - Poly x].
Proof.
move=> P g x y Ng Hirr Vx Vy.
have [za [Ea _ Ha _]] := fq_add_ok Ng Hirr Vx Vy; have [zs [Es _ Hs _]] := fq_sub_ok Ng Hirr Vx Vy.
have [zm [Em _ Hm _]] := fq_mul_ok Ng Hirr x y; have [zn [En _ Hn _]] := fq_neg_ok Ng Hirr Vx.
by exists za, zs, zm, zn.
Qed.
Print Assumptions C19_arithmetic_modulo.

(** [divmod] of two elements divides their polynomials; nothing is reduced away. *)
Theorem C19_divmod : forall (P : primeZ) (g x y : seq (modp_finFieldType P)),
  normal g -> irreducible_poly (Poly g) -> fq_valid g x -> fq_valid g y ->
  (y <> [::] -> exists q r, [/\ fq_divmod g x y = Ok (q, r), fq_valid g q, fq_valid g r,
      Poly x = Poly q * Poly y + Poly r & (size r < size y)%N]) /\
  (y = [::] -> fq_divmod g x y = Err IndexError).
Proof. by move=> P g x y Ng Hirr Vx Vy; split=> [|->]; [exact: fq_divmod_ok|]. Qed.
Print Assumptions C19_divmod.

Example C19_divmod_example :
  rmap (fun '(q, r) => (map (@mval P2) q, map (@mval P2) r))
    (fq_divmod g16 (z2 [:: 1; 0; 0; 1]%Z) (z2 [:: 0; 1; 1]%Z)) = Ok ([:: 1; 1]%Z, [:: 1; 1]%Z).
Proof. by vm_compute. Qed.

(** GF(16): (X^3+1)(X^2+X) = X^5+X^4+X^2+X = X^2+X+X+1+X^2+X = X+1 *)
Example C19_example : normal g16 /\ irreducible_poly (Poly g16) /\
  rmap (map (@mval P2)) (fq_mul g16 (z2 [:: 1; 0; 0; 1]%Z) (z2 [:: 0; 1; 1]%Z)) = Ok [:: 1; 1]%Z /\
  rmap (map (@mval P2)) (fq_add g16 (z2 [:: 1; 0; 0; 1]%Z) (z2 [:: 0; 1; 0; 1]%Z)) = Ok [:: 1; 1]%Z.
Proof. by have [H1 H2] := g16_irr; split=> //; split=> //; vm_compute. Qed.

(** C20 *)
Theorem C20_inverse : forall (P : primeZ) (g x : seq (modp_finFieldType P)),
  normal g -> irreducible_poly (Poly g) -> fq_valid g x -> x != [::] ->
  exists z, [/\ fq_inverse g x = Ok z, fq_valid g z & (Poly x * Poly z) %% Poly g = 1].
Proof. by move=> P g x Ng Hirr; exact: fq_inverse_poly. Qed.
Print Assumptions C20_inverse.

Theorem C20_inverse_of_zero : forall (P : primeZ) (g : seq (modp_finFieldType P)),
  fq_inverse g [::] = Err ZeroDivisionError /\ forall x, fq_div g x [::] = Err ZeroDivisionError.
Proof. by move=> P g; split=> [|x]; [exact: fq_inverse_zero | exact: fq_div_zero]. Qed.
Print Assumptions C20_inverse_of_zero.

Theorem C20_division : forall (P : primeZ) (g x y : seq (modp_finFieldType P)),
  normal g -> irreducible_poly (Poly g) -> fq_valid g x -> fq_valid g y -> y != [::] ->
  exists z, [/\ fq_div g x y = Ok z, fq_valid g z & (Poly z * Poly y) %% Poly g = Poly x].
Proof. by move=> P g x y Ng Hirr; exact: fq_div_poly. Qed.
Print Assumptions C20_division.

Example C20_example :
  rmap (map (@mval P2)) (fq_inverse g16 (z2 [:: 0; 1]%Z)) = Ok [:: 1; 0; 0; 1]%Z /\
  rmap (map (@mval P3)) (fq_inverse (z3 [:: 1; 0; 1]%Z) (z3 [:: 1; 1]%Z)) = Ok [:: 2; 1]%Z.
Proof. by vm_compute. Qed.

(** C21: [fuel] is Python's recursion limit; [2 * k + 1] levels suffice for exponents below [2^k] *)
Theorem C21_power : forall (P : primeZ) (g : seq (modp_finFieldType P)) (k fuel : nat) x n,
  normal g -> irreducible_poly (Poly g) -> fq_valid g x ->
  (0 <= n)%Z -> (n < 2 ^ Z.of_nat k)%Z -> (2 * k < fuel)%N ->
  exists z, [/\ fq_pow g fuel x n = Ok z, fq_valid g z & Poly z = (Poly x ^+ Z.to_nat n) %% Poly g].
Proof. by move=> P g k fuel x n Ng Hirr; exact: fq_pow_poly. Qed.
Print Assumptions C21_power.

Theorem C21_negative_exponent_recurses_forever : forall (P : primeZ) (g x : seq (modp_finFieldType P)) fuel n,
  (n < 0)%Z -> fq_pow g fuel x n = Err RecursionError.
Proof. by move=> P g x fuel n; exact: fq_pow_neg. Qed.
Print Assumptions C21_negative_exponent_recurses_forever.

Example C21_example :
  rmap (map (@mval P2)) (fq_pow g16 9 (z2 [:: 0; 1]%Z) 14) = Ok [:: 1; 0; 0; 1]%Z /\
  rmap (map (@mval P2)) (fq_pow g16 9 (z2 [:: 0; 1]%Z) 15) = Ok [:: 1]%Z /\
  fq_pow g16 1000 (z2 [:: 0; 1]%Z) (-1) = Err RecursionError.
Proof. by vm_compute. Qed.

(** C22 *)
Theorem C22_LT : forall (P : primeZ) (g x y : seq (modp_finFieldType P)),
  pz P = 2%Z -> normal g -> irreducible_poly (Poly g) -> fq_valid g x -> fq_valid g y ->
  fq_LT g x y = Ok (if (bits_val x <=? bits_val y)%Z then 1%Z else 0%Z).
Proof. by move=> P g x y P2 Ng Hirr; exact: fq_LT_spec. Qed.
Print Assumptions C22_LT.

(** distinct elements are distinct integers, so "<=" is a total order here *)
Theorem C22_order_is_total : forall (P : primeZ) (g x y : seq (modp_finFieldType P)),
  pz P = 2%Z -> normal g -> irreducible_poly (Poly g) -> fq_valid g x -> fq_valid g y ->
  fq_LT g x y = Ok 1%Z -> fq_LT g y x = Ok 1%Z -> x = y.
Proof.
move=> P g x y H2 Ng Hirr Vx Vy; rewrite !fq_LT_spec //.
case: Z.leb_spec => // H1 _; case: Z.leb_spec => // H3 _.
by have [Nx _] := andP Vx; have [Ny _] := andP Vy; apply: bits_inj => //; lia.
Qed.
Print Assumptions C22_order_is_total.

Example C22_example :
  fq_LT g16 (z2 [:: 1; 1; 0; 1]%Z) (z2 [:: 0; 0; 1; 1]%Z) = Ok 1%Z /\ bits_val (z2 [:: 1; 1; 0; 1]%Z) = 11%Z /\
  fq_LT g16 (z2 [:: 0; 0; 1; 1]%Z) (z2 [:: 1; 1; 0; 1]%Z) = Ok 0%Z /\ bits_val (z2 [:: 0; 0; 1; 1]%Z) = 12%Z.
Proof. by vm_compute. Qed.

(** C23: the bits of the integer sum, reduced by the modulus *)
Theorem C23_regular_addition : forall (P : primeZ) (g x y : seq (modp_finFieldType P)),
  pz P = 2%Z -> normal g -> irreducible_poly (Poly g) -> fq_valid g x -> fq_valid g y ->
  exists (l : seq (modp_finFieldType P)) z,
  [/\ bits_val l = (bits_val x + bits_val y)%Z, regular_binary_addition g x y = Ok z,
      fq_valid g z & Poly z = Poly l %% Poly g].
Proof. by move=> P g x y H2 Ng Hirr; exact: regular_add_spec. Qed.
Print Assumptions C23_regular_addition.

Theorem C23_regular_addition_no_overflow : forall (P : primeZ) (g x y : seq (modp_finFieldType P)),
  pz P = 2%Z -> normal g -> irreducible_poly (Poly g) -> fq_valid g x -> fq_valid g y ->
  (bits_val x + bits_val y < 2 ^ Z.of_nat (size g).-1)%Z ->
  exists z, [/\ regular_binary_addition g x y = Ok z, fq_valid g z &
                bits_val z = (bits_val x + bits_val y)%Z].
Proof. by move=> P g x y H2 Ng Hirr; exact: regular_add_small. Qed.
Print Assumptions C23_regular_addition_no_overflow.

(** 5 + 7 = 12; 11 + 12 = 23 = 10111b and X^4 = X + 1 give 7 + 3 (xor) = 4 *)
Example C23_example :
  rmap (map (@mval P2)) (regular_binary_addition g16 (z2 [:: 1; 0; 1]%Z) (z2 [:: 1; 1; 1]%Z)) = Ok [:: 0; 0; 1; 1]%Z /\
  rmap (map (@mval P2)) (regular_binary_addition g16 (z2 [:: 1; 1; 0; 1]%Z) (z2 [:: 0; 0; 1; 1]%Z)) = Ok [:: 0; 0; 1]%Z.
Proof. by vm_compute. Qed.

(** C24 *)
Theorem C24_two_pow_value : forall (P : primeZ) (g x : seq (modp_finFieldType P)),
  pz P = 2%Z -> normal g -> irreducible_poly (Poly g) ->
  exists z, [/\ two_pow g x = Ok z, fq_valid g z &
    Poly z = 'X^(\sum_(0 <= i < size x | nth 0 x i == 1) i.+1) %% Poly g].
Proof. by move=> P g x H2 Ng Hirr; exact: two_pow_spec. Qed.
Print Assumptions C24_two_pow_value.

(** Full statement (false of the code): [two_pow] of the element with integer
    value n is X^n.  In every binary field of degree at least 3 it fails for n = 4. *)
Theorem C24_two_pow_refuted : forall (P : primeZ) (g : seq (modp_finFieldType P)),
  pz P = 2%Z -> normal g -> irreducible_poly (Poly g) -> (3 < size g)%N ->
  bits_val [:: 0; 0; (1 : modp_finFieldType P)] = 4%Z /\
  exists z z4, [/\ two_pow g [:: 0; 0; 1] = Ok z, fq_pow g 7 [:: 0; 1] 4 = Ok z4 & z <> z4].
Proof.
move=> P g H2 Ng Hirr Hg; split; last exact: two_pow_four.
by rewrite /bits_val /= H2.
Qed.
Print Assumptions C24_two_pow_refuted.

Example C24_example :
  rmap (map (@mval P2)) (two_pow g16 (z2 [:: 1; 1]%Z)) = Ok [:: 0; 0; 0; 1]%Z /\
  rmap (map (@mval P2)) (two_pow g16 (z2 [:: 0; 0; 1]%Z)) = Ok [:: 0; 0; 0; 1]%Z /\
  rmap (map (@mval P2)) (fq_pow g16 7 (z2 [:: 0; 1]%Z) 4) = Ok [:: 1; 1]%Z.
Proof. by vm_compute. Qed.

(** the leading decimal digit *)
Lemma lead_digitP fuel n : (0 <= n)%Z -> (Z.log2 n <= Z.of_nat fuel)%Z ->
  exists k : nat, (lead_digit fuel n < 10)%Z /\ (1 <= n -> 1 <= lead_digit fuel n)%Z /\
    (lead_digit fuel n * 10 ^ Z.of_nat k <= n < (lead_digit fuel n + 1) * 10 ^ Z.of_nat k)%Z.
Proof.
elim: fuel n => [|f IH] n Hn Hl.
  have H1 : (n < 2)%Z.
    have [->//|H0] := Z.eq_dec n 0; have [_] := Z.log2_spec n ltac:(lia).
    have -> : Z.log2 n = 0%Z by have := Z.log2_nonneg n; lia.
    done.
  by exists 0%N => /=; lia.
rewrite [lead_digit _ _]/=; case: (Z.ltb_spec n 10) => H10; first by exists 0%N; lia.
have Hq : (0 <= n / 10)%Z by apply: Z.div_pos.
have [|k [H1 [H0 H2]]] := IH _ Hq.
  have L1 : (Z.log2 (n / 10) <= Z.log2 (n / 2))%Z by apply: Z.log2_le_mono; apply: Z.div_le_compat_l; lia.
  have := Z.log2_shiftr n 1 ltac:(lia); rewrite Z.shiftr_div_pow2 // -[(2 ^ 1)%Z]/2%Z => L2; lia.
exists k.+1; split=> //; split=> [_|]; first by apply: H0; apply: Z.div_le_lower_bound; lia.
rewrite Nat2Z.inj_succ Z.pow_succ_r; last by lia.
move: H2; move: (lead_digit _ _) (10 ^ _)%Z => d t H2.
have := Z.div_mod n 10 ltac:(done); have := Z.mod_pos_bound n 10 ltac:(done).
move: (n / 10)%Z (n mod 10)%Z H2 => q r; nia.
Qed.

Definition leading_one (n : Z) : bool := has (fun k => (10 ^ Z.of_nat k <=? n) && (n <? 2 * 10 ^ Z.of_nat k))%Z (iota 0 (Z.to_nat n)).

Lemma leading_oneP n : leading_one n <-> exists k : nat, (10 ^ Z.of_nat k <= n < 2 * 10 ^ Z.of_nat k)%Z.
Proof.
split=> [/hasP [k _ /andP [/Z.leb_spec0 H1 /Z.ltb_spec0 H2]]|[k [H1 H2]]]; first by exists k.
apply/hasP; exists k; last by apply/andP; split; [apply/Z.leb_spec0|apply/Z.ltb_spec0].
have := Z.pow_gt_lin_r 10 (Z.of_nat k) ltac:(lia); rewrite mem_iota; lia.
Qed.

Lemma digit0_one (P : primeZ) (c : modp P) : (digit0 c =? 1)%Z = leading_one (mval c).
Proof.
have Hc := mvalP c.
have [k [D1 [D0 D2]]] := @lead_digitP (Z.to_nat (Z.log2 (mval c))) (mval c) ltac:(lia)
  ltac:(have := Z.log2_nonneg (mval c); lia).
rewrite /digit0; move: (lead_digit _ _) D0 D1 D2 => d D0 D1 D2.
apply/idP/idP => [/Z.eqb_spec E|/leading_oneP [k' [H1 H2]]].
  by apply/leading_oneP; exists k; rewrite E in D2; lia.
apply/Z.eqb_spec.
have Pk : forall j : nat, (0 < 10 ^ Z.of_nat j)%Z by move=> j; apply: Z.pow_pos_nonneg; lia.
have [E|[L|L]] : k = k' \/ (k < k')%coq_nat \/ (k' < k)%coq_nat by lia.
- subst k'; have := Pk k; move: (10 ^ _)%Z H1 H2 D2 => t; nia.
- have T : (10 * 10 ^ Z.of_nat k <= 10 ^ Z.of_nat k')%Z.
    by rewrite -Z.pow_succ_r; [apply: Z.pow_le_mono_r; lia|lia].
  have := Pk k; move: (10 ^ Z.of_nat k)%Z (10 ^ Z.of_nat k')%Z T H1 H2 D2 => t t'; nia.
- have T : (10 * 10 ^ Z.of_nat k' <= 10 ^ Z.of_nat k)%Z.
    by rewrite -Z.pow_succ_r; [apply: Z.pow_le_mono_r; lia|lia].
  have := Pk k'; have := Pk k; move: (10 ^ Z.of_nat k)%Z (10 ^ Z.of_nat k')%Z T H1 H2 D2 => t t' T H1 H2 D2 H3 H4.
  by have := D0 ltac:(lia); nia.
Qed.

(** In every characteristic: the exponent sums i + 1 over the coefficients whose first
    decimal digit is a one (10..19, 100..199 as well as 1). *)
Theorem C24_two_pow_digits : forall (P : primeZ) (g x : seq (modp_finFieldType P)),
  normal g -> irreducible_poly (Poly g) ->
  exists (one : pred Z) z, [/\ two_pow g x = Ok z, fq_valid g z,
    Poly z = 'X^(\sum_(0 <= i < size x | one (mval (nth 0 x i))) i.+1) %% Poly g &
    forall n, one n <-> exists k : nat, (10 ^ Z.of_nat k <= n < 2 * 10 ^ Z.of_nat k)%Z].
Proof.
move=> P g x Ng Hirr; exists leading_one.
rewrite /two_pow; have [z0 [-> V0 _ T0]] := fq_list_ok Ng Hirr [:: 1]; rewrite bind_ok.
move: T0; rewrite Poly1 -[1]/('X^0) => T0.
suff loop l z e : (forall i, i \in l -> (i < size x)%N) -> fq_valid g z -> toQ Hirr z = in_q (IrrP Hirr) 'X^e ->
  exists z', [/\ foldM (fun num i =>
    let* c := py_nth x (Z.of_nat i) in
    if (digit0 c =? 1)%Z then
      let* l := fq_list g (num_to_binary_list_pow P i.+1) in
      fq_mul g num l
    else Ok num) l z = Ok z', fq_valid g z' &
    toQ Hirr z' = in_q (IrrP Hirr) 'X^(e + \sum_(i <- l | leading_one (mval (nth 0 x i))) i.+1)].
  have [|z [E V T]] := loop (iota 0 (size x)) z0 0%N _ V0 T0; first by move=> i; rewrite mem_iota.
  exists z; split=> //; last exact: leading_oneP.
  by apply: (toQ_Poly Ng V); rewrite T add0n /index_iota subn0.
elim: l z e => [|i l IH] z e Hl V T.
  by exists z; split=> //; rewrite big_nil addn0.
have Hi := Hl i (mem_head _ _).
have Hl' j : j \in l -> (j < size x)%N by move=> Hj; apply: Hl; rewrite inE Hj orbT.
rewrite [foldM _ _ _]/= (py_nth_ok 0 Hi) bind_ok digit0_one big_cons.
case: ifP => _; last exact: IH.
have [l1 [-> V1 _ T1]] := fq_list_ok Ng Hirr (num_to_binary_list_pow P i.+1); rewrite bind_ok.
have [z1 [-> V2 _ T2]] := fq_mul_ok Ng Hirr z l1.
have [|z' [E V' T']] := IH z1 (e + i.+1)%N Hl' V2.
  by rewrite T2 T T1 Poly_pow -in_qM exprD.
by exists z'; split=> //; rewrite T' addnA.
Qed.
Print Assumptions C24_two_pow_digits.

(** over Z/17 with X^2 - 3: the coefficients 12 and 3 give X^1, the coefficients 2 and 10
    give X^2 = 3 *)
Example C24_digits_example :
  let g := [seq in_modp P17 z | z <- [:: 14; 0; 1]%Z] : seq (modp_finFieldType P17) in
  rmap (map (@mval P17)) (two_pow g [seq in_modp P17 z | z <- [:: 12; 3]%Z]) = Ok [:: 0; 1]%Z /\
  rmap (map (@mval P17)) (two_pow g [seq in_modp P17 z | z <- [:: 2; 10]%Z]) = Ok [:: 3]%Z.
Proof. by vm_compute. Qed.

(** C76 *)
Theorem C76_modulus_check : forall (P : primeZ) m (g : seq (modp_finFieldType P)) gen,
  normal g -> (1 < size g)%N -> m <> 1%Z ->
  (irreducible_poly (Poly g) -> finite_field (pz P) m (Some g) gen = Ok (CFq g)) /\
  (~ irreducible_poly (Poly g) -> finite_field (pz P) m (Some g) gen = Err ValueError).
Proof. exact zp_finite_field. Qed.
Print Assumptions C76_modulus_check.

Theorem C76_degree_not_checked : forall (P : primeZ) m (g : seq (modp_finFieldType P)) gen,
  normal g -> irreducible_poly (Poly g) -> (0 <= m)%Z -> m <> 1%Z ->
  finite_field (pz P) m (Some g) gen = Ok (CFq g) /\
  exists s : seq (seq (modp_finFieldType P)), [/\ uniq s, (forall x, (x \in s) = fq_valid g x) &
     (Z.of_nat (size s) = field_size (pz P) m <-> m = pdegree g)].
Proof. exact zp_finite_field_size. Qed.
Print Assumptions C76_degree_not_checked.

(** a constant modulus is accepted and collapses every element to 0 *)
Theorem C76_constant_modulus_accepted : forall (P : primeZ) m (c : modp_finFieldType P) gen,
  c != 0 -> m <> 1%Z ->
  finite_field (pz P) m (Some [:: c]) gen = Ok (CFq [:: c]) /\
  forall l : seq (modp_finFieldType P), fq_list [:: c] l = Ok [::].
Proof. exact zp_finite_field_const. Qed.
Print Assumptions C76_constant_modulus_accepted.

(** FiniteField(2, 3, X^4+X+1) is accepted: field_size 8, sixteen elements;
    FiniteField(2, 1, modulus) ignores the modulus *)
Example C76_example :
  let show c := if c is CFq g then Some [seq mval x | x <- g] else None in
  rmap show (finite_field 2 3 (Some g16) (Err Diverges)) = Ok (Some [:: 1; 1; 0; 0; 1]%Z) /\
  field_size 2 3 = 8%Z /\ rmap show (finite_field 2 1 (Some g16) (Err Diverges)) = Ok None /\
  rmap show (finite_field 2 2 (Some (z2 [:: 1; 0; 1]%Z)) (Err Diverges)) = Err ValueError.
Proof. by vm_compute. Qed.
