(** Proofs about starks/floatingpoint.py. *)
From mathcomp Require Import zify ssrZ.
From Verif Require Import Prelude BaseProofs PolyModel PolyProofs FftProofs FinFld QField Pocklington
  ModpModel ModpField FiniteFieldModel FiniteFieldProofs FloatModel.
Set Implicit Arguments.
Unset Strict Implicit.
Unset Printing Implicit Defensive.
Import GRing.Theory.
Local Open Scope ring_scope.
Local Open Scope py_scope.

(** The binary expansion *)
Lemma ntb_loop_spec f n : (0 <= n)%Z -> (n < 2 ^ Z.of_nat f)%Z ->
  [/\ all (fun b => (b =? 0) || (b =? 1))%Z (ntb_loop f n),
      foldr (fun b acc => (b + 2 * acc)%Z) 0%Z (ntb_loop f n) = n &
      ((0 < n)%Z -> last 0%Z (ntb_loop f n) = 1%Z)].
Proof.
elim: f n => [|f IH] n Hn Hf /=; first by have -> : n = 0%Z by move: Hf => /=; lia.
case: Z.ltb_spec => H; last by split=> //=; lia.
have E := Z.div_mod n 2 ltac:(lia); have M := Z.mod_pos_bound n 2 ltac:(lia).
have [|//|A V L] := IH (n / 2)%Z; first by apply: Z.div_pos; lia.
  apply: Z.div_lt_upper_bound; first by [].
  by move: Hf; rewrite Nat2Z.inj_succ Z.pow_succ_r; lia.
split=> /=.
- by rewrite A andbT; case: Z.eqb_spec => // ?; apply/Z.eqb_eq; lia.
- by rewrite V Z.add_comm -E.
move=> _; case: (Z.eq_dec (n / 2) 0) => [Z0|Hz].
  by rewrite Z0; case: (f) => [|f'] /=; lia.
have L' : last 0%Z (ntb_loop f (n / 2)) = 1%Z by apply: L; lia.
by case: (ntb_loop f _) L' => [|b l].
Qed.

Lemma poly_char2 (F : fieldType) : 2%N \in [char F] -> 2%N \in [char {poly F}].
Proof.
move=> /charf0 E; rewrite inE /=.
by rewrite -(rmorph_nat (polyC_rmorphism F)) E rmorph0.
Qed.

Lemma modp_char2 (P : primeZ) : pz P = 2%Z -> 2%N \in [char modp_fieldType P].
Proof. by move=> H; have := modp_char P; rewrite card_modp H. Qed.

Section NoField.
Variable P : primeZ.

Lemma fp_eqE (a b : fp P) : fp_eq a b = (fz a =? fz b)%Z.
Proof.
rewrite /fp_eq; case: (fz a =? fz b)%Z; last by rewrite /= !andbF.
by [].
Qed.

Lemma flipK : involutive (@flip P).
Proof. by case=> v p z s; rewrite /flip /= Z.lxor_assoc Z.lxor_nilpotent Z.lxor_0_r. Qed.

Lemma flip_neq (y : fp P) : fs (flip y) <> fs y.
Proof.
move=> /= H; have := congr1 (Z.lxor (fs y)) H.
by rewrite -Z.lxor_assoc Z.lxor_nilpotent.
Qed.

Variable g : seq (modp_fieldType P).
Variable m : Z.

Lemma fp_sub_state x y : snd (fp_sub g m x y) = flip y. Proof. by []. Qed.

(** evaluating [a - b] a second time computes [a + b] *)
Lemma fp_sub_twice x y :
  fst (fp_sub g m x (snd (fp_sub g m x y))) = fp_add g m x y.
Proof. by rewrite /fp_sub [fst _]/= flipK. Qed.

Definition unsigned (r : fp P) := (fv r, fp_p r, fz r).

Lemma fp_add_sign_free (x y y' : fp P) : fz y = fz y' -> fv y = fv y' -> fp_p y = fp_p y' ->
  rmap unsigned (fp_add g m x y) = rmap unsigned (fp_add g m x y').
Proof.
move=> Ez Ev Ep; rewrite /fp_add -Ez -Ev -Ep; case: ifP => _; first by rewrite /= /unsigned /= Ev Ep Ez.
case: ifP => _ //.
case: (fq_LT g (fv x) _) => [a|e] //=; case: (fq_LT g (fp_p x) _) => [b|e] //=.
have H : forall (c1 c2 c3 : bool) (A B : seq (modp_fieldType P)) s1 s2 s3 (k : seq (modp_fieldType P) -> seq (modp_fieldType P) -> Z -> result (fp P)),
  (forall vmin vmax s s', rmap unsigned (k vmin vmax s) = rmap unsigned (k vmin vmax s')) ->
  rmap unsigned (let '(v_min, v_max, s_c) := (if c1 then if c2 then (A, B, s1) else (B, A, s2) else if c3 then (A, B, s1) else (B, A, s2)) in k v_min v_max s_c) =
  rmap unsigned (let '(v_min, v_max, s_c) := (if c1 then if c2 then (A, B, s3) else (B, A, s2) else if c3 then (A, B, s3) else (B, A, s2)) in k v_min v_max s_c).
  by move=> [] [] [] A B s1 s2 s3 k Hk; rewrite ?(Hk _ _ s1 s3).
apply: H => vmin vmax s s'.
case: (if (b =? 1)%Z then _ else _) => pmin pmax.
case: (fq_sub _ _ _) => [D|e] //=; case: (field_of g (num_to_binary_list m)) => [fm|e] //=.
case: (fq_LT _ _ _) => [c|e] //=; case: (if (c =? 0)%Z then _ else _) => [[v p]|e] //=.
by case: (field_of g [:: 0%Z]).
Qed.
End NoField.

Section Bin.
Variable P : primeZ.
Hypothesis P2 : pz P = 2%Z.
Local Notation F := (modp_finFieldType P).
Variable g : seq F.
Variable m : Z.
Hypothesis Ng : normal g.
Hypothesis Hirr : irreducible_poly (Poly g).

Definition fp_ok (x : fp P) : Prop := fq_valid g (fv x) /\ fq_valid g (fp_p x).

Lemma valid_nil : fq_valid g [::].
Proof. by rewrite /fq_valid normal_nil (ltn_trans _ (g_gt1 Ng Hirr)). Qed.

Lemma field_of_ok l : exists z, [/\ field_of g l = Ok z, fq_valid g z & Poly z = Poly ([seq in_modp P z | z <- l] : seq F) %% Poly g].
Proof.
have [z [E Vz Pz]] := fq_poly_valid Ng Hirr (normal_pmk [seq in_modp P z | z <- l]).
by exists z; split=> //; rewrite Pz Poly_pmk.
Qed.

Lemma field_of0 : field_of g [:: 0%Z] = Ok [::].
Proof.
have [z [-> Vz Pz]] := field_of_ok [:: 0%Z]; congr (Ok _).
have [Nz _] := andP Vz; apply: Poly_inj; rewrite ?normal_nil // Pz /=.
have -> : (in_modp P 0 : F) = 0 by apply: mval_inj.
by rewrite cons_poly_def mul0r add0r mod0p.
Qed.

Lemma field_of1 : field_of g [:: 1%Z] = Ok [:: 1].
Proof.
have [z [-> Vz Pz]] := field_of_ok [:: 1%Z]; congr (Ok _).
have [Nz _] := andP Vz; apply: Poly_inj; rewrite // ?/normal /= ?oner_eq0 // Pz /=.
have -> : (in_modp P 1 : F) = 1 by apply: mval_inj.
rewrite cons_poly_def mul0r add0r modp_small // size_poly1 -g_size //; exact: g_gt1.
Qed.

Lemma valid1 : fq_valid g [:: 1].
Proof. by rewrite /fq_valid /normal /= oner_eq0 (g_gt1 Ng Hirr). Qed.

Lemma fp_add_ok x y : fp_ok x -> fp_ok y -> exists z, fp_add g m x y = Ok z /\ fp_ok z.
Proof.
move=> [Vx Wx] [Vy Wy]; rewrite /fp_add; case: ifP => _; first by exists (Fp (fv y) (fp_p y) (fz y) (fs y)).
case: ifP => _; first by exists (Fp (fv x) (fp_p x) (fz x) (fs x)).
rewrite (fq_LT_spec P2 Ng Hirr Vx Vy) (fq_LT_spec P2 Ng Hirr Wx Wy) !bind_ok.
set a := (if _ then _ else _); set b := (if (bits_val _ <=? _)%Z then _ else _).
have H : forall (c1 c2 c3 : bool) A B s1 s2 (k : seq F -> seq F -> Z -> result (fp P)),
  fq_valid g A -> fq_valid g B ->
  (forall vmin vmax s, fq_valid g vmin -> fq_valid g vmax -> exists z, k vmin vmax s = Ok z /\ fp_ok z) ->
  exists z, (let '(v_min, v_max, s_c) := (if c1 then if c2 then (A, B, s1) else (B, A, s2) else if c3 then (A, B, s1) else (B, A, s2)) in k v_min v_max s_c) = Ok z /\ fp_ok z.
  by move=> [] [] [] A B s1 s2 k HA HB Hk; apply: Hk.
apply: H => // vmin vmax s Vmin Vmax.
have H : forall (c : bool) (k : seq F -> seq F -> result (fp P)),
  (forall pmin pmax, fq_valid g pmin -> fq_valid g pmax -> exists z, k pmin pmax = Ok z /\ fp_ok z) ->
  exists z, (let '(pmin, pmax) := (if c then (fp_p x, fp_p y) else (fp_p y, fp_p x)) in k pmin pmax) = Ok z /\ fp_ok z.
  by move=> [] k Hk; apply: Hk.
apply: H => pmin pmax Wmin Wmax.
have [D [-> VD _ _]] := fq_sub_ok Ng Hirr Wmax Wmin; rewrite bind_ok.
have [fm [-> Vfm _]] := field_of_ok (num_to_binary_list m); rewrite bind_ok.
rewrite (fq_LT_spec P2 Ng Hirr VD Vfm) bind_ok field_of0.
case: ifP => _; first by rewrite !bind_ok; eexists; split; first by [].
have [t [-> Vt _]] := two_pow_spec P2 Ng Hirr D; rewrite bind_ok.
have [v1 [-> V1 _ _]] := fq_mul_ok Ng Hirr vmax t; rewrite bind_ok.
have [v2 [-> V2 _ _]] := fq_add_ok Ng Hirr V1 Vmin; rewrite !bind_ok.
by eexists; split; first by [].
Qed.

Lemma two_pow_nil : two_pow g [::] = Ok [:: 1].
Proof.
have [z [E V Pz]] := two_pow_spec P2 Ng Hirr [::]; rewrite E; congr (Ok _).
have [Nz _] := andP V; have [N1 _] := andP valid1; apply: Poly_inj => //.
rewrite Pz /two_pow_exp big_geq // expr0 Poly1 modp_small // size_poly1 -g_size //; exact: g_gt1.
Qed.

(** equal exponents: the significands are added *)
Lemma fp_add_same_exp x y : fp_ok x -> fp_ok y -> fz x <> 1%Z -> fz y <> 1%Z -> fp_p x = fp_p y ->
  exists z, [/\ fp_add g m x y = Ok z, Poly (fv z) = Poly (fv x) + Poly (fv y), fp_p z = fp_p x,
     fz z = (if Poly (fv z) == 0 then 1%Z else 0%Z) &
     fs z = if (bits_val (fv x) <=? bits_val (fv y))%Z then fs y else fs x].
Proof.
move=> [Vx Wx] [Vy Wy] Zx Zy Ep; rewrite /fp_add.
rewrite (proj2 (Z.eqb_neq _ _) Zx) (proj2 (Z.eqb_neq _ _) Zy).
rewrite (fq_LT_spec P2 Ng Hirr Vx Vy) (fq_LT_spec P2 Ng Hirr Wx Wy) !bind_ok.
have -> : fq_eq (fp_p x) (fp_p y) = true by rewrite /fq_eq peqE Ep eqxx.
rewrite -Ep Z.leb_refl [(1 =? 1)%Z]/=.
have HD : fq_sub g (fp_p x) (fp_p x) = Ok [::].
  have [D [-> VD PD _]] := fq_sub_ok Ng Hirr Wx Wx; congr (Ok _).
  by have [ND _] := andP VD; apply: Poly_inj; rewrite ?normal_nil // PD subrr.
have H : forall (c1 : bool) A B s1 s2 (k : seq F -> seq F -> Z -> result (fp P)),
  (let '(v_min, v_max, s_c) := (if (if c1 then 1 else 0) =? 1 then (A, B, s1) else (B, A, s2))%Z in k v_min v_max s_c) =
  if c1 then k A B s1 else k B A s2 by case.
have [fm [Efm Vfm _]] := field_of_ok (num_to_binary_list m).
have ELT : fq_LT g [::] fm = Ok 1%Z.
  rewrite (fq_LT_spec P2 Ng Hirr valid_nil Vfm).
  by rewrite (_ : (_ <=? _)%Z = true) //; apply/Z.leb_le; exact: bits_ge0 P2 fm.
have key A B : fq_valid g A -> fq_valid g B -> exists z, [/\ fq_valid g z, Poly z = Poly B + Poly A &
   (let* v := fq_mul g B [:: 1] in let* v := fq_add g v A in Ok (v, fp_p x)) = Ok (z, fp_p x)].
  move=> VA VB; have [v1 [-> V1 H1 _]] := fq_mul_ok Ng Hirr B [:: 1]; rewrite bind_ok.
  have [v2 [-> V2 H2 _]] := fq_add_ok Ng Hirr V1 VA; exists v2; split=> //.
  by rewrite H2 H1 Poly1 mulr1 valid_small.
have zcase (z : seq F) : fq_valid g z -> (if fq_eq z [::] then 1%Z else 0%Z) = if Poly z == 0 then 1%Z else 0%Z.
  move=> Vz; have [Nz _] := andP Vz; rewrite /fq_eq peqE; congr (if _ then _ else _).
  by rewrite -[Poly z == 0]size_poly_eq0 -size_normal // size_eq0.
rewrite H HD; case: ifP => Hc; rewrite bind_ok Efm bind_ok ELT bind_ok two_pow_nil field_of0 [(1 =? 0)%Z]/= bind_ok.
  have [z [Vz Hz ->]] := key _ _ Vx Vy; rewrite !bind_ok.
  by eexists; split; first by []; rewrite /= ?zcase // Hz addrC.
have [z [Vz Hz ->]] := key _ _ Vy Vx; rewrite !bind_ok.
by eexists; split; first by []; rewrite /= ?zcase.
Qed.

(** multiplication *)
Lemma fp_mul_ok x y : fp_ok x -> fp_ok y ->
  exists z, [/\ fp_mul g m x y = Ok z, fp_ok z, fz z = Z.lor (fz x) (fz y), fs z = Z.lxor (fs x) (fs y) &
   (Z.lor (fz x) (fz y) = 1%Z -> fv z = [::] /\ fp_p z = [::]) /\
   (Z.lor (fz x) (fz y) <> 1%Z -> Poly (fv z) = (Poly (fv x) * Poly (fv y)) %% Poly g /\
      Poly (fp_p z) = Poly (fp_p x) + Poly (fp_p y) +
        Poly ([seq in_modp P c | c <- num_to_binary_list (2 * (Z.of_nat (size (fv x)) - 1) - (m - 1))] : seq F) %% Poly g)].
Proof.
move=> [Vx Wx] [Vy Wy]; rewrite /fp_mul field_of0 bind_ok.
case: (Z.eqb_spec (Z.lor _ _) 1) => Hz.
  by rewrite !bind_ok; eexists; split; first by []; first (by split; exact: valid_nil); rewrite ?Hz.
have [v [-> Vv Hv _]] := fq_mul_ok Ng Hirr (fv x) (fv y); rewrite bind_ok.
have [p1 [-> V1 H1 _]] := fq_add_ok Ng Hirr Wx Wy; rewrite bind_ok.
set d := (pdegree _ + _ - _)%Z.
have -> : (2 * (Z.of_nat (size (fv x)) - 1) - (m - 1))%Z = d by rewrite /d !pdegreeE; move: (Z.of_nat (size _)) => k; clear; lia.
have [l [-> Vl Hl _]] := fq_list_ok Ng Hirr [seq in_modp P c | c <- num_to_binary_list d]; rewrite bind_ok.
have [p2 [-> V2 H2 _]] := fq_add_ok Ng Hirr V1 Vl; rewrite bind_ok.
by eexists; split; first by []; split=> // _; rewrite /= H2 H1 Hl.
Qed.

(** division *)
Lemma fp_div_zero x y : (fz y = 1%Z \/ fv y = [::]) -> fp_div g m x y = Err ZeroDivisionError.
Proof.
rewrite /fp_div field_of0 bind_ok /fq_eq peqE; case=> ->; first by [].
by rewrite eqxx; case: ifP.
Qed.

Lemma fp_div_ok x y : fp_ok x -> fp_ok y -> fz y <> 1%Z -> fv y <> [::] ->
  exists z, [/\ fp_div g m x y = Ok z, fp_ok z, fz z = Z.lor (fz x) (fz y), fs z = Z.lxor (fs x) (fs y) &
   (Z.lor (fz x) (fz y) <> 1%Z -> (Poly (fv z) * Poly (fv y)) %% Poly g = Poly (fv x))].
Proof.
move=> [Vx Wx] [Vy Wy] Zy /eqP Hy; rewrite /fp_div field_of0 bind_ok /fq_eq peqE (negPf Hy).
rewrite (proj2 (Z.eqb_neq _ _) Zy).
case: (Z.eqb_spec (Z.lor _ _) 1) => Hz.
  by rewrite !bind_ok; eexists; split; first by []; first (by split; exact: valid_nil); rewrite ?Hz.
have [v [-> Vv Hv]] := fq_div_poly Ng Hirr Vx Vy Hy; rewrite bind_ok.
have [p1 [-> V1 H1 _]] := fq_sub_ok Ng Hirr Wx Wy; rewrite bind_ok.
have [i [-> Vi Hi]] := fq_inverse_ok Ng Hirr Vy Hy; rewrite bind_ok.
have [l [-> Vl Hl _]] := fq_list_ok Ng Hirr [seq in_modp P c | c <- num_to_binary_list (pdegree (fv x) + pdegree i - (m - 1))%Z]; rewrite bind_ok.
have [p2 [-> V2 H2 _]] := fq_add_ok Ng Hirr V1 Vl; rewrite bind_ok.
by eexists; split; first by [].
Qed.

(** exponentiation multiplies exactly [bits_val] times *)
Fixpoint fp_nfold (n : nat) (x : fp P) (acc : fp P) : result (fp P) :=
  if n is k.+1 then let* r := fp_mul g m acc x in fp_nfold k x r else Ok acc.

Lemma bits1 : bits_val ([:: 1] : seq (modp P)) = 1%Z.
Proof. by rewrite /bits_val /= P2. Qed.

Lemma fp_pow_loop_ok fuel (n : nat) x target counter out : fp_ok x -> fp_ok out ->
  fq_valid g target -> fq_valid g counter ->
  bits_val target = (bits_val counter + Z.of_nat n)%Z -> (n < fuel)%N ->
  fp_pow_loop g m fuel x [:: 1] target counter out = fp_nfold n x out.
Proof.
move=> Hx; elim: n fuel counter out => [|n IH] [//|fuel] counter out Ho Vt Vc Hb Hf.
  have E : counter = target.
    have [Nc _] := andP Vc; have [Nt _] := andP Vt.
    by apply: (bits_inj P2 Nc Nt); rewrite Hb Z.add_0_r.
  by rewrite /= /fq_ne /fq_eq peqE E eqxx.
rewrite [fp_pow_loop _ _ _ _ _ _ _ _]/= /fq_ne /fq_eq peqE.
have [E|_] := eqVneq counter target; first by move: Hb; rewrite E; clear; lia.
have [r [Er Hr _ _ _]] := fp_mul_ok Ho Hx.
rewrite [fp_nfold _ _ _]/= Er bind_ok bind_ok.
have Hlt := bits_lt P2 target.
have Hle : (2 ^ Z.of_nat (size target) <= 2 ^ Z.of_nat (size g).-1)%Z.
  apply: Z.pow_le_mono_r => //; have [_] := andP Vt; move: (size target) (size g) => a b; clear; lia.
have [|c' [-> Vc' Hc']] := regular_add_small P2 Ng Hirr Vc valid1.
  rewrite bits1; move: Hlt Hle Hb; move: (2 ^ _)%Z (2 ^ _)%Z (bits_val _) (bits_val _) => a b c d; clear; lia.
rewrite bind_ok; apply: IH => //.
by rewrite Hc' bits1 Hb; clear; lia.
Qed.

Lemma float_to_fix_spec (y : fp P) :
  (fz y = 1%Z -> float_to_fix g y = Ok ([::], 0%Z)) /\
  (fz y <> 1%Z -> exists o, [/\ float_to_fix g y = Ok (o, fs y), fq_valid g o &
     Poly o = (Poly (fv y) * 'X^(\sum_(0 <= i < size (fp_p y) | nth 0 (fp_p y) i == 1) i.+1)) %% Poly g]).
Proof.
rewrite /float_to_fix; split=> [->|/Z.eqb_neq ->]; first by rewrite field_of0 bind_ok.
have [t [-> Vt Et]] := two_pow_spec P2 Ng Hirr (fp_p y); rewrite bind_ok.
have [o [-> Vo Eo _]] := fq_mul_ok Ng Hirr (fv y) t; rewrite bind_ok.
by exists o; split=> //; rewrite Eo Et polydiv.Pdiv.Field.modp_mul.
Qed.

Lemma fp_pow_spec fuel x y : fp_ok x -> fp_ok y ->
  exists fixed s, [/\ float_to_fix g y = Ok (fixed, s), fq_valid g fixed &
   (Z.to_nat (bits_val fixed) < fuel)%N ->
   fp_pow g m fuel x y =
     let* r := fp_nfold (Z.to_nat (bits_val fixed)) x (Fp [:: 1] [::] 0%Z 0%Z) in
     if (fs y =? 1)%Z then fp_div g m (Fp [:: 1] [::] 0%Z 0%Z) r else Ok r].
Proof.
move=> Hx [Vy Wy].
have [fixed [s [E Vf]]] : exists fixed s, float_to_fix g y = Ok (fixed, s) /\ fq_valid g fixed.
  rewrite /float_to_fix; case: ifP => _.
    by exists [::], 0%Z; rewrite field_of0 bind_ok valid_nil.
  have [t [-> Vt _]] := two_pow_spec P2 Ng Hirr (fp_p y); rewrite bind_ok.
  have [o [-> Vo _ _]] := fq_mul_ok Ng Hirr (fv y) t; rewrite bind_ok.
  by exists o, (fs y).
exists fixed, s; split=> // Hf; rewrite /fp_pow E bind_ok field_of0 field_of1 !bind_ok.
rewrite (@fp_pow_loop_ok fuel (Z.to_nat (bits_val fixed))) //.
- by split; [exact: valid1 | exact: valid_nil].
- exact: valid_nil.
- by rewrite Z2Nat.id //; exact: bits_ge0.
Qed.
End Bin.
