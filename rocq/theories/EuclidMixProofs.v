(** Proofs about EuclidMixModel.v: the int literals of the loop make no difference, and
    what the results are at the three classes. *)
From Coq Require Import ZArith List Lia ssreflect ssrbool ssrfun.
From Verif Require Import Base BaseProofs EuclidModel EuclidProofs EuclidMixModel ModpModel ModpProofs.
Local Open Scope Z_scope.

Section Sim.
Variables (A : Type) (eabs : A -> Z) (edivm : A -> A -> result (A * A)).
Variables (eadd esub emul : A -> A -> result A) (eneg : A -> result A) (cast : Z -> A).
Variables (V : A -> Prop) (sub mul : A -> A -> A).
Hypothesis Habs : forall a, 0 <= eabs a.
Hypothesis Vcast : forall k, V (cast k).
Hypothesis Hmul : forall a b, V a -> V b -> emul a b = Ok (mul a b) /\ V (mul a b).
Hypothesis Hsub : forall a b, V a -> V b -> esub a b = Ok (sub a b) /\ V (sub a b).
Hypothesis Hrsub : forall k b, V b -> (let* n := eneg b in eadd n (cast k)) = Ok (sub (cast k) b).
Hypothesis Hdiv : forall a b, V a -> V b -> 0 < eabs b ->
  exists q r, edivm a b = Ok (q, r) /\ V q /\ V r.

Definition erase (v : pynum A) : A := match v with PInt z => cast z | PObj a => a end.
Definition is_obj (v : pynum A) : Prop := exists a, v = PObj a.
Definition vnum (v : pynum A) : Prop := V (erase v).
Local Notation mloop := (mix_eea_loop A eabs edivm eadd esub emul eneg cast).
Local Notation mord := (mix_eea_ordered A eabs edivm eadd esub emul eneg cast).

Lemma mul_obj q v : V q -> vnum v ->
  py_mul A emul cast (PObj q) v = Ok (PObj (mul q (erase v))) /\ V (mul q (erase v)).
Proof.
move=> Vq Vv; have [E Vm] := Hmul _ _ Vq Vv.
by case: v Vv E Vm => z /= Vv -> Vm.
Qed.
Lemma sub_obj v b : vnum v -> V b ->
  py_sub A eadd esub eneg cast v (PObj b) = Ok (PObj (sub (erase v) b)) /\ V (sub (erase v) b).
Proof.
move=> Vv Vb; have [E Vm] := Hsub _ _ Vv Vb.
case: v Vv E Vm => [z|a] /= Vv E Vm; last by rewrite E.
by have := Hrsub z _ Vb; case: (eneg b) => //= n ->.
Qed.

Lemma mloop_erase f : forall a b x2 x1 y2 y1 x' y' d,
  V a -> V b -> vnum x2 -> vnum x1 -> vnum y2 -> vnum y1 ->
  eea_loop A eabs edivm sub mul f a b (erase x2) (erase x1) (erase y2) (erase y1) = Ok (x', y', d) ->
  exists x y, mloop f (PObj a) (PObj b) x2 x1 y2 y1 = Ok (x, y, PObj d) /\
    erase x = x' /\ erase y = y' /\ V d /\
    (is_obj x1 -> is_obj y1 -> 0 < eabs b -> is_obj x /\ is_obj y) /\
    (0 < eabs b -> forall q r, edivm a b = Ok (q, r) ->
       (eabs r = 0 -> x = x1 /\ y = y1) /\ (0 < eabs r -> is_obj x /\ is_obj y)).
Proof.
elim: f => [//|f IH] a b x2 x1 y2 y1 x' y' d Va Vb V2 V1 W2 W1 /=.
case: Z.ltb_spec => Hb; last first.
  by case=> <- <- <-; exists x2, y2; do !split=> //; lia.
have [q [r [E [Vq Vr]]]] := Hdiv _ _ Va Vb Hb; rewrite E.
have [Ex Vx] := mul_obj _ _ Vq V1; have [Ey Vy] := mul_obj _ _ Vq W1.
have [Sx Ux] := sub_obj _ _ V2 Vx; have [Sy Uy] := sub_obj _ _ W2 Vy.
cbn [bind]; rewrite -/(py_mul A emul cast) Ex; cbn [bind]; rewrite Sx; cbn [bind]; rewrite Ey; cbn [bind].
rewrite Sy; cbn [bind] => H.
have [x [y [M [Dx [Dy [Vd [T1 T2]]]]]]] :=
  IH b r x1 (PObj (sub (erase x2) (mul q (erase x1)))) y1 (PObj (sub (erase y2) (mul q (erase y1)))) x' y' d
     Vb Vr V1 Ux W1 Uy H.
exists x, y; rewrite M; do 4!split=> //.
have Z0 : eabs r = 0 -> x = x1 /\ y = y1.
  move=> Hr; move: M; case: (f) => //= f'; rewrite Hr /=.
  by case=> -> ->.
have Hr0 := Habs r.
have P0 : 0 < eabs r -> is_obj x /\ is_obj y.
  by move=> Hr; apply: T1 => //; [eexists|eexists].
split=> [o1 o2 _|_ q' r' [_ <-] //].
by case: (Z.eq_dec (eabs r) 0) => [/Z0 [-> ->]//|Hr]; apply: P0; lia.
Qed.

Lemma mord_erase f a b x' y' d : V a -> V b ->
  eea_ordered A eabs edivm sub mul (cast 0) (cast 1) f a b = Ok (x', y', d) ->
  exists x y, mord f (PObj a) (PObj b) = Ok (x, y, PObj d) /\ erase x = x' /\ erase y = y' /\
    (eabs b = 0 -> x = PInt 1 /\ y = PInt 0) /\
    (0 < eabs b -> forall q r, edivm a b = Ok (q, r) ->
       (eabs r = 0 -> x = PInt 0 /\ y = PInt 1) /\ (0 < eabs r -> is_obj x /\ is_obj y)).
Proof.
move=> Va Vb; rewrite /eea_ordered /mix_eea_ordered /=; case: Z.eqb_spec => Hb.
  by case=> <- <- <-; exists (PInt 1), (PInt 0); do !split=> //; lia.
move=> H.
have [x [y [M [Dx [Dy [_ [_ T]]]]]]] :=
  mloop_erase f a b (PInt 1) (PInt 0) (PInt 0) (PInt 1) x' y' d Va Vb (Vcast 1) (Vcast 0) (Vcast 0) (Vcast 1) H.
by exists x, y; do 4!split=> //; lia.
Qed.
End Sim.
Arguments erase {A} cast v.
Arguments is_obj {A} v.

(** ** IntegersModP(p) *)
Section Zp.
Variable p : Z.
Hypothesis Hp : 0 < p.
Local Notation can := (canonical p).
Local Notation zloop := (eea_loop Z Z.abs (modp_divmod p) (modp_sub p) (modp_mul p)).
Local Notation zord := (eea_ordered Z Z.abs (modp_divmod p) (modp_sub p) (modp_mul p) (modp_mk p 0) (modp_mk p 1)).

Lemma zdiv a b : can a -> can b -> b <> 0 ->
  modp_divmod p a b = Ok (a / b, a mod b) /\ can (a / b) /\ can (a mod b).
Proof.
move=> Ha Hb N; have [q [r [E [Cq [Ea Hr]]]]] := modp_divmod_spec p a b Ha Hb N.
have Eq : a / b = q by symmetry; apply: (Z.div_unique _ _ _ r); [lia|rewrite Ea; ring].
have Er : a mod b = r by symmetry; apply: (Z.mod_unique _ _ q); [lia|rewrite Ea; ring].
rewrite E Eq Er; do !split=> //; move: Hb; rewrite /canonical; lia.
Qed.

Lemma zgcd_loop f : forall a b, can a -> can b ->
  gcd_loop Z Z.abs (modp_divmod p) f a b = iloop f a b.
Proof.
elim: f => [//|f IH] a b Ha Hb /=; case: Z.ltb_spec => // H.
have [|-> [_ Cr]] := zdiv a b Ha Hb; first by lia.
rewrite int_divmod_ok; first by lia.
by rewrite /= IH.
Qed.

Lemma zsub_mod x2 q x1 : modp_sub p (x2 mod p) (modp_mul p q (x1 mod p)) = (x2 - q * x1) mod p.
Proof.
rewrite /modp_sub /modp_mul /modp_mk Z.mul_mod_idemp_r; first by lia.
by rewrite -Zminus_mod.
Qed.

Lemma zloop_mod f : forall a b x2 x1 y2 y1 x y g, can a -> can b ->
  ieloop f a b x2 x1 y2 y1 = Ok (x, y, g) ->
  zloop f a b (x2 mod p) (x1 mod p) (y2 mod p) (y1 mod p) = Ok (x mod p, y mod p, g).
Proof.
elim: f => [//|f IH] a b x2 x1 y2 y1 x y g Ha Hb /=; case: Z.ltb_spec => H; last by case=> <- <- <-.
have [|-> [_ Cr]] := zdiv a b Ha Hb; first by lia.
rewrite int_divmod_ok; first by lia.
cbn [bind]; by move=> /(IH _ _ _ _ _ _ _ _ _ Hb Cr); rewrite !zsub_mod.
Qed.

Lemma zord_mod f a b x y g : can a -> can b ->
  eea_ordered Z Z.abs int_divmod Z.sub Z.mul 0 1 f a b = Ok (x, y, g) ->
  zord f a b = Ok (x mod p, y mod p, g).
Proof.
move=> Ha Hb; rewrite /eea_ordered; case: Z.eqb_spec => _; first by case=> <- <- <-.
by move=> /zloop_mod H; rewrite /modp_mk H.
Qed.

Definition zobj (a : Z) : pynum Z := PObj a.
Local Notation zmord := (mix_eea_ordered Z Z.abs (modp_divmod p) (fun a b => Ok (modp_add p a b))
  (fun a b => Ok (modp_sub p a b)) (fun a b => Ok (modp_mul p a b)) (fun a => Ok (modp_neg p a)) (modp_mk p)).

Lemma zmord_spec f a b xi yi g : can a -> can b -> (b <= a) ->
  eea_ordered Z Z.abs int_divmod Z.sub Z.mul 0 1 f a b = Ok (xi, yi, g) ->
  exists x y, zmord f (zobj a) (zobj b) = Ok (x, y, zobj g) /\
    erase (modp_mk p) x = xi mod p /\ erase (modp_mk p) y = yi mod p /\
    ((b | a) \/ (a | b) -> (x = PInt 1 /\ y = PInt 0) \/ (x = PInt 0 /\ y = PInt 1)) /\
    (~ (b | a) -> ~ (a | b) -> is_obj x /\ is_obj y).
Proof.
move=> Ha Hb Hab /(zord_mod _ _ _ _ _ _ Ha Hb) H.
have [||||||x [y [M [Ex [Ey [T0 T1]]]]]] :=
  mord_erase Z Z.abs (modp_divmod p) (fun a b => Ok (modp_add p a b))
  (fun a b => Ok (modp_sub p a b)) (fun a b => Ok (modp_mul p a b)) (fun a => Ok (modp_neg p a)) (modp_mk p)
  can (modp_sub p) (modp_mul p) _ _ _ _ _ _ f a b _ _ g Ha Hb H.
- exact: Z.abs_nonneg.
- by move=> k; apply: Z.mod_pos_bound.
- by move=> c d _ _; split=> //; apply: Z.mod_pos_bound.
- by move=> c d _ _; split=> //; apply: Z.mod_pos_bound.
- move=> k c _ /=; rewrite /modp_add /modp_sub /modp_neg /modp_mk; congr Ok.
  rewrite -Z.add_mod; first by lia.
  by rewrite Zminus_mod_idemp_l; congr (_ mod _); ring.
- move=> c d Hc Hd N; have [|E [Cq Cr]] := zdiv c d Hc Hd; first by lia.
  by exists (c / d), (c mod d).
- exists x, y; do 3!split=> //; move: Ha Hb; rewrite /canonical => Ha Hb.
case: (Z.eq_dec b 0) => [B0|B0].
  rewrite B0 in T0 *; split=> [_|_ N]; last by case: N; exists 0; ring.
  by left; apply: T0.
have [E _] := zdiv a b Ha Hb B0.
have [|U0 U1] := T1 _ _ _ E; first by lia.
have Hm := Z.mod_pos_bound a b.
split=> [D|Nb _].
  right; apply: U0; rewrite (_ : a mod b = 0) //.
  apply/Z.mod_divide => //; case: D => // -[k Ek].
  have : k = 1 by nia.
  by move=> K; exists 1; lia.
apply: U1; have : a mod b <> 0 by move=> /Z.mod_divide D; apply: Nb; apply: D.
by lia.
Qed.
End Zp.
