(** Rabin's bound: at most a quarter of the residues modulo an odd composite number are
    strong liars. *)
From mathcomp Require Import all_ssreflect all_fingroup all_algebra all_field.
Set Implicit Arguments.
Unset Strict Implicit.
Unset Printing Implicit Defensive.
Import GRing.Theory.

(** ** powers of numbers congruent modulo a prime *)
Lemma dvd_geom p a b : a = b %[mod p] -> p %| \sum_(i < p) a ^ (p.-1 - i) * b ^ i.
Proof.
move=> E; rewrite /dvdn -modn_summ.
have -> : \sum_(i < p) (a ^ (p.-1 - i) * b ^ i) %% p = \sum_(i < p) (b ^ p.-1) %% p.
  apply: eq_bigr => i _; rewrite -modnMm -(modnXm _ _ a) E modnXm modnMm -expnD subnK //.
  by case: p i E => [[]//|p] i _; rewrite -ltnS.
by rewrite modn_summ sum_nat_const card_ord modnMr.
Qed.

Lemma lift_step p j a b : 0 < j -> a = b %[mod p ^ j] -> a ^ p = b ^ p %[mod p ^ j.+1].
Proof.
wlog ab : a b / b <= a => [H|].
  by case: (leqP b a) => [|/ltnW] ab j0 E; [exact: H|symmetry; apply: H].
move=> j0 E; apply/eqP; rewrite eqn_mod_dvd //; last by case: (p) => // q; rewrite leq_exp2r.
rewrite subn_exp expnSr dvdn_mul //; first by rewrite -eqn_mod_dvd //; apply/eqP.
apply: dvd_geom; rewrite -(@modn_dvdm (p ^ j) a) ?E ?modn_dvdm //; exact: dvdn_exp.
Qed.

Lemma lift_pow p k a b : a = b %[mod p] -> a ^ (p ^ k) = b ^ (p ^ k) %[mod p ^ k.+1].
Proof.
move=> E; elim: k => [|k IH]; first by rewrite expn0 !expn1.
by rewrite expnSr !expnM; apply: lift_step.
Qed.

(** ** units whose power differs from one *)
Lemma pow1p p k : (1 + p) ^ k = 1 + k * p %[mod p ^ 2].
Proof.
elim: k => [|k IH]; first by rewrite expn0 mul0n.
rewrite expnS -modnMmr IH modnMmr.
have -> : (1 + p) * (1 + k * p) = k * p ^ 2 + (1 + k.+1 * p) by ring.
by rewrite modnMDl.
Qed.

Lemma noncarm_square p a n : prime p -> 1 < a -> 0 < n -> p %| n ->
  exists c, coprime (p ^ a) c /\ c ^ n.-1 <> 1 %[mod p ^ a].
Proof.
move=> pp a1 n0 pn; exists (1 + p); split.
  by rewrite coprimeXl // /coprime gcdnDr gcdn1.
move=> E; have {}E : (1 + p) ^ n.-1 = 1 %[mod p ^ 2].
  have D : p ^ 2 %| p ^ a by apply: dvdn_exp2l.
  by rewrite -(modn_dvdm _ D) E modn_dvdm.
move: E; rewrite pow1p => /eqP; rewrite eqn_mod_dvd ?leq_addr // addKn expnS expn1.
rewrite dvdn_pmul2r ?prime_gt0 // => D.
have : p %| 1 by rewrite -(dvdn_addr _ D) addn1 prednK.
by rewrite dvdn1 => /eqP E; move: pp; rewrite E.
Qed.

Lemma noncarm_prime q e : prime q -> ~~ (q.-1 %| e) ->
  exists c, coprime q c /\ c ^ e <> 1 %[mod q].
Proof.
move=> pq nd; set d := e %% q.-1.
have q1 : 0 < q.-1 by rewrite -ltnS prednK ?prime_gt0 // prime_gt1.
have d0 : 0 < d by rewrite lt0n.
have dq : d < q.-1 by rewrite ltn_mod.
have ferm (x : 'F_q) : x != 0%R -> (x ^+ q.-1 = 1)%R.
  move=> x0; apply: (mulfI x0); rewrite mulr1 -exprS prednK ?prime_gt0 //.
  by rewrite -{2}(expf_card x) card_Fp.
have ed (x : 'F_q) : x != 0%R -> (x ^+ e = x ^+ d)%R.
  by move=> x0; rewrite {1}(divn_eq e q.-1) exprD mulnC exprM ferm // expr1n mul1r.
case: (boolP [forall x : 'F_q, (x != 0%R) ==> (x ^+ d == 1)%R]) => [/forallP A|].
  have := @max_poly_roots _ ('X^d - 1)%R (rem 0%R (enum 'F_q)).
  rewrite size_rem ?mem_enum // -cardE card_Fp // size_Xn_sub_1 // ltnNge dq /= => C.
  have /C H : ('X^d - 1 != 0 :> {poly 'F_q})%R by rewrite -size_poly_eq0 size_Xn_sub_1.
  suff X : all (root ('X^d - 1)%R) (rem 0%R (enum 'F_q)).
    by have := H X (rem_uniq _ (enum_uniq _)).
  apply/allP => x; rewrite mem_rem_uniq ?enum_uniq // inE => /andP [x0 _].
  by rewrite rootE !hornerE ?hornerXn (eqP (implyP (A x) x0)) subrr.
rewrite negb_forall => /existsP [x]; rewrite negb_imply => /andP [x0 xd].
exists (x : nat); have xE : ((x : nat)%:R = x :> 'F_q)%R by exact: natr_Zp.
have F0 (m : nat) : (m%:R == 0 :> 'F_q)%R = (q %| m).
  by rewrite -(dvdn_charf (char_Fp pq)).
split; first by rewrite prime_coprime // -F0 xE.
move=> E; move/eqP: xd; apply; rewrite -ed //.
by rewrite -{1}xE -natrX -Fp_nat_mod // E Fp_nat_mod.
Qed.

(** no product of two distinct prime powers is a Carmichael number *)
Lemma noncarm_two p a q b : prime p -> prime q -> p != q -> 0 < a -> 0 < b ->
  let n := p ^ a * q ^ b in
  (exists c, coprime (p ^ a) c /\ c ^ n.-1 <> 1 %[mod p ^ a]) \/
  (exists c, coprime (q ^ b) c /\ c ^ n.-1 <> 1 %[mod q ^ b]).
Proof.
move=> pp pq pnq a0 b0 n.
have n0 : 0 < n by rewrite muln_gt0 !expn_gt0 !prime_gt0.
have pn : p %| n by rewrite dvdn_mulr // dvdn_exp.
have qn : q %| n by rewrite dvdn_mull // dvdn_exp.
case: (ltnP 1 a) => a1; first by left; apply: noncarm_square.
case: (ltnP 1 b) => b1; first by right; apply: noncarm_square.
have {a0 a1}aE : a = 1 by apply/eqP; rewrite eqn_leq a1.
have {b0 b1}bE : b = 1 by apply/eqP; rewrite eqn_leq b1.
have key r s : prime r -> prime s -> r < s -> ~~ (s.-1 %| (r * s).-1).
  move=> /prime_gt1 r1 /prime_gt1 s1 rs.
  have -> : r * s = (r * s.-1 + r.-1).+1.
    by rewrite -addnS prednK ?(ltnW r1) // -mulnSr prednK // ltnW.
  rewrite succnK dvdn_addr ?dvdn_mull // gtnNdvd // -ltnS ?prednK // ltnW //.
rewrite /n aE bE !expn1; case: (ltngtP p q) pnq => // [lt|lt] _.
  by right; apply: noncarm_prime => //; apply: key.
by left; apply: noncarm_prime => //; rewrite mulnC; apply: key.
Qed.

(** ** residues as ring elements *)
Lemma eqZn n x y : 1 < n -> (x%:R == y%:R :> 'Z_n)%R = (x == y %[mod n]).
Proof. by move=> n1; rewrite -val_eqE /= !val_Zp_nat. Qed.

Lemma eqZn0 n x : 1 < n -> (x%:R == 0 :> 'Z_n)%R = (n %| x).
Proof. by move=> n1; rewrite -[0%R]/(0%:R)%R eqZn // mod0n. Qed.

Lemma two_neq0 n : 1 < n -> odd n -> (2%:R != 0 :> 'Z_n)%R.
Proof.
move=> n1 on; rewrite eqZn0 //; apply/negP => /dvdn_leq -/(_ isT) n2.
have E : n = 2 by apply/eqP; rewrite eqn_leq n2.
by move: on; rewrite E.
Qed.

(** ** four cosets *)
Definition sep n m x y := (x ^ m != y ^ m %[mod n]) && ~~ (n %| x ^ m + y ^ m).

Definition pm1 n m : {set 'Z_n} := [set x | (x ^+ m == 1)%R || (x ^+ m == -1)%R].

Lemma four_cosets n m (g : seq nat) : 1 < n -> 0 < m -> size g = 4 ->
  all (coprime n) g -> pairwise (sep n m) g -> 4 * #|pm1 n m| <= n.-1.
Proof.
move=> n1 m0 sg cg pg; pose h (i : 'I_4) : 'Z_n := ((nth 0%N g i)%:R)%R.
have hu i : h i \is a GRing.unit.
  by rewrite unitZpE //; apply: (allP cg); rewrite mem_nth ?sg.
have sepR x y : sep n m x y ->
    ((x%:R : 'Z_n) ^+ m != y%:R ^+ m)%R /\ ((x%:R : 'Z_n) ^+ m != - y%:R ^+ m)%R.
  by case/andP => A B; rewrite -addr_eq0 -!natrX -natrD eqZn // eqZn0.
have hs i j : (h i ^+ m == h j ^+ m)%R || (h i ^+ m == - h j ^+ m)%R -> i = j.
  have lt (k l : 'I_4) : k < l -> (h k ^+ m != h l ^+ m)%R /\ (h k ^+ m != - h l ^+ m)%R.
    by move=> kl; apply: sepR; apply: (pairwiseP 0 pg); rewrite ?inE ?sg.
  move=> H; apply: val_inj => /=; case: (ltngtP i j) => // /lt [/negbTE A /negbTE B].
    by move: H; rewrite A B.
  by move: H; rewrite eq_sym A -eqr_oppLR eq_sym B.
pose f (z : 'I_4 * 'Z_n) := (h z.1 * z.2)%R.
have inj : {in setX [set: 'I_4] (pm1 n m) &, injective f}.
  move=> [i x] [j y]; rewrite !inE /= => X Y; rewrite /f /= => E.
  have ij : i = j.
    apply: hs; move/(congr1 (fun z => z ^+ m)%R): E; rewrite !exprMn.
    case/orP: X => /eqP ->; case/orP: Y => /eqP ->; rewrite ?mulr1 ?mulrN1.
    - by move=> ->; rewrite eqxx.
    - by move=> ->; rewrite eqxx orbT.
    - by move=> /eqP; rewrite eqr_oppLR => ->; rewrite orbT.
    - by move=> /oppr_inj ->; rewrite eqxx.
  by move: E; rewrite ij => /(mulrI (hu j)) ->.
rewrite -[4](card_ord 4) -cardsT -cardsX -(card_in_imset inj).
have -> : n.-1 = #|[set~ (0%R : 'Z_n)]| by rewrite cardsC1 card_ord Zp_cast.
apply: subset_leq_card; apply/subsetP => _ /imsetP [[i x] + ->]; rewrite !inE /f /= => X.
apply/eqP => E0; have x0 : x = 0%R by apply: (mulrI (hu i)); rewrite E0 mulr0.
move: X; rewrite x0 expr0n (gtn_eqF m0) mulr0n.
by case/orP => /eqP/esym/eqP; rewrite ?oppr_eq0 oner_eq0.
Qed.

(** ** numbers with prescribed residues *)
Lemma coprime_modl u x y : x = y %[mod u] -> coprime u x = coprime u y.
Proof. by move=> E; rewrite -coprime_modr E coprime_modr. Qed.

Lemma crt2 u v x y : coprime u v ->
  exists g, g = x %[mod u] /\ g = y %[mod v].
Proof.
by move=> uv; exists (chinese u v x y); rewrite chinese_modl // chinese_modr.
Qed.

Lemma crt3 u v w x y z : coprime u v -> coprime u w -> coprime v w ->
  exists g, [/\ g = x %[mod u], g = y %[mod v] & g = z %[mod w]].
Proof.
move=> uv uw vw; have [t [t1 t2]] := crt2 y z vw.
have c : coprime u (v * w) by rewrite coprimeMr uv.
have [g [g1 g2]] := crt2 x t c; exists g; split=> //.
  by rewrite -t1 -(@modn_dvdm (v * w) g) ?dvdn_mulr // g2 modn_dvdm // dvdn_mulr.
by rewrite -t2 -(@modn_dvdm (v * w) g) ?dvdn_mull // g2 modn_dvdm // dvdn_mull.
Qed.

Lemma sepI n m u v x y : u %| n -> v %| n ->
  x ^ m <> y ^ m %[mod u] -> ~~ (v %| x ^ m + y ^ m) -> sep n m x y.
Proof.
move=> un vn A B; apply/andP; split.
  by apply/eqP => E; apply: A; rewrite -(modn_dvdm _ un) E modn_dvdm.
by apply: contra B; apply: dvdn_trans.
Qed.

Lemma powE u m x y : x = y %[mod u] -> x ^ m = y ^ m %[mod u].
Proof. by move=> E; rewrite -modnXm E modnXm. Qed.

(* one and minus one *)
Lemma neq1N u m a x y : 1 < u -> odd u -> u %| (a ^ m).+1 ->
  x = a %[mod u] -> y = 1 %[mod u] -> x ^ m <> y ^ m %[mod u].
Proof.
move=> u1 ou D xa y1 E.
have {}E : a ^ m = 1 %[mod u] by rewrite -(powE m xa) E (powE m y1) exp1n.
have : u %| 2 by rewrite /dvdn -[2]/(1 + 1) -modnDml -E modnDml addn1.
by rewrite -eqZn0 // (negbTE (two_neq0 u1 ou)).
Qed.

Lemma nsum u m x y : 1 < u -> odd u -> x = 1 %[mod u] -> y = 1 %[mod u] ->
  ~~ (u %| x ^ m + y ^ m).
Proof.
move=> u1 ou xe ye; rewrite /dvdn -modnDm (powE m xe) (powE m ye) !exp1n modnDm.
by rewrite -/(dvdn u 2) -eqZn0 // two_neq0.
Qed.

Lemma coprime_unit u a m : 0 < m -> u %| (a ^ m).+1 -> coprime u a.
Proof.
move=> m0 D; rewrite -(coprime_pexpr _ _ m0).
by apply: (coprime_dvdl D); apply: coprimeSn.
Qed.

Lemma caseA u v w m a : 1 < u -> 1 < v -> 1 < w ->
  coprime u v -> coprime u w -> coprime v w -> odd (u * v * w) -> 0 < m ->
  u * v * w %| (a ^ m).+1 -> 4 * #|pm1 (u * v * w) m| <= (u * v * w).-1.
Proof.
move=> u1 v1 w1 uv uw vw; rewrite !oddM => /andP [/andP [ou ov] ow] m0 D.
have Du : u %| (a ^ m).+1 by apply: dvdn_trans D; rewrite -mulnA dvdn_mulr.
have Dv : v %| (a ^ m).+1 by apply: dvdn_trans D; rewrite mulnAC dvdn_mull.
have Dw : w %| (a ^ m).+1 by apply: dvdn_trans D; rewrite dvdn_mull.
have [x [xu xv xw]] := crt3 a 1 1 uv uw vw.
have [y [yu yv yw]] := crt3 1 a 1 uv uw vw.
have [z [zu zv zw]] := crt3 1 1 a uv uw vw.
have un : u %| u * v * w by rewrite -mulnA dvdn_mulr.
have vn : v %| u * v * w by rewrite mulnAC dvdn_mull.
have wn : w %| u * v * w by rewrite dvdn_mull.
have [cu cv cw] := And3 (coprime_unit m0 Du) (coprime_unit m0 Dv) (coprime_unit m0 Dw).
apply: (@four_cosets _ _ [:: x; y; z; 1]) => //.
- by apply: (leq_trans u1); apply: dvdn_leq; rewrite // !muln_gt0 !(ltnW u1, ltnW v1, ltnW w1).
- rewrite /= !coprimeMl (coprime_modl xu) (coprime_modl xv) (coprime_modl xw).
  rewrite (coprime_modl yu) (coprime_modl yv) (coprime_modl yw).
  by rewrite (coprime_modl zu) (coprime_modl zv) (coprime_modl zw) cu cv cw !coprimen1.
rewrite /= !andbT; apply/and3P; split; [apply/and3P; split|apply/andP; split|].
- exact: (sepI un wn (neq1N u1 ou Du xu yu) (nsum m w1 ow xw yw)).
- exact: (sepI un vn (neq1N u1 ou Du xu zu) (nsum m v1 ov xv zv)).
- exact: (sepI un vn (neq1N u1 ou Du xu (erefl _)) (nsum m v1 ov xv (erefl _))).
- exact: (sepI vn un (neq1N v1 ov Dv yv zv) (nsum m u1 ou yu zu)).
- exact: (sepI vn un (neq1N v1 ov Dv yv (erefl _)) (nsum m u1 ou yu (erefl _))).
- exact: (sepI wn un (neq1N w1 ow Dw zw (erefl _)) (nsum m u1 ou zu (erefl _))).
Qed.

Lemma caseB u v m a c e : 1 < u -> 1 < v -> coprime u v -> odd (u * v) -> 0 < m ->
  u * v %| (a ^ m).+1 -> coprime u c -> m.*2 %| e -> c ^ e <> 1 %[mod u] ->
  4 * #|pm1 (u * v) m| <= (u * v).-1.
Proof.
move=> u1 v1 uv; rewrite !oddM => /andP [ou ov] m0 D cc me ce.
have Du : u %| (a ^ m).+1 by apply: dvdn_trans D; rewrite dvdn_mulr.
have un : u %| u * v by rewrite dvdn_mulr.
have vn : v %| u * v by rewrite dvdn_mull.
have ca := coprime_unit m0 Du.
pose A : 'Z_u := (a%:R)%R; pose C : 'Z_u := (c%:R)%R.
have Am : (A ^+ m = -1)%R.
  by apply/eqP; rewrite -addr_eq0 -natrX -[(1)%R]/(1%:R)%R -natrD addn1 eqZn0.
have C2 : ((C ^+ m) ^+ 2 <> 1)%R.
  move=> E; apply: ce; apply/eqP; rewrite -eqZn // natrX -/C.
  by case/dvdnP: me => k ->; rewrite mulnC -muln2 !exprM E expr1n.
have Cu : (C ^+ m \is a GRing.unit)%R by rewrite unitrX // unitZpE.
have n2 := two_neq0 u1 ou.
have w1 : (C ^+ m != 1)%R by apply/eqP => E; apply: C2; rewrite E expr1n.
have wN : (C ^+ m != -1)%R by apply/eqP => E; apply: C2; rewrite E sqrrN expr1n.
have ww (t : 'Z_u) : (t \is a GRing.unit -> t != - t)%R.
  move=> tu; rewrite -addr_eq0 -mulr2n -mulr_natl; apply: contra n2 => /eqP E.
  by apply/eqP; apply: (mulIr tu); rewrite E mul0r.
have [x [xu xv]] := crt2 a 1 uv.
have [y [yu yv]] := crt2 c 1 uv.
have [z [zu zv]] := crt2 (c * a) 1 uv.
have ne s t S T : s = S %[mod u] -> t = T %[mod u] ->
    ((S%:R : 'Z_u) ^+ m != T%:R ^+ m)%R -> s ^ m <> t ^ m %[mod u].
  move=> sS tT; rewrite -!natrX eqZn // => /eqP H E.
  by apply: H; rewrite -(powE m sS) E (powE m tT).
have one : ((1%:R : 'Z_u) ^+ m = 1)%R by rewrite expr1n.
have CA : (((c * a)%:R : 'Z_u) ^+ m = - C ^+ m)%R by rewrite natrM exprMn -/A Am mulrN1.
apply: (@four_cosets _ _ [:: x; y; z; 1]) => //.
- by apply: (leq_trans u1); apply: dvdn_leq; rewrite // !muln_gt0 !(ltnW u1, ltnW v1).
- rewrite /= !coprimeMl (coprime_modl xu) (coprime_modl xv).
  rewrite (coprime_modl yu) (coprime_modl yv).
  by rewrite (coprime_modl zu) (coprime_modl zv) coprimeMr ca cc !coprimen1.
rewrite /= !andbT; apply/and3P; split; [apply/and3P; split|apply/andP; split|].
- apply: (sepI un vn (ne _ _ _ _ xu yu _) (nsum m v1 ov xv yv)).
  by rewrite -/A -/C Am eq_sym.
- apply: (sepI un vn (ne _ _ _ _ xu zu _) (nsum m v1 ov xv zv)).
  by rewrite -/A CA Am eqr_opp eq_sym.
- apply: (sepI un vn (ne _ _ _ _ xu (erefl (1 %% u)) _) (nsum m v1 ov xv (erefl _))).
  by rewrite -/A Am one eq_sym ww // unitr1.
- apply: (sepI un vn (ne _ _ _ _ yu zu _) (nsum m v1 ov yv zv)).
  by rewrite -/C CA ww.
- apply: (sepI un vn (ne _ _ _ _ yu (erefl (1 %% u)) _) (nsum m v1 ov yv (erefl _))).
  by rewrite -/C one.
- apply: (sepI un vn (ne _ _ _ _ zu (erefl (1 %% u)) _) (nsum m v1 ov zv (erefl _))).
  by rewrite CA one eqr_oppLR.
Qed.

(** ** strong liars *)
Definition strong n s r a := (a ^ r == 1 %[mod n]) || [exists i : 'I_s, n %| (a ^ (2 ^ i * r)).+1].

Lemma sq_one n x i : 1 < n -> n %| x.+1 -> 0 < i -> x ^ (2 ^ i) = 1 %[mod n].
Proof.
move=> n1 D i0; apply/eqP; rewrite -eqZn // natrX.
have -> : (x%:R = -1 :> 'Z_n)%R.
  by apply/eqP; rewrite -addr_eq0 -[(1)%R]/(1%:R)%R -natrD addn1 eqZn0.
by rewrite -(prednK i0) expnS exprM sqrrN !expr1n.
Qed.

Lemma strong_fermat n s r a : 1 < n -> strong n s r a -> a ^ (2 ^ s * r) = 1 %[mod n].
Proof.
move=> n1 /orP [/eqP E|/existsP [i D]].
  by rewrite mulnC expnM -modnXm E modnXm exp1n.
have is_ : 0 < s - i by rewrite subn_gt0.
rewrite -{1}(subnK (ltnW (ltn_ord i))) addnC expnD mulnAC expnM.
exact: (sq_one n1 D is_).
Qed.

Lemma fermat_self n a : 0 < n -> a ^ n.-1 = 1 %[mod n] -> a ^ n = a %[mod n].
Proof.
move=> n0 h; have -> : a ^ n = a * a ^ n.-1 by rewrite -expnS prednK.
by rewrite -modnMmr h modnMmr muln1.
Qed.

Lemma prime_power_inj p k n x y : 0 < k -> n = p ^ k -> x < n -> y < n ->
  x ^ n.-1 = 1 %[mod n] -> y ^ n.-1 = 1 %[mod n] -> x = y %[mod p] -> x = y.
Proof.
move=> k0 nk xn yn X Y /(lift_pow k.-1); rewrite prednK // -nk => L.
have n0 : 0 < n by apply: leq_ltn_trans xn.
have nE : n = p ^ k.-1 * p by rewrite -expnSr prednK.
have : x ^ n = y ^ n %[mod n].
  have -> : x ^ n = (x ^ (p ^ k.-1)) ^ p by rewrite -expnM -nE.
  have -> : y ^ n = (y ^ (p ^ k.-1)) ^ p by rewrite -expnM -nE.
  exact: powE.
by rewrite (fermat_self n0 X) (fermat_self n0 Y) !modn_small.
Qed.

Lemma card_prime_power p k n (A : {set 'I_n}) : prime p -> 0 < k -> n = p ^ k ->
  (forall x : 'I_n, x \in A -> x ^ n.-1 = 1 %[mod n]) -> #|A| <= p.-1.
Proof.
move=> pp k0 nk H; have p0 := prime_gt0 pp.
have n1 : 1 < n by rewrite nk -(exp1n k) ltn_exp2r // prime_gt1.
pose f (x : 'I_n) := Ordinal (ltn_pmod x p0).
have inj : {in A &, injective f}.
  move=> x y /H X /H Y /(congr1 val) /= xy; apply: val_inj => /=.
  exact: (prime_power_inj k0 nk).
rewrite -(card_in_imset inj) -[X in X.-1](card_ord p) -(cardsC1 (Ordinal p0)).
apply: subset_leq_card; apply/subsetP => _ /imsetP [x xA ->]; rewrite !inE.
apply/eqP => /(congr1 val) /= xp.
have D : p %| x ^ n.-1 by apply: dvdn_exp; [rewrite -ltnS prednK // ltnW|rewrite /dvdn xp].
have pn : p %| n by rewrite nk dvdn_exp.
have : p %| 1 by rewrite /dvdn -(modn_dvdm 1 pn) -(H _ xA) modn_dvdm.
by rewrite dvdn1 => /eqP p1; move: pp; rewrite p1.
Qed.

(* every strong liar has one common power that is one or minus one *)
Lemma common_power n s r : 1 < n -> 0 < s -> odd r -> n.-1 = 2 ^ s * r ->
  exists m a, [/\ 0 < m, m.*2 %| n.-1, n %| (a ^ m).+1 &
    forall x : nat, strong n s r x -> ((x%:R : 'Z_n) ^+ m == 1)%R || ((x%:R : 'Z_n) ^+ m == -1)%R].
Proof.
move=> n1 s0 orr nE; have n0 := ltnW n1.
have eqN (x : nat) : (x%:R == -1 :> 'Z_n)%R = (n %| x.+1).
  by rewrite -addr_eq0 -[(1)%R]/(1%:R)%R -natrD addn1 eqZn0.
pose P i := (i < s) && [exists a : 'I_n, n %| (a ^ (2 ^ i * r)).+1].
have P0 : exists i, P i.
  exists 0; rewrite /P s0; apply/existsP.
  have lt : n.-1 < n by rewrite prednK.
  exists (Ordinal lt); rewrite /= expn0 mul1n -eqN natrX.
  have -> : (n.-1%:R = -1 :> 'Z_n)%R by apply/eqP; rewrite eqN prednK.
  by rewrite -signr_odd orr expr1.
have Pb i : P i -> i <= s by case/andP => /ltnW.
have [i /andP [is_ /existsP [a D]] mx] := ex_maxnP P0 Pb.
exists (2 ^ i * r), a; split=> //.
- by rewrite muln_gt0 expn_gt0 /=; case: (r) orr.
- by rewrite nE -muln2 mulnC mulnA -expnS dvdn_mul // dvdn_exp2l.
move=> x /orP [/eqP E|/existsP [j J]].
  apply/orP; left; rewrite mulnC exprM -natrX.
  have -> : ((x ^ r)%:R = 1 :> 'Z_n)%R by apply/eqP; rewrite -[(1)%R]/(1%:R)%R eqZn // E.
  by rewrite expr1n.
have ji : j <= i.
  apply: mx; rewrite /P ltn_ord /=; apply/existsP; exists (Ordinal (ltn_pmod x n0)) => /=.
  by move: J; rewrite -!eqN !natrX Zp_nat_mod.
move: ji; rewrite leq_eqVlt => /orP [/eqP <-|ji].
  by apply/orP; right; rewrite -natrX eqN.
apply/orP; left; have d0 : 0 < i - j by rewrite subn_gt0.
have -> : 2 ^ i * r = (2 ^ j * r) * 2 ^ (i - j).
  by rewrite mulnAC -expnD subnKC // ltnW.
by rewrite -natrX expnM -[(1)%R]/(1%:R)%R eqZn // (sq_one n1 J d0).
Qed.

Lemma strong_pm1 n s r m : 1 < n ->
  (forall x : nat, strong n s r x -> ((x%:R : 'Z_n) ^+ m == 1)%R || ((x%:R : 'Z_n) ^+ m == -1)%R) ->
  #|[set a : 'I_n | strong n s r a]| <= #|pm1 n m|.
Proof.
move=> n1 H; pose f (x : 'I_n) : 'Z_n := ((x : nat)%:R)%R.
have inj : {in [set a : 'I_n | strong n s r a] &, injective f}.
  move=> x y _ _ /eqP; rewrite /f eqZn // !modn_small // => /eqP; exact: val_inj.
rewrite -(card_in_imset inj); apply: subset_leq_card; apply/subsetP => _ /imsetP [x + ->].
by rewrite !inE => /H.
Qed.

Lemma sqr_pred t : (t ^ 2).-1 = t.-1 * t.+1.
Proof. by case: t => // t; rewrite -mulnn mulSn addSn !succnK [in RHS]mulnS. Qed.

Theorem rabin n s r : odd n -> 1 < n -> ~~ prime n -> n.-1 = 2 ^ s * r -> odd r ->
  4 * #|[set a : 'I_n | strong n s r a]| <= n.-1.
Proof.
move=> on n1 npr nE orr; have n0 : 0 < n by apply: ltnW.
have s0 : 0 < s.
  case: (s) nE => // E; move: on; rewrite -(prednK n0) /= E expn0 mul1n.
  by rewrite orr.
set p := pdiv n; have pp : prime p by apply: pdiv_prime.
have pn : p %| n by apply: pdiv_dvd.
have op : odd p by apply: dvdn_odd pn on.
have p3 : 2 < p.
  by rewrite ltn_neqAle prime_gt1 // andbT; apply/eqP => E; move: op; rewrite -E.
set u := n`_p; set w := n`_p^'; have uw : u * w = n by apply: partnC.
have cuw : coprime u w by apply: coprime_partC.
have k0 : 0 < logn p n by rewrite logn_gt0 mem_primes pp n0.
have uE : u = p ^ logn p n by rewrite /u p_part.
have u1 : 1 < u by rewrite uE -(exp1n (logn p n)) ltn_exp2r // ltnW.
have w0 : 0 < w by apply: part_gt0.
have [w1|w1] := eqVneq w 1.
  have nk : n = p ^ logn p n by rewrite -uE -uw w1 muln1.
  have k2 : 1 < logn p n.
    rewrite ltn_neqAle k0 andbT; apply/eqP => E; move: npr.
    by rewrite nk -E expn1 pp.
  have C : #|[set a : 'I_n | strong n s r a]| <= p.-1.
    apply: (card_prime_power pp k0 nk) => x; rewrite inE nE; exact: strong_fermat.
  apply: (leq_trans (leq_mul (leqnn 4) C)).
  have : p ^ 2 <= n by rewrite nk leq_exp2l // ltnW.
  move=> /leq_sub2r -/(_ 1); rewrite !subn1; apply: leq_trans.
  by rewrite sqr_pred mulnC leq_mul2l ltnS p3 orbT.
have [m [a [m0 m2 D H]]] := common_power n1 s0 orr nE.
apply: (leq_trans (leq_mul (leqnn 4) (strong_pm1 n1 H))).
have {}w1 : 1 < w by rewrite ltn_neqAle eq_sym w1.
set q := pdiv w; have qq : prime q by apply: pdiv_prime.
have qw : q %| w by apply: pdiv_dvd.
have pq : p != q.
  apply/eqP => E; have : coprime p q.
    by apply: (coprime_dvdl _ (coprime_dvdr qw cuw)); rewrite uE dvdn_exp.
  by rewrite -E prime_coprime // dvdnn.
set v := w`_q; set z := w`_q^'; have vz : v * z = w by apply: partnC.
have cvz : coprime v z by apply: coprime_partC.
have l0 : 0 < logn q w by rewrite logn_gt0 mem_primes qq w0.
have vE : v = q ^ logn q w by rewrite /v p_part.
have v1 : 1 < v by rewrite vE -(exp1n (logn q w)) ltn_exp2r // prime_gt1.
have z0 : 0 < z by apply: part_gt0.
have [z1|z1] := eqVneq z 1.
  have wv : w = v by rewrite -vz z1 muln1.
  have nuv : n = u * v by rewrite -wv uw.
  have cuv : coprime u v by rewrite -wv.
  have := noncarm_two pp qq pq k0 l0; rewrite /= -uE -vE -nuv.
  move: (n) nuv on m2 D => n' -> on' m2 D [|] [c [cc ce]].
    exact: (caseB u1 v1 cuv on' m0 D cc m2 ce).
  move: on' m2 D ce; rewrite mulnC => on' m2 D ce; rewrite coprime_sym in cuv.
  exact: (caseB v1 u1 cuv on' m0 D cc m2 ce).
have {}z1 : 1 < z by rewrite ltn_neqAle eq_sym z1.
have nuvz : n = u * v * z by rewrite -mulnA vz uw.
move: cuw; rewrite -vz coprimeMr => /andP [cuv cuz].
move: (n) nuvz on D => n' -> on' D.
exact: (caseA u1 v1 z1 cuv cuz cvz on' m0 D).
Qed.
