(** Property theorem C122: what the printed forms of numbers and polynomials determine.

    Vocabulary.  [mval c] is the attribute [n] of an element of IntegersModP(p) (ModpField.v),
    [normal] says that a coefficient list has no trailing zero (C10), [wf n] that a polynomial
    in n variables has distinct monomials and no zero coefficient (C41). *)
From Coq Require Import Lia.
From Coq.Strings Require Import String.
From mathcomp Require Import zify ssrZ.
From Verif Require Import Prelude BaseProofs PolyModel PolyProofs MultiModel MultiProofs ParserModel ParserProofs
  ModpModel ModpField IrredModel FiniteFieldModel RationalModel FftProofs PrintModel.
Set Implicit Arguments.
Unset Strict Implicit.
Unset Printing Implicit Defensive.
Import GRing.Theory.
Local Open Scope ring_scope.
Local Open Scope py_scope.

(** ** Texts that can be read off the start of a string *)
Definition unread (ok : str -> bool) (T : Type) (s : T -> str) (dom : T -> Prop) :=
  forall a b r r', dom a -> dom b -> ok r -> ok r' -> s a ++ r = s b ++ r' -> a = b /\ r = r'.

Lemma dec_unread : unread no_digit dec (fun _ => True).
Proof.
move=> a b r r' _ _ Hr Hr' E; have [Aa Va _] := dec_spec a; have [Ab Vb _] := dec_spec b.
have := digits_safe_cat Aa Hr; rewrite E digits_safe_cat // => -[E1 E2].
by split=> //; rewrite -Va -Vb E1.
Qed.

Lemma dec_digit n : exists c l, dec n = c :: l /\ isdigit c.
Proof. by have [A _ N] := dec_spec n; case: (dec n) A N => // c l /andP [H _] _; exists c, l. Qed.

Lemma zdec_unread : unread no_digit zdec (fun _ => True).
Proof.
move=> a b r r' _ _ Hr Hr'; rewrite /zdec.
case: (Z.ltb_spec a 0) => Ha; case: (Z.ltb_spec b 0) => Hb.
- by rewrite !cat_cons => -[] /(dec_unread I I Hr Hr') [E ->]; split=> //; lia.
- have [c [l [-> D]]] := dec_digit (Z.to_nat b); rewrite !cat_cons => -[Ec _].
  by move: D; rewrite -Ec.
- have [c [l [-> D]]] := dec_digit (Z.to_nat a); rewrite !cat_cons => -[Ec _].
  by move: D; rewrite Ec.
- by move=> /(dec_unread I I Hr Hr') [E ->]; split=> //; lia.
Qed.

Lemma zdec_cut a b c r r' : zdec a ++ c :: r = zdec b ++ c :: r' -> ~~ isdigit c -> a = b /\ r = r'.
Proof. by move=> E H; have := @zdec_unread a b (c :: r) (c :: r') I I H H E => -[-> [->]]. Qed.

Lemma zdec_inj a b : zdec a = zdec b -> a = b.
Proof. by move=> E; have := @zdec_unread a b [::] [::] I I isT isT; rewrite !cats0 => /(_ E) []. Qed.

Lemma catl_inj (u r r' : str) : u ++ r = u ++ r' -> r = r'.
Proof. by elim: u => //= c u IH [/IH]. Qed.

Lemma cut_at (c : nat) (u v r s : str) : c \notin u -> c \notin v -> u ++ c :: r = v ++ c :: s -> u = v /\ r = s.
Proof.
elim: u v => [|a u IH] [|b v] //=; rewrite ?inE ?negb_or.
- by move=> _ _ [->].
- by move=> _ /andP [/negP N _] [E _]; case: N; rewrite E.
- by move=> /andP [/negP N _] _ [E _]; case: N; rewrite E.
- by move=> /andP [_ Nu] /andP [_ Nv] [-> /(IH _ Nu Nv) [-> ->]].
Qed.

(** ** The texts of lists of coefficients *)
Section Prepr.
Variables (ok : str -> bool) (T : Type) (s : T -> str) (dom : T -> Prop).
Hypothesis ok_nil : ok [::].
Hypothesis ok_space : forall r, ok (32%N :: r).
Hypothesis s_unread : unread ok s dom.

(** the text from the coefficient with index [i] on *)
Fixpoint tail_text (i : nat) (cs : seq T) : str :=
  if cs is c :: cs' then
    s c ++ (if i == 0%N then [::] else cp " *x**" ++ dec i) ++
    (if cs' is [::] then [::] else cp " + " ++ tail_text i.+1 cs')
  else [::].

Lemma join_text i cs :
  join (cp " + ") [seq if ia.1 == 0%N then ia.2 else ia.2 ++ cp " *x**" ++ dec ia.1 |
    ia <- zip (iota i (size cs)) (map s cs)] = tail_text i cs.
Proof.
elim: cs i => // c [|c' cs'] IH i; first by rewrite /=; case: ifP => _; rewrite ?cats0 // -?catA ?cats0.
move: (IH i.+1); set l := [seq _ | ia <- zip (iota i.+1 _) _] => {}IH.
rewrite [size _]/= [iota _ _]/= [map s _]/= [zip _ _]/= map_cons -/l.
have -> : forall x, join (cp " + ") (x :: l) = x ++ cp " + " ++ join (cp " + ") l by [].
rewrite IH [in RHS]/tail_text -/tail_text [(_, _).1]/= [(_, _).2]/=.
by case: ifP => _; rewrite -?catA.
Qed.

Lemma repr_text cs : prepr (map s cs) = if cs is [::] then cp "0" else tail_text 0 cs.
Proof. by case: cs => // c cs; rewrite -(join_text 0 (c :: cs)) /prepr -[in RHS](size_map s). Qed.

Definition indexed (i : nat) (r : str) := (if i == 0%N then [::] else cp " *x**" ++ dec i) ++ r.

Lemma tail_rest_ok i (cs : seq T) : ok (indexed i (if cs is [::] then [::] else cp " + " ++ tail_text i.+1 cs)).
Proof. by rewrite /indexed; case: (i == 0%N); case: cs => [|c cs]; rewrite /= ?ok_nil ?ok_space. Qed.

Lemma indexed_inj i r r' : indexed i r = indexed i r' -> r = r'.
Proof. exact: catl_inj. Qed.

Lemma tail_inj i cs ds : cs <> [::] -> ds <> [::] -> (forall c, List.In c cs -> dom c) -> (forall c, List.In c ds -> dom c) ->
  tail_text i cs = tail_text i ds -> cs = ds.
Proof.
elim: cs i ds => // c cs IH i [//|d ds] _ _ Dc Dd.
move=> /(s_unread (Dc c (or_introl erefl)) (Dd d (or_introl erefl)) (tail_rest_ok i cs) (tail_rest_ok i ds)) [-> /indexed_inj].
have D1 x : List.In x cs -> dom x by move=> H; apply: Dc; right.
have D2 x : List.In x ds -> dom x by move=> H; apply: Dd; right.
case: cs ds IH D1 D2 {Dc Dd} => [|c' cs] [|d' ds] // IH D1 D2 /catl_inj E.
by rewrite (IH i.+1 (d' :: ds)).
Qed.
End Prepr.

Lemma no_digit_space r : no_digit (32%N :: r). Proof. by []. Qed.

Lemma str_unread : unread no_digit modp_str (fun _ => True). Proof. exact: zdec_unread. Qed.

Definition plain (cs : seq Z) : Prop := cs = [::] \/ last 0%Z cs <> 0%Z.

Lemma single_text c : tail_text modp_str 0 [:: c] = modp_str c.
Proof. by rewrite /= cats0. Qed.

Lemma text_zero cs : plain cs -> cs <> [::] -> tail_text modp_str 0 cs <> cp "0".
Proof.
case=> // L N E; have E0 : tail_text modp_str 0 cs = tail_text modp_str 0 [:: 0%Z] by rewrite E.
by move: L; rewrite (tail_inj (ok := no_digit) isT no_digit_space str_unread _ _ _ _ E0).
Qed.

Lemma zp_inj cs ds : plain cs -> plain ds -> zp_poly_repr cs = zp_poly_repr ds -> cs = ds.
Proof.
move=> Pc Pd; rewrite /zp_poly_repr !repr_text.
case: cs Pc => [|c cs] Pc; case: ds Pd => [|d ds] Pd //.
- by move=> E; case: (text_zero Pd _ (esym E)).
- by move=> E; case: (text_zero Pc _ E).
- exact: (tail_inj (ok := no_digit) isT no_digit_space str_unread).
Qed.

Lemma dec_notin c n : ~~ isdigit c -> c \notin dec n.
Proof. by move=> N; have [/allP A _ _] := dec_spec n; apply/negP => /A; exact/negP. Qed.

Lemma zdec_notin c z : ~~ isdigit c -> c != c_minus -> c \notin zdec z.
Proof.
move=> N M; rewrite /zdec; case: ifP => _; last exact: dec_notin.
by rewrite inE negb_or M dec_notin.
Qed.

Lemma text_notin i cs : c_in \notin tail_text modp_str i cs.
Proof.
elim: cs i => // c cs IH i.
have -> : tail_text modp_str i (c :: cs) = zdec c ++ (if i == 0%N then [::] else cp " *x**" ++ dec i) ++
  (if cs is [::] then [::] else cp " + " ++ tail_text modp_str i.+1 cs) by [].
have N1 : c_in \notin (if i == 0%N then [::] else cp " *x**" ++ dec i).
  by case: (i == 0%N) => //; rewrite mem_cat negb_or dec_notin.
have N2 : c_in \notin (if cs is [::] then [::] else cp " + " ++ tail_text modp_str i.+1 cs).
  by case: cs IH {N1} => // c' cs IH; rewrite mem_cat negb_or IH.
by rewrite mem_cat negb_or zdec_notin // mem_cat negb_or N1 N2.
Qed.

Lemma repr_notin cs : c_in \notin zp_poly_repr cs ++ [:: c_space].
Proof. by rewrite mem_cat negb_or /zp_poly_repr repr_text; case: cs => // c cs; rewrite text_notin. Qed.

Lemma fq_unread p m : unread predT (fq_repr p m) plain.
Proof.
move=> x y r r' Px Py _ _; rewrite /fq_repr.
have sh u w : (u ++ [:: c_space; c_in; c_space] ++ fq_name p m) ++ w = (u ++ [:: c_space]) ++ c_in :: c_space :: fq_name p m ++ w.
  by rewrite -!catA.
rewrite !sh => /(cut_at (repr_notin x) (repr_notin y)) [E [/catl_inj E2]]; split=> //.
apply: zp_inj => //; move: E; rewrite !cats1 => /rcons_inj []; exact.
Qed.

Lemma plainP (P : primeZ) (h : seq (modp_fieldType P)) : normal h -> plain (map (@mval P) h).
Proof.
rewrite /normal /plain; case: (lastP h) => [|h' x]; first by left.
rewrite last_rcons map_rcons last_rcons => /eqP N; right=> E0; apply: N.
by apply: val_inj; rewrite /= E0.
Qed.

Lemma mval_inj (P : primeZ) : injective (@mval P). Proof. exact: val_inj. Qed.

(** ** Multivariate polynomials *)
Section Mrepr.
Variable F : fieldType.
Variables (ok : str -> bool) (s : F -> str).
Hypothesis ok_nil : ok [::].
Hypothesis ok_space : forall r, ok (32%N :: r).
Hypothesis s_unread : unread ok s (fun x => x <> 0).

Fixpoint pow_text (i : nat) (k : key) : str :=
  if k is e :: k' then cp "*X_" ++ dec i.+1 ++ cp "**" ++ dec e ++ pow_text i.+1 k' else [::].

Lemma pow_textE i k :
  flatten [seq cp "*X_" ++ dec ip.1.+1 ++ cp "**" ++ dec ip.2 | ip <- zip (iota i (size k)) k] = pow_text i k.
Proof. by elim: k i => // e k IH i /=; rewrite IH -!catA. Qed.

Lemma pow_no_digit i k r : no_digit r -> no_digit (pow_text i k ++ r).
Proof. by case: k. Qed.

Lemma pow_inj i k k' r r' : size k = size k' -> no_digit r -> no_digit r' ->
  pow_text i k ++ r = pow_text i k' ++ r' -> k = k' /\ r = r'.
Proof.
have cons j f l t : pow_text j (f :: l) ++ t = cp "*X_" ++ dec j.+1 ++ cp "**" ++ dec f ++ (pow_text j.+1 l ++ t).
  have -> : pow_text j (f :: l) = cp "*X_" ++ dec j.+1 ++ cp "**" ++ dec f ++ pow_text j.+1 l by [].
  by move: (cp _) (cp "**") => u w; rewrite -!catA.
move=> S Hr Hr'; elim: k i k' S => [|e k IH] i [|e' k'] // [S].
rewrite !cons => /catl_inj /catl_inj /catl_inj.
by move=> /(dec_unread I I (pow_no_digit i.+1 k Hr) (pow_no_digit i.+1 k' Hr')) [-> /(IH i.+1 k' S) [-> ->]].
Qed.

Fixpoint mtail (n : nat) (a : mpoly F) : str :=
  if a is (k, c) :: a' then
    s c ++ (if k != nseq n 0%N then cp " " ++ pow_text 0 k else [::]) ++
    (if a' is [::] then [::] else cp " + " ++ mtail n a')
  else [::].

Lemma mjoin n (a : mpoly F) : join (cp " + ")
  [seq if kc.1 != nseq n 0%N then s kc.2 ++ cp " " ++ power_tuple_to_string kc.1 else s kc.2 | kc <- a] = mtail n a.
Proof.
elim: a => // -[k c] [|kc' a] IH.
  by rewrite /= cats0 /power_tuple_to_string pow_textE; case: ifP; rewrite ?cats0.
move: IH; set l := [seq _ | kc <- kc' :: a] => IH; rewrite map_cons -/l.
have -> : forall x, join (cp " + ") (x :: l) = x ++ cp " + " ++ join (cp " + ") l by [].
rewrite IH /power_tuple_to_string pow_textE [in RHS]/mtail -/mtail.
by case: ifP => _; rewrite -?catA.
Qed.

Lemma mreprE n (a : mpoly F) : mrepr s n a = if mis_zero a then cp "0" else mtail n a.
Proof. by rewrite /mrepr mjoin. Qed.

Lemma mtail_rest n k (a : mpoly F) : size k = n ->
  ok ((if k != nseq n 0%N then cp " " ++ pow_text 0 k else [::]) ++ (if a is [::] then [::] else cp " + " ++ mtail n a)).
Proof. by case: ifP => _; case: a => [|x a]; rewrite /= ?ok_nil ?ok_space. Qed.

Lemma mtail_inj n (a b : mpoly F) : a <> [::] -> b <> [::] ->
  all (fun kc => (size kc.1 == n) && (kc.2 != 0)) a -> all (fun kc => (size kc.1 == n) && (kc.2 != 0)) b ->
  mtail n a = mtail n b -> a = b.
Proof.
elim: a b => // -[k c] a IH [//|[k' c'] b] _ _ /= /andP [/andP [/eqP S /eqP C] A] /andP [/andP [/eqP S' /eqP C'] B].
move=> /(s_unread C C' (mtail_rest a S) (mtail_rest b S')) [->].
have R (x : mpoly F) : no_digit (if x is [::] then [::] else cp " + " ++ mtail n x) by case: x.
case: (k =P nseq n 0%N) => [->|Nk]; case: (k' =P nseq n 0%N) => [->|Nk'].
- case: a b IH A B {R} => [|x a] [|y b] // IH A B /catl_inj /catl_inj E.
  by rewrite (IH (y :: b)).
- case: k' Nk' S' => [|e k'] Nk' S'; first by case: Nk'; rewrite -S'.
  by case: a {R IH A} => [|x a] //= [].
- case: k Nk S => [|e k] Nk S; first by case: Nk; rewrite -S.
  by case: b {R B IH} => [|x b] //= [].
- rewrite /= => -[] /(pow_inj (etrans S (esym S')) (R a) (R b)) [-> E]; congr (_ :: _).
  case: a b IH A B R E => [|x a] [|y b] // IH A B _ /catl_inj E.
  by rewrite (IH (y :: b)).
Qed.
End Mrepr.

(** ** Theorems *)

(** The text of a polynomial over IntegersModP(p) determines the polynomial. *)
Theorem C122_polynomial : forall (P : primeZ) (f g : seq (modp_fieldType P)),
  normal f -> normal g ->
  zp_poly_repr (map (@mval P) f) = zp_poly_repr (map (@mval P) g) -> f = g.
Proof.
move=> P f g Nf Ng E.
exact: (inj_map (@mval_inj P)) (zp_inj (plainP Nf) (plainP Ng) E).
Qed.
Print Assumptions C122_polynomial.

(** The text of an element of FiniteField(p, m) determines p, m and the coefficients. *)
Theorem C122_field_element : forall (P : primeZ) (x y : seq (modp_fieldType P)) (p p' m m' : Z),
  normal x -> normal y ->
  fq_repr p m (map (@mval P) x) = fq_repr p' m' (map (@mval P) y) -> x = y /\ p = p' /\ m = m'.
Proof.
move=> P x y p p' m m' Nx Ny; rewrite /fq_repr.
have sh u w : u ++ [:: c_space; c_in; c_space] ++ w = (u ++ [:: c_space]) ++ c_in :: c_space :: w by rewrite -!catA.
rewrite !sh => /(cut_at (repr_notin _) (repr_notin _)) [E [E2]]; split; last first.
  by move: E2 => /zdec_cut /(_ isT) [-> /zdec_cut /(_ isT) [-> _]].
apply: (inj_map (@mval_inj P)); apply: zp_inj (plainP Nx) (plainP Ny) _.
by move: E; rewrite !cats1 => /rcons_inj [].
Qed.
Print Assumptions C122_field_element.

(** The text of a polynomial over FiniteField(p, m) determines the polynomial, although the
    texts of its coefficients contain plus signs themselves. *)
Theorem C122_polynomial_over_extension : forall (P : primeZ) (p m : Z) (f g : seq (seq (modp_fieldType P))),
  all (@normal _) f -> all (@normal _) g ->
  fq_poly_repr p m (map (map (@mval P)) f) = fq_poly_repr p m (map (map (@mval P)) g) -> f = g.
Proof.
move=> P p m f g Nf Ng E; apply: (inj_map (inj_map (@mval_inj P))).
have D (h : seq (seq (modp_fieldType P))) : all (@normal _) h -> forall c, List.In c (map (map (@mval P)) h) -> plain c.
  by elim: h => //= c h IH /andP [N /IH {}IH] x [<-|/IH //]; exact: plainP.
move: E; rewrite /fq_poly_repr !repr_text.
have Z (h : seq (seq (modp_fieldType P))) : h <> [::] -> tail_text (fq_repr p m) 0 (map (map (@mval P)) h) <> cp "0".
  case: h => // c h _ E.
  have : c_in \in cp "0" by rewrite -E /= /fq_repr !mem_cat; apply/orP; left; apply/orP; right; apply/orP; left; rewrite !inE eqxx orbT.
  by [].
case: f Nf => [|c f] Nf; case: g Ng => [|d g] Ng //.
- by move=> E; case: (Z (d :: g)).
- by move=> E; case: (Z (c :: f)).
- exact: (tail_inj (ok := predT) isT (fun _ => isT) (@fq_unread p m) _ _ (D _ Nf) (D _ Ng)).
Qed.
Print Assumptions C122_polynomial_over_extension.

(** The text of a multivariate polynomial over IntegersModP(p) determines its entries and
    their order. *)
Theorem C122_multivariate : forall (P : primeZ) (n : nat) (a b : mpoly (modp_fieldType P)),
  wf n a -> wf n b ->
  mrepr (fun c => modp_str (mval c)) n a = mrepr (fun c => modp_str (mval c)) n b -> a = b.
Proof.
move=> P n a b /andP [_ Wa] /andP [_ Wb]; rewrite !mreprE.
set s := fun c : modp_fieldType P => modp_str (mval c).
have U : unread no_digit s (fun x => x <> 0).
  by move=> x y r r' _ _ Hr Hr' /(zdec_unread I I Hr Hr') [/mval_inj -> ->].
have Z (h : mpoly (modp_fieldType P)) : h <> [::] -> all (fun kc => (size kc.1 == n) && (kc.2 != 0)) h ->
    mtail s n h <> cp "0".
  case: h => // -[k c] h _ /= /andP [/andP [/eqP S /eqP C] _] E.
  have := @zdec_unread (mval c) 0 _ [::] I I (mtail_rest s (ok := no_digit) isT no_digit_space h S) isT.
  by rewrite cats0 => /(_ E) [C0 _]; apply: C; apply: val_inj; rewrite /= C0.
rewrite /mis_zero.
case: a Wa => [|x a] Wa; case: b Wb => [|y b] Wb //.
- by move=> E; case: (Z (y :: b)).
- by move=> E; case: (Z (x :: a)).
- exact: (mtail_inj (ok := no_digit) isT no_digit_space U).
Qed.
Print Assumptions C122_multivariate.

(** [repr] of an element of IntegersModP(p) determines the element and p; so do the
    numerator, denominator and modulus of a rational. *)
Theorem C122_numbers :
  (forall p n p' n' : Z, modp_repr p n = modp_repr p' n' -> n = n' /\ p = p') /\
  (forall n n' : Z, modp_str n = modp_str n' -> n = n') /\
  (forall x y : Z * Z, rat_str x = rat_str y -> x = y) /\
  (forall (p p' : Z) (x y : Z * Z), rat_repr p x = rat_repr p' y -> x = y /\ p = p').
Proof.
split; [|split; [|split]].
- by move=> p n p' n' /zdec_cut /(_ isT) [-> [/zdec_cut /(_ isT) [->]]].
- exact: zdec_inj.
- by move=> [m n] [m' n'] /zdec_cut /(_ isT) [/= -> /zdec_inj ->].
- by move=> p p' [m n] [m' n'] /zdec_cut /(_ isT) [/= -> /zdec_cut /(_ isT) [-> [/zdec_cut /(_ isT) [->]]]].
Qed.
Print Assumptions C122_numbers.

(** [int] of a text that starts with a number followed by a blank and more *)
Lemma int_body_blank ds n r : all isdigit ds -> int_body n (ds ++ 32%N :: r) = Err ValueError.
Proof. by elim: ds n => [|c ds IH] n //= /andP [-> /IH ->]. Qed.

Lemma lstrip_head c r : ~~ is_white c -> lstrip (c :: r) = c :: r.
Proof. by move=> /negbTE /= ->. Qed.

Lemma strip_ends c r d : ~~ is_white c -> ~~ is_white d -> strip (c :: rcons r d) = c :: rcons r d.
Proof. by move=> C D; rewrite /strip lstrip_head // -rcons_cons rev_rcons lstrip_head // rev_cons revK. Qed.

Lemma digit_not_white c : isdigit c -> ~~ is_white c.
Proof. by rewrite /isdigit /is_white; lia. Qed.

(** IntegersModP(p)(str(x)) is x; IntegersModP(p)(repr(x)) raises TypeError. *)
Theorem C122_round_trip : forall p n : Z, (0 <= n < p)%Z ->
  modp_of_str p (modp_str n) = Ok n /\ modp_of_str p (modp_repr p n) = Err TypeError.
Proof.
move=> p n [H0 Hp]; have P0 : (p =? 0)%Z = false by apply/Z.eqb_neq; lia.
have Zn : zdec n = dec (Z.to_nat n) by rewrite /zdec; case: (Z.ltb_spec n 0) => //; lia.
rewrite /modp_of_str /modp_str /modp_repr Zn; split.
  by rewrite py_int_dec P0 /modp_mk Z2Nat.id // Z.mod_small.
have [A _ N] := dec_spec (Z.to_nat n).
case: (dec (Z.to_nat n)) A N => // c ds /= /andP [C A] _.
have -> : c :: ds ++ cp " (mod " ++ zdec p ++ cp ")" = c :: rcons (ds ++ cp " (mod " ++ zdec p) 41%N.
  by rewrite -cats1 -!catA.
rewrite /py_int.
rewrite (strip_ends _ (digit_not_white C)) //.
rewrite ifF; last by move: C; rewrite /isdigit /c_minus; lia.
rewrite ifF; last by move: C; rewrite /isdigit /c_plus; lia.
by rewrite /int_unsigned C -cats1 -catA int_body_blank.
Qed.
Print Assumptions C122_round_trip.

(** Refutation of: equal rationals print the same. *)
Theorem C122_equal_rationals_refuted :
  ~ (forall (p a b c d : Z) (x y : rat), rat_mk p a b = Ok x -> rat_mk p c d = Ok y ->
     rat_eq p x y = true -> rat_str x = rat_str y).
Proof. by move=> /(_ 3 1 2 2 1 (1, 2) (2, 1) (erefl _) (erefl _) (erefl _))%Z. Qed.
Print Assumptions C122_equal_rationals_refuted.

Local Notation F5 := (modp_finFieldType P5).
Definition X1 : mpoly F5 := [:: ([:: 1; 0]%N, in_modp P5 1)].
Definition X2 : mpoly F5 := [:: ([:: 0; 1]%N, in_modp P5 1)].

(** Refutation of: equal multivariate polynomials print the same. *)
Theorem C122_equal_multivariate_refuted :
  ~ (forall (P : primeZ) (n : nat) (a b : mpoly (modp_fieldType P)), wf n a -> wf n b -> meq a b = true ->
     mrepr (fun c => modp_str (mval c)) n a = mrepr (fun c => modp_str (mval c)) n b).
Proof.
move=> /(_ P5 2%N (madd X1 X2) (madd X2 X1)) H.
have W1 : wf 2 (madd X1 X2) by vm_compute.
have W2 : wf 2 (madd X2 X1) by vm_compute.
have E : meq (madd X1 X2) (madd X2 X1) = true by vm_compute.
by move: (H W1 W2 E); vm_compute.
Qed.
Print Assumptions C122_equal_multivariate_refuted.

Local Notation F2 := (modp_finFieldType P2).
Local Notation el l := [seq in_modp P2 c | c <- l : seq Z].

(** Refutation of: elements with the same text have squares with the same text.  The text does
    not show the modulus: X*X^2 in GF(2^3) for x^3 + x + 1 and for x^3 + x^2 + 1. *)
Theorem C122_same_text_same_product_refuted :
  ~ (forall (g g' : seq F2) (m : Z) (x x' y y' z z' : seq F2),
       is_irreducible g 2 = Ok true -> is_irreducible g' 2 = Ok true -> pdegree g = m -> pdegree g' = m ->
       fq_repr 2 m (map (@mval P2) x) = fq_repr 2 m (map (@mval P2) x') ->
       fq_repr 2 m (map (@mval P2) y) = fq_repr 2 m (map (@mval P2) y') ->
       fq_mul g x y = Ok z -> fq_mul g' x' y' = Ok z' ->
       fq_repr 2 m (map (@mval P2) z) = fq_repr 2 m (map (@mval P2) z')).
Proof.
move=> H; have := H (el [:: 1; 1; 0; 1]%Z) (el [:: 1; 0; 1; 1]%Z) 3%Z (el [:: 0; 1]%Z) (el [:: 0; 1]%Z)
  (el [:: 0; 0; 1]%Z) (el [:: 0; 0; 1]%Z).
case E1: (fq_mul (el [:: 1; 1; 0; 1]%Z) _ _) => [z|e]; last by move: E1; vm_compute.
case E2: (fq_mul (el [:: 1; 0; 1; 1]%Z) _ _) => [z'|e]; last by move: E2; vm_compute.
have I1 : is_irreducible (el [:: 1; 1; 0; 1]%Z) 2 = Ok true by vm_compute.
have I2 : is_irreducible (el [:: 1; 0; 1; 1]%Z) 2 = Ok true by vm_compute.
have V1 : map (@mval P2) z = [:: 1; 1]%Z.
  have : rmap (map (@mval P2)) (fq_mul (el [:: 1; 1; 0; 1]%Z) (el [:: 0; 1]%Z) (el [:: 0; 0; 1]%Z)) = Ok [:: 1; 1]%Z by vm_compute.
  by rewrite E1 => -[].
have V2 : map (@mval P2) z' = [:: 1; 0; 1]%Z.
  have : rmap (map (@mval P2)) (fq_mul (el [:: 1; 0; 1; 1]%Z) (el [:: 0; 1]%Z) (el [:: 0; 0; 1]%Z)) = Ok [:: 1; 0; 1]%Z by vm_compute.
  by rewrite E2 => -[].
move=> /(_ z z' I1 I2 (erefl _) (erefl _) (erefl _) (erefl _) (erefl _) (erefl _)).
by rewrite V1 V2; vm_compute.
Qed.
Print Assumptions C122_same_text_same_product_refuted.

Example C122_example :
  normal (el [:: 1; 0; 1]%Z) /\
  zp_poly_repr [:: 1; 0; 1]%Z = cp "1 + 0 *x**1 + 1 *x**2" /\
  zp_poly_repr [::] = cp "0" /\
  fq_repr 2 3 [:: 1; 1]%Z = cp "1 + 1 *x**1 " ++ [:: 8712%N] ++ cp " F_{2^3}" /\
  fq_poly_repr 2 3 [:: [:: 1; 1]; [:: 0; 1]]%Z =
    (cp "1 + 1 *x**1 " ++ [:: 8712%N] ++ cp " F_{2^3}") ++ cp " + " ++
    (cp "0 + 1 *x**1 " ++ [:: 8712%N] ++ cp " F_{2^3}") ++ cp " *x**1" /\
  wf 2 (madd X1 X2) /\
  mrepr (fun c => modp_str (mval c)) 2 (madd X1 X2) = cp "1 *X_1**1*X_2**0 + 1 *X_1**0*X_2**1" /\
  modp_repr 7 4 = cp "4 (mod 7)" /\ modp_of_str 7 (cp "11") = Ok 4%Z /\ modp_of_str 7 (cp "x") = Err TypeError /\
  rat_repr 3 (1, 2)%Z = cp "1/2 (mod 3)".
Proof. by repeat (split; first by vm_compute). Qed.
