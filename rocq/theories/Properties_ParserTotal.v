(** Property theorems C119: StrToMulti (starks/multivariate_polynomial.py:206-274) on arbitrary
    strings.  A string is the list of its code points; [cp] gives those of a literal.
    [mconst n c]: the constant polynomial c in n variables; [wf n p]: the keys of p are
    distinct tuples of length n and no coefficient is zero (Properties_Multi.v). *)
From Coq.Strings Require Import Ascii String.
From mathcomp Require Import zify ssrZ.
From Verif Require Import Prelude BaseProofs PolyModel ModpModel ModpField FftProofs MultiModel
  MultiProofs ParserModel ParserProofs ParserTotal.
Set Implicit Arguments.
Unset Strict Implicit.
Unset Printing Implicit Defensive.
Import GRing.Theory.
Local Open Scope ring_scope.
Local Open Scope py_scope.

Local Notation F5 := (modp_finFieldType P5).
Local Notation show p := [seq (kc.1, mval kc.2) | kc <- p].

(** the character at position [i]; 0 behind the end *)
Local Notation "st '@' i" := (nth 0%N st i) (at level 30).
Definition digit (c : nat) : Prop := (48 <= c <= 57)%N.

(** every underscore is followed by a digit *)
Definition subscripts_ok (st : str) : Prop :=
  forall i, (i < size st)%N -> st @ i = 95%N -> digit (st @ i.+1).

(** the largest of these digits *)
Definition largest_subscript (st : str) : nat :=
  \max_(i < size st | st @ i == 95%N) (st @ i.+1 - 48)%N.

Lemma subscriptsE st : subscripts_ok st <-> pairs_ok st.
Proof.
split=> [H|/allP H i Hi E].
  apply/allP => i; rewrite mem_iota add0n => /andP [_ Hi].
  by case: (st @ i =P c_under) => //= E; exact: H.
by have := H i; rewrite mem_iota E eqxx /=; apply.
Qed.

Lemma largestE st : largest_subscript st = max_digit st.
Proof.
rewrite /largest_subscript /max_digit -[X in iota 0 X]subn0 -/(index_iota 0 (size st)) big_mkord.
exact: eq_bigl.
Qed.

(** ** C119 *)
(** StrToMulti always returns or raises ValueError or IndexError; what it returns is a
    polynomial in as many variables as asked for or named by the text *)
Theorem C119_total : forall (F : fieldType) (st : str) s,
  match str_to_multi F st s with
  | Ok p => subscripts_ok st /\ wf (maxn s (largest_subscript st)) p
  | Err e => e = ValueError \/ e = IndexError
  end.
Proof.
move=> F st s; have [A B] := str_to_multi_ie F st s; rewrite largestE.
case E: (str_to_multi F st s) A B => [p|e] A B //; have [P W] := B _ (erefl _).
by split=> //; apply/subscriptsE.
Qed.
Print Assumptions C119_total.

(** the first underscore that is not followed by a digit decides *)
Theorem C119_bad_subscript : forall (F : fieldType) (x y : str) s, subscripts_ok x ->
  (forall c, ohead y = Some c -> ~ digit c) ->
  str_to_multi F (x ++ 95%N :: y) s = Err (if y is [::] then IndexError else ValueError).
Proof.
move=> F x y s /subscriptsE P H; rewrite /str_to_multi max_sym_split //.
by case: y H => // d y H; apply/orP; right; apply/negP => /H; apply.
Qed.
Print Assumptions C119_bad_subscript.

(** digits with single underscores between them: the groups between the underscores are [gs] *)
Definition numeral (gs : seq str) : Prop :=
  gs <> [::] /\ forall g, g \in gs -> g <> [::] /\ forall c, c \in g -> digit c.
(** the number that they write *)
Definition decimal (ds : str) : nat := (\sum_(i < size ds) (rev ds @ i - 48) * 10 ^ i)%N.
Definition blank (w : str) : Prop := forall c, c \in w -> c \in [:: 9; 10; 11; 12; 13; 32]%N.

Definition signed (sign : option bool) : str :=
  if sign is Some b then [:: if b then 45 else 43]%N else [::].

Lemma blankE w : blank w <-> all is_white w.
Proof.
by split=> [H|/allP H c /H]; [apply/allP => c /H|]; rewrite !inE /is_white; lia.
Qed.

Lemma numeralE st : (exists2 gs, numeral gs & st = join [:: 95%N] gs) <-> exists n, grouped st n.
Proof.
split=> [[[|g gs] [N H] ->]|[n [g [gs [-> G Gs _]]]]] //.
  have A x : x \in g :: gs -> group x.
    by move=> /H [/eqP Nx Dx]; rewrite /group Nx; apply/allP => c /Dx.
  exists (number (g ++ flatten gs)), g, gs; split=> //; first by rewrite joinE.
    by apply: A; rewrite mem_head.
  by apply/allP => x Ix; apply: A; rewrite inE Ix orbT.
exists (g :: gs); last by rewrite joinE.
split=> // x; rewrite inE => Ix.
have : group x by case/orP: Ix => [/eqP ->|/(allP Gs)].
by case/andP => /eqP Nx /allP Dx; split=> // c /Dx.
Qed.

(** a text without subscripts, or with subscript 0 only, is accepted when it is a decimal
    numeral with an optional sign between blanks ... *)
Theorem C119_numeral : forall (F : fieldType) s w1 w2 (sign : option bool) gs,
  blank w1 -> blank w2 -> numeral gs ->
  largest_subscript (w1 ++ signed sign ++ join [:: 95%N] gs ++ w2) = 0%N ->
  str_to_multi F (w1 ++ signed sign ++ join [:: 95%N] gs ++ w2) s =
    Ok (mconst s (if sign == Some true then - (decimal (flatten gs))%:R else (decimal (flatten gs))%:R)).
Proof.
move=> F s w1 w2 sign gs /blankE B1 /blankE B2 [N H]; rewrite largestE => L.
case: gs N H L => // g gs _ H L.
have T : int_text (w1 ++ signed sign ++ join [:: 95%N] (g :: gs) ++ w2)
    (if sign == Some true then - Z.of_nat (decimal (flatten (g :: gs))) else Z.of_nat (decimal (flatten (g :: gs))))%Z.
  exists w1, w2, (signed sign), (join [:: 95%N] (g :: gs)), (decimal (flatten (g :: gs))); split=> //; last first.
    by case: sign {L} => [[]|]; [right|left; split; [right|]|left; split; [left|]].
  have A x : x \in g :: gs -> group x.
    by move=> /H [/eqP Nx Dx]; rewrite /group Nx; apply/allP => c /Dx.
  exists g, gs; split=> //; [by rewrite joinE|by apply: A; rewrite mem_head|].
  by apply/allP => x Ix; apply: A; rewrite inE Ix orbT.
have P := int_text_pairs T; move: T => /py_int_spec T.
rewrite /str_to_multi max_sym_good // bind_ok max0n L eqxx maxn0 T bind_ok; congr (Ok (mmk [:: (_, _)])).
case: ifP => _; last by rewrite ring_int_nat.
rewrite /ring_int; case: Z.ltb_spec => K; first by rewrite Z.opp_involutive Nat2Z.id.
have -> : decimal (flatten (g :: gs)) = 0%N by move: K; clear; lia.
by rewrite oppr0.
Qed.
Print Assumptions C119_numeral.

(** ... and raises ValueError otherwise *)
Theorem C119_not_numeral : forall (F : fieldType) (st : str) s,
  subscripts_ok st -> largest_subscript st = 0%N ->
  (forall w1 w2 (sign : option bool) gs, blank w1 -> blank w2 -> numeral gs ->
     st <> w1 ++ signed sign ++ join [:: 95%N] gs ++ w2) ->
  str_to_multi F st s = Err ValueError.
Proof.
move=> F st s /subscriptsE P; rewrite largestE => L H.
rewrite /str_to_multi max_sym_good // bind_ok max0n L eqxx.
have := py_int_err st; case E: (py_int st) => [z|e]; last by move=> ->.
case/py_int_spec: E => w1 [w2 [sgn [t [n [A1 A2 Es G S]]]]] _; exfalso.
have [gs Ng Et] : exists2 gs, numeral gs & t = join [:: 95%N] gs by apply/numeralE; exists n.
rewrite Et in Es; case: S => [[[] Sg _]|[Sg _]]; rewrite Sg in Es.
- by apply: (H w1 w2 None gs) => //; apply/blankE.
- by apply: (H w1 w2 (Some false) gs) => //; apply/blankE.
by apply: (H w1 w2 (Some true) gs) => //; apply/blankE.
Qed.
Print Assumptions C119_not_numeral.

(** a text with subscripts must begin with a digit, "X", "*" or a blank *)
Theorem C119_first_character : forall (F : fieldType) c (st : str) s,
  subscripts_ok (c :: st) -> (0 < largest_subscript (c :: st))%N -> ~ digit c ->
  c \notin [:: 88; 42; 32]%N -> str_to_multi F (c :: st) s = Err ValueError.
Proof.
move=> F c st s /subscriptsE P; rewrite largestE => L D N.
rewrite /str_to_multi max_sym_good // bind_ok max0n ifF; last by case: (max_digit _) L.
have Nd : isdigit c = false by apply/negP.
move: N; rewrite !inE !negb_or => /and3P [N1 N2 N3].
rewrite [size _]/= terms_nonempty // [digits_unsafe _]/= Nd bind_ok; cbv beta iota zeta.
by rewrite [size _]/= factorsS ?[skip_var _]/= (negbTE N1) (negbTE N2) ?(negbTE N3) //= Nd.
Qed.
Print Assumptions C119_first_character.

(** CheckforDiv always returns or raises IndexError; it only leaves characters out *)
Theorem C119_check_for_div : forall st : str,
  match check_for_div st with Ok r => subseq r st = true | Err e => e = IndexError end.
Proof. exact check_for_div_total. Qed.
Print Assumptions C119_check_for_div.

Example C119_example :
  rmap (fun r => show r) (str_to_multi F5 (cp "	-1_07 ") 2) = Ok [:: ([:: 0; 0]%N, 3%Z)] /\
  str_to_multi F5 (cp "1__07") 2 = Err ValueError /\
  str_to_multi F5 (cp "1_") 2 = Err IndexError /\
  str_to_multi F5 (cp "X_a") 2 = Err ValueError /\
  str_to_multi F5 (cp "-X_1 + X_2") 2 = Err ValueError /\
  str_to_multi F5 (cp "1_3 ") 2 = Err ValueError /\
  rmap (fun r => show r) (str_to_multi F5 (cp " X_1 + X_2") 2) =
    Ok [:: ([:: 0; 0]%N, 1); ([:: 0; 1]%N, 1)]%Z /\
  check_for_div (cp "2 in F_3") = Err IndexError /\
  check_for_div (cp "2 in F_{3}") = Ok (cp "2 ") /\
  largest_subscript (cp "3*X_2**2") = 2%N.
Proof. by do 9 (split; first by vm_compute); rewrite largestE !max_digit_cons /max_digit /= big_nil. Qed.
