(** Property theorems C97-C101: the string based part of
    starks/multivariate_polynomial.py.

    Vocabulary.  A term is a pair (c, fs) of a number c and a list fs of pairs
    (index, exponent).  [show_term] writes it as sympy does: "c", "X_1*X_2**3" when c = 1,
    "c*X_1*X_2**3" otherwise (ParserProofs.v); [show_more] writes further terms, each after a
    separating character between two blanks.  [cp] gives the code points of a literal, [dec]
    is the decimal notation of a number.  [wf], [meval]: see Properties_Multi.v. *)
From Coq.Strings Require Import Ascii String.
From mathcomp Require Import zify ssrZ.
From Verif Require Import Prelude BaseProofs PolyModel PolyProofs ModpModel ModpField FinFld
  FftProofs FiniteFieldProofs MultiModel MultiProofs ParserModel ParserProofs.
Set Implicit Arguments.
Unset Strict Implicit.
Unset Printing Implicit Defensive.
Import GRing.Theory.
Local Open Scope ring_scope.
Local Open Scope py_scope.

Local Notation F3 := (modp_finFieldType P3).
Local Notation F5 := (modp_finFieldType P5).
Local Notation show p := [seq (kc.1, mval kc.2) | kc <- p].
Local Notation rd3 l := [seq (kc.1, in_modp P3 kc.2) | kc <- l].

(** the text of a sum of terms *)
Definition sum_text (t : term) (us : seq term) : str :=
  show_term t ++ show_more [seq (c_plus, u) | u <- us].

(** the variables of a term are among X_1 .. X_s, each occurs once *)
Definition good_term (s : nat) (t : term) : bool :=
  all (fun f => (1 <= f.1 <= s)%N) t.2 && uniq (map fst t.2).

(** the term ends in a variable to the power 1 *)
Definition ends_plain (t : term) : bool := if rev t.2 is f :: _ then f.2 == 1%N else false.

Lemma ends_plainE t : ends_plain t = final_ok t.
Proof.
rewrite /ends_plain /final_ok /last1; case: (lastP t.2) => // fs f.
by rewrite rev_rcons last_rcons; case: fs.
Qed.

Lemma good_all s (us : seq term) : all (good_term s) us -> all (term_ok s) us.
Proof. by apply: sub_all => t /andP []. Qed.

Lemma snd_plus (us : seq term) : map snd [seq (c_plus, u) | u <- us] = us.
Proof. by rewrite -map_comp map_id. Qed.

Lemma parsed_meaning (F : fieldType) s (us : seq term) : all (good_term s) us ->
  uniq [seq exponents s u.2 | u <- us] ->
  wf s (mmk (foldl (@add_term F (nseq s 0%N)) [::] us)) /\
  forall (R : comRingType) (phi : {rmorphism F -> R}) (v : nat -> R),
    meval phi v (mmk (foldl (@add_term F (nseq s 0%N)) [::] us)) =
    \sum_(u <- us) phi u.1%:R * \prod_(f <- u.2) v f.1.-1 ^+ f.2.
Proof.
move=> G U; split.
  apply: wf_mmk; first exact: foldl_terms_uniq.
  exact: (foldl_terms_size (n := s) _ (size_nseq _ _) (good_all G)).
move=> R phi v; rewrite meval_mmk foldl_terms_meval //.
- rewrite /meval big_nil add0r big_seq [RHS]big_seq; apply: eq_bigr => u Iu.
  by have /andP [H Hu] := allP G _ Iu; rewrite mon_set_all.
- rewrite (_ : [seq set_all _ _ | t <- us] = [seq exponents s u.2 | u <- us]) //.
  by apply/eq_in_map => u Iu; have /andP [H Hu] := allP G _ Iu; exact: set_all_exponents.
by apply/allP.
Qed.

(** ** C97 *)
(** StrToMulti reads sums of terms with distinct monomials ... *)
Theorem C97_sum_of_terms : forall (F : fieldType) s (t : term) (us : seq term),
  all (good_term s) (t :: us) -> uniq [seq exponents s u.2 | u <- t :: us] ->
  ends_plain (last t us) ->
  exists p, str_to_multi F (sum_text t us) s = Ok p /\ wf s p /\
    forall (R : comRingType) (phi : {rmorphism F -> R}) (v : nat -> R),
      meval phi v p = \sum_(u <- t :: us) phi u.1%:R * \prod_(f <- u.2) v f.1.-1 ^+ f.2.
Proof.
move=> F s t us G U; rewrite ends_plainE => E.
have := @str_to_multi_show F s t [seq (c_plus, u) | u <- us]; rewrite snd_plus => ->.
- by eexists; split; [reflexivity|exact: parsed_meaning].
- by apply/allP => x /mapP [u _ ->].
- exact: good_all.
- exact: E.
Qed.
Print Assumptions C97_sum_of_terms.

(** ... unless the text ends in a constant or in an exponent: it runs off the end *)
Theorem C97_last_term : forall (F : fieldType) s (t : term) (us : seq term),
  all (good_term s) (t :: us) -> has (fun u => u.2 != [::]) (t :: us) ->
  ~~ ends_plain (last t us) -> str_to_multi F (sum_text t us) s = Err IndexError.
Proof.
move=> F s t us G H; rewrite ends_plainE => E.
have := @str_to_multi_bad F s t [seq (c_plus, u) | u <- us]; rewrite snd_plus => -> //.
  by apply/allP => x /mapP [u _ ->].
exact: good_all.
Qed.
Print Assumptions C97_last_term.

(** a constant text is read by [int] *)
Theorem C97_constant : forall (F : fieldType) s n, str_to_multi F (dec n) s = Ok (mconst s n%:R).
Proof.
move=> F s n; have [A _ _] := dec_spec n; rewrite /str_to_multi max_sym_none ?digits_no_under //.
by rewrite bind_ok /= maxn0 py_int_dec bind_ok ring_int_nat.
Qed.
Print Assumptions C97_constant.

(** a repeated monomial replaces the earlier one instead of being added *)
Theorem C97_repeated_monomial_refuted : forall (F : fieldType),
  str_to_multi F (cp "X_1 + X_1") 1 = Ok [:: ([:: 1%N], 1)].
Proof. by move=> F; rewrite /str_to_multi /= /ring_int /= /mmk /= mulr1n oner_eq0. Qed.
Print Assumptions C97_repeated_monomial_refuted.

(** a variable whose index has two digits and exceeds s *)
Theorem C97_large_index : forall (F : fieldType) s i, (9 <= s < i)%N ->
  str_to_multi F (cp "X_" ++ dec i) s = Err IndexError.
Proof.
move=> F s i /andP [H1 H2]; rewrite -(parse_index_error F H1 H2).
by rewrite /show_factor /show_pow /= cats0.
Qed.
Print Assumptions C97_large_index.

Example C97_example :
  sum_text (2, [:: (1, 3); (12, 2)])%N [:: (7, [::]); (1, [:: (2, 1); (1, 1)])]%N =
    cp "2*X_1**3*X_12**2 + 7 + X_2*X_1" /\
  rmap (fun r => show r) (str_to_multi F5 (cp "2*X_1**3*X_3**2 + 7 + X_2*X_1") 3) =
    Ok [:: ([:: 3; 0; 2]%N, 2); ([:: 0; 0; 0]%N, 2); ([:: 1; 1; 0]%N, 1)]%Z /\
  str_to_multi F5 (cp "X_1 + 7") 3 = Err IndexError /\
  str_to_multi F5 (cp "X_2 + X_1**2") 3 = Err IndexError /\
  str_to_multi F5 (cp "X_12") 11 = Err IndexError /\
  rmap (fun r => show r) (str_to_multi F5 (cp "12") 2) = Ok [:: ([:: 0; 0]%N, 2%Z)].
Proof. by vm_compute. Qed.

(** ** C98 *)
(** the character between two terms is not looked at *)
Theorem C98_separator_ignored : forall (F : fieldType) s (t : term) (ts : seq (nat * term)),
  all (good_term s) (t :: map snd ts) -> has (fun u => u.2 != [::]) (t :: map snd ts) ->
  all (fun x => x.1 != c_under) ts ->
  str_to_multi F (show_term t ++ show_more ts) s =
  str_to_multi F (show_term t ++ show_more [seq (c_plus, x.2) | x <- ts]) s.
Proof.
move=> F s t ts G H C; have G' := good_all G.
have E : map snd [seq (c_plus, x.2) | x <- ts] = map snd ts by rewrite -map_comp.
have C' : all (fun x => x.1 != c_under) [seq (c_plus, x.2) | x <- ts] by apply/allP => x /mapP [u _ ->].
case: (boolP (final_ok (last t (map snd ts)))) => L.
  by rewrite !str_to_multi_show // E.
by rewrite !str_to_multi_bad // E.
Qed.
Print Assumptions C98_separator_ignored.

(** so a minus sign is read as a plus sign *)
Theorem C98_minus_refuted : forall (F : fieldType), 2%:R != 0 :> F ->
  exists p, str_to_multi F (cp "X_1 - X_2") 2 = Ok p /\
    exists v : nat -> F, meval [rmorphism of idfun] v p <> v 0%N - v 1%N.
Proof.
move=> F N2.
have [||//|p [E [_ M]]] := @C97_sum_of_terms F 2 (1, [:: (1, 1)])%N [:: (1, [:: (2, 1)])]%N; [by []| |].
  by rewrite /= /exponents /= !big_cons !big_nil.
exists p; split.
  rewrite -E.
  exact: (@C98_separator_ignored F 2 (1, [:: (1, 1)])%N [:: (c_minus, (1, [:: (2, 1)]))]%N).
exists (fun=> 1); rewrite M !big_cons !big_nil /= !expr1n !mulr1 addr0 subrr -mulr2n.
exact/eqP.
Qed.
Print Assumptions C98_minus_refuted.

Example C98_example :
  rmap (fun r => show r) (str_to_multi F5 (cp "X_1 - X_2") 2) =
    Ok [:: ([:: 1; 0]%N, 1); ([:: 0; 1]%N, 1)]%Z /\
  str_to_multi F5 (cp "-X_1 + X_2") 2 = Err ValueError /\
  show_term (1, [:: (1, 1)])%N ++ show_more [:: (c_minus, (3, [:: (2, 1)]))]%N = cp "X_1 - 3*X_2".
Proof. by vm_compute. Qed.

(** ** C99 *)
(** StrToMulti(str(p)) for coefficients that print as numbers: only constants are read
    back; the blank that [__repr__] puts before the monomial is not understood *)
Theorem C99_repr_not_parsed : forall (F : fieldType) (val : F -> nat) n s (p : mpoly F), wf n p ->
  has (fun k => has (fun e => e != 0%N) k) (mkeys p) ->
  str_to_multi F (mrepr (fun x => dec (val x)) n p) s = Err ValueError.
Proof.
move=> F val n s p W H; apply: parse_repr_error; first exact: wf_sizes W.
apply/negP => C; case/hasP: H => k /mapP [kc Ic ->]; rewrite (eqP (allP C _ Ic)).
by move=> /hasP [e]; rewrite mem_nseq => /andP [_ /eqP ->].
Qed.
Print Assumptions C99_repr_not_parsed.

Theorem C99_constant_round_trip : forall (F : fieldType) (val : F -> nat) n s (c : F),
  (val c)%:R = c ->
  str_to_multi F (mrepr (fun x => dec (val x)) n (mconst n c)) s = Ok (mconst s c).
Proof.
move=> F val n s c E; rewrite /mconst /remove_zero_coefficients /=.
case: (c =P 0) => [_|/eqP N]; first exact: parse_repr_zero.
by rewrite [LHS]parse_repr_const E /mconst /remove_zero_coefficients /= N.
Qed.
Print Assumptions C99_constant_round_trip.

(** size_p is the number of variables, but at most 9, and 0 for a constant *)
Theorem C99_size_p : forall (F : fieldType) (val : F -> nat) n (p : mpoly F), wf n p ->
  size_p (fun x => dec (val x)) n p =
    Ok (if has (fun k => has (fun e => e != 0%N) k) (mkeys p) then minn n 9 else 0%N).
Proof.
move=> F val n p W; rewrite size_p_repr ?(wf_sizes W) //; congr Ok.
have -> : constant n p = ~~ has (fun k => has (fun e => e != 0%N) k) (mkeys p).
  rewrite has_map -all_predC /constant; apply: eq_in_all => kc Ic /=.
  have S : size kc.1 = n by apply: (wf_size W); exact: map_f.
  rewrite -all_predC; apply/eqP/allP => [-> e|H].
    by rewrite mem_nseq => /andP [_ /eqP ->].
  rewrite -S; elim: kc.1 H => //= e k IH H; congr (_ :: _).
    by apply/eqP/negPn; apply: H; rewrite mem_head.
  by apply: IH => x Hx; apply: H; rewrite inE Hx orbT.
by case: has.
Qed.
Print Assumptions C99_size_p.

Example C99_example :
  mrepr (fun x : F5 => dec (Z.to_nat (mval x))) 2
    [:: ([:: 2; 0]%N, in_modp P5 3); ([:: 0; 0]%N, in_modp P5 4)] = cp "3 *X_1**2*X_2**0 + 4" /\
  str_to_multi F5 (cp "3 *X_1**2*X_2**0 + 4") 2 = Err ValueError /\
  size_p (fun x : F5 => dec (Z.to_nat (mval x))) 2
    [:: ([:: 2; 0]%N, in_modp P5 3); ([:: 0; 0]%N, in_modp P5 4)] = Ok 2%N.
Proof. by vm_compute. Qed.

(** ** C100 *)
Definition nonconstant (F : fieldType) (p : mpoly F) : bool :=
  has (fun k => has (fun e => e != 0%N) k) (mkeys p).

(** [a / b] for at most 9 variables, given that sympy prints the quotient as a sum of terms *)
Theorem C100_truediv : forall (F : fieldType) (val : F -> nat) (sdiv : str -> str -> result str)
    n (a b : mpoly F) (t : term) (us : seq term) (rest : str),
  (n <= 9)%N -> wf n a -> wf n b -> nonconstant a || nonconstant b ->
  all (good_term n) (t :: us) -> uniq [seq exponents n u.2 | u <- t :: us] ->
  ends_plain (last t us) ->
  sdiv (mrepr (fun x => dec (val x)) n a) (mrepr (fun x => dec (val x)) n b) =
    Ok (cp "(Poly(" ++ sum_text t us ++ c_comma :: rest) ->
  exists q, mtruediv sdiv (fun x => dec (val x)) n a b = Ok q /\ wf n q /\
    forall (R : comRingType) (phi : {rmorphism F -> R}) (v : nat -> R),
      meval phi v q = \sum_(u <- t :: us) phi u.1%:R * \prod_(f <- u.2) v f.1.-1 ^+ f.2.
Proof.
move=> F val sdiv n a b t us rest Hn Wa Wb Nc G U E Hs.
have [q [Eq Hq]] := C97_sum_of_terms F G U E; exists q; split=> //.
rewrite /mtruediv (C99_size_p val Wa) bind_ok (C99_size_p val Wb) bind_ok Hs bind_ok.
rewrite quotient_text_poly; last first.
  by apply: show_no_comma; apply/allP => x /mapP [u _ ->].
rewrite (_ : maxn _ _ = n) //.
move: Nc; rewrite /nonconstant (minn_idPl Hn).
by case: has => /= [_|->]; rewrite ?max0n ?maxnn //; case: has; rewrite ?maxnn ?maxn0.
Qed.
Print Assumptions C100_truediv.

(** division() with a multivariate divisor is the same operation *)
Theorem C100_division : forall (F : fieldType) (val : F -> nat) (sdiv : str -> str -> result str)
    n (a b : mpoly F), wf n a -> wf n b -> nonconstant a ->
  mdivision sdiv (fun x => dec (val x)) n a (mrepr (fun x => dec (val x)) n b) =
  mtruediv sdiv (fun x => dec (val x)) n a b.
Proof.
move=> F val sdiv n a b Wa Wb Nc; rewrite /mdivision /mtruediv !check_no_F ?repr_no_F // !bind_ok.
rewrite (C99_size_p val Wa) !bind_ok (C99_size_p val Wb) bind_ok; case: (sdiv _ _) => // z.
rewrite !bind_ok; congr (str_to_multi _ _ _).
rewrite -/(nonconstant a) Nc.
have Hn : (0 < minn n 9)%N.
  rewrite leq_min andbT; case: n Wa {Wb} => // Wa; case/hasP: Nc => k /(wf_size Wa).
  by case: k.
by rewrite (maxn_idPl Hn); case: ifP => _; rewrite ?maxnn ?maxn0.
Qed.
Print Assumptions C100_division.

(** the sign of a quotient is lost: over Z/3, X_1^2 + 2 X_2^2 = (X_1 + X_2)(X_1 - X_2), sympy
    prints the quotient over the integers, and the value of a / b is X_1 + X_2 *)
Theorem C100_quotient_refuted : exists (a b : mpoly F3) (c : mpoly F3),
  let sdiv (_ _ : str) : result str :=
    Ok (cp "(Poly(X_1 - X_2, X_1, X_2, domain='ZZ'), Poly(3*X_2**2, X_1, X_2, domain='ZZ'))") in
  [/\ wf 2 a, wf 2 b & meq (mmul b c) a] /\
  exists q, mtruediv sdiv (fun x : F3 => dec (Z.to_nat (mval x))) 2 a b = Ok q /\ ~~ meq (mmul b q) a.
Proof.
exists (rd3 [:: ([:: 2; 0]%N, 1); ([:: 0; 2]%N, 2)]%Z), (rd3 [:: ([:: 1; 0]%N, 1); ([:: 0; 1]%N, 1)]%Z),
       (rd3 [:: ([:: 1; 0]%N, 1); ([:: 0; 1]%N, 2)]%Z).
split; first by split; vm_compute.
set sdiv := fun _ _ : str => _; set a := rd3 _; set b := rd3 _.
have C : rmap (fun q => ~~ meq (mmul b q) a) (mtruediv sdiv (fun x : F3 => dec (Z.to_nat (mval x))) 2 a b) = Ok true.
  by vm_compute.
by case E: (mtruediv _ _ _ _ _) C => [q|e] //= [H]; exists q.
Qed.
Print Assumptions C100_quotient_refuted.

(** div_remainder *)
Theorem C100_div_remainder : forall (F : fieldType) n (a y z : mpoly F), wf n a -> wf n y -> wf n z ->
  wf n (mdiv_remainder a y z) /\
  forall (R : comRingType) (phi : {rmorphism F -> R}) (v : nat -> R),
    meval phi v a = meval phi v y * meval phi v z + meval phi v (mdiv_remainder a y z).
Proof.
move=> F n a y z Wa Wy Wz; have Wm := wf_mul Wy Wz; split; first exact: wf_sub.
move=> R phi v; rewrite (meval_sub phi v Wa Wm).
by have [_ ->] := mul_spec Wy Wz; rewrite addrC subrK.
Qed.
Print Assumptions C100_div_remainder.

Example C100_example :
  let sdiv (x y : str) : result str :=
    if (x == cp "1 *X_1**2*X_2**0 + 4 *X_1**1*X_2**0") && (y == cp "1 *X_1**1*X_2**0") then
      Ok (cp "(Poly(4 + X_1, X_1, X_2, domain='ZZ'), Poly(0, X_1, X_2, domain='ZZ'))")
    else Err GenericException in
  rmap (fun r => show r) (mtruediv sdiv (fun x : F5 => dec (Z.to_nat (mval x))) 2
    [:: ([:: 2; 0]%N, in_modp P5 1); ([:: 1; 0]%N, in_modp P5 4)] [:: ([:: 1; 0]%N, in_modp P5 1)]) =
    Ok [:: ([:: 0; 0]%N, 4); ([:: 1; 0]%N, 1)]%Z /\
  sum_text (4, [::])%N [:: (1, [:: (1, 1)])]%N = cp "4 + X_1".
Proof. by vm_compute. Qed.

(** ** C101 *)
(** CheckforDiv removes the field names " ∈ F_{...}" that [str] of a finite field element
    appends, and nothing else *)
Theorem C101_check_for_div : forall (l : seq (str * str)) (y : str),
  all (fun xb => [&& xb.1 != [::], c_F \notin xb.1, c_close \notin xb.1 & c_close \notin xb.2]) l ->
  c_F \notin y ->
  check_for_div (flatten [seq xb.1 ++ [:: 32; 8712; 32]%N ++ cp "F_{" ++ xb.2 ++ cp "}" | xb <- l] ++ y) =
  Ok (flatten (map fst l) ++ y).
Proof. exact check_chunks. Qed.
Print Assumptions C101_check_for_div.

(** PolytoMulti of a univariate polynomial whose coefficients print as numbers: constants
    are converted, every other polynomial raises ValueError (the variable is printed "x") *)
Theorem C101_poly_to_multi : forall (F : fieldType) (val : F -> nat) n (a : mpoly F) c (cs : seq nat),
  wf n a ->
  poly_to_multi (fun x => dec (val x)) n a (prepr (map dec (c :: cs))) =
    if cs is [::] then Ok (mconst (if nonconstant a then minn n 9 else 0%N) c%:R) else Err ValueError.
Proof.
move=> F val n a c cs W.
by rewrite /poly_to_multi (C99_size_p val W) bind_ok poly_text_check bind_ok poly_text_parse.
Qed.
Print Assumptions C101_poly_to_multi.

Example C101_example :
  check_for_div (cp "2" ++ [:: 32; 8712; 32]%N ++ cp "F_{3^1} *X_1**1 + 1" ++ [:: 32; 8712; 32]%N ++ cp "F_{3^1}") =
    Ok (cp "2 *X_1**1 + 1") /\
  prepr [seq dec c | c <- [:: 3; 0; 12]%N] = cp "3 + 0 *x**1 + 12 *x**2" /\
  str_to_multi F5 (cp "3 + 0 *x**1 + 12 *x**2") 1 = Err ValueError.
Proof. by vm_compute. Qed.
