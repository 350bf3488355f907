(** Proofs about the string based part of starks/multivariate_polynomial.py. *)
From Coq Require Import DecimalString DecimalFacts DecimalNat.
From Coq.Strings Require Import Ascii String.
From mathcomp Require Import zify ssrZ.
From Verif Require Import Prelude BaseProofs PowModel PolyModel PolyProofs FftProofs MultiModel MultiProofs ParserModel.
Set Implicit Arguments.
Unset Strict Implicit.
Unset Printing Implicit Defensive.
Import GRing.Theory.
Local Open Scope ring_scope.
Local Open Scope py_scope.

(** ** Decimal numbers *)
Local Arguments Nat.tail_mul : simpl never.
Lemma cp_uint d acc : all isdigit (cp (NilEmpty.string_of_uint d)) /\
  foldl (fun n c => (10 * n + (c - 48))%N) acc (cp (NilEmpty.string_of_uint d)) = Nat.of_uint_acc d acc.
Proof.
elim: d acc => [|d IH|d IH|d IH|d IH|d IH|d IH|d IH|d IH|d IH|d IH] acc //=;
  rewrite (proj1 (IH 0%N)) (proj2 (IH _)); split=> //; congr (Nat.of_uint_acc d _);
  rewrite Nat.tail_mul_spec /nat_of_ascii /=; lia.
Qed.

Lemma dec_spec n : [/\ all isdigit (dec n), digits_val (dec n) = n & dec n != [::]].
Proof.
rewrite /dec /digits_val.
have [A V] := cp_uint (Nat.to_uint n) 0; have E := Unsigned.of_to n.
move: A V E; rewrite /Nat.of_uint; case: (Nat.to_uint n) => [|d|d|d|d|d|d|d|d|d|d] A V E; last first.
all: by split=> //; rewrite -[RHS]E -V.
Qed.

Lemma dec_head n c l : (0 < n)%N -> dec n = c :: l -> (48 < c)%N.
Proof.
move=> Hn; rewrite /dec; have E := Unsigned.of_to n; have E2 := Unsigned.to_of (Nat.to_uint n).
rewrite E in E2; move: E2 E; case U: (Nat.to_uint n) => [|d|d|d|d|d|d|d|d|d|d] E2 E; last first.
all: try by move=> [<- _].
- move: E2; rewrite /Decimal.unorm; case N: (Decimal.nzhead _) => [|d'|d'|d'|d'|d'|d'|d'|d'|d'|d'] // [Ed].
    by move: E; rewrite Ed => E; move: Hn; rewrite -E.
  by case: (@nzhead_nonzero _ _ N).
Qed.

(** ** Reading digits *)
Definition no_digit (r : str) : bool := if r is c :: _ then ~~ isdigit c else true.

Lemma digits_safe_cat ds r : all isdigit ds -> no_digit r -> digits_safe (ds ++ r) = (ds, r).
Proof.
elim: ds => [|c ds IH] /= => [_|/andP [-> /IH {}IH] /IH -> //].
by case: r => //= c r /negbTE ->.
Qed.

Lemma digits_unsafe_cat ds r : all isdigit ds -> no_digit r -> r != [::] ->
  digits_unsafe (ds ++ r) = Ok (ds, r).
Proof.
elim: ds => [|c ds IH] /=; first by case: r => //= c r _ /negbTE ->.
by move=> /andP [-> /IH {}IH] H1 H2; rewrite IH.
Qed.

Lemma digits_unsafe_end ds : all isdigit ds -> digits_unsafe ds = Err IndexError.
Proof. by elim: ds => //= c ds IH /andP [-> /IH ->]. Qed.

Lemma int_dec n : int_digits (dec n) = Ok n.
Proof. by have [_ V] := dec_spec n; rewrite /int_digits; case: (dec n) V => // c l ->. Qed.

(** ** Rendering *)
(** a factor [(i, e)]: ["X_i"] or ["X_i**e"] *)
Definition show_pow (e : nat) : str := if e == 1%N then [::] else cp "**" ++ dec e.
Definition show_factor (f : nat * nat) : str := cp "X_" ++ dec f.1 ++ show_pow f.2.
Definition show_rest (fs : seq (nat * nat)) : str := flatten [seq cp "*" ++ show_factor f | f <- fs].
(** a term [(c, fs)]: ["c"], ["f*f"], ["c*f*f"] *)
Definition show_term (t : nat * seq (nat * nat)) : str :=
  if t.2 is f :: fs then (if t.1 == 1%N then [::] else dec t.1 ++ cp "*") ++ show_factor f ++ show_rest fs
  else dec t.1.
(** further terms, each with the character between the blanks *)
Definition show_more (ts : seq (nat * (nat * seq (nat * nat)))) : str :=
  flatten [seq cp " " ++ x.1 :: cp " " ++ show_term x.2 | x <- ts].

(** what may follow a term *)
Definition ends (r : str) : bool := if r is c :: _ then c == c_space else true.
Lemma ends_no_digit r : ends r -> no_digit r.
Proof. by case: r => //= c r /eqP ->. Qed.

Lemma read_pow_show e r : no_digit r -> (r != [::]) || (e == 1%N) ->
  ~~ ((1 < size r)%N && (nth 0%N r 0 == c_star) && (nth 0%N r 1 == c_star)) ->
  read_pow (show_pow e ++ r) = Ok (e, r).
Proof.
rewrite /show_pow; case: (e =P 1%N) => [-> _ _|_ Hd].
  by case: r => // c [|d r] //= /negbTE; rewrite /read_pow => ->.
rewrite orbF => Hr _; rewrite /read_pow /cp /= digits_unsafe_cat //; last by have [] := dec_spec e.
by rewrite /= int_dec.
Qed.

Lemma factorsS fuel c st tz : factors fuel.+1 (c :: st) tz =
  if c == c_space then Ok (tz, c :: st)
  else let* st1 := skip_var (c :: st) in
       let '(ds, st2) := digits_safe st1 in
       let* index := int_digits ds in
       let* (pow, st3) := read_pow st2 in
       let* tz' := set_index tz index pow in
       factors fuel st3 tz'.
Proof. by []. Qed.

Lemma factors_step fuel pre f r tz : pre = [::] \/ pre = cp "*" ->
  (0 < f.1)%N -> (f.1 <= size tz)%N ->
  no_digit r -> (r != [::]) || (f.2 == 1%N) ->
  ~~ ((1 < size r)%N && (nth 0%N r 0 == c_star) && (nth 0%N r 1 == c_star)) ->
  factors fuel.+1 (pre ++ show_factor f ++ r) tz = factors fuel r (set_nth 0%N tz f.1.-1 f.2).
Proof.
move=> Hpre H0 H1 Hd Hr Hs.
have Hsp : no_digit (show_pow f.2 ++ r) by rewrite /show_pow; case: eqP.
have E : forall st, st = pre ++ show_factor f ++ r -> exists c l, st = c :: l /\ (c == c_space) = false /\
    skip_var st = Ok (dec f.1 ++ show_pow f.2 ++ r).
  by move=> st ->; case: Hpre => ->; rewrite /show_factor /cp /= -catA; (do 2 eexists; split; [reflexivity|split; [reflexivity|by rewrite /= drop0]]).
have [c [l [Est [Ec Esk]]]] := E _ erefl; rewrite Est factorsS Ec -Est Esk bind_ok.
have [Ad _ _] := dec_spec f.1; rewrite digits_safe_cat // int_dec bind_ok read_pow_show // bind_ok.
by rewrite /set_index -[(_ == 0)%N]negbK -lt0n H0 H1 bind_ok.
Qed.

Definition set_all (tz : key) (fs : seq (nat * nat)) : key :=
  foldl (fun tz f => set_nth 0%N tz f.1.-1 f.2) tz fs.

Lemma size_set_all tz fs : all (fun f => (0 < f.1 <= size tz)%N) fs -> size (set_all tz fs) = size tz.
Proof.
elim: fs tz => //= f fs IH tz /andP [/andP [H0 H1] H].
have S : size (set_nth 0%N tz f.1.-1 f.2) = size tz by rewrite size_set_nth prednK //; exact/maxn_idPr.
by rewrite IH S.
Qed.

(** the last exponent of a term is 1 *)
Definition last1 (fs : seq (nat * nat)) : bool := (last (0%N, 1%N) fs).2 == 1%N.

Lemma show_rest_head fs r : ends r ->
  no_digit (show_rest fs ++ r) /\
  ~~ ((1 < size (show_rest fs ++ r))%N && (nth 0%N (show_rest fs ++ r) 0 == c_star) && (nth 0%N (show_rest fs ++ r) 1 == c_star)).
Proof.
case: fs => [|f fs] /=; last by split=> //; rewrite /cp /= andbF.
case: r => [|c r] //= /eqP ->; split=> //.
by rewrite andbF.
Qed.

Lemma factors_rest fuel fs r tz : (size fs <= fuel)%N -> ends r ->
  all (fun f => (0 < f.1 <= size tz)%N) fs -> (r != [::]) || last1 fs ->
  factors fuel (show_rest fs ++ r) tz = Ok (set_all tz fs, r).
Proof.
elim: fs fuel tz => [|f fs IH] fuel tz.
  by move=> _ He _ _; rewrite /show_rest /=; case: r He => [|c r] /= He; case: fuel => [|fuel] //=; rewrite He.
case: fuel => // fuel Hf He /andP [/andP [H0 H1] H] Hr.
have S : size (set_nth 0%N tz f.1.-1 f.2) = size tz by rewrite size_set_nth prednK //; exact/maxn_idPr.
have [D1 D2] := show_rest_head fs He.
have -> : show_rest (f :: fs) ++ r = cp "*" ++ show_factor f ++ show_rest fs ++ r.
  by rewrite /show_rest /= -!catA.
rewrite (@factors_step fuel (cp "*") f (show_rest fs ++ r)) //; first last.
- case: fs Hr {IH Hf H D1 D2} => [|f' fs] Hr //=.
- by right.
rewrite IH // ?S //.
move: Hr; rewrite /last1; by case: (r) => [|c l] //=; case: (fs).
Qed.

Lemma factors_term fuel f fs pre r tz : pre = [::] \/ pre = cp "*" -> (size fs < fuel)%N -> ends r ->
  all (fun f => (0 < f.1 <= size tz)%N) (f :: fs) -> (r != [::]) || last1 (f :: fs) ->
  factors fuel (pre ++ show_factor f ++ show_rest fs ++ r) tz = Ok (set_all tz (f :: fs), r).
Proof.
case: fuel => // fuel Hp Hf He /andP [/andP [H0 H1] H] Hr.
have S : size (set_nth 0%N tz f.1.-1 f.2) = size tz by rewrite size_set_nth prednK //; exact/maxn_idPr.
have [D1 D2] := show_rest_head fs He.
rewrite factors_step //; last by case: fs Hr {Hf H D1 D2} => [|f' fs] Hr //=.
apply: factors_rest; rewrite ?S //.
move: Hr; rewrite /last1; by case: (r) => [|c l] //=; case: (fs).
Qed.

(** ** Terms *)
Definition term := (nat * seq (nat * nat))%type.
Definition final_ok (t : term) : bool := (t.2 != [::]) && last1 t.2.
Definition term_ok (n : nat) (t : term) : bool := all (fun f => (0 < f.1 <= n)%N) t.2.

Lemma size_show_rest fs : (size fs <= size (show_rest fs))%N.
Proof.
elim: fs => // f fs IH; rewrite (_ : show_rest (f :: fs) = (cp "*" ++ show_factor f) ++ show_rest fs) //.
by rewrite size_cat; apply: leq_ltn_trans IH _; rewrite addnC -addn1 leq_add2l.
Qed.

Lemma read_term (t : term) r tz : term_ok (size tz) t -> ends r -> (r != [::]) || final_ok t ->
  exists ds st1, [/\ digits_unsafe (show_term t ++ r) = Ok (ds, st1),
    (if ds is [::] then 1%N else digits_val ds) = t.1 &
    factors (size st1) st1 tz = Ok (set_all tz t.2, r)].
Proof.
case: t => c [|f fs] Ht He Hr; have [Ad Vd Nd] := dec_spec c.
  rewrite orbF in Hr; exists (dec c), r; split.
  - exact: digits_unsafe_cat Ad (ends_no_digit He) Hr.
  - by move: Vd Nd; case: (dec c).
  - by case: r He {Hr} => //= d r ->.
set w := show_factor f ++ show_rest fs ++ r.
have -> : show_term (c, f :: fs) ++ r = (if c == 1%N then [::] else dec c ++ cp "*") ++ w.
  have -> : show_term (c, f :: fs) =
    (if c == 1%N then [::] else dec c ++ cp "*") ++ show_factor f ++ show_rest fs by [].
  by rewrite /w -!catA.
have Sz : forall pre, (size fs < size (pre ++ w))%N.
  move=> pre; apply: leq_ltn_trans (size_show_rest fs) _.
  rewrite size_cat /w (size_cat (show_factor f)) (size_cat (show_rest fs)).
  have : (0 < size (show_factor f))%N by [].
  move: (size (show_rest fs)) (size (show_factor f)) (size pre) (size r); clear; lia.
have Hl : (r != [::]) || last1 (f :: fs) by [].
case: (c =P 1%N) => [->|Hc].
  exists [::], w; split=> //.
  by rewrite -{2}[w]cat0s factors_term //; [left|exact: (Sz [::])].
exists (dec c), (cp "*" ++ w); split.
- by rewrite -catA digits_unsafe_cat.
- by move: Vd Nd; case: (dec c).
- by rewrite factors_term //; right.
Qed.

Lemma show_term_nil t r : show_term t ++ r != [::].
Proof.
case: t => c [|f fs]; have [_ _ N] := dec_spec c; first by move: N; rewrite /show_term; case: (dec c).
rewrite (_ : show_term (c, f :: fs) =
  (if c == 1%N then [::] else dec c ++ cp "*") ++ show_factor f ++ show_rest fs) //.
by case: (c == 1%N) => //; move: N; case: (dec c).
Qed.

Lemma show_more_ends ts : ends (show_more ts).
Proof. by case: ts. Qed.

Section Terms.
Variable F : fieldType.
Implicit Types (t : term) (ts : seq (nat * term)) (cs : mpoly F).

Lemma terms_nonempty fuel st zt cs : st != [::] -> terms fuel.+1 st zt cs =
    let* (ds, st1) := digits_unsafe st in
    let temp_i := if ds is [::] then 1%N else digits_val ds in
    let* (tz, st2) := factors (size st1) st1 zt in
    terms fuel (drop 3 st2) zt (dict_set cs tz (ring_int F (Z.of_nat temp_i))).
Proof. by case: st. Qed.

Lemma terms_nil fuel zt cs : terms fuel [::] zt cs = Ok cs.
Proof. by case: fuel. Qed.

Definition add_term zt cs t : mpoly F := dict_set cs (set_all zt t.2) t.1%:R.

Lemma ring_int_nat n : ring_int F (Z.of_nat n) = n%:R.
Proof. by rewrite /ring_int; case: Z.ltb_spec => [|_]; [lia|rewrite Nat2Z.id]. Qed.

Lemma drop_more c t ts : drop 3 (show_more ((c, t) :: ts)) = show_term t ++ show_more ts.
Proof.
rewrite (_ : show_more ((c, t) :: ts) = [:: 32; c; 32]%N ++ (show_term t ++ show_more ts)) //.
by rewrite drop_size_cat.
Qed.

Lemma terms_ok fuel t ts zt cs : (size ts < fuel)%N ->
  term_ok (size zt) t -> all (fun x => term_ok (size zt) x.2) ts ->
  final_ok (last t (map snd ts)) ->
  terms fuel (show_term t ++ show_more ts) zt cs = Ok (foldl (add_term zt) cs (t :: map snd ts)).
Proof.
elim: ts fuel t cs => [|[c t'] ts IH] [|fuel] t cs // Hf Ht Hts Hl; rewrite terms_nonempty ?show_term_nil //.
  have [|ds [st1 [-> Ed Ef]]] := @read_term t (show_more [::]) zt Ht isT; first by rewrite /= Hl.
  by rewrite bind_ok; cbv beta iota zeta; rewrite Ef bind_ok; cbv beta iota zeta; rewrite terms_nil Ed ring_int_nat.
have [|ds [st1 [-> Ed Ef]]] := @read_term t (show_more ((c, t') :: ts)) zt Ht isT; first by [].
rewrite bind_ok; cbv beta iota zeta; rewrite Ef bind_ok; cbv beta iota zeta; rewrite drop_more IH //; last by move: Hts => /andP [].
  by rewrite Ed ring_int_nat.
by move: Hts => /andP [].
Qed.

(** the terms before the last one are read, whatever follows *)
Lemma terms_prefix fuel (us : seq term) (st : str) zt cs : (size us <= fuel)%N -> st != [::] ->
  all (fun t => term_ok (size zt) t) us ->
  terms fuel (flatten [seq show_term t ++ cp " + " | t <- us] ++ st) zt cs =
  terms (fuel - size us) st zt (foldl (add_term zt) cs us).
Proof.
elim: us fuel cs => [|t us IH] fuel cs; first by rewrite subn0.
case: fuel => // fuel Hf Hst /andP [Ht Hts]; rewrite -cat1s.
have -> : flatten [seq show_term t ++ cp " + " | t <- [:: t] ++ us] ++ st =
  show_term t ++ (cp " + " ++ (flatten [seq show_term t ++ cp " + " | t <- us] ++ st)) by rewrite /= -!catA.
rewrite terms_nonempty ?show_term_nil //.
have [|ds [st1 [-> Ed Ef]]] := @read_term t (cp " + " ++ (flatten [seq show_term t ++ cp " + " | t <- us] ++ st)) zt Ht isT; first by [].
rewrite bind_ok; cbv beta iota zeta; rewrite Ef bind_ok; cbv beta iota zeta.
by rewrite drop_size_cat // IH // Ed ring_int_nat subSS.
Qed.
End Terms.

(** ** The largest leading digit of a variable index *)
Lemma max_sym_cat x y m : last 0%N x != c_under ->
  max_sym (x ++ y) m = (let* m' := max_sym x m in max_sym y m').
Proof.
elim: x m => [|c x IH] m; first by [].
move=> /= Hl; case: (c =P c_under) => [Ec|_].
  case: x IH Hl => [_|d x IH]; first by rewrite Ec.
  by move=> /= Hl; case: (int_char d) => //= v; exact: IH.
by apply: IH; move: Hl; case: x => //= _; rewrite /c_under.
Qed.

Lemma max_sym_none x m : c_under \notin x -> max_sym x m = Ok m.
Proof. by elim: x m => //= c x IH m; rewrite inE negb_or eq_sym => /andP [/negbTE -> /IH]. Qed.

Lemma digits_no_under ds : all isdigit ds -> c_under \notin ds.
Proof. by move=> /allP H; apply/negP => /H. Qed.

(** the leading digit of a number *)
Definition lead (n : nat) : nat := (head 0%N (dec n) - 48)%N.

Lemma foldl_ge acc ds : (acc <= foldl (fun n c => (10 * n + (c - 48))%N) acc ds)%N.
Proof. by elim: ds acc => //= c ds IH acc; apply: leq_trans (IH _); lia. Qed.

Lemma lead_le n : (lead n <= n)%N.
Proof.
rewrite /lead; have [_ V N] := dec_spec n; rewrite -{2}V.
by move: N; case: (dec n) => // c ds _; rewrite /digits_val /= muln0 add0n; exact: foldl_ge.
Qed.

Lemma lead_pos n : (0 < n)%N -> (0 < lead n <= 9)%N.
Proof.
move=> H; rewrite /lead; have [A V N] := dec_spec n.
case E: (dec n) N A => [//|c ds] _ /= /andP [D _]; have := dec_head H E; move: D; rewrite /isdigit; lia.
Qed.

Lemma max_sym_var n m : max_sym (cp "X_" ++ dec n) m = Ok (maxn m (lead n)).
Proof.
have [A _ N] := dec_spec n; rewrite /lead; case E: (dec n) N A => [//|c ds] _ A.
have -> : max_sym (cp "X_" ++ c :: ds) m = (let* v := int_char c in max_sym (c :: ds) (if (m < v)%N then v else m)) by [].
rewrite /int_char; case/andP: (A) => -> _; rewrite bind_ok max_sym_none; last exact: digits_no_under.
by rewrite /maxn.
Qed.

Lemma show_pow_no_under e : c_under \notin show_pow e.
Proof.
rewrite /show_pow; case: eqP => // _; rewrite mem_cat negb_or /=.
by apply: digits_no_under; have [] := dec_spec e.
Qed.

Lemma last_digits ds : all isdigit ds -> last 0%N ds != c_under.
Proof. by case: ds => // c ds /allP H; apply/negP => /eqP E; have := H _ (mem_last c ds); rewrite [last _ _]E. Qed.

Lemma last_no_under (x : str) d : c_under \notin x -> x != [::] -> last d x != c_under.
Proof.
case: x => // c x H _; apply/negP => /eqP E.
by have := mem_last c x; rewrite [last c x]E (negbTE H).
Qed.

Lemma max_sym_factor f m : max_sym (show_factor f) m = Ok (maxn m (lead f.1)).
Proof.
have [A _ N] := dec_spec f.1.
rewrite /show_factor catA max_sym_cat; last first.
  by rewrite last_cat; apply: last_no_under => //; exact: digits_no_under A.
by rewrite max_sym_var bind_ok max_sym_none // show_pow_no_under.
Qed.

Lemma last_factor f d : last d (show_factor f) != c_under.
Proof.
have [A _ N] := dec_spec f.1; rewrite /show_factor catA /show_pow.
case: (f.2 =P 1%N) => _; first by rewrite cats0 last_cat; apply: last_no_under => //; exact: digits_no_under A.
have [A' _ N'] := dec_spec f.2.
by rewrite !last_cat; apply: last_no_under => //; exact: digits_no_under A'.
Qed.

Definition maxlead (fs : seq (nat * nat)) (m : nat) : nat := foldl (fun m f => maxn m (lead f.1)) m fs.

Lemma last_rest fs d : d != c_under -> last d (show_rest fs) != c_under.
Proof.
elim/last_ind: fs => // fs f _ _.
by rewrite /show_rest map_rcons flatten_rcons last_cat last_cat last_factor.
Qed.

Lemma max_sym_rest fs m : max_sym (show_rest fs) m = Ok (maxlead fs m).
Proof.
elim: fs m => // f fs IH m.
rewrite (_ : show_rest (f :: fs) = (cp "*" ++ show_factor f) ++ show_rest fs) //.
rewrite max_sym_cat; last by rewrite last_cat last_factor.
by rewrite (_ : max_sym (cp "*" ++ show_factor f) m = max_sym (show_factor f) m) // max_sym_factor bind_ok IH.
Qed.

Lemma last_term (t : term) d : last d (show_term t) != c_under.
Proof.
case: t => c [|f fs]; have [A _ N] := dec_spec c.
  exact: last_no_under (digits_no_under A) N.
rewrite (_ : show_term (c, f :: fs) =
  (if c == 1%N then [::] else dec c ++ cp "*") ++ show_factor f ++ show_rest fs) //.
by rewrite last_cat last_cat; apply: last_rest; exact: last_factor.
Qed.

Lemma max_sym_term (t : term) m : max_sym (show_term t) m = Ok (maxlead t.2 m).
Proof.
case: t => c [|f fs]; have [A _ N] := dec_spec c.
  by rewrite /show_term max_sym_none // digits_no_under.
rewrite (_ : show_term (c, f :: fs) =
  (if c == 1%N then [::] else dec c ++ cp "*") ++ show_factor f ++ show_rest fs) //.
have E : max_sym (if c == 1%N then [::] else dec c ++ cp "*") m = Ok m.
  apply: max_sym_none; case: (c == 1%N) => //.
  by rewrite mem_cat negb_or digits_no_under.
rewrite max_sym_cat; last by case: (c == 1%N) => //; rewrite last_cat.
rewrite E bind_ok max_sym_cat ?last_factor // max_sym_factor bind_ok.
exact: max_sym_rest.
Qed.

Definition maxleads (us : seq term) (m : nat) : nat := foldl (fun m t => maxlead t.2 m) m us.

Lemma max_sym_more ts m : all (fun x => x.1 != c_under) ts ->
  max_sym (show_more ts) m = Ok (maxleads (map snd ts) m).
Proof.
elim: ts m => // [[c t] ts] IH m /andP [Hc Hts].
rewrite (_ : show_more ((c, t) :: ts) = [:: 32; c; 32]%N ++ (show_term t ++ show_more ts)) //.
rewrite max_sym_cat // max_sym_none; last by rewrite !inE !negb_or (eq_sym _ c) (Hc : c != c_under).
by rewrite bind_ok max_sym_cat ?last_term // max_sym_term bind_ok IH.
Qed.

Lemma max_sym_show t ts m : all (fun x => x.1 != c_under) ts ->
  max_sym (show_term t ++ show_more ts) m = Ok (maxleads (t :: map snd ts) m).
Proof. by move=> H; rewrite max_sym_cat ?last_term // max_sym_term bind_ok max_sym_more. Qed.

Lemma maxlead_le s fs m : (m <= s)%N -> all (fun f => (0 < f.1 <= s)%N) fs -> (maxlead fs m <= s)%N.
Proof.
elim: fs m => //= f fs IH m Hm /andP [/andP [_ H1] H]; apply: IH => //.
by rewrite geq_max Hm (leq_trans (lead_le _) H1).
Qed.

Lemma maxlead_ge fs m : (m <= maxlead fs m)%N.
Proof. by elim: fs m => //= f fs IH m; apply: leq_trans (IH _); exact: leq_maxl. Qed.

Lemma maxlead_pos fs m : fs != [::] -> all (fun f => (0 < f.1)%N) fs -> (0 < maxlead fs m)%N.
Proof.
case: fs => //= f fs _ /andP [H _]; apply: leq_trans (maxlead_ge _ _).
by have /andP [L _] := lead_pos H; rewrite leq_max L orbT.
Qed.

Lemma maxleads_le s us m : (m <= s)%N -> all (term_ok s) us -> (maxleads us m <= s)%N.
Proof. by elim: us m => //= t us IH m Hm /andP [Ht H]; apply: IH => //; exact: maxlead_le. Qed.

Lemma maxleads_ge us m : (m <= maxleads us m)%N.
Proof. by elim: us m => //= t us IH m; apply: leq_trans (IH _); exact: maxlead_ge. Qed.

Lemma maxleads_pos s us m : has (fun t => t.2 != [::]) us -> all (term_ok s) us -> (0 < maxleads us m)%N.
Proof.
elim: us m => //= t us IH m /orP [Hn|Hn] /andP [Ht H]; last exact: IH.
apply: leq_trans (maxleads_ge _ _); apply: maxlead_pos => //.
by apply: sub_all Ht => f /andP [].
Qed.

(** ** The whole string *)
Lemma size_show_more ts : (size ts <= size (show_more ts))%N.
Proof.
elim: ts => // [[c t] ts] IH.
rewrite (_ : show_more ((c, t) :: ts) = [:: 32; c; 32]%N ++ (show_term t ++ show_more ts)) //.
rewrite size_cat (size_cat (show_term t)).
have -> : size ((c, t) :: ts) = (size ts).+1 by [].
have -> : size [:: 32%N; c; 32%N] = 3%N by [].
by move: IH; move: (size ts) (size (show_more ts)) (size (show_term t)); clear; lia.
Qed.

Lemma size_show t ts : (size ts < size (show_term t ++ show_more ts))%N.
Proof.
rewrite size_cat; have := show_term_nil t [::]; rewrite cats0 => N.
have : (0 < size (show_term t))%N by case: (show_term t) N.
by have := size_show_more ts; move: (size ts) (size (show_more ts)) (size (show_term t)); clear; lia.
Qed.

Section Whole.
Variable F : fieldType.
Implicit Types (t : term) (ts : seq (nat * term)).

Lemma str_to_multi_show s t ts : all (fun x => x.1 != c_under) ts ->
  all (term_ok s) (t :: map snd ts) -> final_ok (last t (map snd ts)) ->
  str_to_multi F (show_term t ++ show_more ts) s =
  Ok (mmk (foldl (@add_term F (nseq s 0%N)) [::] (t :: map snd ts))).
Proof.
move=> Hc Hok Hl; rewrite /str_to_multi max_sym_show // bind_ok.
have P : (0 < maxleads (t :: map snd ts) 0)%N.
  apply: (maxleads_pos _ _ Hok); apply/hasP; exists (last t (map snd ts)); first exact: mem_last.
  by case/andP: Hl.
have L := maxleads_le (leq0n s) Hok.
rewrite (maxn_idPl L) eqn0Ngt P /=.
have /andP [H1 H2] := Hok.
rewrite terms_ok ?size_nseq ?size_show //.
by move: Hok; rewrite /= all_map => /andP [].
Qed.

Lemma read_pow_bad e : e != 1%N -> read_pow (show_pow e) = Err IndexError.
Proof.
move=> /negbTE N; rewrite /show_pow N /read_pow /cp /=.
by have [A _ _] := dec_spec e; rewrite digits_unsafe_end.
Qed.

Lemma factors_bad1 fuel pre f tz : pre = [::] \/ pre = cp "*" -> f.2 != 1%N ->
  factors fuel.+1 (pre ++ show_factor f) tz = Err IndexError.
Proof.
move=> Hpre N.
have Hsp : no_digit (show_pow f.2) by rewrite /show_pow; case: eqP.
have E : forall st, st = pre ++ show_factor f -> exists c l, st = c :: l /\ (c == c_space) = false /\
    skip_var st = Ok (dec f.1 ++ show_pow f.2).
  by move=> st ->; case: Hpre => ->; rewrite /show_factor /cp /=; (do 2 eexists; split; [reflexivity|split; [reflexivity|by rewrite /= drop0]]).
have [c [l [Est [Ec Esk]]]] := E _ erefl; rewrite Est factorsS Ec -Est Esk bind_ok.
by have [Ad _ _] := dec_spec f.1; rewrite digits_safe_cat // int_dec bind_ok read_pow_bad.
Qed.

Lemma factors_rest_bad fuel fs tz : (size fs <= fuel)%N ->
  all (fun f => (0 < f.1 <= size tz)%N) fs -> ~~ last1 fs ->
  factors fuel (show_rest fs) tz = Err IndexError.
Proof.
elim: fs fuel tz => // f fs IH [|fuel] tz // Hf /andP [/andP [H0 H1] H] Hl.
have S : size (set_nth 0%N tz f.1.-1 f.2) = size tz by rewrite size_set_nth prednK //; exact/maxn_idPr.
case: fs IH Hf H Hl => [|g fs] IH Hf H Hl.
  by rewrite (_ : show_rest [:: f] = (cp "*" ++ show_factor f) ++ [::]) // cats0 factors_bad1 //; right.
have [D1 D2] := @show_rest_head (g :: fs) [::] isT; rewrite cats0 in D1 D2.
have -> : show_rest (f :: g :: fs) = cp "*" ++ show_factor f ++ show_rest (g :: fs).
  by rewrite catA.
rewrite (@factors_step fuel (cp "*") f (show_rest (g :: fs))) //; last by right.
by rewrite IH // S.
Qed.

Lemma factors_term_bad fuel f fs pre tz : pre = [::] \/ pre = cp "*" -> (size fs < fuel)%N ->
  all (fun f => (0 < f.1 <= size tz)%N) (f :: fs) -> ~~ last1 (f :: fs) ->
  factors fuel (pre ++ show_factor f ++ show_rest fs) tz = Err IndexError.
Proof.
case: fuel => // fuel Hp Hf /andP [/andP [H0 H1] H] Hl.
case: fs Hf H Hl => [|g fs] Hf H Hl.
  by rewrite (_ : show_rest [::] = [::]) // cats0 factors_bad1.
have S : size (set_nth 0%N tz f.1.-1 f.2) = size tz by rewrite size_set_nth prednK //; exact/maxn_idPr.
have [D1 D2] := @show_rest_head (g :: fs) [::] isT; rewrite cats0 in D1 D2.
rewrite factors_step //.
by apply: factors_rest_bad; rewrite ?S.
Qed.

(** a last term that does not end in a first power raises IndexError *)
Lemma terms_bad fuel t ts zt cs : (size ts < fuel)%N ->
  term_ok (size zt) t -> all (fun x => term_ok (size zt) x.2) ts ->
  ~~ final_ok (last t (map snd ts)) ->
  @terms F fuel (show_term t ++ show_more ts) zt cs = Err IndexError.
Proof.
elim: ts fuel t cs => [|[c t'] ts IH] [|fuel] t cs // Hf Ht Hts Hl; rewrite terms_nonempty ?show_term_nil //.
  rewrite (_ : show_more [::] = [::]) // cats0.
  case: t Ht Hl => d [|f fs] Ht Hl; have [A V N] := dec_spec d.
    by rewrite /show_term digits_unsafe_end.
  rewrite (_ : show_term (d, f :: fs) =
    (if d == 1%N then [::] else dec d ++ cp "*") ++ show_factor f ++ show_rest fs) //.
  have Sz : forall pre : str, (size fs < size (pre ++ show_factor f ++ show_rest fs))%N.
    move=> pre; apply: leq_ltn_trans (size_show_rest fs) _.
    rewrite size_cat (size_cat (show_factor f)).
    have : (0 < size (show_factor f))%N by [].
    move: (size (show_rest fs)) (size (show_factor f)) (size pre); clear; lia.
  case: (d =P 1%N) => [_|Hc].
    rewrite (_ : digits_unsafe _ = Ok ([::], show_factor f ++ show_rest fs)) //.
    rewrite bind_ok; cbv beta iota zeta.
    rewrite -{2}[show_factor f ++ _]cat0s factors_term_bad //; first by left.
    exact: (Sz [::]).
  rewrite -catA digits_unsafe_cat // bind_ok; cbv beta iota zeta.
  by rewrite factors_term_bad //; right.
have [|ds [st1 [-> Ed Ef]]] := @read_term t (show_more ((c, t') :: ts)) zt Ht isT; first by [].
rewrite bind_ok; cbv beta iota zeta; rewrite Ef bind_ok; cbv beta iota zeta; rewrite drop_more IH //; last by move: Hts => /andP [].
by move: Hts => /andP [].
Qed.

Lemma str_to_multi_bad s t ts : all (fun x => x.1 != c_under) ts ->
  all (term_ok s) (t :: map snd ts) -> has (fun u => u.2 != [::]) (t :: map snd ts) ->
  ~~ final_ok (last t (map snd ts)) ->
  str_to_multi F (show_term t ++ show_more ts) s = Err IndexError.
Proof.
move=> Hc Hok Hh Hl; rewrite /str_to_multi max_sym_show // bind_ok.
have P := maxleads_pos 0 Hh Hok; have L := maxleads_le (leq0n s) Hok.
rewrite (maxn_idPl L) eqn0Ngt P /=.
have /andP [H1 H2] := Hok.
rewrite terms_bad ?size_nseq ?size_show //.
by move: Hok; rewrite /= all_map => /andP [].
Qed.
End Whole.

(** ** What the parsed polynomial is *)
Section Semantics.
Variable F : fieldType.
Implicit Types (t : term) (fs : seq (nat * nat)).

Lemma nth_set_all i fs (tz : key) : i.+1 \notin map fst fs -> all (fun f => (0 < f.1)%N) fs ->
  nth 0%N (set_all tz fs) i = nth 0%N tz i.
Proof.
elim: fs tz => //= f fs IH tz; rewrite inE negb_or => /andP [H1 H2] /andP [H0 H].
rewrite IH // nth_set_nth /=; case: eqP => // E.
by case/negP: H1; rewrite E prednK.
Qed.

Lemma set_all_rcons (tz : key) fs f : set_all tz (rcons fs f) = set_nth 0%N (set_all tz fs) f.1.-1 f.2.
Proof. by rewrite /set_all foldl_rcons. Qed.

Lemma mon_set (R : comRingType) (v : nat -> R) (k : key) i e : (i < size k)%N -> nth 0%N k i = 0%N ->
  mon v (set_nth 0%N k i e) = mon v k * v i ^+ e.
Proof.
move=> Hi H0.
have S : size (set_nth 0%N k i e) = size k by rewrite size_set_nth; exact/maxn_idPr.
rewrite /mon S [LHS](bigD1 (Ordinal Hi)) // [in RHS](bigD1 (Ordinal Hi)) //=.
rewrite nth_set_nth /= eqxx H0 expr0 mul1r mulrC; congr (_ * _).
apply: eq_bigr => j /eqP N; rewrite nth_set_nth /=; case: eqP => // E.
by case: N; apply: val_inj.
Qed.

Lemma mon_set_all (R : comRingType) (v : nat -> R) s fs : uniq (map fst fs) ->
  all (fun f => (0 < f.1 <= s)%N) fs ->
  mon v (set_all (nseq s 0%N) fs) = \prod_(f <- fs) v f.1.-1 ^+ f.2.
Proof.
elim/last_ind: fs => [|fs f IH]; first by rewrite big_nil /set_all /= mon_0.
rewrite map_rcons rcons_uniq all_rcons -cats1 big_cat big_seq1 cats1 /= => /andP [N U] /andP [/andP [H0 H1] H].
have P : all (fun f => (0 < f.1)%N) fs by apply: sub_all H => g /andP [].
rewrite set_all_rcons mon_set ?IH //.
  by rewrite size_set_all ?size_nseq // prednK.
by rewrite nth_set_all ?nth_nseq ?if_same // prednK.
Qed.

Lemma foldl_terms_uniq zt (us : seq term) (cs : mpoly F) : uniq (mkeys cs) ->
  uniq (mkeys (foldl (@add_term F zt) cs us)).
Proof. by elim: us cs => //= t us IH cs U; apply: IH; exact: uniq_set. Qed.

Lemma foldl_terms_size zt n (us : seq term) (cs : mpoly F) :
  (forall k, k \in mkeys cs -> size k = n) -> size zt = n -> all (term_ok n) us ->
  forall k, k \in mkeys (foldl (@add_term F zt) cs us) -> size k = n.
Proof.
elim: us cs => //= t us IH cs Hcs Hz /andP [Ht Hus]; apply: IH => // k.
rewrite mkeys_set; case: ifP => _; first exact: Hcs.
by rewrite mem_rcons inE => /orP [/eqP ->|/Hcs //]; rewrite size_set_all ?Hz.
Qed.

Lemma foldl_terms_meval (R : comRingType) (phi : {rmorphism F -> R}) v zt (us : seq term) (cs : mpoly F) :
  uniq (mkeys cs) -> uniq (map (fun t => set_all zt t.2) us) ->
  all (fun t => set_all zt t.2 \notin mkeys cs) us ->
  meval phi v (foldl (@add_term F zt) cs us) =
  meval phi v cs + \sum_(t <- us) phi t.1%:R * mon v (set_all zt t.2).
Proof.
elim: us cs => [|t us IH] cs U; first by rewrite big_nil addr0.
move=> /= /andP [N1 Uu] /andP [N H]; rewrite IH //; first last.
- apply/allP => u Iu; rewrite mkeys_set (negbTE N) mem_rcons inE negb_or (allP H _ Iu) andbT.
  by apply: contra N1 => /eqP <-; apply/mapP; exists u.
- exact: uniq_set.
have := meval_set phi v (set_all zt t.2) t.1%:R U.
by rewrite (dict_get_notin N) add0r big_cons addrA => ->.
Qed.

(** the exponent of each variable in a list of factors *)
Definition exponents (s : nat) fs : key := [seq (\sum_(f <- fs | f.1 == i.+1) f.2)%N | i <- iota 0 s].

Lemma set_all_exponents s fs : uniq (map fst fs) -> all (fun f => (0 < f.1 <= s)%N) fs ->
  set_all (nseq s 0%N) fs = exponents s fs.
Proof.
move=> U H; have S : size (set_all (nseq s 0%N) fs) = s by rewrite size_set_all ?size_nseq.
apply: (@eq_from_nth _ 0%N); rewrite S /exponents ?size_map ?size_iota // => i Hi.
rewrite (nth_map 0%N) ?size_iota // nth_iota // add0n.
elim/last_ind: fs U H {S} => [|fs f IH]; first by rewrite big_nil /set_all /= nth_nseq if_same.
rewrite map_rcons rcons_uniq all_rcons -cats1 big_cat /= big_cons big_nil cats1 /= => /andP [N U] /andP [/andP [H0 H1] H].
have P : all (fun f => (0 < f.1)%N) fs by apply: sub_all H => g /andP [].
rewrite set_all_rcons nth_set_nth /= IH //.
rewrite -(inj_eq succn_inj) prednK // eq_sym; case: eqP => E; last by rewrite addn0.
rewrite addn0 big1_seq // => g /andP [/eqP Eg Ig].
by case/negP: N; rewrite E -Eg; exact: map_f.
Qed.
End Semantics.

(** ** The text printed by [__repr__] *)
Lemma joinE sep x l : join sep (x :: l) = x ++ flatten [seq sep ++ y | y <- l].
Proof.
elim: l x => [|y l IH] x; first by rewrite /= cats0.
by rewrite (_ : join sep (x :: y :: l) = x ++ sep ++ join sep (y :: l)) // IH [in RHS]/= -catA.
Qed.

Lemma max_sym_skip x y m : c_under \notin x -> max_sym (x ++ y) m = max_sym y m.
Proof. by elim: x m => //= c x IH m; rewrite inE negb_or eq_sym => /andP [/negbTE -> /IH]. Qed.

Lemma size_p_skip x y m : c_X \notin x -> size_p_loop (x ++ y) m = size_p_loop y m.
Proof.
elim: x m => //= c x IH m; rewrite inE negb_or eq_sym => /andP [/negbTE Hc H]; by rewrite Hc /= IH.
Qed.

(** both loops skip text without variables and take the leading digit of an index *)
Record scans (L : str -> nat -> result nat) : Prop := Scans {
  scan_nil : forall m, L [::] m = Ok m;
  scan_skip : forall x y m, c_under \notin x -> c_X \notin x -> L (x ++ y) m = L y m;
  scan_var : forall n y m, L (cp "X_" ++ dec n ++ y) m = L y (maxn m (lead n)) }.

Lemma digits_no_X ds : all isdigit ds -> c_X \notin ds.
Proof. by move=> /allP H; apply/negP => /H. Qed.

Lemma scans_max_sym : scans max_sym.
Proof.
split=> // [x y m H _|n y m]; first exact: max_sym_skip.
have [A _ N] := dec_spec n; rewrite /lead; case E: (dec n) N A => [//|c ds] _ A.
have -> : max_sym (cp "X_" ++ (c :: ds) ++ y) m = (let* v := int_char c in max_sym ((c :: ds) ++ y) (if (m < v)%N then v else m)) by [].
by rewrite /int_char; case/andP: (A) => -> _; rewrite bind_ok max_sym_skip // digits_no_under.
Qed.

Lemma scans_size_p : scans size_p_loop.
Proof.
split=> // [x y m _ H|n y m]; first exact: size_p_skip.
have [A _ N] := dec_spec n; rewrite /lead; case E: (dec n) N A => [//|c ds] _ A.
have -> : size_p_loop (cp "X_" ++ (c :: ds) ++ y) m = (let* v := int_char c in size_p_loop ((c :: ds) ++ y) (if (m < v)%N then v else m)) by [].
by rewrite /int_char; case/andP: (A) => -> _; rewrite bind_ok size_p_skip // digits_no_X.
Qed.

(** ["*X_{j+1}**e"...] *)
Definition powers (j : nat) (k : key) : str :=
  flatten [seq cp "*X_" ++ dec ip.1.+1 ++ cp "**" ++ dec ip.2 | ip <- zip (iota j (size k)) k].

Definition leads (j n m : nat) : nat := foldl (fun m i => maxn m (lead i.+1)) m (iota j n).

Lemma scan_powers L : scans L -> forall k j y m, L (powers j k ++ y) m = L y (leads j (size k) m).
Proof.
move=> HL; elim=> [|e k IH] j y m; first by [].
have -> : powers j (e :: k) ++ y = cp "*" ++ cp "X_" ++ dec j.+1 ++ (cp "**" ++ dec e) ++ (powers j.+1 k ++ y).
  rewrite (_ : powers j (e :: k) = (cp "*X_" ++ dec j.+1 ++ cp "**" ++ dec e) ++ powers j.+1 k) //.
  by rewrite !catA.
rewrite (scan_skip HL) // (scan_var HL) (scan_skip HL) ?IH //.
  by rewrite mem_cat negb_or; apply: digits_no_under; have [] := dec_spec e.
by rewrite mem_cat negb_or; apply: digits_no_X; have [] := dec_spec e.
Qed.

Lemma leads_small n m : (n <= 9)%N -> leads 0 n m = maxn m n.
Proof.
have H : forall k, (k <= 9)%N -> lead k = k by do 10! case=> //.
elim: n m => [|n IH] m Hn; first by rewrite maxn0.
by rewrite /leads -addn1 iotaD foldl_cat [foldl _ _ (iota 0 n)](IH m (ltnW Hn)) /= add0n H // -maxnA; congr maxn; lia.
Qed.

Lemma leads_bound j n m : (m <= 9)%N -> (leads j n m <= 9)%N.
Proof.
elim: n j m => //= n IH j m Hm; apply: (IH j.+1); rewrite geq_max Hm.
by have /andP [] := lead_pos (ltn0Sn j).
Qed.

Lemma leads_ge j n m : (m <= leads j n m)%N.
Proof. by elim: n j m => //= n IH j m; apply: leq_trans (IH j.+1 _); exact: leq_maxl. Qed.

Lemma leadsE n m : (m <= 9)%N -> leads 0 n m = maxn m (minn n 9).
Proof.
move=> Hm; case: (leqP n 9) => [|H]; first exact: leads_small.
have -> : leads 0 n m = leads 9 (n - 9) (leads 0 9 m).
  by rewrite /leads -foldl_cat -iotaD subnKC // ltnW.
rewrite leads_small //.
have -> : maxn m 9 = 9%N by exact/maxn_idPr.
by apply/eqP; rewrite eqn_leq leads_bound // leads_ge.
Qed.

Section Repr.
Variable F : fieldType.
Variable val : F -> nat.
Implicit Types (p : mpoly F).
Let str_c x := dec (val x).

Definition item n (kc : key * F) : str :=
  if kc.1 != nseq n 0%N then str_c kc.2 ++ cp " " ++ powers 0 kc.1 else str_c kc.2.

Lemma mreprE n kc p : mrepr str_c n (kc :: p) = item n kc ++ flatten [seq cp " + " ++ item n x | x <- p].
Proof. by rewrite /mrepr (_ : mis_zero (kc :: p) = false) // map_cons joinE -map_comp. Qed.

Lemma scan_item L : scans L -> forall n kc y m, size kc.1 = n -> (m <= 9)%N ->
  L (item n kc ++ y) m = L y (if kc.1 != nseq n 0%N then maxn m (minn n 9) else m).
Proof.
move=> HL n kc y m S Hm; have [A _ _] := dec_spec (val kc.2).
rewrite /item; case: ifP => _; last by rewrite (scan_skip HL) ?digits_no_under ?digits_no_X.
rewrite -catA -catA (scan_skip HL) ?digits_no_under ?digits_no_X // (scan_skip HL) //.
by rewrite (scan_powers HL) S leadsE.
Qed.

Definition constant n p : bool := all (fun kc => kc.1 == nseq n 0%N) p.

Lemma scan_items L : scans L -> forall n p m, all (fun kc => size kc.1 == n) p -> (m <= 9)%N ->
  L (flatten [seq cp " + " ++ item n x | x <- p]) m = Ok (if constant n p then m else maxn m (minn n 9)).
Proof.
move=> HL n; elim=> [|kc p IH] m; first by move=> _ _; exact: (scan_nil HL).
move=> /andP [/eqP S H] Hm.
have -> : flatten [seq cp " + " ++ item n x | x <- kc :: p] =
  cp " + " ++ item n kc ++ flatten [seq cp " + " ++ item n x | x <- p] by [].
rewrite (scan_skip HL) // (scan_item HL) // IH //; last by case: ifP => // _; rewrite geq_max Hm geq_minr.
rewrite /constant /=; case: (kc.1 =P nseq n 0%N) => //= _.
by rewrite -maxnA maxnn if_same.
Qed.

Lemma scan_repr L : scans L -> forall n p, all (fun kc => size kc.1 == n) p ->
  L (mrepr str_c n p) 0%N = Ok (if constant n p then 0%N else minn n 9).
Proof.
move=> HL n [|kc p] H.
  by rewrite (_ : mrepr str_c n [::] = cp "0" ++ [::]) // (scan_skip HL) // (scan_nil HL).
move: H => /andP [/eqP S H]; rewrite mreprE (scan_item HL) // scan_items //; last first.
  by case: ifP => // _; rewrite max0n geq_minr.
rewrite /constant /=; case: (kc.1 =P nseq n 0%N) => /= _; first by rewrite max0n.
by rewrite !max0n maxnn if_same.
Qed.

Lemma size_p_repr n p : all (fun kc => size kc.1 == n) p ->
  size_p str_c n p = Ok (if constant n p then 0%N else minn n 9).
Proof. exact: (scan_repr scans_size_p). Qed.
End Repr.

(** ** [int] of a printed number *)
Lemma int_body_digits ds n : all isdigit ds ->
  int_body n ds = Ok (foldl (fun n c => (10 * n + (c - 48))%N) n ds).
Proof. by elim: ds n => [|c ds IH] n //; rewrite [all _ _]/= => /andP [H /IH E]; rewrite [int_body _ _]/= H E. Qed.

Lemma lstrip_digit (ds : str) : no_digit ds = false -> lstrip ds = ds.
Proof.
case: ds => //= c ds /negbFE H; rewrite /is_white ifF //.
by move: H; rewrite /isdigit; lia.
Qed.

Lemma strip_digits ds : all isdigit ds -> strip ds = ds.
Proof.
move=> A; rewrite /strip.
have E : forall l : str, all isdigit l -> lstrip l = l.
  by case=> // c l /andP [H _]; apply: lstrip_digit; rewrite /= H.
by rewrite (E ds) // E ?revK // all_rev.
Qed.

Lemma py_int_dec n : py_int (dec n) = Ok (Z.of_nat n).
Proof.
have [A V N] := dec_spec n; rewrite /py_int strip_digits //.
case: (dec n) A V N => // c ds A V _; have /andP [D A'] := A.
rewrite ifF; last by move: D; rewrite /isdigit /c_minus; lia.
rewrite ifF; last by move: D; rewrite /isdigit /c_plus; lia.
rewrite /int_unsigned D int_body_digits // bind_ok; congr (Ok (Z.of_nat _)).
by rewrite -[RHS]V /digits_val /= muln0.
Qed.

Lemma has_F_no st : c_F \notin st -> has_F_ st = false.
Proof. by elim: st => //= c st IH; rewrite inE negb_or eq_sym => /andP [/negbTE -> /IH ->]. Qed.

Lemma check_no_F st : c_F \notin st -> check_for_div st = Ok st.
Proof. by move=> H; rewrite /check_for_div has_F_no. Qed.

Section ReprParse.
Variable F : fieldType.
Variable val : F -> nat.
Implicit Types (p : mpoly F).
Let str_c x := dec (val x).

(** the blank after the coefficient ends the term; the rest starts with an underscore *)
Lemma terms_item fuel n k x y zt (cs : mpoly F) : (1 < fuel)%N -> (0 < size k)%N -> k != nseq n 0%N ->
  terms fuel (item val n (k, x) ++ y) zt cs = Err ValueError.
Proof.
move=> Hf Hk Nk; case: fuel Hf => // -[|fuel] // _; have [A _ N] := dec_spec (val x).
rewrite /item Nk; case: k Hk Nk => // e k _ _.
have -> : (dec (val x) ++ cp " " ++ powers 0 (e :: k)) ++ y =
    dec (val x) ++ cp " *X" ++ (cp "_1" ++ cp "**" ++ dec e ++ powers 1 k) ++ y.
  rewrite (_ : powers 0 (e :: k) = (cp "*X_" ++ dec 1 ++ cp "**" ++ dec e) ++ powers 1 k) //.
  by rewrite -!catA.
set w := _ ++ y.
rewrite terms_nonempty; last by move: N; case: (dec (val x)).
by rewrite digits_unsafe_cat.
Qed.

Lemma terms_items fuel n p zt (cs : mpoly F) : (size p < fuel)%N ->
  all (fun kc => size kc.1 == n) p -> ~~ constant n p ->
  forall kc q, p = kc :: q ->
  terms fuel (item val n kc ++ flatten [seq cp " + " ++ item val n z | z <- q]) zt cs = Err ValueError.
Proof.
elim: p fuel cs => // kc0 p IH fuel cs Hf /andP [/eqP S H] Nc kc q [<- <-].
case: (kc0.1 =P nseq n 0%N) => [E|/eqP Ne]; last first.
  case: kc0 S Ne Nc Hf => k x /= S Ne _ Hf; apply: terms_item => //.
    by apply: leq_ltn_trans Hf.
  by case: k S Ne {Hf} => //= <-.
have {}Nc : ~~ constant n p by move: Nc; rewrite /constant /= E eqxx.
case: p IH H Nc Hf => // kc1 p IH H Nc Hf; case: fuel Hf => // fuel Hf.
have -> : item val n kc0 ++ flatten [seq cp " + " ++ item val n z | z <- kc1 :: p] =
    dec (val kc0.2) ++ cp " + " ++ (item val n kc1 ++ flatten [seq cp " + " ++ item val n z | z <- p]).
  by rewrite /item E eqxx.
have [A _ N] := dec_spec (val kc0.2).
rewrite terms_nonempty; last by move: N; case: (dec (val kc0.2)).
rewrite digits_unsafe_cat // bind_ok; cbv beta iota zeta.
rewrite (_ : factors _ (cp " + " ++ _) zt = Ok (zt, cp " + " ++ (item val n kc1 ++ flatten [seq cp " + " ++ item val n z | z <- p]))) //.
rewrite bind_ok; cbv beta iota zeta; rewrite drop_size_cat //.
exact: (IH fuel _ Hf H Nc kc1 p erefl).
Qed.

Lemma item_size n kc : (0 < size (item val n kc))%N.
Proof.
have [_ _ N] := dec_spec (val kc.2); rewrite /item.
by case: (kc.1 != _); case: (dec (val kc.2)) N.
Qed.

Lemma size_items n p : (4 * size p <= size (flatten [seq cp " + " ++ item val n z | z <- p]))%N.
Proof.
elim: p => // kc p IH.
have -> : flatten [seq cp " + " ++ item val n x | x <- kc :: p] =
  cp " + " ++ item val n kc ++ flatten [seq cp " + " ++ item val n x | x <- p] by [].
rewrite size_cat size_cat -[size (kc :: p)]/(size p).+1 [size (cp " + ")]/=.
have := item_size n kc; move: IH; move: (size p) (size (flatten _)) (size (item val n kc)); clear; lia.
Qed.

Lemma parse_repr_error n s p : all (fun kc => size kc.1 == n) p -> ~~ constant n p ->
  str_to_multi F (mrepr str_c n p) s = Err ValueError.
Proof.
move=> H Nc; rewrite /str_to_multi (scan_repr val scans_max_sym) // bind_ok (negbTE Nc).
have Hn : (0 < n)%N.
  case: n H Nc => // H; case/negP; apply: sub_all H => kc; by case: kc.1.
rewrite ifF; last by rewrite eqn0Ngt leq_min Hn.
case: p H Nc => // kc p H Nc; rewrite mreprE.
rewrite (@terms_items _ n (kc :: p)) //.
have I1 := item_size n kc; have I2 := size_items n p; rewrite size_cat -[size (kc :: p)]/(size p).+1.
case: p Nc H I2 => [|kc1 p] Nc H I2.
  rewrite addn0; move: Nc; rewrite /constant /= andbT /item => Nk; rewrite Nk.
  have [_ _ N] := dec_spec (val kc.2).
  by rewrite size_cat; case: (dec (val kc.2)) N => // c l _; rewrite size_cat /= addnS.
move: I1 I2; rewrite -[size (kc1 :: p)]/(size p).+1.
move: (size p) (size (flatten [seq cp " + " ++ item val n z | z <- kc1 :: p])) (size (item val n kc)).
by clear; lia.
Qed.

Lemma repr_no_F n p : c_F \notin mrepr str_c n p.
Proof.
have D : forall k, c_F \notin dec k by move=> k; have [/allP A _ _] := dec_spec k; apply/negP => /A.
have Pw : forall k j, c_F \notin powers j k.
  elim=> // e k IH j.
  rewrite (_ : powers j (e :: k) = (cp "*X_" ++ dec j.+1 ++ cp "**" ++ dec e) ++ powers j.+1 k) //.
  by rewrite 4!mem_cat !negb_or !D IH.
have It : forall kc, c_F \notin item val n kc.
  by move=> kc; rewrite /item; case: ifP => _ //; rewrite 2!mem_cat !negb_or D Pw.
case: p => // kc p; rewrite mreprE mem_cat negb_or It /=.
elim: p => // kc' p IH.
have -> : flatten [seq cp " + " ++ item val n x | x <- kc' :: p] =
  cp " + " ++ item val n kc' ++ flatten [seq cp " + " ++ item val n x | x <- p] by [].
by rewrite 2!mem_cat !negb_or It IH.
Qed.

Lemma parse_repr_const n s x : str_to_multi F (mrepr str_c n [:: (nseq n 0%N, x)]) s = Ok (mconst s (val x)%:R).
Proof.
rewrite /str_to_multi (scan_repr val scans_max_sym) /=; last by rewrite size_nseq eqxx.
rewrite /constant /= eqxx /= maxn0 /mrepr /= eqxx /= py_int_dec bind_ok.
by rewrite ring_int_nat.
Qed.

Lemma parse_repr_zero n s : str_to_multi F (mrepr str_c n [::]) s = Ok [::].
Proof. by rewrite /str_to_multi /= /mmk /remove_zero_coefficients /ring_int /= eqxx. Qed.
End ReprParse.

(** ** Division through sympy *)
Lemma quotient_text_poly text rest : c_comma \notin text ->
  quotient_text (cp "(Poly(" ++ text ++ c_comma :: rest) = text.
Proof.
move=> N; rewrite /quotient_text drop_size_cat //.
have -> : find (pred1 c_comma) (text ++ c_comma :: rest) = size text.
  by rewrite find_cat /= has_pred1 (negbTE N) addn0.
by rewrite take_size_cat.
Qed.

Definition plain (c : nat) : bool := [|| isdigit c, c == c_star, c == c_X | c == c_under].

Lemma dec_plain n : all plain (dec n).
Proof. by have [A _ _] := dec_spec n; apply: sub_all A => c; rewrite /plain => ->. Qed.

Lemma show_factor_plain f : all plain (show_factor f).
Proof.
rewrite /show_factor all_cat all_cat dec_plain /= /show_pow.
by case: ifP => // _; rewrite all_cat dec_plain.
Qed.

Lemma show_rest_plain fs : all plain (show_rest fs).
Proof.
elim: fs => // f fs IH; rewrite (_ : show_rest (f :: fs) = (cp "*" ++ show_factor f) ++ show_rest fs) //.
by rewrite all_cat all_cat show_factor_plain IH.
Qed.

Lemma show_term_plain (t : term) : all plain (show_term t).
Proof.
case: t => c [|f fs]; first exact: dec_plain.
rewrite (_ : show_term (c, f :: fs) =
  (if c == 1%N then [::] else dec c ++ cp "*") ++ show_factor f ++ show_rest fs) //.
rewrite all_cat all_cat show_factor_plain show_rest_plain; case: (c == 1%N) => //.
by rewrite all_cat dec_plain.
Qed.

Lemma show_no_comma (t : term) ts : all (fun x => x.1 != c_comma) ts ->
  c_comma \notin show_term t ++ show_more ts.
Proof.
have N : forall u : term, c_comma \notin show_term u.
  by move=> u; apply/negP => /(allP (show_term_plain u)).
move=> H; rewrite mem_cat negb_or N /=.
elim: ts H => // [[c u] ts] IH /andP [Hc H].
rewrite (_ : show_more ((c, u) :: ts) = [:: 32; c; 32]%N ++ (show_term u ++ show_more ts)) //.
rewrite mem_cat mem_cat !negb_or N IH //.
by rewrite (eq_sym _ c) (Hc : c != c_comma).
Qed.

(** ** [CheckforDiv] *)
(** a chunk of text followed by the name of the field of its last coefficient *)
Definition c_in : nat := 8712.
Definition tag (b : str) : str := [:: c_space; c_in; c_space] ++ cp "F_{" ++ b ++ [:: c_close].

Lemma skip_close_cat x r : c_close \notin x -> skip_close (x ++ c_close :: r) = Ok r.
Proof. by elim: x => //= c x IH; rewrite inE negb_or eq_sym => /andP [/negbTE -> /IH]. Qed.

Lemma nth_no_F (x : str) i : c_F \notin x -> nth 0%N x i != c_F.
Proof.
move=> H; case: (ltnP i (size x)) => L; last by rewrite nth_default.
by apply: contraNneq H => <-; exact: mem_nth.
Qed.

Lemma check_loop_end fuel y : (size y <= fuel)%N -> c_F \notin y -> check_loop fuel y = Ok y.
Proof.
elim: fuel y => [|fuel IH] [|c y] // Hf Hy.
rewrite [check_loop _ _]/= (negbTE (_ : nth 0%N (c :: y) 4 != c_F)); last exact: nth_no_F.
by rewrite andbF IH //; move: Hy; rewrite inE negb_or => /andP [].
Qed.

Lemma check_loopS fuel c st : check_loop fuel.+1 (c :: st) =
  if (4 < size (c :: st))%N && (nth 0%N (c :: st) 4 == c_F) then
    let* r := skip_close (c :: st) in let* o := check_loop fuel r in Ok (c :: o)
  else let* o := check_loop fuel st in Ok (c :: o).
Proof. by []. Qed.

Lemma check_loop_chunk fuel x b r o : x != [::] -> c_F \notin x -> c_close \notin x -> c_close \notin b ->
  (forall fuel', (size r <= fuel')%N -> check_loop fuel' r = Ok o) ->
  (size (x ++ tag b ++ r) <= fuel)%N ->
  check_loop fuel (x ++ tag b ++ r) = Ok (x ++ o).
Proof.
move=> Nx Fx Cx Cb Hr; elim: x fuel Nx Fx Cx => // c x IH [|fuel] // _ Fx Cx Hf.
rewrite (_ : (c :: x) ++ tag b ++ r = c :: (x ++ tag b ++ r)) // check_loopS.
case: x IH Fx Cx Hf => [|d x] IH Fx Cx Hf.
  rewrite (_ : (4 < size (c :: [::] ++ tag b ++ r))%N && (nth 0%N (c :: [::] ++ tag b ++ r) 4 == c_F) = true) //.
  have -> : c :: [::] ++ tag b ++ r = ([:: c; c_space; c_in; c_space] ++ cp "F_{" ++ b) ++ c_close :: r.
    by rewrite /tag /= -catA.
  rewrite skip_close_cat; last first.
    rewrite catA mem_cat negb_or Cb andbT.
    by move: Cx; rewrite mem_seq1 => Cx; rewrite in_cons negb_or Cx.
  rewrite bind_ok Hr //.
  by move: Hf; rewrite !size_cat /=; move: (size r) (size b); clear; lia.
rewrite (_ : (nth 0%N (c :: (d :: x) ++ tag b ++ r) 4 == c_F) = false).
  rewrite andbF IH //.
  - by move: Fx; rewrite inE negb_or => /andP [].
  - by move: Cx; rewrite inE negb_or => /andP [].
move: Fx; clear; case: x => [|e [|f [|g x]]] //; rewrite !inE !negb_or !(eq_sym c_F) /=.
by move=> /andP [_ /andP [_ /andP [_ /andP [_ /andP [/negbTE -> _]]]]].
Qed.

Lemma has_F_cat x y : has_F_ y -> has_F_ (x ++ y).
Proof. by move=> H; elim: x => //= c x ->; rewrite orbT. Qed.

Definition chunks (l : seq (str * str)) : str := flatten [seq xb.1 ++ tag xb.2 | xb <- l].

Lemma check_chunks l y : all (fun xb => [&& xb.1 != [::], c_F \notin xb.1, c_close \notin xb.1 & c_close \notin xb.2]) l ->
  c_F \notin y -> check_for_div (chunks l ++ y) = Ok (flatten (map fst l) ++ y).
Proof.
move=> H Hy.
have EC : forall x b l, chunks ((x, b) :: l) ++ y = x ++ tag b ++ (chunks l ++ y).
  move=> x b l'; rewrite (_ : chunks ((x, b) :: l') = (x ++ tag b) ++ chunks l') //.
  by rewrite -(catA (x ++ tag b)) -(catA x).
have E : forall fuel, (size (chunks l ++ y) <= fuel)%N -> check_loop fuel (chunks l ++ y) = Ok (flatten (map fst l) ++ y).
  elim: l H => [|[x b] l IH] H fuel Hf; first exact: check_loop_end.
  move: H Hf => /andP [/and4P [H1 H2 H3 H4] H]; rewrite EC => Hf.
  by rewrite (check_loop_chunk _ _ _ _ (IH H)) // [map _ _]/= [flatten _]/= -catA.
rewrite /check_for_div; case: ifP => Hh; first exact: E.
case: l H Hh {E} => // [[x b] l] _.
by rewrite EC has_F_cat.
Qed.

(** ** The text of a univariate polynomial *)
Definition uitems (j : nat) (cs : seq nat) : str :=
  flatten [seq cp " + " ++ dec ia.2 ++ cp " *x**" ++ dec ia.1 | ia <- zip (iota j (size cs)) cs].

Lemma preprE c cs : prepr (map dec (c :: cs)) = dec c ++ uitems 1 cs.
Proof.
rewrite /prepr (_ : map dec (c :: cs) = dec c :: map dec cs) //.
rewrite (_ : zip (iota 0 (size (dec c :: map dec cs))) (dec c :: map dec cs) =
  (0%N, dec c) :: zip (iota 1 (size (map dec cs))) (map dec cs)) // map_cons joinE; congr (_ ++ flatten _).
rewrite size_map; have : (0 < 1)%N by []; move: {2 3 4}1%N.
elim: cs => [|d cs IH] j Hj; first by [].
rewrite (_ : zip (iota j (size (d :: cs))) (d :: cs) = (j, d) :: zip (iota j.+1 (size cs)) cs) //.
rewrite (_ : zip (iota j (size (d :: cs))) (map dec (d :: cs)) = (j, dec d) :: zip (iota j.+1 (size cs)) (map dec cs)) //.
by rewrite !map_cons IH //; case: j Hj.
Qed.

Lemma int_body_stop ds n c r : all isdigit ds -> ~~ isdigit c -> c != c_under ->
  int_body n (ds ++ c :: r) = Err ValueError.
Proof.
move=> A /negbTE Hc /negbTE Hu; elim: ds n A => [|d ds IH] n A; first by rewrite /= Hc Hu.
by move: A => /andP [D A]; rewrite [int_body _ _]/= D IH.
Qed.

Lemma strip_ends (st : str) : isdigit (head 0%N st) -> isdigit (last 0%N st) -> strip st = st.
Proof.
move=> H1 H2; rewrite /strip.
have -> : lstrip st = st by apply: lstrip_digit; move: H1; case: (st) => //= c l ->.
rewrite lstrip_digit ?revK //.
by move: H2; case: (lastP st) => // s x; rewrite last_rcons rev_rcons /= => ->.
Qed.

Lemma last_dec n d : isdigit (last d (dec n)).
Proof.
have [A _ N] := dec_spec n; case: (dec n) N A => // c l _ A.
exact: (allP A _ (mem_last c l)).
Qed.

Lemma py_int_sum c d cs j : py_int (dec c ++ uitems j (d :: cs)) = Err ValueError.
Proof.
have [A V N] := dec_spec c.
have E : uitems j (d :: cs) = (cp " + " ++ dec d ++ cp " *x**" ++ dec j) ++ uitems j.+1 cs by [].
have L : forall cs j x, isdigit x -> isdigit (last x (uitems j cs)).
  clear; elim=> [|d cs IH] j x Hx; first by [].
  rewrite (_ : uitems j (d :: cs) = (cp " + " ++ dec d ++ cp " *x**" ++ dec j) ++ uitems j.+1 cs) // last_cat.
  by apply: IH; rewrite catA catA last_cat; exact: last_dec.
rewrite /py_int strip_ends; first last.
- by rewrite last_cat; apply: L; exact: last_dec.
- by case: (dec c) N A => // x l _ /andP [].
rewrite E; case: (dec c) N A => // x l _ A; rewrite [_ ++ _]/=; have /andP [D A'] := A.
rewrite ifF; last by move: D; rewrite /isdigit /c_minus; lia.
rewrite ifF; last by move: D; rewrite /isdigit /c_plus; lia.
by rewrite /int_unsigned D int_body_stop.
Qed.

Lemma uitems_chars c j cs : c \notin [:: c_space; c_plus; c_star; 120%N] -> ~~ isdigit c -> c \notin uitems j cs.
Proof.
move=> H D; have N : forall n, c \notin dec n by move=> n; have [/allP A _ _] := dec_spec n; apply: contra D => /A.
elim: cs j => // d cs IH j.
rewrite (_ : uitems j (d :: cs) = (cp " + " ++ dec d ++ cp " *x**" ++ dec j) ++ uitems j.+1 cs) //.
rewrite 4!mem_cat !negb_or !N IH andbT /=.
by move: H; rewrite !inE !negb_or => /and4P [-> -> -> ->].
Qed.

Lemma poly_text_parse (F : fieldType) s c cs :
  str_to_multi F (prepr (map dec (c :: cs))) s =
  if cs is [::] then Ok (mconst s c%:R) else Err ValueError.
Proof.
have [A _ _] := dec_spec c; rewrite /str_to_multi preprE max_sym_none; last first.
  by rewrite mem_cat negb_or digits_no_under // uitems_chars.
rewrite bind_ok /= maxn0; case: cs => [|d cs]; last by rewrite py_int_sum.
by rewrite cats0 py_int_dec bind_ok ring_int_nat.
Qed.

Lemma poly_text_check c cs : check_for_div (prepr (map dec (c :: cs))) = Ok (prepr (map dec (c :: cs))).
Proof.
apply: check_no_F; rewrite preprE mem_cat negb_or uitems_chars //.
by have [/allP A _ _] := dec_spec c; rewrite andbT; apply/negP => /A.
Qed.

(** ** An index beyond the number of variables *)
Lemma parse_index_error (F : fieldType) s i : (9 <= s)%N -> (s < i)%N ->
  str_to_multi F (show_factor (i, 1%N)) s = Err IndexError.
Proof.
move=> Hs Hi; rewrite /str_to_multi max_sym_factor bind_ok max0n.
have /andP [L0 L9] := lead_pos (leq_ltn_trans (leq0n s) Hi).
rewrite (maxn_idPl (leq_trans L9 Hs)) ifF; last by rewrite eqn0Ngt L0.
have -> : show_factor (i, 1%N) = c_X :: c_under :: dec i by rewrite /show_factor /show_pow /= cats0.
have [A V N] := dec_spec i.
rewrite terms_nonempty // (_ : digits_unsafe _ = Ok ([::], c_X :: c_under :: dec i)) // bind_ok.
cbv beta iota zeta; rewrite -[size _]/(size (dec i)).+2 factorsS.
rewrite (_ : skip_var _ = Ok (dec i)) ?bind_ok; last by rewrite /= drop0.
rewrite -[dec i]cats0 digits_safe_cat // int_dec bind_ok [read_pow _]/= bind_ok.
by rewrite /set_index eqn0Ngt (leq_ltn_trans (leq0n s) Hi) size_nseq leqNgt Hi.
Qed.
