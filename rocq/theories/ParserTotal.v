(** Proofs about StrToMulti on arbitrary strings: what it can return, which exceptions it can
    raise, and what [int] accepts. *)
From Coq.Strings Require Import Ascii String.
From mathcomp Require Import zify ssrZ.
From Verif Require Import Prelude BaseProofs PolyModel FftProofs MultiModel MultiProofs ParserModel ParserProofs.
Set Implicit Arguments.
Unset Strict Implicit.
Unset Printing Implicit Defensive.
Import GRing.Theory.
Local Open Scope ring_scope.
Local Open Scope py_scope.

(** ** Results that are a value or one of the two exceptions *)
Definition ie (A : Type) (r : result A) : Prop :=
  match r with Ok _ => True | Err e => e = ValueError \/ e = IndexError end.

Lemma ie_bind A B (r : result A) (f : A -> result B) : ie r -> (forall a, r = Ok a -> ie (f a)) -> ie (bind r f).
Proof. by case: r => [a|e] //= _ H; exact: H. Qed.

(** every underscore is followed by a digit *)
Definition pairs_ok (st : str) : bool :=
  all (fun i => (nth 0%N st i != c_under) || isdigit (nth 0%N st i.+1)) (iota 0 (size st)).

Lemma pairs_ok_cons c st : pairs_ok (c :: st) = ((c != c_under) || isdigit (nth 0%N st 0)) && pairs_ok st.
Proof. by rewrite /pairs_ok /= -[1%N]addn0 iotaDl all_map. Qed.

Definition max_digit (st : str) : nat :=
  \max_(i <- iota 0 (size st) | nth 0%N st i == c_under) (nth 0%N st i.+1 - 48)%N.

Lemma max_digit_cons c st : max_digit (c :: st) =
  maxn (if c == c_under then (nth 0%N st 0 - 48)%N else 0%N) (max_digit st).
Proof.
rewrite /max_digit /= big_cons -[1%N]addn0 iotaDl big_map /=.
by case: ifP => _; rewrite ?max0n.
Qed.

Lemma pairs_ok_cat x y : pairs_ok x -> pairs_ok y -> pairs_ok (x ++ y).
Proof.
elim: x => //= c x IH; rewrite !pairs_ok_cons => /andP [C /IH H] /H ->; rewrite andbT.
by case: x C {IH H} => //= /orP [->|].
Qed.

Lemma pairs_ok_none x : c_under \notin x -> pairs_ok x.
Proof.
elim: x => //= c x IH; rewrite inE negb_or eq_sym => /andP [N /IH H].
by rewrite pairs_ok_cons N H.
Qed.

Lemma max_sym_cons c st m : max_sym (c :: st) m =
  if c == c_under then
    if st is d :: _ then let* v := int_char d in max_sym st (if (m < v)%N then v else m)
    else Err IndexError
  else max_sym st m.
Proof. by []. Qed.

Lemma max_sym_good st m : pairs_ok st -> max_sym st m = Ok (maxn m (max_digit st)).
Proof.
elim: st m => [|c st IH] m; first by rewrite /max_digit /= big_nil maxn0.
rewrite pairs_ok_cons max_digit_cons max_sym_cons => /andP [C P].
case: (c =P c_under) C => [_|_ _]; last by rewrite IH // max0n.
case: st IH P => [|d st] IH P C; first by [].
have D : isdigit d by [].
rewrite /int_char D bind_ok IH //; congr Ok; move: (max_digit _) => k; rewrite [nth _ _ _]/=.
by case: ltnP; clear; lia.
Qed.

Lemma max_sym_bad st m : ~~ pairs_ok st -> exists x y, [/\ st = x ++ c_under :: y, pairs_ok x,
  (y == [::]) || ~~ isdigit (head 0%N y) & max_sym st m = Err (if y is [::] then IndexError else ValueError)].
Proof.
elim: st m => [|c st IH] m //; rewrite pairs_ok_cons max_sym_cons negb_and negb_or negbK.
case: (c =P c_under) => [->|N].
  case D: (isdigit (nth 0%N st 0)) => H; last first.
    exists [::], st; split=> //; first by case: st D {IH H} => //= d st ->.
    by case: st D {IH H} => [|d st] // D; rewrite /int_char [isdigit d]D.
  case: st D IH H => // d st D IH H.
  have [x [y [E P Y Z]]] := IH (if (m < d - 48)%N then (d - 48)%N else m) H.
  exists (c_under :: x), y; split=> //; first by rewrite E.
    rewrite pairs_ok_cons P /= andbT.
    case: x E {P Z} => [[E _]|e x [<- _]] //.
    by move: D; rewrite /= E.
  by rewrite /int_char [isdigit d]D bind_ok.
move=> H; have [x [y [E P Y Z]]] := IH m H.
exists (c :: x), y; split=> //; first by rewrite E.
by rewrite pairs_ok_cons P andbT; apply/orP; left; apply/eqP.
Qed.

Lemma max_sym_split x y m : pairs_ok x -> (y == [::]) || ~~ isdigit (head 0%N y) ->
  max_sym (x ++ c_under :: y) m = Err (if y is [::] then IndexError else ValueError).
Proof.
move=> P Y; elim: x m P => [|c x IH] m.
  move=> _; rewrite max_sym_cons eqxx.
  by case: y Y => // d y; rewrite /= /int_char => /negbTE ->.
rewrite pairs_ok_cons cat_cons max_sym_cons => /andP [C P].
case: (c =P c_under) C => [_|_ _]; last exact: IH.
case: x IH P => [|d x] IH P // C; have D : isdigit d by [].
by have := IH (if (m < d - 48)%N then (d - 48)%N else m) P; rewrite cat_cons /int_char D bind_ok.
Qed.

(** ** [int] *)
Lemma val_cat n a b : foldl (fun n c => (10 * n + (c - 48))%N) n (a ++ b) =
  foldl (fun n c => (10 * n + (c - 48))%N) (foldl (fun n c => (10 * n + (c - 48))%N) n a) b.
Proof. exact: foldl_cat. Qed.

(** the number written by a string of digits *)
Definition number (ds : str) : nat := \sum_(i < size ds) (nth 0%N (rev ds) i - 48) * 10 ^ i.

Lemma numberE ds : digits_val ds = number ds.
Proof.
elim/last_ind: ds => [|ds c IH]; first by rewrite /number big_ord0.
rewrite /digits_val foldl_rcons -/(digits_val ds) IH /number size_rcons big_ord_recl rev_rcons /= expn0 muln1.
rewrite addnC big_distrr /=; congr (_ + _)%N; apply: eq_bigr => i _.
by rewrite /bump /= add1n expnS mulnCA.
Qed.

Definition group (g : str) : bool := (g != [::]) && all isdigit g.

Lemma int_body_spec st n m : int_body n st = Ok m <->
  exists g gs, [/\ st = g ++ flatten [seq c_under :: x | x <- gs], all isdigit g, all group gs &
    m = foldl (fun n c => (10 * n + (c - 48))%N) n (g ++ flatten gs)].
Proof.
split.
  have [k] := ubnP (size st); elim: k st n => // k IH [|c st] n /= K.
    by move=> [<-]; exists [::], [::].
  case D: (isdigit c) => [|].
    case/IH => // g [gs [E G A ->]]; exists (c :: g), gs; split=> //=; first by rewrite E.
    by rewrite D.
  case: (c =P c_under) => // -> {c D}; case: st K => // d st K.
  case D: (isdigit d) => //; case/IH; first by move: K => /=; clear; lia.
  move=> g [gs [E G A ->]]; exists [::], ((d :: g) :: gs); split=> //=; first by rewrite E.
  by rewrite /group /= D G.
case=> g [gs [-> G A ->]].
elim: gs g n G A => [|h gs IH] g n /= G.
  by rewrite !cats0 int_body_digits.
case/andP => /andP [N H] A.
elim: g n G => [|c g IHg] n /=; last by case/andP => -> /IHg ->.
case: h N H => // d h _ /= /andP [D H] _; rewrite D.
exact: IH.
Qed.

(** a value or ValueError *)
Definition ve (A : Type) (r : result A) : Prop := match r with Ok _ => True | Err e => e = ValueError end.

Lemma ve_bind A B (r : result A) (f : A -> B) : ve r -> ve (let* x := r in Ok (f x)).
Proof. by case: r. Qed.

Lemma ve_ie A (r : result A) : ve r -> ie r.
Proof. by case: r => //= e ->; left. Qed.

Lemma int_body_err st n : ve (int_body n st).
Proof.
have [k] := ubnP (size st); elim: k st n => // k IH [|c st] n //= K.
case: (isdigit c); first exact: IH.
case: (c == c_under) => //; case: st K => [|d st] K //.
case: (isdigit d) => //.
by apply: IH; move: K => /=; clear; lia.
Qed.

(** a number with single underscores between its digits *)
Definition grouped (st : str) (n : nat) : Prop :=
  exists g gs, [/\ st = g ++ flatten [seq c_under :: x | x <- gs], group g, all group gs &
    n = number (g ++ flatten gs)].

Lemma int_unsigned_spec st n : int_unsigned st = Ok n <-> grouped st n.
Proof.
case: st => [|c st] /=.
  by split=> // -[g [gs [E /andP [N _] _ _]]]; case: g E N.
case D: (isdigit c); last first.
  by split=> // -[g [gs [E /andP [N H] _ _]]]; case: g E N H => // d g [<- _] _ /=; rewrite D.
split=> [/int_body_spec [g [gs [E G A ->]]]|[g [gs [E /andP [N H] A ->]]]].
  exists (c :: g), gs; split=> //; first by rewrite E.
    by rewrite /group /= D.
  by rewrite -numberE.
apply/int_body_spec; case: g E N H => // d g [Ed E] _ /= /andP [_ G].
by exists g, gs; split=> //; rewrite -numberE -Ed.
Qed.

Lemma int_unsigned_err st : ve (int_unsigned st).
Proof. by case: st => [|c st] //=; case: isdigit => //; exact: int_body_err. Qed.

Lemma lstrip_dec st : exists w, all is_white w /\ st = w ++ lstrip st.
Proof.
elim: st => [|c st [w [A E]]] /=; first by exists [::].
case: ifP => H; last by exists [::].
by exists (c :: w); split=> /=; rewrite ?H // -E.
Qed.

Lemma lstrip_core w t : all is_white w -> ~~ is_white (head 0%N t) -> lstrip (w ++ t) = t.
Proof.
elim: w => [_|c w IH /= /andP [-> A] H]; last exact: IH.
by case: t => //= c t /negbTE ->.
Qed.

Lemma strip_dec st : exists w1 w2, [/\ all is_white w1, all is_white w2 & st = w1 ++ strip st ++ w2].
Proof.
have [w1 [A1 E1]] := lstrip_dec st; have [w2 [A2 E2]] := lstrip_dec (rev (lstrip st)).
exists w1, (rev w2); split=> //; first by rewrite all_rev.
by rewrite {1}E1 /strip -rev_cat -E2 revK.
Qed.

Lemma strip_core w1 t w2 : all is_white w1 -> all is_white w2 -> ~~ is_white (head 0%N t) ->
  ~~ is_white (last 0%N t) -> strip (w1 ++ t ++ w2) = t.
Proof.
move=> A1 A2 H L; rewrite /strip.
case: t H L => [_ _|c t H L].
  have -> : lstrip (w1 ++ [::] ++ w2) = [::].
    have := @lstrip_core (w1 ++ w2) [::]; rewrite cats0 /= => -> //.
    by rewrite all_cat A1.
  by [].
rewrite (lstrip_core A1) // rev_cat lstrip_core ?revK ?all_rev //.
by have -> : head 0%N (rev (c :: t)) = last 0%N (c :: t) by elim/last_ind: {H L} (c :: t) => // s x _; rewrite rev_rcons last_rcons.
Qed.

Lemma digit_not_white c : isdigit c -> ~~ is_white c.
Proof. by rewrite /isdigit /is_white; lia. Qed.

(** the strings that [int] accepts *)
Definition int_text (st : str) (z : Z) : Prop :=
  exists w1 w2 sgn t n, [/\ all is_white w1, all is_white w2, st = w1 ++ sgn ++ t ++ w2, grouped t n &
    (sgn = [::] \/ sgn = [:: c_plus]) /\ z = Z.of_nat n \/ sgn = [:: c_minus] /\ z = (- Z.of_nat n)%Z].

Lemma grouped_ends t n : grouped t n -> [/\ t != [::], isdigit (head 0%N t) & isdigit (last 0%N t)].
Proof.
case=> g [gs [-> /andP [N G] A _]]; case: g N G => // c g _ G; split=> //; first by case/andP: G.
elim/last_ind: gs A => [|gs h IH].
  by rewrite cats0 /= => _; apply: (allP G); rewrite mem_last.
rewrite all_rcons => /andP [/andP [N H] _].
rewrite map_rcons -cats1 flatten_cat /= cats0 !last_cat.
by case: h N H => // d h _ H; apply: (allP H); exact: mem_last.
Qed.

Lemma py_int_spec st z : py_int st = Ok z <-> int_text st z.
Proof.
split.
  have [w1 [w2 [A1 A2 E]]] := strip_dec st.
  rewrite /py_int; case S: (strip st) => [|c t] //; rewrite S in E.
  case: (c =P c_minus) => [Ec|_].
    case U: (int_unsigned t) => [n|//]; rewrite bind_ok => -[<-].
    exists w1, w2, [:: c_minus], t, n; split=> //; [|exact/int_unsigned_spec|by right].
    by rewrite E Ec.
  case: (c =P c_plus) => [Ec|_].
    case U: (int_unsigned t) => [n|//]; rewrite bind_ok => -[<-].
    exists w1, w2, [:: c_plus], t, n; split=> //; [|exact/int_unsigned_spec|by left; split; [right|]].
    by rewrite E Ec.
  case U: (int_unsigned (c :: t)) => [n|//]; rewrite bind_ok => -[<-].
  exists w1, w2, [::], (c :: t), n; split=> //; [exact/int_unsigned_spec|by left; split; [left|]].
case=> w1 [w2 [sgn [t [n [A1 A2 -> G H]]]]].
have [N D L] := grouped_ends G; have /int_unsigned_spec U := G.
have K : sgn = [::] \/ sgn = [:: c_plus] \/ sgn = [:: c_minus] by case: H => [[[] ? _]|[? _]]; auto.
rewrite /py_int.
have -> : strip (w1 ++ sgn ++ t ++ w2) = sgn ++ t.
  rewrite (catA sgn); apply: strip_core => //.
    by case: K => [->|[->|->]] //; exact: digit_not_white.
  rewrite last_cat; case: t N L {D U G} => // d t _ L; exact: digit_not_white.
case: H => [[[] -> ->]|[-> ->]] /=; [|by rewrite U|by rewrite U].
case: t U N D {G L} => // d t U _ D.
rewrite ifF; last by move: D; rewrite /isdigit /c_minus /=; lia.
rewrite ifF; last by move: D; rewrite /isdigit /c_plus /=; lia.
by move: U => /= ->.
Qed.

Lemma int_text_pairs st z : int_text st z -> pairs_ok st.
Proof.
case=> w1 [w2 [sgn [t [n [A1 A2 -> [g [gs [-> /andP [_ G] Gs _]] H]]]]]].
have W w : all is_white w -> pairs_ok w.
  by move=> A; apply: pairs_ok_none; apply/negP => /(allP A).
have D h : all isdigit h -> pairs_ok h by move=> A; apply: pairs_ok_none; apply/negP => /(allP A).
apply: pairs_ok_cat; first exact: W.
apply: pairs_ok_cat; first by case: H => [[[] -> _]|[-> _]].
apply: pairs_ok_cat; last exact: W.
apply: pairs_ok_cat; first exact: D.
elim: gs Gs => //= h gs IH /andP [/andP [N Hh] /IH Pg].
rewrite -cat_cons; apply: pairs_ok_cat => //; rewrite pairs_ok_cons D // andbT.
by case: h N Hh => //= d h _ /andP [].
Qed.

Lemma py_int_err st : ve (py_int st).
Proof.
rewrite /py_int; case: (strip st) => [|c t] //.
by case: ifP => _; [|case: ifP => _]; apply: ve_bind; exact: int_unsigned_err.
Qed.

(** ** The loop over the terms *)
Lemma digits_unsafe_ie st : ie (digits_unsafe st).
Proof.
elim: st => [|c st IH] /=; first by right.
by case: isdigit => //; apply: ie_bind => // -[ds r] _.
Qed.

Lemma digits_unsafe_size st ds r : digits_unsafe st = Ok (ds, r) -> size st = (size ds + size r)%N.
Proof.
elim: st ds r => [|c st IH] ds r //=; case: isdigit; last by case=> <- <-.
by case E: (digits_unsafe st) => [[ds' r']|e] //=; case=> <- <-; rewrite (IH _ _ E).
Qed.

Lemma digits_safe_size st : (size st = size (digits_safe st).1 + size (digits_safe st).2)%N.
Proof. by elim: st => [|c st IH] //=; case: isdigit => //; case: (digits_safe st) IH => ds r /= ->. Qed.

Lemma skip_var_ie st : ie (skip_var st).
Proof.
case: st => [|c [|d [|e st]]] /=; try (by right);
  do 3 ?[case: ifP => _]; rewrite /ie; by [|right].
Qed.

Lemma skip_var_size st r : skip_var st = Ok r -> (size r <= size st)%N.
Proof.
have D k (s : str) : (size (drop k s) <= size s)%N by rewrite size_drop leq_subr.
case: st => [|c [|d [|e st]]] //=; do 3 ?[case: ifP => _] => //; case=> <- //=;
  rewrite ?drop0 ?size_drop /=; clear; do ?[case: ifP => _] => /=; lia.
Qed.

Lemma int_digits_ie ds : ie (int_digits ds).
Proof. by case: ds => [|c ds] //=; left. Qed.

Lemma read_pow_ie st : ie (read_pow st).
Proof.
case: st => [|c [|d st]] //=; case: ifP => // _; apply: ie_bind; first exact: digits_unsafe_ie.
by case=> ds r _; apply: ie_bind => //; exact: int_digits_ie.
Qed.

Lemma read_pow_size st n r : read_pow st = Ok (n, r) -> (size r <= size st)%N.
Proof.
case: st => [|c [|d st]] /=; try by case=> _ <-.
case: ifP => _; last by case=> _ <-.
case E: (digits_unsafe st) => [[ds r']|e] //=; case: (int_digits ds) => //= m [_ <-].
by have := digits_unsafe_size E; clear; lia.
Qed.

Lemma set_index_ie l i v : ie (set_index l i v).
Proof.
rewrite /set_index; case: ifP => _; first by case: l => //; right.
by case: ifP => // _; right.
Qed.

Lemma set_index_size l i v r : set_index l i v = Ok r -> size r = size l.
Proof.
rewrite /set_index; case: ifP => E.
  by case: l => // a l [<-]; rewrite size_set_nth /=; apply/maxn_idPr.
case: ifP => // H [<-]; rewrite size_set_nth; apply/maxn_idPr.
by case: i E H.
Qed.

Lemma factors_ie fuel st tz : (size st <= fuel)%N -> ie (factors fuel st tz) /\
  forall k r, factors fuel st tz = Ok (k, r) -> (size r <= size st)%N /\ size k = size tz.
Proof.
elim: fuel st tz => [|fuel IH] [|c st] tz H //; try by split=> // k r [<- <-].
case: (c =P c_space) => [->|N]; first by split=> // k r /= [<- <-].
have -> : factors fuel.+1 (c :: st) tz =
    let* st1 := skip_var (c :: st) in
    let '(ds, st2) := digits_safe st1 in
    let* index := int_digits ds in
    let* (pow, st3) := read_pow st2 in
    let* tz' := set_index tz index pow in factors fuel st3 tz' by rewrite /= (introF eqP N).
case E1: (skip_var _) => [st1|e]; last by have := skip_var_ie (c :: st); rewrite E1 => K; split.
have S1 := skip_var_size E1; rewrite bind_ok.
have := digits_safe_size st1; case: (digits_safe st1) => ds st2 /= S2.
case E3: (int_digits ds) => [ix|e]; last by have := int_digits_ie ds; rewrite E3 => K; split.
have P : (0 < size ds)%N by case: ds E3 {S2}.
rewrite bind_ok; case E4: (read_pow st2) => [[pw st3]|e]; last by have := read_pow_ie st2; rewrite E4 => K; split.
have S4 := read_pow_size E4; rewrite bind_ok.
case E5: (set_index _ _ _) => [tz'|e]; last by have := set_index_ie tz ix pw; rewrite E5 => K; split.
rewrite bind_ok; have [|A B] := IH st3 tz'.
  by move: H S1 S2 P S4 => /=; clear; lia.
split=> // k r /B [B1 B2]; split; last by rewrite B2 (set_index_size E5).
by move: B1 S1 S2 S4 => /=; clear; lia.
Qed.

Section Terms.
Variable F : fieldType.

Lemma terms_ie fuel st zt (cs : mpoly F) : (size st <= fuel)%N -> uniq (mkeys cs) ->
  (forall k, k \in mkeys cs -> size k = size zt) ->
  ie (terms fuel st zt cs) /\ forall p, terms fuel st zt cs = Ok p ->
    uniq (mkeys p) /\ forall k, k \in mkeys p -> size k = size zt.
Proof.
elim: fuel st cs => [|fuel IH] [|c st] cs H U S //; try by split=> // p [<-].
rewrite terms_nonempty //.
case E1: (digits_unsafe _) => [[ds st1]|e]; last by have := digits_unsafe_ie (c :: st); rewrite E1 => K; split.
have S1 := digits_unsafe_size E1; rewrite bind_ok.
have [A B] := factors_ie zt (leqnn (size st1)).
case E2: (factors (size st1) st1 zt) A B => [[tz st2]|e] A B; last by split.
have [B1 B2] := B _ _ (erefl _); cbv beta iota zeta; rewrite bind_ok; apply: IH.
- by rewrite size_drop; move: B1 S1 H => /=; clear; lia.
- exact: uniq_set.
by move=> k; rewrite mkeys_set; case: ifP => _; [exact: S|rewrite mem_rcons inE => /orP [/eqP ->|/S]].
Qed.

Lemma str_to_multi_ie st s : ie (str_to_multi F st s) /\
  forall p, str_to_multi F st s = Ok p -> pairs_ok st /\ wf (maxn s (max_digit st)) p.
Proof.
rewrite /str_to_multi; case: (boolP (pairs_ok st)) => P; last first.
  have [x [y [_ _ _ ->]]] := max_sym_bad 0 P; split=> //=.
  by case: y => [|d y]; [right|left].
rewrite max_sym_good // bind_ok max0n; case: ifP => _.
  have := py_int_err st; case: (py_int st) => [n|e]; last by move=> ->; split=> //; left.
  move=> _; rewrite bind_ok; split=> // p E; split=> //.
  have -> : p = mmk [:: (nseq (maxn s (max_digit st)) 0%N, ring_int F n)] by case: E.
  apply: wf_mmk => // k.
  by rewrite inE => /eqP ->; rewrite size_nseq.
have [//|//|A B] := @terms_ie (size st) st (nseq (maxn s (max_digit st)) 0%N) [::] (leqnn _).
case E: (terms _ _ _ _) A B => [p|e] A B //; split=> // q [<-]; split=> //.
have [B1 B2] := B _ (erefl _); rewrite size_nseq in B2; exact: wf_mmk.
Qed.
End Terms.

(** ** CheckforDiv *)
Lemma skip_close_spec st : match skip_close st with
  | Ok r => exists2 x, c_close \notin x & st = x ++ c_close :: r
  | Err e => e = IndexError /\ c_close \notin st
  end.
Proof.
elim: st => [|c st IH] //=; case: (c =P c_close) => [->|N]; first by exists [::].
case: (skip_close st) IH => [r|e].
  by case=> x Nx ->; exists (c :: x) => //; rewrite inE negb_or Nx andbT eq_sym; apply/eqP.
by case=> -> Ns; split=> //; rewrite inE negb_or Ns andbT eq_sym; apply/eqP.
Qed.

Lemma check_loop_total fuel st : (size st <= fuel)%N ->
  match check_loop fuel st with Ok r => subseq r st = true | Err e => e = IndexError end.
Proof.
elim: fuel st => [|fuel IH] [|c st] //= H; case: ifP => _.
  have := skip_close_spec (c :: st); rewrite -/(skip_close (c :: st)).
  case: (skip_close (c :: st)) => [r|e]; last by case=> ->.
  case=> x _ E; rewrite bind_ok.
  have S : (size r <= fuel)%N by have := congr1 size E; rewrite size_cat /=; move: H; clear; lia.
  have := IH r S; case: (check_loop fuel r) => [o|e] //= Hs.
  rewrite eqxx; apply: subseq_trans Hs _.
  case: x E => [[_ ->]|d x [_ ->]]; first exact: subseq_refl.
  by rewrite -cat_rcons suffix_subseq.
by have := IH st H; case: (check_loop fuel st) => [o|e] //= Hs; rewrite eqxx.
Qed.

Lemma check_for_div_total st :
  match check_for_div st with Ok r => subseq r st = true | Err e => e = IndexError end.
Proof.
rewrite /check_for_div; case: (has_F_ st); last exact: subseq_refl.
exact: check_loop_total.
Qed.
