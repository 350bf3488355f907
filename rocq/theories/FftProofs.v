From mathcomp Require Import zify.
From Verif Require Import Prelude RingTac FinFld ModpModel ModpField PolyModel PolyProofs InterpModel InterpProofs FftModel.
Set Implicit Arguments.
Unset Strict Implicit.
Unset Printing Implicit Defensive.
Import GRing.Theory.
Local Open Scope ring_scope.
Local Open Scope py_scope.

Lemma bind_ok (A B : Type) (a : A) (f : A -> result B) : bind (Ok a) f = f a.
Proof. by []. Qed.

Section Fft.
Variable F : fieldType.
Implicit Types (w : F) (vals roots : seq F).

Definition powers w n : seq F := [seq w ^+ i | i <- iota 0 n].

Arguments powers : simpl never.

(** the discrete Fourier transform *)
Definition dft w n vals : seq F := [seq \sum_(j < n) vals`_j * w ^+ (i * j) | i <- iota 0 n].
Arguments dft : simpl never.

Lemma size_powers w n : size (powers w n) = n.
Proof. by rewrite size_map size_iota. Qed.
Lemma nth_powers w n i : (i < n)%N -> nth 0 (powers w n) i = w ^+ i.
Proof. by move=> H; rewrite (nth_map 0%N) ?size_iota // nth_iota. Qed.
Lemma size_dft w n vals : size (dft w n vals) = n.
Proof. by rewrite size_map size_iota. Qed.
Lemma nth_dft w n vals i : (i < n)%N ->
  nth 0 (dft w n vals) i = \sum_(j < n) vals`_j * w ^+ (i * j).
Proof. by move=> H; rewrite (nth_map 0%N) ?size_iota // nth_iota. Qed.

(** ** power cycle *)
Lemma powers_last w n : last 1 (powers w n.+1) = w ^+ n.
Proof. by rewrite /powers iota_rcons map_rcons last_rcons. Qed.
Lemma powers_rcons w n : powers w n.+1 = rcons (powers w n) (w ^+ n).
Proof. by rewrite /powers iota_rcons map_rcons. Qed.

Lemma power_loopS f (r : F) z : power_loop f.+1 r z =
  if last 1 z != 1 then power_loop f r (rcons z (last 1 z * r)) else Ok z.
Proof. by []. Qed.

Lemma power_loop_ok w n k fuel : (0 < k)%N -> (k <= n)%N -> w ^+ n = 1 ->
  (forall i, (0 < i < n)%N -> w ^+ i != 1) -> (n - k < fuel)%N ->
  power_loop fuel w (powers w k.+1) = Ok (powers w n.+1).
Proof.
move=> Hk Hkn Hw Hmin; elim: fuel k Hk Hkn => // f IH k Hk Hkn Hf.
rewrite power_loopS powers_last; have [E|Hne] := eqVneq k n; first by rewrite E Hw eqxx.
have Hlt : (k < n)%N by rewrite ltn_neqAle Hne.
rewrite Hmin ?Hk // -exprSr -powers_rcons IH //; lia.
Qed.

Lemma power_loop_diverges w k fuel : (0 < k)%N -> (forall i, (0 < i)%N -> w ^+ i != 1) ->
  power_loop fuel w (powers w k.+1) = Err Diverges.
Proof.
move=> Hk Hmin; elim: fuel k Hk => // f IH k Hk.
by rewrite power_loopS powers_last Hmin // -exprSr -powers_rcons IH.
Qed.

Lemma powers2 w : powers w 2 = [:: 1; w].
Proof. by rewrite /powers /= expr0 expr1. Qed.

Definition order_is w n := [/\ (0 < n)%N, w ^+ n = 1 & forall i, (0 < i < n)%N -> w ^+ i != 1].

Lemma power_loop_order w n fuel : order_is w n -> (n <= fuel)%N ->
  power_loop fuel w [:: 1; w] = Ok (powers w n.+1).
Proof. move=> [H1 H2 H3] Hf; rewrite -powers2; apply: power_loop_ok => //; lia. Qed.

Lemma but_last_powers w n : but_last (powers w n.+1) = powers w n.
Proof.
rewrite /but_last size_powers /= powers_rcons -cats1 takel_cat ?size_powers //.
by rewrite take_oversize ?size_powers.
Qed.

Lemma order_inj w n i j : order_is w n -> (i < n)%N -> (j < n)%N -> w ^+ i = w ^+ j -> i = j.
Proof.
move=> [H1 H2 H3].
have wlogH i' j' : (i' <= j')%N -> (j' < n)%N -> w ^+ i' = w ^+ j' -> i' = j'.
  move=> Hij Hj E; apply/eqP; rewrite eqn_leq Hij /= leqNgt; apply/negP => Hlt.
  have Hd : (0 < n - (j' - i') < n)%N by lia.
  have /negP [] := H3 _ Hd; apply/eqP.
  have Hw : w ^+ i' != 0.
    by apply: expf_neq0; apply: contra_eq_neq H2 => ->; rewrite expr0n (gtn_eqF H1) eq_sym oner_eq0.
  have : w ^+ (n - (j' - i')) * w ^+ j' = w ^+ i'.
    by rewrite -exprD -[in RHS](mul1r (w ^+ i')) -H2 -exprD; congr (_ ^+ _); lia.
  by rewrite -E => /(canRL (mulfK Hw)); rewrite mulfV.
move=> Hi Hj E; have [H|H] := leqP i j; first exact: wlogH.
by apply/esym/wlogH; rewrite // ltnW.
Qed.

Lemma get_power_cycle_spec w n fuel : order_is w n -> (n <= fuel)%N ->
  exists l, [/\ get_power_cycle fuel w = Ok l, size l = n, uniq l &
                forall i, (i < n)%N -> nth 0 l i = w ^+ i].
Proof.
move=> Ho Hf; exists (powers w n); rewrite /get_power_cycle (power_loop_order Ho Hf).
rewrite -[bind _ _]/(Ok (but_last (powers w n.+1))) but_last_powers size_powers; split=> //; last by move=> i; exact: nth_powers.
rewrite map_inj_in_uniq ?iota_uniq // => i j; rewrite !mem_iota !add0n => Hi Hj.
exact: (order_inj Ho).
Qed.

Lemma get_power_cycle_diverges w : (forall i, (0 < i)%N -> w ^+ i != 1) ->
  forall fuel, get_power_cycle fuel w = Err Diverges.
Proof.
by move=> H fuel; rewrite /get_power_cycle -powers2 power_loop_diverges.
Qed.

(** ** _simple_ft *)
Lemma foldM_sum (A : Type) (f : A -> F) (g : A -> result F) (l : seq A) s :
  (forall x, List.In x l -> g x = Ok (f x)) ->
  foldM (fun acc x => let* v := g x in Ok (acc + v)) l s = Ok (s + \sum_(x <- l) f x).
Proof.
elim: l s => [|x l IH] s H /=; first by rewrite big_nil addr0.
rewrite H /=; last by left.
rewrite IH; last by move=> y Hy; apply: H; right.
by rewrite big_cons addrA.
Qed.

Lemma simple_ft_ok w n vals : w ^+ n = 1 -> (n <= size vals)%N ->
  simple_ft vals (powers w n) = Ok (dft w n vals).
Proof.
move=> Hw Hv; rewrite /simple_ft size_powers.
apply: mapM_ok_in => i; rewrite mem_iota add0n => /= Hi.
have H s (l : seq nat) : all (fun j => j < n)%N l ->
  foldM (fun last j => let* v := idx vals j in
     Ok (last + v * nth 0 (powers w n) ((i * j) %% n))) l s =
  Ok (s + \sum_(j <- l) vals`_j * w ^+ (i * j)).
  elim: l s => [|j l IH] s /=; first by rewrite big_nil addr0.
  move=> /andP [Hj Hl]; rewrite (idx_ok 0) ?(leq_trans Hj) //=.
  rewrite nth_powers ?ltn_pmod ?(leq_ltn_trans _ Hj) // IH // big_cons addrA; congr (Ok (_ + _ * _ + _)).
  by rewrite expr_mod.
rewrite H; last by apply/allP => j; rewrite mem_iota.
by rewrite add0r -[n in iota 0 n]subn0 -/(index_iota 0 n) big_mkord.
Qed.

(** ** the recursion *)
Lemma evens_ind (T : Type) (Q : seq T -> Prop) : Q [::] -> (forall x, Q [:: x]) ->
  (forall x y l, Q l -> Q [:: x, y & l]) -> forall l, Q l.
Proof.
move=> H0 H1 H2 l; suff : Q l /\ forall x, Q (x :: l) by case.
elim: l => [|x l [IH1 IH2]]; first by [].
by split=> [|y]; [exact: IH2 | exact: H2].
Qed.

Lemma evensP (T : Type) (d : T) (l : seq T) :
  size (evens l) = uphalf (size l) /\ forall j, nth d (evens l) j = nth d l j.*2.
Proof.
elim/evens_ind: l => [|x|x y l [IH1 IH2]]; first by split=> // j; rewrite !nth_nil.
  by split=> // -[|j] //=; rewrite !nth_nil.
by split=> [|[|j]] //=; rewrite ?IH1 ?IH2.
Qed.
Lemma oddsP (T : Type) (d : T) (l : seq T) :
  size (odds l) = half (size l) /\ forall j, nth d (odds l) j = nth d l j.*2.+1.
Proof.
rewrite /odds; have [H1 H2] := evensP d (behead l).
by split=> [|j]; rewrite ?H1 ?H2 ?size_behead ?nth_behead //; case: (size l).
Qed.

Lemma evens_powers w h : evens (powers w h.*2) = powers (w ^+ 2) h.
Proof.
have [H1 H2] := evensP (0 : F) (powers w h.*2).
apply: (@eq_from_nth _ 0); first by rewrite H1 !size_powers uphalf_double.
move=> i; rewrite H1 size_powers uphalf_double => Hi.
by rewrite H2 !nth_powers ?ltn_double // -exprM mul2n.
Qed.

Lemma sum_split (V : zmodType) (f : nat -> V) h :
  \sum_(j < h.*2) f j = \sum_(j < h) f j.*2 + \sum_(j < h) f j.*2.+1.
Proof.
elim: h => [|h IH]; first by rewrite !big_ord0 addr0.
by rewrite doubleS !big_ord_recr /= IH -!addrA; congr (_ + _); rewrite addrCA !addrA.
Qed.

Lemma dft_split w h vals i : size vals = h.*2 -> w ^+ h = -1 -> (i < h)%N ->
  let L := dft (w ^+ 2) h (evens vals) in let R := dft (w ^+ 2) h (odds vals) in
  nth 0 (dft w h.*2 vals) i = nth 0 L i + nth 0 R i * w ^+ i /\
  nth 0 (dft w h.*2 vals) (h + i) = nth 0 L i - nth 0 R i * w ^+ i.
Proof.
move=> Hs Hw Hi L R; have [_ E] := evensP (0 : F) vals; have [_ O] := oddsP (0 : F) vals.
have w2 : w ^+ h.*2 = 1 by rewrite -muln2 exprM Hw sqrrN expr1n.
rewrite /L /R !nth_dft //; try lia.
rewrite !(sum_split (fun j => vals`_j * w ^+ (_ * j))).
have EL : \sum_(j < h) (evens vals)`_j * (w ^+ 2) ^+ (i * j) =
   \sum_(j < h) vals`_j.*2 * w ^+ (i * j.*2).
  by apply: eq_bigr => j _; rewrite E -exprM; congr (_ * _ ^+ _); lia.
have ER : (\sum_(j < h) (odds vals)`_j * (w ^+ 2) ^+ (i * j)) * w ^+ i =
   \sum_(j < h) vals`_j.*2.+1 * w ^+ (i * j.*2.+1).
  rewrite mulr_suml; apply: eq_bigr => j _; rewrite O -exprM -mulrA -exprD.
  by congr (_ * _ ^+ _); lia.
split; rewrite EL ER //; congr (_ + _).
  apply: eq_bigr => j _; congr (_ * _).
  rewrite mulnDl exprD -[RHS]mul1r; congr (_ * _).
  by rewrite -[j.*2]mul2n mulnA muln2 exprM w2 expr1n.
rewrite -sumrN; apply: eq_bigr => j _; rewrite -mulrN; congr (_ * _).
rewrite mulnDl exprD -[RHS]mulN1r; congr (_ * _).
by rewrite -[j.*2.+1]add1n mulnDr muln1 exprD Hw -[j.*2]mul2n mulnA muln2 exprM w2 expr1n mulr1.
Qed.

Lemma butterfly_loop h roots (xy : seq (F * F)) k o :
  (k + size xy = h)%N -> size o = h.*2 -> (h <= size roots)%N ->
  exists o', [/\ foldM (fun o (ixy : nat * (F * F)) =>
      let '(i, (x, y)) := ixy in
      let* w := idx roots i in
      let y_times_root := y * w in
      let* o := set_idx o i (x + y_times_root) in
      set_idx o (i + h) (x - y_times_root)) (zip (iota k (size xy)) xy) o = Ok o',
    size o' = h.*2 &
    forall i, nth 0 o' i =
      if (k <= i < h)%N then (nth (0, 0) xy (i - k)).1 + (nth (0, 0) xy (i - k)).2 * roots`_i
      else if (h + k <= i < h.*2)%N
      then (nth (0, 0) xy (i - h - k)).1 - (nth (0, 0) xy (i - h - k)).2 * roots`_(i - h)
      else nth 0 o i].
Proof.
elim: xy k o => [|[x y] xy IH] k o /= Hk Ho Hr.
  exists o; split=> // i; have -> : (k <= i < h)%N = false by lia.
  by have -> : (h + k <= i < h.*2)%N = false by lia.
rewrite (idx_ok 0) /=; last by lia.
rewrite /set_idx ifT ?Ho /=; last by lia.
rewrite size_set_nth ifT; last by lia.
set o1 := set_nth 0 _ (k + h) _.
have S1 : size o1 = h.*2 by rewrite !size_set_nth Ho; lia.
have [|o' [E So N]] := IH k.+1 o1 _ S1 Hr; first by lia.
exists o'; split=> // i; rewrite N.
have [->|Hik] := eqVneq i k.
  have -> : (k < k < h)%N = false by lia.
  have -> : (h + k.+1 <= k < h.*2)%N = false by lia.
  have -> : (k <= k < h)%N by lia.
  by rewrite subnn /= nth_set_nth /= nth_set_nth /= eqxx; case: eqP => //; lia.
have [->|Hik2] := eqVneq i (k + h)%N.
  have -> : (k < k + h < h)%N = false by lia.
  have -> : (h + k.+1 <= k + h < h.*2)%N = false by lia.
  have -> : (k <= k + h < h)%N = false by lia.
  have -> : (h + k <= k + h < h.*2)%N by lia.
  by rewrite addnK subnn /= nth_set_nth /= eqxx.
have -> : (k < i < h)%N = (k <= i < h)%N by lia.
have -> : (h + k.+1 <= i < h.*2)%N = (h + k <= i < h.*2)%N by lia.
case: ifP => H1.
  by have -> : (i - k = (i - k.+1).+1)%N by lia.
case: ifP => H2.
  by have -> : (i - h - k = (i - h - k.+1).+1)%N by lia.
by rewrite nth_set_nth /= (negbTE Hik2) nth_set_nth /= (negbTE Hik).
Qed.

Lemma butterfly_ok w h vals : size vals = h.*2 -> w ^+ h = -1 ->
  butterfly (powers w h.*2) (dft (w ^+ 2) h (evens vals)) (dft (w ^+ 2) h (odds vals)) h.*2
  = Ok (dft w h.*2 vals).
Proof.
move=> Hs Hw; rewrite /butterfly size_dft /enumerate.
set xy := zip (dft _ _ _) _; have Sxy : size xy = h by rewrite size_zip !size_dft minnn.
have [|||o' [-> So N]] := @butterfly_loop h (powers w h.*2) xy 0 (nseq h.*2 0).
- by rewrite Sxy.
- by rewrite size_nseq.
- by rewrite size_powers; lia.
congr Ok; apply: (@eq_from_nth _ 0); first by rewrite So size_dft.
move=> i; rewrite So => Hi; rewrite N.
have nxy j : (j < h)%N -> nth (0, 0) xy j = ((dft (w ^+ 2) h (evens vals))`_j, (dft (w ^+ 2) h (odds vals))`_j).
  by move=> Hj; rewrite nth_zip // !size_dft.
case: ifP => H1.
  rewrite subn0 nxy; last by lia.
  rewrite /= nth_powers //; have [|-> _] := dft_split Hs Hw (i := i); first by lia.
  by [].
have H2 : (h + 0 <= i < h.*2)%N by lia.
rewrite H2 subn0 nxy; last by lia.
rewrite /= nth_powers; last by lia.
have Hi' : (i - h < h)%N by lia.
have [_] := dft_split Hs Hw Hi'.
by rewrite subnKC //; lia.
Qed.

(** sizes for which the recursion reaches the base case without odd splits *)
Definition fft_size (n : nat) := exists m k, [/\ (0 < m)%N, (m <= 4)%N & n = (m * 2 ^ k)%N].

Lemma fft_size_half n : fft_size n -> (4 < n)%N -> exists h, n = h.*2 /\ fft_size h.
Proof.
move=> [m [[|k] [Hm H4 ->]]] Hn; first by move: Hn; rewrite expn0 muln1; lia.
exists (m * 2 ^ k)%N; split; first by rewrite expnS; lia.
by exists m, k.
Qed.

Lemma order_half w h : order_is w h.*2 -> w ^+ h = -1.
Proof.
move=> [H1 H2 H3].
have /eqP : w ^+ h ^+ 2 = 1 by rewrite -exprM muln2.
rewrite sqrf_eq1 => /orP [/eqP E|/eqP //].
by have := H3 h; rewrite E eqxx => H; exfalso; apply/negP; [apply: H; lia|].
Qed.

Lemma order_sqr w h : order_is w h.*2 -> order_is (w ^+ 2) h.
Proof.
move=> [H1 H2 H3]; split; [lia | by rewrite -exprM mul2n |].
by move=> i Hi; rewrite -exprM mul2n; apply: H3; lia.
Qed.

Lemma fft_loop_ok fuel w n vals : fft_size n -> order_is w n -> size vals = n -> (n < fuel)%N ->
  fft_loop fuel vals (powers w n) = Ok (dft w n vals).
Proof.
elim: fuel w n vals => // f IH w n vals Hn Ho Hs Hf /=; rewrite Hs.
case: leqP => H4.
  by apply: simple_ft_ok; rewrite ?Hs //; case: Ho.
have [h [En Hh]] := fft_size_half Hn H4; rewrite {}En in Ho Hs Hf H4 *.
rewrite evens_powers.
have [Se _] := evensP (0 : F) vals; have [So _] := oddsP (0 : F) vals.
rewrite Hs in Se So; rewrite uphalf_double in Se; rewrite doubleK in So.
rewrite !IH ?Se ?So //; try exact: order_sqr; try lia.
by apply: butterfly_ok => //; exact: order_half.
Qed.

Lemma fft_rec_ok w n vals : fft_size n -> order_is w n -> size vals = n ->
  fft_rec vals (powers w n) = Ok (dft w n vals).
Proof. by move=> H1 H2 H3; apply: fft_loop_ok; rewrite ?H3. Qed.

(** ** fft_1d *)
Lemma padP w n c : (size c <= n)%N ->
  size (pad (powers w n.+1) c) = n /\ forall i, nth 0 (pad (powers w n.+1) c) i = nth 0 c i.
Proof.
move=> Hc; rewrite /pad size_powers; case: ifP => H.
  rewrite size_cat size_nseq; split; first by lia.
  move=> i; rewrite nth_cat; case: ltnP => // Hi.
  by rewrite nth_nseq if_same nth_default.
by split=> //; lia.
Qed.

Lemma dft_ext w n c c' : (forall i, nth 0 c i = nth 0 c' i) -> dft w n c = dft w n c'.
Proof. by move=> H; apply: eq_map => i; apply: eq_bigr => j _; rewrite H. Qed.

Lemma dft_eval w n c : (size c <= n)%N -> dft w n c = [seq pcall c (w ^+ i) | i <- iota 0 n].
Proof.
move=> Hc; apply: eq_map => i; rewrite pcall_sum.
rewrite [RHS](big_ord_widen n (fun j => c`_j * w ^+ i ^+ j)) // [RHS]big_mkcond /=.
apply: eq_bigr => j _; rewrite -exprM; case: ltnP => // Hj.
by rewrite nth_default ?mul0r.
Qed.

Lemma nb_fft_ok fuel p w n c : fft_size n -> order_is w n -> (n <= fuel)%N -> (size c <= n)%N ->
  nb_fft fuel p w c = Ok (dft w n c).
Proof.
move=> Hn Ho Hf Hc; rewrite /nb_fft /fft_1d (power_loop_order Ho Hf) bind_ok.
have [Hp1 Hp2] := padP w Hc.
by rewrite but_last_powers fft_rec_ok // (dft_ext _ _ Hp2).
Qed.

Lemma order_unit w n : order_is w n -> w != 0.
Proof.
by move=> [H1 H2 _]; apply: contra_eq_neq H2 => ->; rewrite expr0n (gtn_eqF H1) eq_sym oner_eq0.
Qed.

Lemma order_inv w n : order_is w n -> order_is w^-1 n.
Proof.
move=> [H1 H2 H3]; split=> //; first by rewrite exprVn H2 invr1.
by move=> i Hi; rewrite exprVn invr_eq1 H3.
Qed.

Lemma rev_powers w n : order_is w n -> rev_but_first (powers w n.+1) = powers w^-1 n.
Proof.
move=> Ho; have Hw := order_unit Ho; have [_ H2 _] := Ho.
have Sb : size (behead (powers w n.+1)) = n by rewrite size_behead size_powers.
apply: (@eq_from_nth _ 0); first by rewrite /rev_but_first size_rev Sb size_powers.
move=> i; rewrite /rev_but_first size_rev Sb => Hi.
rewrite nth_rev Sb // nth_behead !nth_powers //; last by lia.
have -> : (n - i.+1).+1 = (n - i)%N by lia.
by rewrite exprVn -[w ^+ (n - i)](mulfK (expf_neq0 i Hw)) -exprD subnK ?H2 ?mul1r // ltnW.
Qed.

Lemma unity_sum (z : F) n : z ^+ n = 1 -> \sum_(j < n) z ^+ j = if z == 1 then n%:R else 0.
Proof.
move=> Hz; case: eqP => [->|/eqP Hne].
  by rewrite (eq_bigr (fun _ => 1)) => [|j _]; rewrite ?expr1n // sumr_const card_ord.
have /eqP := subrX1 z n; rewrite Hz subrr eq_sym mulf_eq0 subr_eq0 (negbTE Hne) /=.
by move=> /eqP.
Qed.

Lemma dft_inverse w n v : order_is w n -> size v = n ->
  dft w^-1 n (dft w n v) = [seq n%:R * x | x <- v].
Proof.
move=> Ho Hv; have Hw := order_unit Ho; have [H1 H2 H3] := Ho.
apply: (@eq_from_nth _ 0); first by rewrite size_dft size_map Hv.
move=> i; rewrite size_dft => Hi; rewrite nth_dft // (nth_map 0) ?Hv //.
under eq_bigr => j _ do rewrite nth_dft // mulr_suml.
rewrite exchange_big /=.
have E l : \sum_(j < n) v`_l * w ^+ (j * l) * w^-1 ^+ (i * j) =
   v`_l * (if w ^+ l * w^-1 ^+ i == 1 then n%:R else 0).
  rewrite -unity_sum; last by rewrite exprMn -!exprM !(mulnC _ n) !exprM H2 exprVn H2 invr1 !expr1n mulr1.
  rewrite mulr_sumr; apply: eq_bigr => j _.
  by rewrite -mulrA exprMn -!exprM; congr (_ * (_ ^+ _ * _ ^+ _)); lia.
under eq_bigr => l _ do rewrite E.
rewrite (bigD1 (Ordinal Hi)) //= exprVn mulfV ?expf_neq0 // eqxx mulrC big1 ?addr0 // => l Hl.
case: eqP => [El|]; last by rewrite mulr0.
case/eqP: Hl; apply: val_inj => /=; apply: (order_inj Ho) => //.
by rewrite -[LHS](mulfVK (expf_neq0 i Hw)) El mul1r.
Qed.

Lemma order_natr w n (p : nat) : order_is w n -> p \in [char F] -> n%:R != 0 :> F.
Proof.
move=> [H1 H2 H3] Hp; rewrite -(dvdn_charf Hp); apply/negP => /dvdnP [m En].
have Hp1 := prime_gt1 (charf_prime Hp).
have Hm : (0 < m < n)%N.
  have H0 : (0 < m)%N by rewrite lt0n; apply: contraTneq H1 => E0; rewrite En E0.
  by rewrite H0 En ltn_Pmulr.
have /negP [] := H3 m Hm; rewrite -subr_eq0.
have : (w ^+ m - 1) ^+ p = 0.
  rewrite -[X in (_ - X) ^+ p](expr1n _ 1) -(Frobenius_autE Hp) rmorphB /= !Frobenius_autE.
  by rewrite -exprM -En H2 !expr1n subrr.
by move=> /eqP; rewrite expf_eq0 => /andP [].
Qed.

Lemma invlen_ok n (p : nat) : p \in [char F] -> n%:R != 0 :> F ->
  (Z.to_nat (Z.of_nat n ^ (Z.of_nat p - 2) mod Z.of_nat p))%:R * n%:R = 1 :> F.
Proof.
move=> Hp Hn; have Hp1 := prime_gt1 (charf_prime Hp).
have -> : Z.to_nat (Z.of_nat n ^ (Z.of_nat p - 2) mod Z.of_nat p) = (n ^ (p - 2) %% p)%N.
  have -> : (Z.of_nat p - 2 = Z.of_nat (p - 2))%Z by lia.
  have -> : (Z.of_nat n ^ Z.of_nat (p - 2) = Z.of_nat (n ^ (p - 2)))%Z.
    elim: (p - 2)%N => [|k IH] //; rewrite Nat2Z.inj_succ Z.pow_succ_r; last by lia.
    by rewrite IH expnS; lia.
  move: (n ^ (p - 2))%N => N; move: (p) Hp1 => q Hq.
  have := divn_eq N q; have := ltn_pmod N (ltnW Hq).
  move: (N %/ q)%N (N %% q)%N => a b Hb ->.
  rewrite -(Z.mod_unique_pos (Z.of_nat (a * q + b)) (Z.of_nat q) (Z.of_nat a) (Z.of_nat b)) ?Nat2Z.id //; first by lia.
  by rewrite Nat2Z.inj_add Nat2Z.inj_mul Z.mul_comm.
rewrite (GRing.natr_mod_char Hp) natrX -exprSr.
apply: (mulIf Hn); rewrite mul1r -exprSr.
have -> : (p - 2).+2 = p by lia.
by rewrite -(Frobenius_autE Hp) rmorph_nat.
Qed.

Lemma nb_inv_coeffs fuel (p : nat) w n v : p \in [char F] -> fft_size n -> order_is w n ->
  (n <= fuel)%N -> size v = n ->
  fft_1d fuel v (Z.of_nat p) w true = Ok [seq x * n%:R^-1 | x <- dft w^-1 n v].
Proof.
move=> Hp Hn Ho Hf Hv; rewrite /fft_1d (power_loop_order Ho Hf) bind_ok.
rewrite rev_powers //.
have [|Hp1 Hp2] := @padP w n v; first by rewrite Hv.
have Ov := order_inv Ho.
rewrite fft_rec_ok // Hp1 (dft_ext _ _ Hp2) bind_ok; congr Ok; apply: eq_map => x; congr (_ * _).
have Hn0 := order_natr Ho Hp.
by rewrite -[LHS](mulfK Hn0) invlen_ok // mul1r.
Qed.

Lemma map_scale_inv n (l : seq F) : n%:R != 0 :> F -> [seq x * n%:R^-1 | x <- [seq n%:R * x | x <- l]] = l.
Proof.
by move=> H; rewrite -map_comp -[RHS]map_id; apply: eq_map => x /=; rewrite mulrC mulKf.
Qed.

Lemma inv_fft_fft fuel (p : nat) w n c : p \in [char F] -> fft_size n -> order_is w n ->
  (n <= fuel)%N -> normal c -> (size c <= n)%N ->
  (let* v := nb_fft fuel (Z.of_nat p) w c in nb_inv_fft fuel (Z.of_nat p) w v) = Ok c.
Proof.
move=> Hp Hn Ho Hf Hc Hs; rewrite (nb_fft_ok _ Hn Ho Hf Hs) bind_ok.
rewrite /nb_inv_fft (nb_inv_coeffs Hp Hn Ho Hf) ?size_dft // bind_ok; congr Ok.
have [Sp Np] := padP w Hs.
rewrite -(dft_ext w n Np) dft_inverse // map_scale_inv; last exact: order_natr Ho Hp.
rewrite -[RHS](pmk_normal Hc) !pmkE; congr polyseq; apply/polyP=> i.
by rewrite !coef_Poly Np.
Qed.

Lemma fft_inv_fft fuel (p : nat) w n v : p \in [char F] -> fft_size n -> order_is w n ->
  (n <= fuel)%N -> size v = n ->
  (let* c := nb_inv_fft fuel (Z.of_nat p) w v in nb_fft fuel (Z.of_nat p) w c) = Ok v.
Proof.
move=> Hp Hn Ho Hf Hv.
rewrite /nb_inv_fft (nb_inv_coeffs Hp Hn Ho Hf) // bind_ok.
set c := [seq _ | x <- _]; have Sc : size c = n by rewrite size_map size_dft.
have Hs : (size (pmk c) <= n)%N by rewrite pmkE -Sc size_Poly.
rewrite (nb_fft_ok _ Hn Ho Hf Hs); congr Ok.
have Ec i : nth 0 (pmk c) i = nth 0 c i by rewrite pmkE coef_Poly.
rewrite (dft_ext w n Ec).
have : dft w^-1^-1 n (dft w^-1 n v) = [seq n%:R * x | x <- v] by apply: dft_inverse => //; exact: order_inv.
rewrite invrK => E.
have Hn0 := order_natr Ho Hp.
rewrite -[RHS](map_scale_inv v Hn0) -E.
apply: (@eq_from_nth _ 0); first by rewrite size_dft [in RHS]size_map size_dft.
move=> i; rewrite size_dft => Hi; rewrite (nth_map 0) ?size_dft // !nth_dft // mulr_suml.
apply: eq_bigr => j _; rewrite (nth_map 0) ?size_dft //.
by rewrite mulrAC.
Qed.

(** ** mul_polys *)
Lemma mul_polys_ok fuel w n a b : fft_size n -> order_is w n -> (n <= fuel)%N ->
  (size a <= n)%N -> (size b <= n)%N ->
  exists r, [/\ mul_polys fuel a b w = Ok r, size r = n &
     Poly r = n%:R *: ((Poly a * Poly b) %% ('X^n - 1))].
Proof.
move=> Hn Ho Hf Ha Hb; rewrite /mul_polys (power_loop_order Ho Hf) bind_ok.
rewrite rev_powers // but_last_powers.
have [Sa Na] := padP w Ha; have [Sb Nb] := padP w Hb; have Ov := order_inv Ho.
rewrite fft_rec_ok // bind_ok fft_rec_ok // bind_ok (dft_ext _ _ Na) (dft_ext _ _ Nb).
set v := [seq _ | xy <- _].
have Sv : size v = n by rewrite size_map size_zip !size_dft minnn.
rewrite fft_rec_ok //; exists (dft w^-1 n v); rewrite size_dft; split=> //.
have [n0 wn _] := Ho.
have Sm : size ('X^n - 1 : {poly F}) = n.+1 by rewrite size_Xn_sub_1.
have M0 : ('X^n - 1 : {poly F}) != 0 by rewrite -size_poly_eq0 Sm.
set C := (Poly a * Poly b) %% _.
have SC : (size C <= n)%N by rewrite -ltnS -Sm ltn_modp.
have Ev : v = dft w n C.
  apply: (@eq_from_nth _ 0); first by rewrite Sv size_dft.
  move=> i; rewrite Sv => Hi; rewrite (nth_map (0, 0)) ?size_zip ?size_dft ?minnn //.
  rewrite nth_zip ?size_dft // !dft_eval // !(nth_map 0%N) ?size_iota // nth_iota // add0n.
  rewrite /= !pcallE polyseqK -hornerM (divp_eq (Poly a * Poly b) ('X^n - 1)) -/C hornerD hornerM.
  by rewrite hornerD hornerN hornerXn hornerC -exprM mulnC exprM wn expr1n subrr mulr0 add0r.
have [SCp NCp] := padP w SC.
rewrite Ev -(dft_ext w n NCp) dft_inverse //; apply/polyP=> i.
rewrite coefZ coef_Poly; case: (ltnP i n) => Hi; first by rewrite (nth_map 0) ?SCp // NCp.
by rewrite !nth_default ?size_map ?SCp ?mulr0 // (leq_trans SC).
Qed.

(** ** unsupported sizes *)
Definition ioe (A : Type) (r : result A) : Prop := if r is Err e then e = IndexError else True.

Lemma ioe_bind (A B : Type) (r : result A) (f : A -> result B) :
  ioe r -> (forall a, ioe (f a)) -> ioe (bind r f).
Proof. by case: r => [a _ H|e H _] /=. Qed.
Lemma ioe_foldM (A S : Type) (f : S -> A -> result S) l s : (forall s x, ioe (f s x)) -> ioe (foldM f l s).
Proof. by move=> H; elim: l s => //= x l IH s; apply: ioe_bind. Qed.
Lemma ioe_mapM (A B : Type) (f : A -> result B) l : (forall x, ioe (f x)) -> ioe (mapM f l).
Proof. by move=> H; elim: l => //= x l IH; apply: ioe_bind => // y; apply: ioe_bind. Qed.
Lemma ioe_idx (T : Type) (l : seq T) i : ioe (idx l i).
Proof. by rewrite /idx; case: List.nth_error. Qed.
Lemma ioe_set_idx (l : seq F) i v : ioe (set_idx l i v).
Proof. by rewrite /set_idx; case: ifP. Qed.

Lemma ioe_fft fuel vals roots : (size vals < fuel)%N -> ioe (fft_loop fuel vals roots).
Proof.
elim: fuel vals roots => // f IH vals roots Hf /=; case: leqP => H4.
  by apply: ioe_mapM => i; apply: ioe_foldM => s j; apply: ioe_bind; [exact: ioe_idx|].
have [Se _] := evensP (0 : F) vals; have [So _] := oddsP (0 : F) vals.
apply: ioe_bind; first by apply: IH; rewrite Se uphalf_half; lia.
move=> L; apply: ioe_bind; first by apply: IH; rewrite So; lia.
move=> R; apply: ioe_foldM => o [i [x y]]; apply: ioe_bind; first exact: ioe_idx.
by move=> w; apply: ioe_bind => [|o']; exact: ioe_set_idx.
Qed.

Lemma simple_ft_short vals roots : (size vals < size roots)%N ->
  simple_ft vals roots = Err IndexError.
Proof.
rewrite /simple_ft; set L := size roots => HL.
pose g i := fun (last : F) j => let* v := idx vals j in Ok (last + v * nth 0 roots ((i * j) %% L)).
have Hg i s : foldM (g i) (iota 0 L) s = Err IndexError.
  have -> : L = (size vals + (L - size vals).-1.+1)%N by lia.
  rewrite iotaD add0n.
  have : all (fun j => j < size vals)%N (iota 0 (size vals)) by apply/allP => j; rewrite mem_iota.
  elim: (iota 0 (size vals)) s => [|j l IH] s /=.
    by move=> _; rewrite /g /idx (_ : List.nth_error _ _ = None) //; apply/List.nth_error_None.
  by move=> /andP [Hj Hl]; rewrite /g (idx_ok 0) //=; exact: IH.
have L0 : (0 < L)%N by lia.
have {2}-> : iota 0 L = 0%N :: iota 1 L.-1 by rewrite -{1}(prednK L0).
by rewrite /mapM -/(@mapM nat F) (Hg 0%N).
Qed.

Lemma fft_short fuel vals roots : (size vals < fuel)%N -> (size vals < size roots)%N ->
  fft_loop fuel vals roots = Err IndexError.
Proof.
elim: fuel vals roots => // f IH vals roots Hf Hr /=; case: leqP => H4; first exact: simple_ft_short.
have [Se _] := evensP (0 : F) vals; have [So _] := oddsP (0 : F) vals.
have [Sr _] := evensP (0 : F) roots.
have := @ioe_fft f (evens vals) (evens roots).
case: (fft_loop f (evens vals) _) => [L _|e H] /=; last first.
  by rewrite H // Se uphalf_half; lia.
by rewrite IH // So ?Sr ?uphalf_half; lia.
Qed.

Lemma fft_bad_size fuel vals roots n : (size vals < fuel)%N -> size vals = n -> size roots = n ->
  (0 < n)%N -> ~ fft_size n -> fft_loop fuel vals roots = Err IndexError.
Proof.
elim: fuel vals roots n => // f IH vals roots n Hf Hv Hr n0 Hn.
rewrite /= Hv; case: leqP => H4.
  by case: Hn; exists n, 0%N; rewrite muln1.
have [Se _] := evensP (0 : F) vals; have [So _] := oddsP (0 : F) vals.
have [Sr _] := evensP (0 : F) roots.
rewrite Hv in Se So; rewrite Hr in Sr.
case E : (odd n).
  have := @ioe_fft f (evens vals) (evens roots).
  case: (fft_loop f (evens vals) _) => [L _|e H] /=; last first.
    by rewrite H // Se uphalf_half; lia.
  by rewrite fft_short // So ?Sr ?uphalf_half ?E; lia.
rewrite (IH _ _ (half n)) ?Se ?Sr ?uphalf_half ?E ?add0n //; try lia.
move=> [m [k [A B C]]]; apply: Hn; exists m, k.+1; split=> //.
by rewrite expnS mulnCA -C mul2n -[LHS]odd_double_half E.
Qed.

Lemma nb_fft_bad fuel p w n c : ~ fft_size n -> order_is w n -> (n <= fuel)%N -> (size c <= n)%N ->
  nb_fft fuel p w c = Err IndexError.
Proof.
move=> Hn Ho Hf Hc; rewrite /nb_fft /fft_1d (power_loop_order Ho Hf) bind_ok.
have [Hp1 Hp2] := padP w Hc; rewrite but_last_powers.
by apply: (@fft_bad_size _ _ _ n); rewrite ?Hp1 ?size_powers //; case: Ho.
Qed.

Lemma fft_zero_root fuel p c inv : fft_1d fuel c p (0 : F) inv = Err Diverges.
Proof.
rewrite /fft_1d -powers2 power_loop_diverges // => i Hi.
by rewrite expr0n (gtn_eqF Hi) eq_sym oner_neq0.
Qed.

Lemma nb_fft_spec fuel p w n c : fft_size n -> order_is w n -> (n <= fuel)%N -> (size c <= n)%N ->
  nb_fft fuel p w c = Ok [seq pcall c (w ^+ i) | i <- iota 0 n].
Proof. by move=> H1 H2 H3 H4; rewrite (nb_fft_ok _ H1 H2 H3 H4) dft_eval. Qed.

(** cyclic convolution, coefficient by coefficient *)
Lemma cyclic_coef n (p : {poly F}) k : (0 < n)%N -> (size p <= n.*2)%N -> (k < n)%N ->
  (p %% ('X^n - 1))`_k = p`_k + p`_(n + k).
Proof.
move=> n0 Hp Hk.
have Sm : size ('X^n - 1 : {poly F}) = n.+1 by rewrite size_Xn_sub_1.
pose lo := \poly_(i < n) p`_i; pose hi := \poly_(i < n) p`_(n + i).
have Ep : p = hi * ('X^n - 1) + (lo + hi).
  rewrite mulrBr mulr1 addrCA subrK; apply/polyP => i; rewrite coefD coefMXn !coef_poly.
  case: (ltnP i n) => Hi; first by rewrite addr0.
  rewrite add0r; case: ltnP => Hi2; first by rewrite subnKC.
  by rewrite nth_default //; apply: (leq_trans Hp); lia.
have -> : p %% ('X^n - 1) = lo + hi.
  rewrite {1}Ep modp_addl_mul_small // Sm ltnS.
  by apply: (leq_trans (size_add _ _)); rewrite geq_max !size_poly.
by rewrite coefD !coef_poly Hk.
Qed.

Lemma mul_polys_spec fuel w n a b : fft_size n -> order_is w n -> (n <= fuel)%N ->
  (size a <= n)%N -> (size b <= n)%N ->
  exists r, [/\ mul_polys fuel a b w = Ok r, size r = n &
     forall k, (k < n)%N -> nth 0 r k =
       n%:R * (nth 0 (Poly a * Poly b) k + nth 0 (Poly a * Poly b) (n + k))].
Proof.
move=> Hn Ho Hf Ha Hb; have [r [E S P]] := mul_polys_ok Hn Ho Hf Ha Hb.
exists r; split=> // k Hk.
have := congr1 (fun q : {poly F} => q`_k) P; rewrite coef_Poly coefZ => ->; congr (_ * _).
have [n0 _ _] := Ho; apply: cyclic_coef => //.
apply: (leq_trans (size_mul_leq _ _)).
have := leq_trans (size_Poly a) Ha; have := leq_trans (size_Poly b) Hb.
by move: (size (Poly a)) (size (Poly b)) => x y; lia.
Qed.
End Fft.

Lemma finite_order (F : finFieldType) (w : F) :
  (w != 0 -> exists n, order_is w n /\ (n < #|F|)%N) /\
  (w = 0 -> forall fuel, get_power_cycle fuel w = Err Diverges).
Proof.
split=> [Hw|->]; last first.
  apply: get_power_cycle_diverges => i Hi.
  by rewrite expr0n (gtn_eqF Hi) eq_sym oner_neq0.
have H1 : w ^+ (#|F|.-1) = 1.
  by apply: (mulIf Hw); rewrite -exprSr prednK ?expf_card ?mul1r // ltnW // card_gt1.
have Hc := card_gt1 F.
have ex : exists n, (0 < n)%N && (w ^+ n == 1).
  by exists #|F|.-1; rewrite H1 eqxx andbT -ltnS prednK // ltnW.
exists (ex_minn ex); case: ex_minnP => n /andP [H0 /eqP Hn] Hmin; split.
  split=> // i /andP [Hi Hlt]; apply/negP => Hi1.
  by have := Hmin i; rewrite Hi Hi1 leqNgt Hlt => /(_ isT).
have := Hmin #|F|.-1; rewrite H1 eqxx andbT.
by move: (#|_|) Hc H0 => c; lia.
Qed.
