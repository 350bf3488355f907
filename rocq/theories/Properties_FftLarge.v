(** C37, the case of more coefficients than points.  [_fft] recurses on the
    length of the coefficient list, not on the number of roots: short lists
    silently lose the coefficients beyond the number of points, longer ones
    give a list of the wrong length or an IndexError. *)
From mathcomp Require Import zify.
From Verif Require Import Prelude ModpModel ModpField PolyModel PolyProofs InterpModel InterpProofs
  FftModel FftProofs Properties_Fft.
Set Implicit Arguments.
Unset Strict Implicit.
Unset Printing Implicit Defensive.
Import GRing.Theory.
Local Open Scope ring_scope.
Local Open Scope py_scope.

Section Large.
Variable F : fieldType.
Implicit Types (w : F) (c : seq F).

Lemma dft_agree w n c c' : (forall i, (i < n)%N -> nth 0 c i = nth 0 c' i) -> dft w n c = dft w n c'.
Proof. by move=> H; apply: eq_map => i; apply: eq_bigr => j _; rewrite H. Qed.

Lemma dft_take w n c : dft w n c = [seq pcall (take n c) (w ^+ i) | i <- iota 0 n].
Proof.
rewrite -dft_eval; last by rewrite size_take; case: ltnP.
by apply: dft_agree => i Hi; rewrite nth_take.
Qed.

Lemma nb_fft_large fuel p w n c : order_is w n -> (n <= fuel)%N -> (n <= size c)%N ->
  nb_fft fuel p w c = fft_rec c (powers w n).
Proof.
move=> Ho Hf Hc; rewrite /nb_fft /fft_1d (power_loop_order Ho Hf) bind_ok but_last_powers.
by rewrite /pad size_powers ifF //; lia.
Qed.

Lemma set_idx_size (l l' : seq F) i v : set_idx l i v = Ok l' -> size l' = size l.
Proof.
rewrite /set_idx; case: ifP => // Hi [<-]; rewrite size_set_nth; lia.
Qed.

Lemma set_idx_cat (l l' z : seq F) i v : set_idx l i v = Ok l' -> set_idx (l ++ z) i v = Ok (l' ++ z).
Proof.
rewrite /set_idx; case: ifP => // Hi [<-]; rewrite size_cat ifT; last by lia.
congr Ok; elim: l i Hi => // x l IH [|i] //= Hi; by rewrite IH.
Qed.

Definition bstep (roots : seq F) (h : nat) := fun (o : seq F) (ixy : nat * (F * F)) =>
      let '(i, (x, y)) := ixy in
      let* w := idx roots i in
      let y_times_root := y * w in
      let* o := set_idx o i (x + y_times_root) in
      set_idx o (i + h) (x - y_times_root).

Lemma bstep_inv roots h o ixy o' : bstep roots h o ixy = Ok o' ->
  exists w o1, [/\ idx roots ixy.1 = Ok w, set_idx o ixy.1 (ixy.2.1 + ixy.2.2 * w) = Ok o1 &
                   set_idx o1 (ixy.1 + h) (ixy.2.1 - ixy.2.2 * w) = Ok o'].
Proof.
case: ixy => i [x y] /=; case E1: (idx _ _) => [w|] //=.
case E2: (set_idx _ _ _) => [o1|] //= E3; by exists w, o1.
Qed.

Lemma bfold_size roots h l o o' : foldM (bstep roots h) l o = Ok o' -> size o' = size o.
Proof.
elim: l o => [|ixy l IH] o; first by case=> <-.
rewrite /foldM -/(foldM (bstep roots h)); case E: (bstep _ _ _ _) => [o1|] //= /IH ->.
have [w [o2 [_ /set_idx_size E2 /set_idx_size ->]]] := bstep_inv E; exact: E2.
Qed.

Lemma bfold_cat roots h l o o' z : foldM (bstep roots h) l o = Ok o' ->
  foldM (bstep roots h) l (o ++ z) = Ok (o' ++ z).
Proof.
elim: l o => [|ixy l IH] o; first by case=> <-.
rewrite /foldM -/(foldM (bstep roots h)); case E: (bstep _ _ _ _) => [o1|] //= /IH H.
have [w [o2 [E1 E2 E3]]] := bstep_inv E.
have -> : bstep roots h (o ++ z) ixy = Ok (o1 ++ z).
  case: ixy E1 E2 E3 {E} => i [x y] /= -> /= /(set_idx_cat z) -> /=; exact: set_idx_cat.
exact: H.
Qed.

Lemma butterflyE roots L R n :
  butterfly roots L R n = foldM (bstep roots (size L)) (enumerate (zip L R)) (nseq n 0).
Proof. by []. Qed.

Lemma bfold_roots roots h l k o o' : foldM (bstep roots h) (zip (iota k (size l)) l) o = Ok o' ->
  l != [::] -> (k + size l <= size roots)%N.
Proof.
elim: l k o => // -[x y] l IH k o; rewrite [zip _ _]/= /foldM -/(foldM (bstep roots h)).
case E: (bstep _ _ _ _) => [o1|] //= H _.
have [w [_ [E1 _ _]]] := bstep_inv E.
have Hk : (k < size roots)%N.
  move: E1; rewrite /idx /=; case En: (List.nth_error _ _) => [a|] // _.
  have := List.nth_error_Some roots k; rewrite En => -[+ _]; move=> /(_ ltac:(by [])).
  rewrite -[List.length roots]/(size roots); lia.
case: l IH H => [|a l] IH H; first by rewrite /=; lia.
by have := IH _ _ H isT; rewrite /=; lia.
Qed.

Lemma bfft_size f c roots r : (4 < size c)%N -> fft_loop f.+1 c roots = Ok r -> size r = size c.
Proof.
move=> H4 /=; rewrite leqNgt H4 /=.
case: (fft_loop _ _ _) => [L|] //=; case: (fft_loop _ _ _) => [R|] //=.
by rewrite butterflyE => /bfold_size ->; rewrite size_nseq.
Qed.
End Large.

(** At most four coefficients: the transform of the first [n] of them; the
    others are ignored. *)
Theorem C37_short_large : forall (F : fieldType) (fuel : nat) (p : Z) (w : F) (n : nat) (c : seq F),
  order_is w n -> (n <= fuel)%N -> (n <= size c)%N -> (size c <= 4)%N ->
  nb_fft fuel p w c = Ok [seq pcall (take n c) (w ^+ i) | i <- iota 0 n].
Proof.
move=> F fuel p w n c Ho Hf Hn H4; rewrite (nb_fft_large _ Ho Hf Hn) /fft_rec /= H4.
by rewrite simple_ft_ok // ?dft_take //; case: Ho.
Qed.
Print Assumptions C37_short_large.

(** Five to eight coefficients and an even number of points: the same values,
    followed by one zero per surplus coefficient. *)
Theorem C37_medium_large : forall (F : fieldType) (fuel : nat) (p : Z) (w : F) (n : nat) (c : seq F),
  order_is w n -> ~~ odd n -> (n <= fuel)%N -> (n <= size c)%N -> (4 < size c <= 8)%N ->
  nb_fft fuel p w c =
    Ok ([seq pcall (take n c) (w ^+ i) | i <- iota 0 n] ++ nseq (size c - n) 0).
Proof.
move=> F fuel p w n c Ho Hodd Hf Hn H4; rewrite (nb_fft_large _ Ho Hf Hn) -dft_take.
have [h En] : exists h, n = h.*2 by exists n./2; rewrite -[LHS]odd_double_half (negbTE Hodd).
rewrite {n}En in Ho Hodd Hf Hn *.
have [Se Ne] := evensP (0 : F) c; have [So No] := oddsP (0 : F) c.
have Hw2 : (w ^+ 2) ^+ h = 1 by case: (order_sqr Ho).
have Le : fft_loop (size c) (evens c) (evens (powers w h.*2)) = Ok (dft (w ^+ 2) h (evens c)).
  case: (size c) H4 Se Hn => // m H4 Se Hn; rewrite evens_powers /= Se ifT; last by lia.
  by apply: simple_ft_ok => //; rewrite Se; lia.
have Lo : fft_loop (size c) (odds c) (evens (powers w h.*2)) = Ok (dft (w ^+ 2) h (odds c)).
  case: (size c) H4 So Hn => // m H4 So Hn; rewrite evens_powers /= So ifT; last by lia.
  by apply: simple_ft_ok => //; rewrite So; lia.
rewrite /fft_rec [LHS]/= ifF; last by lia.
rewrite Le Lo /= butterflyE.
have -> : nseq (size c) (0 : F) = nseq h.*2 0 ++ nseq (size c - h.*2) 0.
  by rewrite -nseqD; congr nseq; lia.
apply: bfold_cat; rewrite -butterflyE.
have St : size (take h.*2 c) = h.*2 by rewrite size_takel.
have [Se' Ne'] := evensP (0 : F) (take h.*2 c); have [So' No'] := oddsP (0 : F) (take h.*2 c).
rewrite (@dft_agree _ _ _ (evens c) (evens (take h.*2 c))); last first.
  by move=> i Hi; rewrite Ne Ne' nth_take //; lia.
rewrite (@dft_agree _ _ _ (odds c) (odds (take h.*2 c))); last first.
  by move=> i Hi; rewrite No No' nth_take //; lia.
rewrite butterfly_ok //; last exact: order_half.
by congr Ok; apply: dft_agree => i Hi; rewrite nth_take.
Qed.
Print Assumptions C37_medium_large.

(** More than four: a list with one entry per coefficient, so with more
    coefficients than points never the list of values at the points. *)
Theorem C37_long_large : forall (F : fieldType) (fuel : nat) (p : Z) (w : F) (n : nat) (c r : seq F),
  order_is w n -> (n <= fuel)%N -> (n <= size c)%N -> (4 < size c)%N ->
  nb_fft fuel p w c = Ok r -> size r = size c.
Proof.
move=> F fuel p w n c r Ho Hf Hn H4; rewrite (nb_fft_large _ Ho Hf Hn); exact: bfft_size.
Qed.
Print Assumptions C37_long_large.

(** Ten or more, and at least two more than twice the number of points: IndexError. *)
Theorem C37_very_large : forall (F : fieldType) (fuel : nat) (p : Z) (w : F) (n : nat) (c : seq F),
  order_is w n -> (n <= fuel)%N -> (10 <= size c)%N -> (n.*2.+2 <= size c)%N ->
  nb_fft fuel p w c = Err IndexError.
Proof.
move=> F fuel p w n c Ho Hf H10 H2; rewrite (nb_fft_large _ Ho Hf); last by lia.
have := ioe_fft (powers w n) (ltnSn (size c)); rewrite /fft_rec.
case E: (fft_loop _ _ _) => [r|e] //=; last by move=> H; case: e E H.
move=> _; exfalso; move: E; rewrite [fft_loop _ _ _]/= ifF; last by lia.
have [Se _] := evensP (0 : F) c; have [So _] := oddsP (0 : F) c.
case EL: (fft_loop _ _ _) => [L|] //=; case ER: (fft_loop _ _ _) => [R|] //=.
have [m Em] : exists m, size c = m.+1 by exists (size c).-1; lia.
rewrite Em in EL ER.
have SL : size L = size (evens c) by apply: bfft_size EL; lia.
have SR : size R = size (odds c) by apply: bfft_size ER; lia.
have Sz : size (zip L R) = (size c)./2 by rewrite size_zip SL SR Se So; lia.
rewrite butterflyE => /bfold_roots; rewrite Sz size_powers => H.
by have := H ltac:(by rewrite -size_eq0 Sz; lia); lia.
Qed.
Print Assumptions C37_very_large.

(** C36 for the same cases.  Operands of at most four coefficients are cut to the number
    of points, ... *)
Theorem C36_short_large : forall (F : fieldType) (fuel : nat) (w : F) (n : nat) (a b : seq F),
  order_is w n -> (n <= fuel)%N -> (size a <= 4)%N -> (size b <= 4)%N ->
  mul_polys fuel a b w = mul_polys fuel (take n a) (take n b) w.
Proof.
move=> F fuel w n a b Ho Hf Ha Hb; rewrite /mul_polys (power_loop_order Ho Hf) !bind_ok but_last_powers.
suff E c : (size c <= 4)%N -> fft_rec (pad (powers w n.+1) c) (powers w n)
    = fft_rec (pad (powers w n.+1) (take n c)) (powers w n) by rewrite (E a Ha) (E b Hb).
move=> Hc; have [H|H] := leqP (size c) n; first by rewrite take_oversize.
have St : size (take n c) = n by rewrite size_takel // ltnW.
have Pc d : (n <= size d)%N -> pad (powers w n.+1) d = d by move=> Hd; rewrite /pad size_powers ifF //; lia.
rewrite !Pc ?St ?(ltnW H) // /fft_rec /= Hc St ifT; last by lia.
have [_ w1 _] := Ho; rewrite !simple_ft_ok ?St ?(ltnW H) //.
by congr Ok; apply: dft_agree => i Hi; rewrite nth_take.
Qed.
Print Assumptions C36_short_large.

(** ... an unsupported order of the root raises IndexError, ... *)
Theorem C36_unsupported_order : forall (F : fieldType) (fuel : nat) (w : F) (n : nat) (a b : seq F),
  ~ fft_size n -> order_is w n -> (n <= fuel)%N -> (size a <= n)%N ->
  mul_polys fuel a b w = Err IndexError.
Proof.
move=> F fuel w n a b Hn Ho Hf Ha; have := nb_fft_bad 0 Hn Ho Hf Ha.
by rewrite /nb_fft /fft_1d /mul_polys (power_loop_order Ho Hf) !bind_ok => ->.
Qed.
Print Assumptions C36_unsupported_order.

(** ... and root 0 never terminates. *)
Theorem C36_zero_root_diverges : forall (F : fieldType) (fuel : nat) (a b : seq F),
  mul_polys fuel a b 0 = Err Diverges.
Proof.
move=> F fuel a b; rewrite /mul_polys -powers2 power_loop_diverges // => i Hi.
by rewrite expr0n (gtn_eqF Hi) eq_sym oner_neq0.
Qed.
Print Assumptions C36_zero_root_diverges.

Lemma order_4_17 : order_is (in_modp P17 4) 4.
Proof.
split=> //; first exact: mval_inj.
move=> i Hi; have {Hi} : i \in iota 1 3 by rewrite mem_iota.
by move: i; apply/allP; vm_compute.
Qed.

Local Notation z17 l := [seq in_modp P17 z | z <- l].
Example C37_large_example : order_is (in_modp P17 4) 4 /\
  [/\ rmap (map (@mval P17)) (nb_fft 4 17 (in_modp P17 4) (z17 [:: 1; 2; 3; 4]%Z)) = Ok [:: 10; 7; 15; 6]%Z,
      rmap (map (@mval P17)) (nb_fft 4 17 (in_modp P17 4) (z17 [:: 1; 2; 3; 4; 5; 6]%Z))
        = Ok [:: 10; 7; 15; 6; 0; 0]%Z,
      rmap (map (@mval P17)) (nb_fft 4 17 (in_modp P17 4) (z17 [:: 1; 2; 3; 4; 5; 6; 7; 8; 9]%Z))
        = Ok [:: 10; 7; 0; 0; 0; 15; 6; 0; 0]%Z &
      nb_fft 4 17 (in_modp P17 4) (z17 [:: 1; 2; 3; 4; 5; 6; 7; 8; 9; 10]%Z) = Err IndexError].
Proof. split; first exact: order_4_17. by split; vm_compute. Qed.
