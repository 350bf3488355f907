(** Proofs about starks/test/Logistic_Regression.py. *)
From Coq Require Import Bool ZArith List Lia ssreflect ssrbool.
From Verif Require Import Base LogisticModel.
Import ListNotations.
Local Open Scope Z_scope.

(** ** Binary digits *)
Definition bit (val : Z) (i : nat) : Z := Z.b2z (Z.testbit val (Z.of_nat i)).

Lemma bit_ch v i : 48 + bit v i = ch_0 \/ 48 + bit v i = ch_1.
Proof. by rewrite /bit; case: Z.testbit; [right|left]. Qed.

Lemma bin_pos_app p acc : bin_pos p acc = bin_pos p [] ++ acc.
Proof.
elim: p acc => [p IH|p IH|] acc //=; rewrite IH (IH [_]) -app_assoc //.
Qed.

Lemma bin_pos_rev p : rev (bin_pos p []) = map (fun i => 48 + bit (Zpos p) i) (seq 0 (Pos.size_nat p)).
Proof.
elim: p => [p IH|p IH|] //=; rewrite bin_pos_app rev_app_distr IH -seq_shift map_map /=; congr (_ :: _).
- apply: map_ext => i; congr (48 + Z.b2z _); rewrite Nat2Z.inj_succ.
  by rewrite (Z.testbit_odd_succ (Zpos p)) //; lia.
- apply: map_ext => i; congr (48 + Z.b2z _); rewrite Nat2Z.inj_succ.
  by rewrite (Z.testbit_even_succ (Zpos p)) //; lia.
Qed.

Lemma size_bound p w : Zpos p < 2 ^ Z.of_nat w -> (Pos.size_nat p <= w)%nat.
Proof.
elim: w p => [|w IH] p; first by rewrite [Z.of_nat 0]/= Z.pow_0_r; lia.
rewrite Nat2Z.inj_succ (Z.pow_succ_r 2 _ (Zle_0_nat w)).
case: p => [p|p|] H /=; last by lia.
  by apply: le_n_S; apply: IH; lia.
by apply: le_n_S; apply: IH; lia.
Qed.

Lemma size_ge p w : 2 ^ Z.of_nat w <= Zpos p -> (w < Pos.size_nat p)%nat.
Proof.
elim: w p => [|w IH] p; first by case: p => /=; lia.
rewrite Nat2Z.inj_succ (Z.pow_succ_r 2 _ (Zle_0_nat w)).
case: p => [p|p|] H /=; last by have := Z.pow_pos_nonneg 2 (Z.of_nat w); lia.
  by apply: (le_n_S (S w)); apply: IH; lia.
by apply: (le_n_S (S w)); apply: IH; lia.
Qed.

Lemma bit_high p i : (Pos.size_nat p <= i)%nat -> bit (Zpos p) i = 0.
Proof.
elim: p i => [p IH|p IH|] [|i] /= H; try lia.
- by rewrite /bit Nat2Z.inj_succ (Z.testbit_odd_succ (Zpos p)); [lia|apply: IH; lia].
- by rewrite /bit Nat2Z.inj_succ (Z.testbit_even_succ (Zpos p)); [lia|apply: IH; lia].
- by rewrite /bit Nat2Z.inj_succ; case: i H.
Qed.

Lemma map_seq_repeat {A} (f : nat -> A) a s n : (forall i, (s <= i)%nat -> f i = a) ->
  map f (seq s n) = repeat a n.
Proof.
move=> H; elim: n s H => [|n IH] s H //=; rewrite H // IH // => i Hi; apply: H; lia.
Qed.

(** the padded text of a positive number that fits into [w] digits *)
Lemma zfill_pos p w : (Pos.size_nat p <= w)%nat ->
  zfill w (bin_pos p []) = rev (map (fun i => 48 + bit (Zpos p) i) (seq 0 w)).
Proof.
move=> H.
have L : length (bin_pos p []) = Pos.size_nat p.
  by rewrite -(rev_length (bin_pos p [])) bin_pos_rev map_length seq_length.
have R : bin_pos p [] = rev (map (fun i => 48 + bit (Zpos p) i) (seq 0 (Pos.size_nat p))).
  by rewrite -bin_pos_rev rev_involutive.
have -> : zfill w (bin_pos p []) = repeat ch_0 (w - Pos.size_nat p) ++ bin_pos p [].
  rewrite /zfill L.
  case E: (bin_pos p []) => [|c s]; first by rewrite app_nil_r.
  have I : In c (bin_pos p []) by rewrite E; left.
  move: I; rewrite R -in_rev in_map_iff => -[i [<- _]].
  by case: (bit_ch (Zpos p) i) => ->.
have -> : seq 0 w = seq 0 (Pos.size_nat p) ++ seq (Pos.size_nat p) (w - Pos.size_nat p).
  by rewrite -{1}(Nat.sub_add _ _ H) Nat.add_comm seq_app.
rewrite map_app rev_app_distr -R; congr (_ ++ _).
rewrite (map_seq_repeat _ ch_0); first by move=> i Hi; rewrite bit_high.
have Rr n : rev (repeat ch_0 n) = repeat ch_0 n.
  elim: n => //= n ->; elim: n => //= n IH; by rewrite IH.
by rewrite Rr.
Qed.

Lemma nth_rev_map f w j : (j < w)%nat -> py_nth (rev (map f (seq 0 w))) (Z.of_nat j) = Ok (f (w - 1 - j)%nat : Z).
Proof.
move=> H; rewrite /py_nth rev_length map_length seq_length.
have -> : (Z.of_nat j <? 0) = false by apply/Z.ltb_ge; lia.
have -> : (Z.of_nat w <=? Z.of_nat j) = false by apply/Z.leb_gt; lia.
have -> : (Z.of_nat j <? 0) = false by apply/Z.ltb_ge; lia.
rewrite /= Nat2Z.id.
have E := nth_error_nth' (rev (map f (seq 0 w))) (f 0%nat) (n := j).
rewrite E; first by rewrite rev_length map_length seq_length.
rewrite rev_nth map_length seq_length // (map_nth f (seq 0 w) 0%nat) seq_nth; first by lia.
by congr (Ok (f _)); lia.
Qed.

(** the digit at position [j] of the text that the file reader sees *)
Lemma text_digit val j : 0 <= val < 2 ^ 63 -> (1 <= j <= 62)%nat ->
  py_nth (zfill 63 (get_bin val)) (Z.of_nat j) = Ok (48 + bit val (62 - j)).
Proof.
case: val => [|p|p] [H0 H] Hj; [| |by []].
  rewrite /= /py_nth.
  have E : forall k, (k < 63)%nat -> nth_error (ch_minus :: repeat ch_0 62) (S k) = nth_error (repeat ch_0 62) k by [].
  have -> : (Z.of_nat j <? 0) = false by apply/Z.ltb_ge; lia.
  have -> : (Z.of_nat (length (ch_minus :: repeat ch_0 62)) <=? Z.of_nat j) = false by apply/Z.leb_gt; rewrite [length _]/=; lia.
  have -> : (Z.of_nat j <? 0) = false by apply/Z.ltb_ge; lia.
  rewrite orbF Nat2Z.id; case: j Hj => [|j] Hj; first by lia.
  rewrite E; first by lia.
  rewrite (nth_error_nth' _ ch_0) ?repeat_length; first by lia.
  by rewrite nth_repeat /bit Z.testbit_0_l.
rewrite /get_bin zfill_pos; first exact: (size_bound p 63).
by rewrite nth_rev_map; [lia|congr (Ok (48 + bit _ _)); lia].
Qed.

Lemma text_digit_high val j : 2 ^ 63 <= val < 2 ^ 64 -> (j <= 62)%nat ->
  py_nth (zfill 63 (get_bin val)) (Z.of_nat j) = Ok (48 + bit val (63 - j)).
Proof.
case: val => [|p|p] [H0 H] Hj //.
have S1 := size_bound p 64 H; have S2 := size_ge p 63 H0.
have S : Pos.size_nat p = 64%nat by lia.
have -> : zfill 63 (get_bin (Zpos p)) = zfill 64 (bin_pos p []).
  have L : length (bin_pos p []) = 64%nat.
    by rewrite -(rev_length (bin_pos p [])) bin_pos_rev map_length seq_length.
  by rewrite /zfill /= L.
by rewrite zfill_pos ?S // nth_rev_map; [lia|congr (Ok (48 + bit _ _)); lia].
Qed.

(** ** The loops *)
Lemma bit_loop_spec text js (f : Z -> Z) t z :
  (forall j, In j js -> py_nth text j = Ok (48 + f j) /\ (f j = 0 \/ f j = 1)) ->
  bit_loop text 0 js ([t], z) = Ok ([t ++ map f js], if existsb (fun j => f j =? 1) js then 0 else z).
Proof.
rewrite /bit_loop; elim: js t z => [|j js IH] t z H /=; first by rewrite app_nil_r.
have [-> D] := H j (or_introl (eq_refl j)).
case: D => Dj; rewrite Dj /= IH; try (by move=> i Hi; apply: H; right); rewrite -app_assoc /=.
  by [].
by case: existsb.
Qed.

Lemma in_range_down a b j : (b <= a)%nat -> In j (range_down a b) -> exists k, j = Z.of_nat k /\ (b < k <= a)%nat.
Proof.
move=> H; rewrite /range_down in_map_iff => -[k [<- /in_seq K]]; exists (a - k)%nat; split=> //; lia.
Qed.

Lemma int_bit v i : bit v i = 0 \/ bit v i = 1.
Proof. by rewrite /bit; case: Z.testbit; [right|left]. Qed.

Lemma loops val t z : 0 <= val < 2 ^ 64 -> exists f : nat -> nat,
  bit_loop (zfill 63 (get_bin val)) 0 (range_down 62 11) ([t], z) =
    Ok ([t ++ map (fun j => bit val (f (Z.to_nat j))) (range_down 62 11)],
        if existsb (fun j => bit val (f (Z.to_nat j)) =? 1) (range_down 62 11) then 0 else z) /\
  (forall t z, bit_loop (zfill 63 (get_bin val)) 0 (range_down 10 0) ([t], z) =
    Ok ([t ++ map (fun j => bit val (f (Z.to_nat j))) (range_down 10 0)],
        if existsb (fun j => bit val (f (Z.to_nat j)) =? 1) (range_down 10 0) then 0 else z)) /\
  (val < 2 ^ 63 -> forall j, f j = (62 - j)%nat).
Proof.
move=> V; case: (Z_lt_le_dec val (2 ^ 63)) => H.
  exists (fun j => (62 - j)%nat); split; [|split=> [t' z'|//]];
    apply: (bit_loop_spec _ _ (fun j => bit val (62 - Z.to_nat j))) => j /in_range_down [|k [-> K]]; try lia;
    rewrite Nat2Z.id text_digit; try lia; split=> //; exact: int_bit.
exists (fun j => (63 - j)%nat); split; [|split=> [t' z'|]]; last by lia.
all: apply: (bit_loop_spec _ _ (fun j => bit val (63 - Z.to_nat j))) => j /in_range_down [|k [-> K]]; try lia;
    rewrite Nat2Z.id text_digit_high; try lia; split=> //; exact: int_bit.
Qed.

(** ** The file *)
Section Read.
Context {Line Flt E : Type}.
Variables (parse : Line -> result Flt) (negative : Flt -> bool) (negate : Flt -> Flt) (pack : Flt -> result Z).

Lemma read_line_ok line out x : parse line = Ok x ->
  (forall y, exists val, pack y = Ok val /\ 0 <= val < 2 ^ 64) ->
  read_line parse negative negate pack 0 ([[]], out) line = Ok ([[]], out ++ [0; 0; 0; 0]%nat).
Proof.
move=> P K; rewrite /read_line P; cbn [bind].
set y := if negative x then negate x else x.
have -> : (if negative x then (1, negate x) else (0, x)) = (if negative x then 1 else 0, y) by rewrite /y; case: negative.
have [val [Ep V]] := K y; cbv beta iota zeta; rewrite /float_to_binary64 Ep; cbn [bind].
have [f [E1 [E2 _]]] := loops val [] 1 V.
move: E1 E2; move: (zfill 63 (get_bin val)) => text E1 E2.
rewrite E1; cbn [bind flush clear_at set_nth_list]; rewrite E2.
by rewrite /flush /clear_at /append_to /contents; cbn [bind set_nth_list nth]; rewrite -!app_assoc.
Qed.

Lemma read_file_ok lines out :
  (forall line, In line lines -> exists x, parse line = Ok x) ->
  (forall y, exists val, pack y = Ok val /\ 0 <= val < 2 ^ 64) ->
  foldM (read_line parse negative negate pack 0) lines ([[]], out) =
  Ok ([[]], out ++ repeat 0%nat (4 * length lines)).
Proof.
move=> P K; elim: lines out P => [|l ls IH] out P; first by rewrite /= app_nil_r.
have [x Px] := P l (or_introl eq_refl).
cbn [foldM]; rewrite (read_line_ok _ _ _ Px K); cbn [bind].
rewrite IH; first by move=> i Hi; apply: P; right.
rewrite -app_assoc; congr (Ok (_, _ ++ _)).
by rewrite [length _]/= Nat.mul_succ_r Nat.add_comm repeat_app.
Qed.

Lemma read_file_err lines out :
  (forall y, exists val, pack y = Ok val /\ 0 <= val < 2 ^ 64) ->
  (exists line, In line lines /\ exists e, parse line = Err e) ->
  exists e, foldM (read_line parse negative negate pack 0) lines ([[]], out) = Err e.
Proof.
move=> K; elim: lines out => [|l ls IH] out [line [I [e Ee]]]; first by [].
cbn [foldM]; case Pl: (parse l) => [x|e']; last by exists e'; rewrite /read_line Pl.
rewrite (read_line_ok _ _ _ Pl K); cbn [bind]; apply: IH; exists line; split; last by exists e.
by case: I => // El; move: Pl; rewrite El Ee.
Qed.

Variable elem : list Z -> result E.

Lemma read_number_ie h l i : contents h 0 = [] -> Forall (fun r => r = 0%nat) l -> (exists v, elem [] = Ok v) ->
  read_number elem h l i = Err IndexError.
Proof.
move=> C A [v Ev]; rewrite /read_number.
have N j : py_nth l j = Err IndexError \/ py_nth l j = Ok 0%nat.
  rewrite /py_nth; move: (if j <? 0 then _ else _) => k; case: ifP => _; first by left.
  case En: (nth_error l _) => [a|]; last by left.
  by right; rewrite (proj1 (Forall_forall _ _) A _ (nth_error_In _ _ En)).
case: (N i) => -> //=; rewrite C Ev /=.
case: (N (i + 1)) => -> //=; rewrite C Ev /=.
by case: (N (i + 2)) => -> //=; rewrite C.
Qed.
End Read.
