(** How many entropy strings make [get_pseudorandom_indices] return given indices. *)
From Coq Require Import Bool ZArith List Lia Permutation.
From Coq Require Import ssreflect ssrbool.
From Coq.Strings Require Import Byte.
From Verif Require Import Base BaseProofs MerkleModel MerkleProofs UtilsModel UtilsProofs.
Import ListNotations.
Local Open Scope Z_scope.
Local Set SsrOldRewriteGoalsOrder.
Local Set Bullet Behavior "None".

(** 0, ..., n-1 *)
Definition below (n : Z) : list Z := map Z.of_nat (seq 0 (Z.to_nat n)).

Lemma in_below n x : In x (below n) <-> 0 <= x < n.
Proof.
rewrite /below in_map_iff; split=> [[k [<- /in_seq]] | Hx]; first by lia.
exists (Z.to_nat x); split; [lia | apply/in_seq; lia].
Qed.

Lemma NoDup_map_in {A B} (f : A -> B) l : NoDup l ->
  (forall x y, In x l -> In y l -> f x = f y -> x = y) -> NoDup (map f l).
Proof.
elim=> [|x l' Hx Hl IH] H; first by constructor.
constructor; last by apply: IH => y z Hy Hz; apply: H; right.
move=> /in_map_iff [y [E Hy]]; apply: Hx.
by rewrite -(H y x) //; [right | left].
Qed.

Lemma NoDup_app_intro {A} (l m : list A) : NoDup l -> NoDup m -> (forall x, In x l -> ~ In x m) -> NoDup (l ++ m).
Proof.
elim=> [|x l' Hx Hl IH] Hm D //=; constructor; last by apply: IH => // y Hy; apply: D; right.
by move=> /in_app_iff [//|]; apply: D; left.
Qed.

Lemma NoDup_below n : NoDup (below n).
Proof. apply: NoDup_map_in; [exact: seq_NoDup | move=> *; lia]. Qed.

Lemma length_below n : 0 <= n -> Z.of_nat (length (below n)) = n.
Proof. by move=> Hn; rewrite /below map_length seq_length; lia. Qed.

Definition strings (n : nat) : list bytes := map (be_digits n) (below (256 ^ Z.of_nat n)).

Lemma in_strings n s : In s (strings n) <-> length s = n.
Proof.
rewrite /strings in_map_iff; split=> [[x [<- _]] | <-]; first exact: be_digits_length.
exists (from_bytes_be s); rewrite be_digits_from; split=> //.
by apply/in_below; exact: from_bytes_be_range.
Qed.

Lemma be_digits_inj n x y : 0 <= x < 256 ^ Z.of_nat n -> 0 <= y < 256 ^ Z.of_nat n ->
  be_digits n x = be_digits n y -> x = y.
Proof. by move=> Hx Hy /(f_equal from_bytes_be); rewrite !from_be_digits !Z.mod_small. Qed.

Lemma NoDup_strings n : NoDup (strings n).
Proof.
apply: NoDup_map_in; first exact: NoDup_below.
by move=> x y /in_below Hx /in_below Hy; apply: be_digits_inj.
Qed.

Lemma length_strings n : Z.of_nat (length (strings n)) = 256 ^ Z.of_nat n.
Proof. by rewrite map_length length_below //; apply: Z.pow_nonneg. Qed.

(** strings whose i-th word is in the i-th set *)
Fixpoint with_words (Ws : list (list bytes)) (extra : nat) : list bytes :=
  match Ws with
  | [] => strings extra
  | W :: Ws' => flat_map (fun w => map (app w) (with_words Ws' extra)) W
  end.

Opaque strings.

Definition words_ok (W : list bytes) := NoDup W /\ forall w, In w W -> length w = 4%nat.

Lemma split4 (s : bytes) n : length s = (4 + n)%nat ->
  exists w s', [/\ s = w ++ s', length w = 4%nat & length s' = n].
Proof.
move=> L; exists (firstn 4 s), (skipn 4 s); rewrite firstn_skipn firstn_length skipn_length; split=> //; lia.
Qed.

Lemma skip4 (w s : bytes) i : length w = 4%nat -> skipn (4 * S i) (w ++ s) = skipn (4 * i) s.
Proof.
move=> L; rewrite skipn_app (_ : 4 * S i - length w = 4 * i)%nat; last by lia.
by rewrite skipn_all2 //; lia.
Qed.

Lemma first4 (w s : bytes) : length w = 4%nat -> firstn 4 (skipn (4 * 0) (w ++ s)) = w.
Proof. by case: w => [|a [|b [|c [|d [|e w]]]]]. Qed.

Lemma in_with_words Ws extra s : (forall W, In W Ws -> words_ok W) ->
  In s (with_words Ws extra) <-> length s = (4 * length Ws + extra)%nat /\
    (forall i W, nth_error Ws i = Some W -> In (firstn 4 (skipn (4 * i) s)) W).
Proof.
elim: Ws s => [|W Ws IH] s H.
  rewrite in_strings; split=> [->|[-> _]] //; by split=> // -[|i].
have HW : words_ok W by apply: H; left.
have H' : forall V, In V Ws -> words_ok V by move=> V HV; apply: H; right.
rewrite [with_words _ _]/= in_flat_map; split.
  move=> [w [Hw /in_map_iff [s' [<- Hs']]]].
  have Lw := proj2 HW w Hw.
  have [L' N'] := proj1 (IH s' H') Hs'.
  split; first by rewrite app_length Lw L' /=; lia.
  move=> [|i] V; first by move=> [<-]; rewrite first4.
  by move=> HV; rewrite skip4 //; apply: N'.
move=> [L N].
have [w [s' [E Lw Ls']]] : exists w s', [/\ s = w ++ s', length w = 4%nat & length s' = (4 * length Ws + extra)%nat].
  by apply: split4; rewrite L /=; lia.
exists w; split.
  by have := N 0%nat W (eq_refl _); rewrite E first4.
apply/in_map_iff; exists s'; split=> //; apply/IH => //; split=> // i V HV.
by have := N (S i) V HV; rewrite E skip4.
Qed.

Lemma NoDup_with_words Ws extra : (forall W, In W Ws -> words_ok W) -> NoDup (with_words Ws extra).
Proof.
elim: Ws => [|W Ws IH] H; first exact: NoDup_strings.
have [ND L4] : words_ok W by apply: H; left.
have {}IH : NoDup (with_words Ws extra) by apply: IH => V HV; apply: H; right.
rewrite [with_words _ _]/=; elim: W ND L4 {H} => [|w W IW] ND L4; first by constructor.
inversion ND as [|? ? Hw ND' E1]; subst.
have Lw : length w = 4%nat by apply: L4; left.
rewrite /=; apply: NoDup_app_intro.
- by apply: NoDup_map_in => // x y _ _ /app_inv_head.
- by apply: IW => // v Hv; apply: L4; right.
move=> s /in_map_iff [s1 [<- _]] /in_flat_map [v [Hv /in_map_iff [s2 [E _]]]].
have Lv : length v = 4%nat by apply: L4; right.
have [Ev _] := app_split v s2 w s1 (eq_trans Lv (eq_sym Lw)) E.
by apply: Hw; rewrite -Ev.
Qed.

Lemma length_with_words Ws extra : Z.of_nat (length (with_words Ws extra)) =
  fold_right Z.mul (256 ^ Z.of_nat extra) (map (fun W => Z.of_nat (length W)) Ws).
Proof.
elim: Ws => [|W Ws IH]; first exact: length_strings.
rewrite [with_words _ _]/= [fold_right _ _ _]/= -IH.
elim: W => [|w W IW]; first by [].
rewrite [flat_map _ _]/= app_length map_length Nat2Z.inj_add IW [length (w :: W)]/= Nat2Z.inj_succ.
by rewrite Z.mul_succ_l Z.add_comm.
Qed.

(** the words with a given residue *)
Definition class_size (m x : Z) : Z := (2 ^ 32 - 1 - x) / m + 1.
Definition class (m x : Z) : list bytes := map (fun j => be_digits 4 (x + m * j)) (below (class_size m x)).

Lemma class_bound m x j : 0 < m -> 0 <= x -> 0 <= j < class_size m x <-> 0 <= j /\ x + m * j < 2 ^ 32.
Proof.
move=> Hm Hx; rewrite /class_size; have D := Z.div_mod (2 ^ 32 - 1 - x) m.
have M := Z.mod_pos_bound (2 ^ 32 - 1 - x) m Hm.
set q := (2 ^ 32 - 1 - x) / m in D *; set r := _ mod m in D M *.
split=> -[H1 H2]; split=> //.
  have : m * j <= m * q by apply: Z.mul_le_mono_nonneg_l; lia.
  lia.
case: (Z.lt_ge_cases j (q + 1)) => // Hj.
have : m * (q + 1) <= m * j by apply: Z.mul_le_mono_nonneg_l; lia.
lia.
Qed.

Lemma in_class m x w : 0 <= x < m -> m < 2 ^ 32 ->
  In w (class m x) <-> length w = 4%nat /\ from_bytes_be w mod m = x.
Proof.
move=> Hx Hm; rewrite /class in_map_iff; split.
  move=> [j [<- /in_below /class_bound]] H.
  have {}H : 0 <= j /\ x + m * j < 2 ^ 32 by apply: H; lia.
  split; first exact: be_digits_length.
  rewrite from_be_digits (Z.mod_small (x + m * j)); last first.
    split; first by have := Z.mul_nonneg_nonneg m j; lia.
    by change (256 ^ Z.of_nat 4) with (2 ^ 32); lia.
  by rewrite Z.mul_comm Z.mod_add ?Z.mod_small //; lia.
move=> [Lw Ex]; exists (from_bytes_be w / m).
have D := Z.div_mod (from_bytes_be w) m; rewrite Ex in D.
have R := from_bytes_be_range w; rewrite Lw in R; change (256 ^ Z.of_nat 4) with (2 ^ 32) in R.
have E : x + m * (from_bytes_be w / m) = from_bytes_be w by lia.
rewrite E -Lw be_digits_from; split=> //.
apply/in_below/class_bound; try lia; rewrite E; split; [apply: Z.div_pos|]; lia.
Qed.

Lemma class_ok m x : 0 <= x < m -> m < 2 ^ 32 -> words_ok (class m x).
Proof.
move=> Hx Hm; split; last by move=> w /in_class H; apply H.
apply: NoDup_map_in; first exact: NoDup_below.
move=> i j /in_below /class_bound Hi /in_below /class_bound Hj.
have {}Hi : 0 <= i /\ x + m * i < 2 ^ 32 by apply: Hi; lia.
have {}Hj : 0 <= j /\ x + m * j < 2 ^ 32 by apply: Hj; lia.
move=> /be_digits_inj; change (256 ^ Z.of_nat 4) with (2 ^ 32) => E.
have {}E : x + m * i = x + m * j.
  by apply: E; have := Z.mul_nonneg_nonneg m i; have := Z.mul_nonneg_nonneg m j; lia.
by apply: (Z.mul_reg_l _ _ m); lia.
Qed.

Lemma class_size_pos m x : 0 <= x < m -> m < 2 ^ 32 -> 0 < class_size m x.
Proof.
move=> Hx Hm; rewrite /class_size.
have : 0 <= (2 ^ 32 - 1 - x) / m by apply: Z.div_pos; lia.
lia.
Qed.

Lemma length_class m x : 0 <= x < m -> m < 2 ^ 32 -> Z.of_nat (length (class m x)) = class_size m x.
Proof. by move=> Hx Hm; rewrite map_length length_below //; have := class_size_pos m x Hx Hm; lia. Qed.

Lemma class_fair m x : 0 <= x < m -> 2 ^ 32 / m <= class_size m x <= 2 ^ 32 / m + 1.
Proof.
move=> Hx; rewrite /class_size; split.
  rewrite (_ : 2 ^ 32 = (2 ^ 32 - m) + 1 * m) ?Z.div_add; try lia.
  have : (2 ^ 32 - m) / m <= (2 ^ 32 - m + 1 * m - 1 - x) / m by apply: Z.div_le_mono; lia.
  lia.
have : (2 ^ 32 - 1 - x) / m <= 2 ^ 32 / m by apply: Z.div_le_mono; lia.
lia.
Qed.

(** the index a word gives *)
Definition sample_modulus (modulus e : Z) : Z := if e =? 0 then modulus else modulus * (e - 1) / e.
Definition index_of (modulus e : Z) (w : bytes) : Z :=
  let x := from_bytes_be w mod sample_modulus modulus e in
  if e =? 0 then x else x + 1 + x / (e - 1).
Definition sample_of (e y : Z) : Z := if e =? 0 then y else y - 1 - y / e.

Lemma slice_firstn (s : bytes) i : slice s (4 * i) (4 * i + 4) = firstn 4 (skipn (4 * i) s).
Proof. by rewrite /slice (_ : 4 * i + 4 - 4 * i = 4)%nat //; lia. Qed.

Lemma indices_direct H fuel s modulus k e extra : modulus < 2 ^ 24 -> e <> 1 ->
  sample_modulus modulus e <> 0 \/ k = 0%nat -> length s = (4 * k + extra)%nat ->
  get_pseudorandom_indices H fuel s modulus (Z.of_nat k) e =
    Ok (map (fun i => index_of modulus e (firstn 4 (skipn (4 * i) s))) (seq 0 k)).
Proof.
move=> Hm He Hs L; rewrite /get_pseudorandom_indices (proj2 (Z.ltb_lt _ _)) // [assert_ _]/=.
rewrite [bind (Ok tt) _]/=.
have -> : expand H fuel s (Z.of_nat k) = Ok s.
  have B : (Z.of_nat (length s) <? 4 * Z.of_nat k) = false by apply/Z.ltb_ge; lia.
  by case: fuel => [|f]; cbn [expand]; rewrite B.
rewrite [bind (Ok s) _]/=.
have S : forall m, m <> 0 \/ k = 0%nat -> samples s (Z.of_nat k) m =
    Ok (map (fun i => from_bytes_be (firstn 4 (skipn (4 * i) s)) mod m) (seq 0 k)).
  move=> m [Nm|->] //; rewrite /samples Nat2Z.id.
  by apply: mapM_map_ok => i _; rewrite (proj2 (Z.eqb_neq _ _)) // slice_firstn.
move: Hs; rewrite /sample_modulus /index_of /sample_modulus; case: (Z.eqb_spec e 0) => E Hs; first by rewrite S.
rewrite S // [bind (Ok _) _]/= (mapM_map_ok _ (fun x => x + 1 + x / (e - 1))); last first.
  by move=> x _; rewrite (proj2 (Z.eqb_neq _ _)) //; lia.
by rewrite map_map.
Qed.

Definition allowed (modulus e y : Z) := 0 <= y < modulus /\ (e <> 0 -> y mod e <> 0).

Lemma sample_range modulus e y : e = 0 \/ 2 <= e -> allowed modulus e y ->
  0 <= sample_of e y < sample_modulus modulus e /\
  (forall x, 0 <= x < sample_modulus modulus e ->
     (if e =? 0 then x else x + 1 + x / (e - 1)) = y <-> x = sample_of e y).
Proof.
move=> He [Hy Ny]; rewrite /sample_of /sample_modulus; case: (Z.eqb_spec e 0) => E; first by [].
have {}He : 2 <= e by lia.
have [x [Hx Ex]] := to_index_onto e modulus y He Hy (Ny E).
have -> : y - 1 - y / e = x.
  rewrite -Ex /to_index.
  have D := Z.div_mod x (e - 1); have M := Z.mod_pos_bound x (e - 1).
  rewrite -(Z.div_unique (x + 1 + x / (e - 1)) e (x / (e - 1)) (x mod (e - 1) + 1)); lia.
split=> // z Hz; split=> [Ez | ->]; last exact: Ex.
by apply: (to_index_inj e) => //; [lia | lia | rewrite Ex -Ez].
Qed.

Lemma sample_modulus_lt modulus e : 0 <= modulus < 2 ^ 24 -> e = 0 \/ 2 <= e -> sample_modulus modulus e < 2 ^ 24.
Proof.
move=> Hm He; rewrite /sample_modulus; case: (Z.eqb_spec e 0) => E; first by lia.
apply: Z.le_lt_trans (proj2 Hm); apply: Z.div_le_upper_bound; first by lia.
rewrite Z.mul_comm; apply: Z.mul_le_mono_nonneg_r; lia.
Qed.

Lemma class_index modulus e y w : 0 <= modulus < 2 ^ 24 -> e = 0 \/ 2 <= e -> allowed modulus e y ->
  In w (class (sample_modulus modulus e) (sample_of e y)) <-> length w = 4%nat /\ index_of modulus e w = y.
Proof.
move=> Hm He Hy; have [R I] := sample_range modulus e y He Hy.
have M := sample_modulus_lt modulus e Hm He.
rewrite in_class //; last by lia.
have := I (from_bytes_be w mod sample_modulus modulus e).
rewrite /index_of => {}I; split=> -[L E]; split=> //.
  by apply/I => //; apply: Z.mod_pos_bound; lia.
by apply/I => //; apply: Z.mod_pos_bound; lia.
Qed.

Lemma map_seq_iff (f : nat -> Z) (l : list Z) k :
  map f (seq 0 k) = l <-> k = length l /\ forall i y, nth_error l i = Some y -> f i = y.
Proof.
have N : forall i, (i < k)%nat -> nth_error (map f (seq 0 k)) i = Some (f i).
  by move=> i Hi; rewrite nth_error_map (nth_error_nth' _ 0%nat) ?seq_length // seq_nth.
split.
  move=> <-; rewrite map_length seq_length; split=> // i y Hy.
  have := nth_error_in_lt _ _ _ Hy; rewrite map_length seq_length => Hi.
  by move: Hy; rewrite N // => -[].
move=> [Ek H]; apply: (nth_ext _ _ 0 0); first by rewrite map_length seq_length.
move=> i; rewrite map_length seq_length => Hi.
have [|y Hy] := @nth_error_lt _ l i; first by lia.
by rewrite (nth_error_nth _ _ 0 (N i Hi)) (nth_error_nth _ _ 0 Hy); apply: H.
Qed.

Lemma count_indices H fuel modulus e l extra : 0 <= modulus < 2 ^ 24 -> e = 0 \/ 2 <= e ->
  (forall y, In y l -> allowed modulus e y) ->
  exists S, [/\ NoDup S, (forall s, In s S <-> length s = (4 * length l + extra)%nat /\
                 get_pseudorandom_indices H fuel s modulus (Z.of_nat (length l)) e = Ok l) &
     Z.of_nat (length S) = fold_right Z.mul (256 ^ Z.of_nat extra)
       (map (fun y => class_size (sample_modulus modulus e) (sample_of e y)) l)].
Proof.
move=> Hm He Hl; have M := sample_modulus_lt modulus e Hm He.
pose Ws := map (fun y => class (sample_modulus modulus e) (sample_of e y)) l.
have R : forall y, In y l -> 0 <= sample_of e y < sample_modulus modulus e.
  by move=> y /Hl Hy; apply: (proj1 (sample_range modulus e y He Hy)).
have OK : forall W, In W Ws -> words_ok W.
  by move=> W /in_map_iff [y [<- /R Hy]]; apply: class_ok; lia.
exists (with_words Ws extra); split; first exact: NoDup_with_words.
  move=> s; rewrite in_with_words // /Ws map_length; split=> -[L P]; split=> //.
    rewrite (indices_direct _ _ _ _ _ _ extra) //; try lia.
      congr Ok; apply/map_seq_iff; split=> // i y Hy.
      have Iy := nth_error_In _ _ Hy.
      have := P i (class (sample_modulus modulus e) (sample_of e y)).
      by rewrite nth_error_map Hy => /(_ (eq_refl _)) /(class_index _ _ _ _ Hm He (Hl _ Iy)) [].
    by case: (l) R => [|y l'] R; [right | left; have := R y (or_introl (eq_refl _)); lia].
  move=> i W; rewrite nth_error_map; case E: (nth_error l i) => [y|] //; rewrite [option_map _ _]/= => -[<-].
  have Iy := nth_error_In _ _ E; apply/(class_index _ _ _ _ Hm He (Hl _ Iy)).
  have Hi := nth_error_in_lt _ _ _ E; split.
    by rewrite firstn_length skipn_length; lia.
  move: P; rewrite (indices_direct _ _ _ _ _ _ extra) //; try lia.
    by move=> [/map_seq_iff [_ P]]; apply: P.
  by left; have := R y Iy; lia.
rewrite length_with_words /Ws map_map; congr (fold_right _ _ _); apply: map_ext_in => y /R Hy.
by apply: length_class; lia.
Qed.

Lemma filter_split {A} (f : A -> bool) l :
  (length (filter f l) + length (filter (fun x => negb (f x)) l))%nat = length l.
Proof. elim: l => [|x l IH] //=; by case: (f x) => /=; lia. Qed.

Definition zin (y : Z) (l : list Z) : bool := existsb (Z.eqb y) l.
Lemma zinP y l : zin y l = true <-> In y l.
Proof.
rewrite /zin existsb_exists; split=> [[x [Hx /Z.eqb_eq ->]] // | Hy].
by exists y; rewrite Z.eqb_refl.
Qed.

Lemma bad_words modulus e bad : 0 <= modulus < 2 ^ 24 -> e = 0 \/ 2 <= e -> NoDup bad ->
  (forall y, In y bad -> allowed modulus e y) ->
  Z.of_nat (length (filter (fun w => zin (index_of modulus e w) bad) (strings 4))) =
  fold_right Z.add 0 (map (fun y => class_size (sample_modulus modulus e) (sample_of e y)) bad).
Proof.
move=> Hm He ND Hb; have M := sample_modulus_lt modulus e Hm He.
pose C y := class (sample_modulus modulus e) (sample_of e y).
have R : forall y, In y bad -> 0 <= sample_of e y < sample_modulus modulus e.
  by move=> y /Hb Hy; apply: (proj1 (sample_range modulus e y He Hy)).
have P : Permutation (filter (fun w => zin (index_of modulus e w) bad) (strings 4)) (flat_map C bad).
  apply: NoDup_Permutation.
  - by apply: NoDup_filter; exact: NoDup_strings.
  - elim: bad ND Hb R => [|y bad IH] ND Hb R /=; first by constructor.
    inversion ND as [|? ? Hy ND' E1]; subst; apply: NoDup_app_intro.
    + by apply: (proj1 (class_ok _ _ _ _)); [apply: R; left | lia].
    + by apply: IH => // z Hz; [apply: Hb | apply: R]; right.
    move=> w /(class_index _ _ _ _ Hm He (Hb y (or_introl (eq_refl _)))) [_ E] /in_flat_map [z [Hz]].
    move=> /(class_index _ _ _ _ Hm He (Hb z (or_intror Hz))) [_ E']; apply: Hy.
    by rewrite -E E'.
  move=> w; rewrite filter_In in_strings zinP in_flat_map; split.
    by move=> [L I]; exists (index_of modulus e w); split=> //; apply/(class_index _ _ _ _ Hm He (Hb _ I)).
  by move=> [y [Hy /(class_index _ _ _ _ Hm He (Hb _ Hy)) [L ->]]].
rewrite (Permutation_length P); elim: bad R {ND Hb P} => [|y bad IH] R //=.
rewrite app_length Nat2Z.inj_add IH; last by move=> z Hz; apply: R; right.
by rewrite length_class //; [apply: R; left | lia].
Qed.

Lemma filter_words_ok f : words_ok (filter f (strings 4)).
Proof.
split; first by apply: NoDup_filter; exact: NoDup_strings.
move=> w H; exact: (proj1 (in_strings 4 w) (proj1 (proj1 (filter_In f w (strings 4)) H))).
Qed.

Lemma good_words modulus e bad : 0 <= modulus < 2 ^ 24 -> e = 0 \/ 2 <= e -> NoDup bad ->
  (forall y, In y bad -> allowed modulus e y) ->
  exists W, (forall w, In w W <-> length w = 4%nat /\ ~ In (index_of modulus e w) bad) /\ words_ok W /\
    Z.of_nat (length W) = 2 ^ 32 -
      fold_right Z.add 0 (map (fun y => class_size (sample_modulus modulus e) (sample_of e y)) bad).
Proof.
move=> Hm He ND Hb.
exists (filter (fun w => negb (zin (index_of modulus e w) bad)) (strings 4)); split; last split.
- move=> w; rewrite filter_In in_strings; split=> -[L Q]; split=> //.
    by move=> /zinP E; rewrite E in Q.
  by apply/negP => /zinP.
- exact: filter_words_ok.
have F := filter_split (fun w => zin (index_of modulus e w) bad) (strings 4).
have L := length_strings 4; change (256 ^ Z.of_nat 4) with (2 ^ 32) in L.
have B := bad_words modulus e bad Hm He ND Hb.
by rewrite -B -L -F Nat2Z.inj_add Z.add_simpl_l.
Qed.

Lemma fold_repeat b n k : fold_right Z.mul b (repeat n k) = n ^ Z.of_nat k * b.
Proof.
elim: k => [|k IH]; first by rewrite Z.mul_1_l.
by rewrite [repeat _ _]/= [fold_right _ _ _]/= IH Nat2Z.inj_succ Z.pow_succ_r ?Z.mul_assoc //; lia.
Qed.

Lemma count_missing H fuel modulus e bad k extra : 0 <= modulus < 2 ^ 24 -> e = 0 \/ 2 <= e ->
  sample_modulus modulus e <> 0 -> NoDup bad -> (forall y, In y bad -> allowed modulus e y) ->
  let n := fold_right Z.add 0 (map (fun y => class_size (sample_modulus modulus e) (sample_of e y)) bad) in
  exists S, [/\ NoDup S, (forall s, In s S <-> length s = (4 * k + extra)%nat /\
       exists l, get_pseudorandom_indices H fuel s modulus (Z.of_nat k) e = Ok l /\ (forall y, In y l -> ~ In y bad)),
     Z.of_nat (length S) = (2 ^ 32 - n) ^ Z.of_nat k * 256 ^ Z.of_nat extra & n <= 2 ^ 32].
Proof.
move=> Hm He Nm ND Hb n.
have He1 : e <> 1 by lia.
have [W [inW0 [OK LW]]] := good_words modulus e bad Hm He ND Hb; rewrite -/n in LW.
have OKs : forall V, In V (repeat W k) -> words_ok V by move=> V /(@repeat_spec _ _ _ _) ->.
exists (with_words (repeat W k) extra); split; first exact: NoDup_with_words.
- move=> s; rewrite in_with_words // repeat_length.
  have inW : forall i V, nth_error (repeat W k) i = Some V <-> V = W /\ (i < k)%nat.
    move=> i V; split=> [E | [-> Hi]].
      by have := nth_error_in_lt _ _ _ E; rewrite repeat_length; split=> //; apply: (repeat_spec k); apply: nth_error_In E.
    by rewrite (nth_error_nth' _ W) ?repeat_length // nth_repeat.
  split=> -[L P]; split=> //.
    eexists; split; first by apply: indices_direct L; [lia | lia | left].
    move=> y /in_map_iff [i [<- /in_seq Hi]].
    have Q0 : In (firstn 4 (skipn (4 * i) s)) W by apply: (P i); apply/inW; split=> //; lia.
    exact: (proj2 (proj1 (inW0 _) Q0)).
  move: P => [l []]; rewrite (indices_direct H fuel s modulus k e extra (proj2 Hm) He1 (or_introl Nm) L).
  move=> [<-] P i V /inW [-> Hi]; apply/inW0; split.
    by rewrite firstn_length skipn_length; lia.
  move=> E; apply: P E; apply/in_map_iff; exists i; split=> //; apply/in_seq; lia.
- rewrite length_with_words (_ : map _ (repeat W k) = repeat (2 ^ 32 - n) k) ?fold_repeat //.
  by rewrite -LW; elim: k {OKs} => [|k IH] //=; rewrite IH.
lia.
Qed.

Lemma sum_fair modulus e bad : e = 0 \/ 2 <= e -> (forall y, In y bad -> allowed modulus e y) ->
  Z.of_nat (length bad) * (2 ^ 32 / sample_modulus modulus e) <=
  fold_right Z.add 0 (map (fun y => class_size (sample_modulus modulus e) (sample_of e y)) bad).
Proof.
move=> He; elim: bad => [|y bad IH] Hb; first by rewrite Z.mul_0_l; exact: Z.le_refl.
rewrite [length _]/= [map _ _]/= [fold_right _ _ _]/= Nat2Z.inj_succ Z.mul_succ_l.
have := IH (fun z Hz => Hb z (or_intror Hz)).
have [R _] := sample_range modulus e y He (Hb y (or_introl (eq_refl _))).
have := class_fair _ _ R; lia.
Qed.
