From Coq Require Import Bool ZArith List Lia.
From Coq Require Import ssreflect ssrbool.
From Verif Require Import Base BaseProofs MerkleModel MerkleProofs CompressionProofs UtilsModel.
Import ListNotations.
Local Open Scope Z_scope.
Local Set SsrOldRewriteGoalsOrder.
Local Set Bullet Behavior "None".

(** memoize *)
Section Memo.
Context {V R St : Type}.
Variable veq : V -> V -> bool.
Hypothesis veq_refl : forall a, veq a a = true.
Hypothesis veq_sym : forall a b, veq a b = veq b a.
Hypothesis veq_trans : forall a b c, veq a b = true -> veq b c = true -> veq a c = true.
Variable f : list V -> list (V * V) -> St -> result R * St.

Notation teq := (tuple_eqb veq).

Lemma teq_refl a : teq a a.
Proof. by elim: a => [|x a IH] //=; rewrite veq_refl. Qed.
Lemma teq_sym a b : teq a b = teq b a.
Proof. by elim: a b => [|x a IH] [|y b] //=; rewrite veq_sym IH. Qed.
Lemma teq_trans a b c : teq a b -> teq b c -> teq a c.
Proof.
elim: a b c => [|x a IH] [|y b] [|z c] //= /andP [H1 H2] /andP [H3 H4].
by apply/andP; split; [apply: (veq_trans _ y) | apply: (IH b)].
Qed.

Lemma get_teq c a b : teq a b -> cache_get veq (R:=R) c a = cache_get veq c b.
Proof.
move=> H; elim: c => [|[k r] c IH] //=; rewrite IH.
case E1: (teq k a); case E2: (teq k b) => //.
- by rewrite (teq_trans _ _ _ E1 H) in E2.
- by rewrite teq_sym in H; rewrite (teq_trans _ _ _ E2 H) in E1.
Qed.

(** cached values stay *)
Lemma memo_keep a kw c s k r : cache_get veq c k = Some r ->
  cache_get veq (fst (snd (memoized veq f a kw (c, s)))) k = Some r.
Proof.
rewrite /memoized => H; case E: (cache_get veq c (a ++ map fst kw)) => [r'|] //.
case: (f a kw s) => [[r'|e] s'] //=; case Ek: (teq _ k) => //.
by move: E; rewrite (get_teq _ _ _ Ek) H.
Qed.

Lemma memo_ok a kw c s r st : memoized veq f a kw (c, s) = (Ok r, st) ->
  cache_get veq (fst st) (a ++ map fst kw) = Some r.
Proof.
rewrite /memoized; case E: (cache_get veq c (a ++ map fst kw)) => [r'|].
  by move=> [<- <-].
by case: (f a kw s) => [[r'|e] s'] //= [<- <-] /=; rewrite teq_refl.
Qed.

Lemma memo_hit a kw c s r : cache_get veq c (a ++ map fst kw) = Some r ->
  memoized veq f a kw (c, s) = (Ok r, (c, s)).
Proof. by rewrite /memoized => ->. Qed.

Lemma run_cons a kw cs st : run_calls veq f ((a, kw) :: cs) st =
  let '(r, st1) := memoized veq f a kw st in
  let '(rs, st2) := run_calls veq f cs st1 in (r :: rs, st2).
Proof. by []. Qed.

Lemma run_keep calls c s k r : cache_get veq c k = Some r ->
  cache_get veq (fst (snd (run_calls veq f calls (c, s)))) k = Some r.
Proof.
elim: calls c s => [|[a kw] calls IH] c s H; first by [].
rewrite run_cons; have := memo_keep a kw c s k r H; case: memoized => [r1 [c1 s1]] /= H1.
by have := IH c1 s1 H1; case: run_calls.
Qed.

Lemma run_app c1 c2 st : run_calls veq f (c1 ++ c2) st =
  let '(r1, st1) := run_calls veq f c1 st in
  let '(r2, st2) := run_calls veq f c2 st1 in (r1 ++ r2, st2).
Proof.
elim: c1 st => [|[a kw] c1 IH] st /=; first by case: run_calls.
case: memoized => [r st1]; rewrite IH; case: run_calls => [r1 st2]; by case: run_calls.
Qed.

Lemma run_len calls st : length (fst (run_calls veq f calls st)) = length calls.
Proof.
elim: calls st => [|[a kw] c IH] st //=; case: memoized => r st1.
by have := IH st1; case: run_calls => r1 st2 /= ->.
Qed.

(** A repeated key returns the first successful value and runs nothing. *)
Lemma memo_history pre mid (a b : list V) (ka kb : list (V * V)) st0 rs st r :
  run_calls veq f (pre ++ (a, ka) :: mid) st0 = (rs, st) ->
  nth_error rs (length pre) = Some (Ok r) ->
  teq (a ++ map fst ka) (b ++ map fst kb) ->
  run_calls veq f ((pre ++ (a, ka) :: mid) ++ [(b, kb)]) st0 = (rs ++ [Ok r], st).
Proof.
move=> E Hr Ht; rewrite run_app E run_cons.
move: E; rewrite run_app; have Hl := run_len pre st0.
case E1: run_calls Hl => [r1 [c1 s1]] Hl; rewrite run_cons.
case E2: (memoized veq f a ka (c1, s1)) => [ra [ca sa]].
case E3: (run_calls veq f mid _) => [r3 [c3 s3]] [Ers Est].
move: Hr; rewrite -Ers -Hl nth_error_app2 // Nat.sub_diag => -[Era]; subst ra st.
have Hc := memo_ok _ _ _ _ _ _ E2.
have := run_keep mid ca sa _ _ Hc; rewrite E3 (get_teq _ _ _ Ht) => Hc3.
by rewrite (memo_hit _ _ _ _ _ Hc3).
Qed.

Lemma memo_get a kw c s k r : cache_get veq (fst (snd (memoized veq f a kw (c, s)))) k = Some r ->
  cache_get veq c k = Some r \/
  (fst (memoized veq f a kw (c, s)) = Ok r /\ teq (a ++ map fst kw) k).
Proof.
rewrite /memoized; case: (cache_get veq c _) => [r'|] /=; first by left.
case: (f _ _ _) => -[r'|e] s' /=; last by left.
by case: (tuple_eqb veq (a ++ map fst kw) k) => [[->]|]; [right|left].
Qed.

(** What is in the cache comes from a successful call of the history. *)
Lemma run_get calls c s k r : cache_get veq (fst (snd (run_calls veq f calls (c, s)))) k = Some r ->
  cache_get veq c k = Some r \/
  exists i a kw, nth_error calls i = Some (a, kw) /\ teq (a ++ map fst kw) k /\
    nth_error (fst (run_calls veq f calls (c, s))) i = Some (Ok r).
Proof.
elim: calls c s => [|[a kw] calls IH] c s; first by left.
rewrite run_cons; have := memo_get a kw c s k r; case: memoized => [r1 [c1 s1]] /= Hm.
have := IH c1 s1; case: run_calls => rs st /= H /H [/Hm [|[-> T]]|[i [a' [kw' [E [T N]]]]]].
- by left.
- by right; exists 0%nat, a, kw.
- by right; exists (S i), a', kw'.
Qed.

(** A call that equals no earlier successful call runs [f]. *)
Lemma memo_fresh pre (a : list V) (ka : list (V * V)) s0 rs c s :
  run_calls veq f pre ([], s0) = (rs, (c, s)) ->
  (forall i b kb r, nth_error pre i = Some (b, kb) -> teq (b ++ map fst kb) (a ++ map fst ka) ->
     nth_error rs i <> Some (Ok r)) ->
  exists c', run_calls veq f (pre ++ [(a, ka)]) ([], s0) = (rs ++ [fst (f a ka s)], (c', snd (f a ka s))).
Proof.
move=> E H; rewrite run_app E run_cons /memoized.
case G: cache_get => [r|]; last by case: f => -[r|e] s' /=; eexists.
have := @run_get pre [] s0 (a ++ map fst ka) r; rewrite E => /(_ G) [//|[i [b [kb [E1 [T N]]]]]].
by case: (H i b kb r).
Qed.
End Memo.

(** a pure function that respects [==] is unchanged by memoisation *)
Lemma memo_transparent {V R} (veq : V -> V -> bool) (g : list V -> result R) :
  (forall a, veq a a = true) -> (forall a b, veq a b = veq b a) ->
  (forall a b c, veq a b = true -> veq b c = true -> veq a c = true) ->
  (forall a b, tuple_eqb veq a b = true -> g a = g b) ->
  forall calls, fst (run_calls veq (fun a _ (s : unit) => (g a, s))
                      (map (fun a => (a, [])) calls) ([], tt)) = map g calls.
Proof.
move=> Hr Hs Ht Hg calls.
have gen : forall calls c, (forall k r, cache_get veq c k = Some r -> g k = Ok r) ->
    fst (run_calls veq (fun a _ (s : unit) => (g a, s)) (map (fun a => (a, [])) calls) (c, tt)) = map g calls.
  elim=> [|a l IH] c Hc //=; rewrite app_nil_r.
  case E: cache_get => [r|].
    by have := IH c Hc; case: run_calls => rs st /= ->; rewrite (Hc _ _ E).
  case Eg: (g a) => [r|e].
    have := IH ((a, r) :: c); case: run_calls => rs st /= -> //.
    move=> k r'; case Ek: (tuple_eqb veq a k); last exact: Hc.
    by move=> [<-]; rewrite -(Hg _ _ Ek).
  by have := IH c Hc; case: run_calls => rs st /= ->.
exact: gen.
Qed.

(** mimc *)
Lemma py_nth_mod (l : list Z) i : l <> [] ->
  py_nth l (Z.of_nat i mod Z.of_nat (length l)) = Ok (nth (i mod length l) l 0).
Proof.
move=> Hl; have H0 : (length l <> 0)%nat by case: l Hl.
rewrite -(Nat2Z.inj_mod i); apply: py_nth_nat; apply: nth_error_nth'.
exact: Nat.mod_upper_bound.
Qed.

Lemma mimc_S inp steps rc : rc <> [] -> 1 <= steps ->
  mimc inp (steps + 1) rc =
    let* x := mimc inp steps rc in
    Ok ((x ^ 3 + nth (Z.to_nat (steps - 1) mod length rc) rc 0) mod mimc_modulus).
Proof.
move=> Hrc Hs; rewrite /mimc (_ : Z.to_nat (steps + 1 - 1) = S (Z.to_nat (steps - 1))); last by lia.
have H0 : (length rc =? 0)%nat = false by apply/Nat.eqb_neq; case: rc Hrc.
rewrite seq_S foldM_app; case: foldM => [x|e] //.
by rewrite /= H0 py_nth_mod.
Qed.

Lemma mimc_le1 inp steps rc : steps <= 1 -> mimc inp steps rc = Ok inp.
Proof. by move=> H; rewrite /mimc (_ : Z.to_nat (steps - 1) = 0%nat) //; lia. Qed.

Lemma mimc_total inp steps rc : rc <> [] -> exists r, mimc inp steps rc = Ok r /\
  (2 <= steps -> 0 <= r < mimc_modulus).
Proof.
move=> Hrc; case: (Z.le_gt_cases steps 1) => Hs.
  by exists inp; rewrite mimc_le1 //; split=> //; lia.
have -> : steps = 1 + Z.of_nat (Z.to_nat (steps - 1)) by lia.
have : (0 < Z.to_nat (steps - 1))%nat by lia.
elim: (Z.to_nat (steps - 1)) => [|n IH] Hn; first by lia.
rewrite Nat2Z.inj_succ -Z.add_1_r Z.add_assoc mimc_S //; last by lia.
case: n IH {Hn} => [|n] IH.
  by rewrite mimc_le1 //=; eexists; split=> // _; apply: Z.mod_pos_bound.
have [r [-> _]] : exists r, mimc inp (1 + Z.of_nat (S n)) rc = Ok r /\ (2 <= 1 + Z.of_nat (S n) -> 0 <= r < mimc_modulus) by apply: IH; lia.
by eexists; split; [reflexivity | move=> _; apply: Z.mod_pos_bound].
Qed.

Lemma mimc_no_constants inp steps : 2 <= steps -> mimc inp steps [] = Err ZeroDivisionError.
Proof. by move=> H; rewrite /mimc (_ : Z.to_nat (steps - 1) = S (Z.to_nat (steps - 2))) //; lia. Qed.

(** pseudorandom indices *)
Lemma expandE H fuel data count : expand H fuel data count =
  if Z.of_nat (length data) <? 4 * count then
    match fuel with O => Err Diverges | S fuel' => expand H fuel' (data ++ H (last32 data)) count end
  else Ok data.
Proof. by case: fuel. Qed.

Lemma expand_ok H fuel data count : (forall x, length (H x) = 32%nat) ->
  4 * count <= Z.of_nat (length data) + 32 * Z.of_nat fuel ->
  exists ext, expand H fuel data count = Ok (data ++ ext) /\ 4 * count <= Z.of_nat (length (data ++ ext)).
Proof.
move=> H32; elim: fuel data => [|fuel IH] data Hf; rewrite expandE.
  case: Z.ltb_spec => Hl; first by lia.
  by exists []; rewrite app_nil_r.
case: Z.ltb_spec => Hl; last by exists []; rewrite app_nil_r.
have [|ext [E L]] := IH (data ++ H (last32 data)); first by rewrite app_length H32; lia.
by exists (H (last32 data) ++ ext); rewrite app_assoc.
Qed.

Lemma samples_ok data count m : 0 < m -> exists l, samples data count m = Ok l /\
  Z.of_nat (length l) = Z.max 0 count /\
  (forall i x, nth_error l i = Some x -> 0 <= x < m /\
     x = from_bytes_be (slice data (4 * i) (4 * i + 4)) mod m).
Proof.
move=> Hm; rewrite /samples.
rewrite (mapM_map_ok _ (fun i => from_bytes_be (slice data (4 * i) (4 * i + 4)) mod m)); last first.
  by move=> i _; rewrite (proj2 (Z.eqb_neq _ _)) //; lia.
eexists; split; first by reflexivity.
split; first by rewrite map_length seq_length; lia.
move=> i x; rewrite nth_error_map; case E: nth_error => [j|] //= [<-].
have Hi := nth_error_in_lt _ _ _ E; move: Hi; rewrite seq_length => Hi.
have -> : j = i by have := nth_error_nth _ _ 0%nat E; rewrite seq_nth.
by split=> //; apply: Z.mod_pos_bound.
Qed.

Lemma indices_plain H fuel entropy modulus count : (forall x, length (H x) = 32%nat) ->
  0 < modulus < 2 ^ 24 -> 4 * count <= Z.of_nat (length entropy) + 32 * Z.of_nat fuel ->
  exists l, get_pseudorandom_indices H fuel entropy modulus count 0 = Ok l /\
    Z.of_nat (length l) = Z.max 0 count /\ Forall (fun x => 0 <= x < modulus) l.
Proof.
move=> H32 Hm Hf; rewrite /get_pseudorandom_indices.
rewrite (proj2 (Z.ltb_lt _ _)) /=; last by lia.
have [ext [-> _]] := expand_ok H fuel entropy count H32 Hf.
have [|l [E [L P]]] := samples_ok (entropy ++ ext) count modulus; first by lia.
exists l; rewrite /= E; split=> //; split=> //; apply/Forall_forall => x Hx.
by have [i Hi] := In_nth_error _ _ Hx; have [] := P i x Hi.
Qed.

(** the sample-to-index map *)
Definition to_index (e x : Z) := x + 1 + x / (e - 1).

Lemma to_index_spec e m x : 2 <= e -> 0 <= x < m * (e - 1) / e ->
  0 <= to_index e x < m /\ to_index e x mod e <> 0.
Proof.
move=> He Hx; rewrite /to_index.
have Hd := Z.div_mod x (e - 1); have Hm := Z.mod_pos_bound x (e - 1).
have Hq : 0 <= x / (e - 1) by apply: Z.div_pos; lia.
set q := x / (e - 1) in Hd Hq *; set r := x mod (e - 1) in Hd Hm.
have -> : x + 1 + q = (r + 1) + q * e by nia.
have Hu : e * (m * (e - 1) / e) <= m * (e - 1) by apply: Z.mul_div_le; lia.
split; last by rewrite Z.mod_add ?Z.mod_small; lia.
split; first by nia.
have : e * (x + 1) <= m * (e - 1) by nia.
move=> Hxm; have : (e - 1) * (r + 1 + q * e) < (e - 1) * m -> r + 1 + q * e < m by nia.
by apply; nia.
Qed.

Lemma to_index_onto e m y : 2 <= e -> 0 <= y < m -> y mod e <> 0 ->
  exists x, 0 <= x < m * (e - 1) / e /\ to_index e x = y.
Proof.
move=> He Hy Hn; have Hd := Z.div_mod y e; have Hm := Z.mod_pos_bound y e.
have Hq : 0 <= y / e by apply: Z.div_pos; lia.
set q := y / e in Hd Hq; set r := y mod e in Hd Hm Hn.
exists (q * (e - 1) + (r - 1)); rewrite /to_index; split.
  split; first by nia.
  apply: Z.lt_le_trans (Z.lt_succ_diag_r _) _.
  by apply: Z.div_le_lower_bound; nia.
rewrite Z.div_add_l; last by lia.
rewrite (Z.div_small (r - 1)); last by lia.
lia.
Qed.

Lemma to_index_inj e x y : 2 <= e -> 0 <= x -> 0 <= y -> to_index e x = to_index e y -> x = y.
Proof.
move=> He Hx Hy; rewrite /to_index => H.
have mono : forall a b, 0 <= a -> a < b -> a + 1 + a / (e - 1) < b + 1 + b / (e - 1).
  by move=> a b Ha Hab; have := Z.div_le_mono a b (e - 1); lia.
by case: (Z.lt_trichotomy x y) => [L|[//|L]]; have := mono _ _ _ L; lia.
Qed.

Lemma indices_exclude H fuel entropy modulus count e : (forall x, length (H x) = 32%nat) ->
  modulus < 2 ^ 24 -> 2 <= e -> 2 <= modulus ->
  4 * count <= Z.of_nat (length entropy) + 32 * Z.of_nat fuel ->
  exists l, get_pseudorandom_indices H fuel entropy modulus count e = Ok l /\
    Z.of_nat (length l) = Z.max 0 count /\
    Forall (fun x => 0 <= x < modulus /\ x mod e <> 0) l.
Proof.
move=> H32 Hm He H2 Hf; rewrite /get_pseudorandom_indices.
rewrite (proj2 (Z.ltb_lt _ _)) /=; last by lia.
rewrite (proj2 (Z.eqb_neq _ _)); last by lia.
have [ext [-> _]] := expand_ok H fuel entropy count H32 Hf.
have [|l [E [L P]]] := samples_ok (entropy ++ ext) count (modulus * (e - 1) / e).
  by apply: Z.div_str_pos; nia.
rewrite /= E /=.
rewrite (mapM_map_ok _ (to_index e)); last first.
  by move=> x _; rewrite (proj2 (Z.eqb_neq _ _)) //; lia.
eexists; split; first by reflexivity.
rewrite map_length; split=> //; apply/Forall_forall => x /in_map_iff [y [<- Hy]].
have [i Hi] := In_nth_error _ _ Hy; have [Hr _] := P i y Hi.
exact: to_index_spec.
Qed.

Lemma indices_big_modulus H fuel entropy modulus count e : 2 ^ 24 <= modulus ->
  get_pseudorandom_indices H fuel entropy modulus count e = Err AssertionError.
Proof. by move=> Hm; rewrite /get_pseudorandom_indices (proj2 (Z.ltb_ge _ _)) //; lia. Qed.

Lemma indices_exclude_one H fuel entropy modulus count : (forall x, length (H x) = 32%nat) ->
  modulus < 2 ^ 24 -> 1 <= count ->
  4 * count <= Z.of_nat (length entropy) + 32 * Z.of_nat fuel ->
  get_pseudorandom_indices H fuel entropy modulus count 1 = Err ZeroDivisionError.
Proof.
move=> H32 Hm Hc Hf; rewrite /get_pseudorandom_indices.
rewrite (proj2 (Z.ltb_lt _ _)) /=; last by lia.
have [ext [-> _]] := expand_ok H fuel entropy count H32 Hf.
rewrite Z.mul_0_r /samples /=.
by rewrite (_ : Z.to_nat count = S (Z.to_nat (count - 1))) //; lia.
Qed.

(** the expansion appends the iterated hashes of the last 32 bytes *)
Definition blocks (H : bytes -> bytes) (t : bytes) (n : nat) : bytes :=
  concat (map (fun k => Nat.iter k H (H t)) (seq 0 n)).

Lemma blocks_S H t n : blocks H t (S n) = H t ++ blocks H (H t) n.
Proof.
rewrite /blocks /= -seq_shift map_map; congr (_ ++ concat _); apply: map_ext => k.
by elim: k => //= k ->.
Qed.

Lemma blocks_length H t n : (forall x, length (H x) = 32%nat) -> length (blocks H t n) = (32 * n)%nat.
Proof. by move=> H32; elim: n t => [//|n IH] t; rewrite blocks_S app_length H32 IH; lia. Qed.

Lemma blocks_prefix H t n m : (n <= m)%nat -> exists x, blocks H t m = blocks H t n ++ x.
Proof.
move=> L; rewrite /blocks (_ : m = n + (m - n))%nat; last by lia.
by rewrite seq_app map_app concat_app; eexists.
Qed.

Lemma last32_app d x : length x = 32%nat -> last32 (d ++ x) = x.
Proof.
move=> L; rewrite /last32 app_length L (_ : length d + 32 - 32 = length d)%nat; last by lia.
by rewrite skipn_app skipn_all Nat.sub_diag.
Qed.

Lemma expand_exact H fuel n data count : (forall x, length (H x) = 32%nat) ->
  4 * count <= Z.of_nat (length data) + 32 * Z.of_nat n -> (n <= fuel)%nat ->
  exists m, (m <= n)%nat /\ expand H fuel data count = Ok (data ++ blocks H (last32 data) m) /\
    4 * count <= Z.of_nat (length (data ++ blocks H (last32 data) m)).
Proof.
move=> H32; elim: fuel n data => [|fuel IH] n data Hn Hf; rewrite expandE.
  by case: Z.ltb_spec => Hl; [lia|exists 0%nat; rewrite app_nil_r; split; [lia|]].
case: Z.ltb_spec => Hl; last by exists 0%nat; rewrite app_nil_r; split; [lia|].
case: n Hn Hf => [|n] Hn Hf; first by lia.
have [||m [Lm [E L]]] := IH n (data ++ H (last32 data)); first by rewrite app_length H32; lia.
  by lia.
exists (S m); rewrite blocks_S app_assoc; rewrite last32_app // in E L.
by split=> //; lia.
Qed.

Lemma indices_exact H fuel entropy modulus count e n : (forall x, length (H x) = 32%nat) ->
  modulus < 2 ^ 24 -> 4 * count <= Z.of_nat (length entropy) + 32 * Z.of_nat n -> (n <= fuel)%nat ->
  let data := entropy ++ blocks H (last32 entropy) n in
  let m := if e =? 0 then modulus else modulus * (e - 1) / e in
  let x i := from_bytes_be (firstn 4 (skipn (4 * i) data)) mod m in
  m <> 0 -> get_pseudorandom_indices H fuel entropy modulus count e =
    Ok (map (fun i => if e =? 0 then x i else x i + 1 + x i / (e - 1)) (seq 0 (Z.to_nat count))).
Proof.
move=> H32 Hm Hn Hf data m x Nm; rewrite /get_pseudorandom_indices.
rewrite (proj2 (Z.ltb_lt _ _)) /=; last by lia.
have [k [Lk [-> L]]] := expand_exact H fuel n entropy count H32 Hn Hf; rewrite /=.
have X : forall i, (i < Z.to_nat count)%nat ->
    slice (entropy ++ blocks H (last32 entropy) k) (4 * i) (4 * i + 4) = firstn 4 (skipn (4 * i) data).
  move=> i Hi; rewrite /slice (_ : 4 * i + 4 - 4 * i = 4)%nat; last by lia.
  have [y Ey] := blocks_prefix H (last32 entropy) k n Lk; rewrite /data Ey app_assoc.
  move: (entropy ++ blocks H (last32 entropy) k) L => d L.
  rewrite skipn_app firstn_app skipn_length (_ : (4 - (length d - 4 * i) = 0)%nat); last by lia.
  by rewrite firstn_O app_nil_r.
have S : samples (entropy ++ blocks H (last32 entropy) k) count m = Ok (map x (seq 0 (Z.to_nat count))).
  rewrite /samples (mapM_map_ok _ x) // => i /in_seq Hi.
  by rewrite (proj2 (Z.eqb_neq _ _)) // X //; lia.
case: Z.eqb_spec => E; first by move: S; rewrite /m E Z.eqb_refl.
have Em : m = modulus * (e - 1) / e by rewrite /m (proj2 (Z.eqb_neq _ _)).
rewrite -Em S /=.
have E1 : e <> 1 by move=> E1; apply: Nm; rewrite Em E1 Z.mul_0_r.
rewrite (mapM_map_ok _ (fun y => y + 1 + y / (e - 1))) ?map_map //.
by move=> y _; rewrite (proj2 (Z.eqb_neq _ _)) //; lia.
Qed.

(** fewer samples are a prefix of more samples *)
Lemma expand_prefix H fuel data c c' d d' : c <= c' ->
  expand H fuel data c = Ok d -> expand H fuel data c' = Ok d' -> exists t, d' = d ++ t.
Proof.
move=> Hc; elim: fuel data => [|fuel IH] data; rewrite (expandE _ _ data c) (expandE _ _ data c').
  case: Z.ltb_spec => // H1 [<-]; case: Z.ltb_spec => // H2 [<-]; by exists []; rewrite app_nil_r.
case: Z.ltb_spec => H1; case: Z.ltb_spec => H2; try lia.
- exact: IH.
- move=> [<-] E; have [t ->] : exists t, d' = (data ++ H (last32 data)) ++ t.
    elim: fuel {IH H1 H2} (data ++ _) E => [|fuel IH] x; rewrite expandE; case: Z.ltb_spec => // _.
    + by move=> [<-]; exists []; rewrite app_nil_r.
    + by move=> /IH [t ->]; exists (H (last32 x) ++ t); rewrite app_assoc.
    + by move=> [<-]; exists []; rewrite app_nil_r.
  by exists (H (last32 data) ++ t); rewrite app_assoc.
- by move=> [<-] [<-]; exists []; rewrite app_nil_r.
Qed.

Lemma indices_prefix H fuel entropy modulus c c' e l l' : (forall x, length (H x) = 32%nat) ->
  modulus < 2 ^ 24 -> 2 <= e -> 2 <= modulus -> c <= c' ->
  4 * c' <= Z.of_nat (length entropy) + 32 * Z.of_nat fuel ->
  get_pseudorandom_indices H fuel entropy modulus c e = Ok l ->
  get_pseudorandom_indices H fuel entropy modulus c' e = Ok l' -> exists t, l' = l ++ t.
Proof.
move=> H32 Hm He H2 Hc Hf; rewrite /get_pseudorandom_indices.
rewrite (proj2 (Z.ltb_lt _ _)) /=; last by lia.
rewrite (proj2 (Z.eqb_neq _ _)); last by lia.
have [|x [E L]] := expand_ok H fuel entropy c H32; first by lia.
have [x' [E' _]] := expand_ok H fuel entropy c' H32 Hf.
have [t Et] := expand_prefix _ _ _ _ _ _ _ Hc E E'.
rewrite {}E {}E' /= {}Et; move: (entropy ++ x) L => d L.
have Hr : modulus * (e - 1) / e <> 0 by have := Z.div_str_pos (modulus * (e - 1)) e; nia.
set m := modulus * (e - 1) / e in Hr *; rewrite /samples.
rewrite (mapM_map_ok _ (fun i => from_bytes_be (slice d (4 * i) (4 * i + 4)) mod m)); last first.
  by move=> i _; rewrite (proj2 (Z.eqb_neq _ _)).
rewrite (mapM_map_ok _ (fun i => from_bytes_be (slice (d ++ t) (4 * i) (4 * i + 4)) mod m)); last first.
  by move=> i _; rewrite (proj2 (Z.eqb_neq _ _)).
rewrite /= !(mapM_map_ok _ (to_index e)); try by move=> y _; rewrite (proj2 (Z.eqb_neq _ _)) //; lia.
move=> [<-] [<-].
rewrite (_ : Z.to_nat c' = Z.to_nat c + (Z.to_nat c' - Z.to_nat c))%nat; last by lia.
rewrite seq_app !map_app; eexists; congr (_ ++ _); congr map.
apply: map_ext_in => i /in_seq Hi; congr (from_bytes_be _ mod _).
rewrite /slice skipn_app firstn_app skipn_length.
rewrite (_ : (4 * i + 4 - 4 * i - (length d - 4 * i) = 0)%nat); last by lia.
by rewrite firstn_O app_nil_r.
Qed.

(** is_a_power_of_2 *)
Lemma pow2_zero fuel : is_a_power_of_2 fuel 0 = Err Diverges.
Proof. by elim: fuel. Qed.

Lemma pow2_spec fuel x : x <> 0 -> Z.abs x < 2 ^ Z.of_nat fuel ->
  exists b, is_a_power_of_2 fuel x = Ok b /\ (b = true <-> exists k, 0 <= k /\ x = 2 ^ k).
Proof.
elim: fuel x => [|fuel IH] x Hx Hf; first by move: Hf => /=; lia.
rewrite /is_a_power_of_2 -/is_a_power_of_2; case: Z.eqb_spec => [->|H1].
  by exists true; split=> //; split=> // _; exists 0.
case: Z.eqb_spec => H2; rewrite [negb _]/=; last first.
  exists false; split=> //; split=> // -[k [Hk Ek]].
  case: (Z.eq_dec k 0) => Hk0; first by rewrite Hk0 in Ek.
  have E2 : 2 ^ k = 2 ^ (k - 1) * 2 by rewrite Z.mul_comm -Z.pow_succ_r; [f_equal; lia | lia].
  by case: H2; rewrite Ek E2 Z.mod_mul.
have Hd : x = 2 * (x / 2) + x mod 2 by apply: Z.div_mod.
have Hf2 : 2 ^ Z.of_nat (S fuel) = 2 * 2 ^ Z.of_nat fuel.
  by rewrite Nat2Z.inj_succ Z.pow_succ_r //; lia.
have [||b [E Hb]] := IH (x / 2); [lia | lia |].
exists b; split=> //; rewrite Hb; split=> -[k [Hk Ek]].
  exists (k + 1); split; first by lia.
  by rewrite Z.pow_add_r ?Z.pow_1_r; lia.
case: (Z.eq_dec k 0) => Hk0; first by rewrite Hk0 in Ek.
exists (k - 1); split; first by lia.
have : x = 2 * 2 ^ (k - 1) by rewrite Ek -Z.pow_succ_r; [f_equal; lia | lia].
lia.
Qed.
