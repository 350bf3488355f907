(** Proofs about the model of misc/commitment.py, misc/zero_knowledge.py and
    misc/zkp_3_coloring.py. *)
From Coq Require Import Bool ZArith List Lia Permutation.
From Coq Require Import ssreflect ssrbool.
From Coq.Strings Require Import Ascii.
From Coq.Strings Require String.
From Verif Require Import Base BaseProofs PrimalityModel CommitmentModel.
Import String.StringSyntax.
Import ListNotations.
Local Open Scope Z_scope.
Local Set SsrOldRewriteGoalsOrder.
Local Set Bullet Behavior "None".
Local Set Implicit Arguments.
Local Unset Strict Implicit.

(** ** Lists *)
Lemma mapM_In {A B} (f : A -> result B) (g : A -> B) l :
  (forall x, In x l -> f x = Ok (g x)) -> mapM f l = Ok (map g l).
Proof.
elim: l => //= x l IH H; rewrite H; last by left.
by rewrite /= IH // => y Hy; apply: H; right.
Qed.

Lemma mapM_inv {A B} (f : A -> result B) l r : mapM f l = Ok r ->
  length r = length l /\ forall i x, nth_error l i = Some x ->
    exists y, f x = Ok y /\ nth_error r i = Some y.
Proof.
elim: l r => [|x l IH] r /=; first by case=> <-; split=> // -[|i].
case E: (f x) => [y|//] /=; case M: (mapM f l) => [ys|//] /= [<-].
case: (IH _ M) => L H; split; first by rewrite /= L.
case=> [|i] z /=; first by case=> <-; exists y.
exact: H.
Qed.

Lemma zip_length {A B} (l : list A) : forall (m : list B),
  length (zip l m) = Nat.min (length l) (length m).
Proof. by elim: l => [|x l IH] [|y m] //=; rewrite IH. Qed.

Lemma zrange_In a b x : In x (zrange a b) <-> a <= x < b.
Proof.
rewrite /zrange in_map_iff; split=> [[i [<- /in_seq]]|H]; first lia.
by exists (Z.to_nat (x - a)); split; [lia|apply/in_seq; lia].
Qed.

Lemma zrange_NoDup a b : NoDup (zrange a b).
Proof. apply: FinFun.Injective_map_NoDup; [by move=> i j; lia|exact: seq_NoDup]. Qed.

Lemma lookup_map {A} (f : Z -> A) l v : In v l -> lookup (map (fun x => (x, f x)) l) v = Ok (f v).
Proof.
elim: l => //= x l IH [->|H]; first by rewrite Z.eqb_refl.
by case: (Z.eqb_spec x v) => [->//|_]; apply: IH.
Qed.

(** ** Bits *)
Definition isbit (b : Z) : Prop := b = 0 \/ b = 1.
Definition bits_value (bits : list Z) : Z := fold_left (fun a b => 2 * a + b) bits 0.

Lemma bits_value_snoc l b : bits_value (l ++ [b]) = 2 * bits_value l + b.
Proof. by rewrite /bits_value fold_left_app. Qed.

Lemma bin_pos_value p : bits_value (bin_pos p) = Zpos p.
Proof.
by elim: p => [p IH|p IH|] //=; rewrite bits_value_snoc IH; lia.
Qed.

Lemma bin_pos_bits p : Forall isbit (bin_pos p).
Proof.
elim: p => [p IH|p IH|] /=; try (apply/Forall_app; split=> //); repeat constructor; by [right|left].
Qed.

Lemma bin_pos_length p : Z.of_nat (length (bin_pos p)) = Z.log2 (Zpos p) + 1.
Proof.
elim: p => [p IH|p IH|] //=; rewrite app_length /=.
- by rewrite Nat2Z.inj_add IH; have := Z.log2_succ_double (Zpos p) ltac:(lia); rewrite /=; lia.
- by rewrite Nat2Z.inj_add IH; have := Z.log2_double (Zpos p) ltac:(lia); rewrite /=; lia.
Qed.

Lemma bits_value_app l m : bits_value (l ++ m) = bits_value l * 2 ^ Z.of_nat (length m) + bits_value m.
Proof.
elim/rev_ind: m => [|b m IH]; first by rewrite app_nil_r Z.pow_0_r /bits_value /=; lia.
rewrite app_assoc !bits_value_snoc IH app_length [length [b]]/= Nat2Z.inj_add Z.pow_add_r; lia.
Qed.

Lemma bits_value_range l : Forall isbit l -> 0 <= bits_value l < 2 ^ Z.of_nat (length l).
Proof.
elim/rev_ind: l => [|b l IH]; first by rewrite /bits_value /=; lia.
move=> /Forall_app [H1 H2']; have H2 := Forall_inv H2'; have := IH H1.
rewrite bits_value_snoc app_length [length [b]]/= Nat2Z.inj_add Z.pow_add_r; try lia.
rewrite (_ : 2 ^ Z.of_nat 1 = 2) //; case: H2 => ->; lia.
Qed.

Lemma bits_value_repeat0 n : bits_value (repeat 0 n) = 0.
Proof. by rewrite /bits_value; elim: n => //=. Qed.

Lemma repeat0_bits n : Forall isbit (repeat 0 n).
Proof. by elim: n => //= n IH; constructor=> //; left. Qed.

(** the top bits of a bit list *)
Lemma bits_value_firstn n l : Forall isbit l ->
  bits_value (firstn n l) = bits_value l / 2 ^ Z.of_nat (length l - n).
Proof.
move=> H; rewrite -{2}(firstn_skipn n l) bits_value_app skipn_length.
have H2 : Forall isbit (skipn n l) by rewrite -(firstn_skipn n l) in H; move: H => /Forall_app [].
have R := bits_value_range H2; rewrite skipn_length in R.
rewrite Z.div_add_l; last by apply: Z.pow_nonzero; lia.
by rewrite Z.div_small //; lia.
Qed.

Lemma padded_bits_spec n x : 0 <= x ->
  exists bits, padded_bits n x = Ok bits /\ Forall isbit bits /\ bits_value bits = x /\
    Z.of_nat (length bits) = Z.max (Z.of_nat n) (Z.log2 x + 1).
Proof.
move=> Hx; rewrite /padded_bits.
have [l [-> [H1 [H2 H3]]]] : exists l, bin_bits x = Ok l /\ Forall isbit l /\ bits_value l = x /\
    Z.of_nat (length l) = Z.log2 x + 1.
  case: x Hx => [_|p _|]; last by lia.
    by exists [0]; do !split=> //; repeat constructor.
  by exists (bin_pos p); rewrite bin_pos_value bin_pos_length; do !split=> //; apply: bin_pos_bits.
rewrite /=; eexists; split; first by reflexivity.
split; first by apply/Forall_app; split=> //; apply: repeat0_bits.
rewrite bits_value_app bits_value_repeat0 H2; split; first lia.
by rewrite app_length repeat_length; lia.
Qed.

Lemma digits2_join bits : Forall isbit bits -> forall acc,
  digits2 acc (join_bits bits) = Ok (fold_left (fun a b => 2 * a + b) bits acc).
Proof.
elim: bits => [|b bits IH] // H acc.
have Hb := Forall_inv H; have := IH (Forall_inv_tail H).
case: Hb => ->; rewrite /join_bits /= => ->; f_equal; f_equal; lia.
Qed.

Lemma int2_join bits : Forall isbit bits -> bits <> [] ->
  int2 (join_bits bits) = Ok (bits_value bits).
Proof.
case: bits => // b bits H _; have := digits2_join H 0.
by case: (Forall_inv H) => ->.
Qed.

Lemma list_ascii_app a b :
  String.list_ascii_of_string (String.append a b) =
  String.list_ascii_of_string a ++ String.list_ascii_of_string b.
Proof. by elim: a => //= c a ->. Qed.

Lemma digits2_bad s c : In c (String.list_ascii_of_string s) ->
  Ascii.eqb c "0"%char = false -> Ascii.eqb c "1"%char = false ->
  forall acc, digits2 acc s = Err ValueError.
Proof.
elim: s => //= c' s IH I H0 H1 acc.
case E0: (Ascii.eqb c' "0"%char); last case E1: (Ascii.eqb c' "1"%char) => //.
  by apply: IH => //; case: I => // X; rewrite X H0 in E0.
by apply: IH => //; case: I => // X; rewrite X H1 in E1.
Qed.

Lemma digit_char d : 2 <= d <= 9 -> exists c, str_Z d = String.String c String.EmptyString /\
  Ascii.eqb c "0"%char = false /\ Ascii.eqb c "1"%char = false /\ Ascii.eqb c "-"%char = false.
Proof.
move=> H; have : d = 2 \/ d = 3 \/ d = 4 \/ d = 5 \/ d = 6 \/ d = 7 \/ d = 8 \/ d = 9 by lia.
by case=> [|[|[|[|[|[|[|]]]]]]] ->; eexists; split.
Qed.

Lemma int2_bad bits d : In d bits -> 2 <= d <= 9 -> int2 (join_bits bits) = Err ValueError.
Proof.
move=> I /digit_char [c [Ec [H0 [H1 Hm]]]].
have : In c (String.list_ascii_of_string (join_bits bits)).
  elim: bits I => //= b bits IH [->|/IH X]; rewrite list_ascii_app; apply/in_app_iff; last by right.
  by rewrite Ec; left; left.
rewrite /int2; case E: (join_bits bits) => [|c' s] //; case M: (Ascii.eqb c' "-"%char); last by move=> I'; rewrite (digits2_bad I').
move=> /= [X|I']; first by rewrite X Hm in M.
by case: s E I' => // c2 s E I'; rewrite (digits2_bad I').
Qed.

(** ** Commitments *)
Section Commitment.
Variable owp : Z -> Z.
Variable hcp : Z -> result Z.

Lemma bit_verify_spec s c g : hcp s = Ok g ->
  bit_verify owp hcp s c = Ok (fst c =? owp s).
Proof.
move=> H; rewrite /bit_verify /bit_decode H /=.
rewrite (Z.lxor_comm (snd c) g) -Z.lxor_assoc Z.lxor_nilpotent Z.lxor_0_l Z.eqb_refl.
by rewrite andb_true_r.
Qed.

Lemma bit_decode_commit s b c g : hcp s = Ok g -> bit_commit owp hcp s b = Ok c ->
  bit_decode hcp s c = Ok b.
Proof.
rewrite /bit_commit /bit_decode => -> /= [<-] /=.
by rewrite (Z.lxor_comm g b) Z.lxor_assoc Z.lxor_nilpotent Z.lxor_0_r.
Qed.

Definition total_on (secrets : list Z) : Prop :=
  forall s, In s secrets -> exists g, hcp s = Ok g.

Lemma zip_commit secrets : forall bits, total_on secrets ->
  exists cs,
    mapM (fun sb : Z * Z => let (s, b) := sb in bit_commit owp hcp s b) (zip secrets bits) = Ok cs
    /\ length cs = Nat.min (length secrets) (length bits)
    /\ allM (fun sc : Z * (Z * Z) => let (s, c) := sc in bit_verify owp hcp s c) (zip secrets cs) = Ok true
    /\ mapM (fun sc : Z * (Z * Z) => let (s, c) := sc in bit_decode hcp s c) (zip secrets cs)
       = Ok (firstn (length secrets) bits).
Proof.
elim: secrets => [|s secrets IH] bits T; first by exists [].
case: bits => [|b bits]; first by exists [].
have [g G] := T s (or_introl Logic.eq_refl).
have [cs [C1 [C2 [C3 C4]]]] := IH bits (fun x Hx => T x (or_intror Hx)).
have [c C] : exists c, bit_commit owp hcp s b = Ok c.
  by rewrite /bit_commit G; eexists.
exists (c :: cs); rewrite /= C /= C1 /=; split=> //; split; first by rewrite C2.
rewrite (bit_verify_spec _ G) (bit_decode_commit G C) /= C4 /=.
have -> : fst c =? owp s = true by move: C; rewrite /bit_commit G /= => -[<-]; apply: Z.eqb_refl.
by [].
Qed.

Lemma firstn_zip_all {A B} (l : list A) (m : list B) :
  firstn (length l) (zip l m) = zip l m.
Proof. by apply: firstn_all2; rewrite zip_length; lia. Qed.

Lemma int_commit_total secrets x : 0 <= x -> total_on secrets -> secrets <> [] ->
  exists cs, int_commit owp hcp secrets x = Ok cs /\ length cs = length secrets /\
    int_verify owp hcp (length secrets) secrets cs = Ok true /\
    int_decode hcp (length secrets) secrets cs =
      Ok (x / 2 ^ Z.max 0 (Z.log2 x + 1 - Z.of_nat (length secrets))).
Proof.
move=> Hx T N; rewrite /int_commit.
have [bits [-> [B [V L]]]] := padded_bits_spec (length secrets) Hx; rewrite /=.
have [cs [-> [C2 [C3 C4]]]] := zip_commit bits T.
have Hl : (0 < length secrets)%nat by case: (secrets) N => //= *; lia.
exists cs; split=> //; split; first by rewrite C2; lia.
rewrite /int_verify /int_decode /decodeBits firstn_zip_all C3 C4 /=; split=> //.
have FB : Forall isbit (firstn (length secrets) bits).
  by rewrite -(firstn_skipn (length secrets) bits) in B; move: B => /Forall_app [].
rewrite int2_join //; last first.
  move=> E; have := firstn_length (length secrets) bits; rewrite E /=; lia.
rewrite bits_value_firstn // V; do 2 f_equal; f_equal; lia.
Qed.

Lemma int_commit_negative secrets x : x < 0 -> int_commit owp hcp secrets x = Err ValueError.
Proof. by case: x. Qed.

(** [all] over the zipped openings *)
Lemma allM_verify l : (forall s c, In (s, c) l -> exists g, hcp s = Ok g) ->
  exists b, allM (fun sc : Z * (Z * Z) => let (s, c) := sc in bit_verify owp hcp s c) l = Ok b /\
    (b = true <-> forall s c, In (s, c) l -> fst c = owp s).
Proof.
elim: l => [|[s c] l IH] T; first by exists true; split.
have [g G] := T s c (or_introl Logic.eq_refl).
have [b [E B]] := IH (fun s' c' H => T s' c' (or_intror H)).
rewrite /= (bit_verify_spec _ G) /=; case: (Z.eqb_spec (fst c) (owp s)) => H.
  exists b; split=> //; rewrite B; split=> W s' c'.
    by case=> [[<- <-]//|]; apply: W.
  by move=> I; apply: W; right.
by exists false; split=> //; split=> // W; case: H; apply: W; left.
Qed.
End Commitment.

(** ** Graphs *)
Definition vertex (G : graph) (v : Z) : Prop := exists e, In e G /\ (fst e = v \/ snd e = v).

Lemma fold_max_spec G : forall m,
  let r := fold_left (fun m (e : Z * Z) => Z.max (Z.max m (fst e)) (snd e)) G m in
  m <= r /\ (forall v, vertex G v -> v <= r) /\ (r = m \/ vertex G r).
Proof.
elim: G => [|e G IH] m /=; first by split; [lia|split; [by move=> v [x []]|left]].
have [H1 [H2 H3]] := IH (Z.max (Z.max m (fst e)) (snd e)).
split; first lia.
split.
  move=> v [x [[<-|I] X]]; first by lia.
  by apply: H2; exists x.
case: H3 => [->|[x [I X]]]; last by right; exists x; split=> //; right.
have [E|[E|E]] : Z.max (Z.max m (fst e)) (snd e) = m \/ Z.max (Z.max m (fst e)) (snd e) = fst e
  \/ Z.max (Z.max m (fst e)) (snd e) = snd e by lia.
- by left.
- by right; exists e; split; [left|left].
- by right; exists e; split; [left|right].
Qed.

(** [num_vertices] is the largest vertex. *)
Lemma num_vertices_spec G n : num_vertices G = Ok n <->
  vertex G n /\ forall v, vertex G v -> v <= n.
Proof.
split.
  case: G => [|[a b] G] //= [<-].
  have [H1 [H2 H3]] := fold_max_spec G (Z.max a b).
  split.
    case: H3 => [->|[x [I X]]]; last by exists x; split=> //; right.
    exists (a, b); split; [by left|simpl; lia].
  move=> v [x [[<-|I] X]]; first by move: X => /=; lia.
  by apply: H2; exists x.
case: G => [|[a b] G] [V M]; first by case: V => x [].
rewrite /=; f_equal.
have [H1 [H2 H3]] := fold_max_spec G (Z.max a b).
set r := fold_left _ _ _ in H1 H2 H3 *.
have : n <= r.
  case: V => x [[<-|I] X]; first by move: X => /=; lia.
  by apply: H2; exists x.
have : r <= n.
  case: H3 => [->|[x [I X]]]; last by apply: M; exists x; split=> //; right.
  have Ma : a <= n by apply: M; exists (a, b); split; left.
  have Mb : b <= n by apply: M; exists (a, b); split; [left|right].
  lia.
lia.
Qed.

Lemma num_vertices_total G : G <> [] -> exists n, num_vertices G = Ok n.
Proof. by case: G => [|[a b] G] // _; eexists. Qed.

Lemma graph_eqbP G H : reflect (G = H) (graph_eqb G H).
Proof.
rewrite /graph_eqb; apply: (iffP idP) => [|<-].
  elim: G H => [|[a b] G IH] [|[c d] H] //= /andP [/PeanoNat.Nat.eqb_eq L /andP [/andP [/Z.eqb_eq -> /Z.eqb_eq ->] F]].
  by f_equal; apply: IH; rewrite L PeanoNat.Nat.eqb_refl.
rewrite PeanoNat.Nat.eqb_refl /=; elim: G => //= -[a b] G IH /=.
by rewrite !Z.eqb_refl.
Qed.

Definition map_graph (f : Z -> Z) (G : graph) : graph := map (fun e => (f (fst e), f (snd e))) G.

Lemma apply_ok G f (g : Z -> Z) : (forall v, vertex G v -> f v = Ok (g v)) ->
  apply_isomorphism G f = Ok (map_graph g G).
Proof.
move=> H; apply: mapM_In => -[i j] I /=.
by rewrite !H //; exists (i, j); split=> //; [right|left].
Qed.

Lemma apply_inv G f H : apply_isomorphism G f = Ok H ->
  length H = length G /\
  forall k a b, nth_error G k = Some (a, b) ->
    exists a' b', f a = Ok a' /\ f b = Ok b' /\ nth_error H k = Some (a', b').
Proof.
move=> /mapM_inv [L W]; split=> // k a b /W [[a' b'] []].
case Ea: (f a) => [x|//] /=; case Eb: (f b) => [y|//] /= [<- <-] N.
by exists x, y.
Qed.

Lemma vertex_map f G v : vertex (map_graph f G) v <-> exists w, vertex G w /\ v = f w.
Proof.
split.
  move=> [e [/in_map_iff [x [<- I]] /= [<-|<-]]].
    by exists (fst x); split=> //; exists x; split=> //; left.
  by exists (snd x); split=> //; exists x; split=> //; right.
move=> [w [[e [I X]] ->]]; exists (f (fst e), f (snd e)); split.
  by apply/in_map_iff; exists e.
by case: X => ->; [left|right].
Qed.

Lemma map_graph_id G f : (forall v, vertex G v -> f v = v) -> map_graph f G = G.
Proof.
elim: G => [|[a b] G IH] // H; rewrite /map_graph /= !H; try (by exists (a, b); split; [left|by [left|right]]).
by f_equal; apply: IH => v [e [I X]]; apply: H; exists e; split=> //; right.
Qed.

Lemma map_graph_comp f g G : map_graph f (map_graph g G) = map_graph (fun v => f (g v)) G.
Proof. by rewrite /map_graph map_map. Qed.

Lemma map_graph_ext f g G : (forall v, vertex G v -> f v = g v) -> map_graph f G = map_graph g G.
Proof.
move=> H; apply: map_ext_in => -[a b] I /=.
by f_equal; apply: H; exists (a, b); split=> //; [left|right].
Qed.

(** ** Permutations *)
Section Perm.
Variables (n : Z) (L : list Z).
Hypothesis HL : Permutation L (zrange 0 n).

Lemma perm_length : length L = Z.to_nat n.
Proof. rewrite (Permutation_length HL) /zrange map_length seq_length; lia. Qed.

Definition pfun (i : Z) : Z := nth (Z.to_nat (i - 1)) L 0 + 1.

Lemma perm_fun i : 1 <= i <= n -> make_permutation_function L i = Ok (pfun i) /\ 1 <= pfun i <= n.
Proof.
move=> Hi; have Ll := perm_length.
have N : nth_error L (Z.to_nat (i - 1)) = Some (nth (Z.to_nat (i - 1)) L 0).
  by apply: nth_error_nth'; lia.
have P : py_nth L (i - 1) = Ok (nth (Z.to_nat (i - 1)) L 0).
  by rewrite -(py_nth_nat _ _ _ N); f_equal; lia.
rewrite /make_permutation_function P.
split=> //; rewrite /pfun.
have : In (nth (Z.to_nat (i - 1)) L 0) L by apply: nth_In; lia.
by move=> /(Permutation_in _ HL) /zrange_In; lia.
Qed.

Lemma list_index_nth l x : forall i d, In x l -> exists k,
  list_index l x i = Ok (i + Z.of_nat k) /\ (k < length l)%nat /\ nth k l d = x.
Proof.
elim: l => //= y l IH i d I; case: (Z.eqb_spec y x) => [->|N].
  by exists 0%nat; split; [f_equal; lia|split; [lia|]].
case: I => [//|I]; have [k [-> [K1 K2]]] := IH (i + 1) d I.
by exists (S k); split; [f_equal; lia|split; [lia|]].
Qed.

(** the inverse function inverts on both sides *)
Lemma perm_inv v : 1 <= v <= n ->
  exists i, make_inverse_permutation_function L v = Ok i /\ 1 <= i <= n /\ pfun i = v.
Proof.
move=> Hv; rewrite /make_inverse_permutation_function.
have I : In (v - 1) L by apply: (Permutation_in _ (Permutation_sym HL)); apply/zrange_In; lia.
have [k [-> [K1 K2]]] := list_index_nth 0 0 I.
have Ll := perm_length; exists (1 + (0 + Z.of_nat k)); split=> //; split; first lia.
by rewrite /pfun (_ : Z.to_nat _ = k) ?K2; lia.
Qed.

Lemma pfun_inj i j : 1 <= i <= n -> 1 <= j <= n -> pfun i = pfun j -> i = j.
Proof.
move=> Hi Hj E; have Ll := perm_length.
have ND : NoDup L by apply: (Permutation_NoDup (Permutation_sym HL)); apply: zrange_NoDup.
have : Z.to_nat (i - 1) = Z.to_nat (j - 1).
  apply: (proj1 (NoDup_nth L 0) ND); try lia.
  by move: E; rewrite /pfun; lia.
lia.
Qed.

Lemma perm_inv_fun i : 1 <= i <= n -> make_inverse_permutation_function L (pfun i) = Ok i.
Proof.
move=> Hi; have [_ R] := perm_fun Hi; have [j [-> [Hj E]]] := perm_inv R.
by rewrite (pfun_inj Hj Hi E).
Qed.
End Perm.

(** ** The graph isomorphism protocol *)
Lemma zk_complete G1 G2 n iso L choice :
  (forall v, vertex G1 v -> 1 <= v) ->
  num_vertices G1 = Ok n -> num_vertices G2 = Ok n ->
  Permutation iso (zrange 0 n) -> Permutation L (zrange 0 n) ->
  apply_isomorphism G1 (make_permutation_function iso) = Ok G2 ->
  choice = 1 \/ choice = 2 ->
  run_protocol G1 G2 iso L choice = Ok true.
Proof.
move=> V1 N1 N2 Piso PL E C.
have [Vn Mn] := proj1 (num_vertices_spec _ _) N1.
have Hn : 0 <= n by have := V1 n Vn; lia.
have B : forall v, vertex G1 v -> 1 <= v <= n by move=> v Hv; split; [apply: V1|apply: Mn].
have E' : G2 = map_graph (pfun iso) G1.
  move: E; rewrite (@apply_ok G1 _ (pfun iso)) => [|v /B Hv]; first by case.
  by have [] := perm_fun Piso Hv.
rewrite /run_protocol /zk_init N1 N2 /= Z.eqb_refl /=.
rewrite /send_isomorphic_copy (@apply_ok G1 _ (pfun L)) => [|v /B Hv]; last by have [] := perm_fun PL Hv.
rewrite /= /zk_accepts /prove_isomorphic_to.
have W : forall v, vertex (map_graph (pfun L) G1) v -> exists i, 1 <= i <= n /\ v = pfun L i /\ vertex G1 i.
  by move=> v /vertex_map [w [Hw ->]]; exists w; split; [apply: B|].
pose inv v := match make_inverse_permutation_function L v with Ok i => i | Err _ => 0 end.
have invE : forall i, 1 <= i <= n -> inv (pfun L i) = i.
  by move=> i Hi; rewrite /inv (perm_inv_fun PL Hi).
case: C => ->; rewrite /=.
  rewrite (@apply_ok _ _ inv) => [|v /W [i [Hi [-> _]]]]; last by rewrite /inv !(perm_inv_fun PL Hi).
  rewrite /= map_graph_comp map_graph_id; last by move=> v /B; apply: invE.
  by f_equal; apply/graph_eqbP.
rewrite (@apply_ok _ _ (fun v => pfun iso (inv v))) => [|v /W [i [Hi [-> _]]]]; last first.
  by rewrite (perm_inv_fun PL Hi) invE //=; have [] := perm_fun Piso Hi.
rewrite /= map_graph_comp; f_equal; apply/graph_eqbP; rewrite E'.
by apply: map_graph_ext => v /B Hv; rewrite invE.
Qed.

(** when every vertex up to the largest one lies on an edge, the image has the
    same largest vertex *)
Lemma image_vertices G1 n iso :
  (forall v, vertex G1 v <-> 1 <= v <= n) -> 1 <= n ->
  Permutation iso (zrange 0 n) ->
  exists G2, apply_isomorphism G1 (make_permutation_function iso) = Ok G2 /\
    num_vertices G1 = Ok n /\ num_vertices G2 = Ok n.
Proof.
move=> V Hn P; have Hn0 : 0 <= n by lia.
exists (map_graph (pfun iso) G1); split.
  by apply: apply_ok => v /V Hv; have [] := perm_fun P Hv.
split; apply/num_vertices_spec.
  by split; [apply/V; lia|move=> v /V; lia].
split.
  have [i [_ [Hi E]]] := perm_inv P (v := n) ltac:(lia).
  by apply/vertex_map; exists i; split; [apply/V|].
by move=> v /vertex_map [w [/V Hw ->]]; have [_] := perm_fun P Hw; lia.
Qed.

Lemma zk_acceptsP G1 G2 f choice H b :
  zk_accepts G1 G2 f choice H = Ok b ->
  exists G, py_nth [G1; G2] (choice - 1) = Ok G /\
    (b = true <-> apply_isomorphism H f = Ok G).
Proof.
rewrite /zk_accepts; case: (py_nth _ _) => [G|//] /=.
case E: (apply_isomorphism H f) => [I|//] /= [<-]; exists G; split=> //.
by split=> [/graph_eqbP ->//|[->]]; apply/graph_eqbP.
Qed.

(** the cheating prover: fresh vertices for every end point *)
Fixpoint fresh_edges (n : nat) (k : Z) : graph :=
  match n with O => [] | S n' => (k, k + 1) :: fresh_edges n' (k + 2) end.

(** the answer for a graph: vertex [2i+1] and [2i+2] go to the i-th edge *)
Definition cheat (G : graph) (v : Z) : result Z :=
  Ok (nth (Z.to_nat (v - 1)) (flat_map (fun e => [fst e; snd e]) G) 0).

Lemma cheat_apply G : forall (pre : list Z) f,
  (forall v, 1 <= v -> f v = Ok (nth (Z.to_nat (v - 1)) (pre ++ flat_map (fun e : Z * Z => [fst e; snd e]) G) 0)) ->
  apply_isomorphism (fresh_edges (length G) (Z.of_nat (length pre) + 1)) f = Ok G.
Proof.
elim: G => [|[a b] G IH] pre f H //.
rewrite [length (_ :: _)]/= [fresh_edges _ _]/= /apply_isomorphism /= !H; try lia.
rewrite (_ : Z.to_nat (Z.of_nat (length pre) + 1 - 1) = length pre + 0)%nat; last by lia.
rewrite (_ : Z.to_nat (Z.of_nat (length pre) + 1 + 1 - 1) = length pre + 1)%nat; last by lia.
rewrite !app_nth2_plus /=.
have := IH (pre ++ [a; b]) f; rewrite /apply_isomorphism app_length /=.
rewrite (_ : Z.of_nat (length pre + 2) + 1 = Z.of_nat (length pre) + 1 + 2); last by lia.
move=> -> //= v Hv; rewrite H // -app_assoc //.
Qed.

Lemma cheat_ok G : apply_isomorphism (fresh_edges (length G) 1) (cheat G) = Ok G.
Proof. exact: (@cheat_apply G []). Qed.

(** ** 3-colouring *)
Section Coloring.
Variable owp : Z -> Z.
Variable hcp : Z -> result Z.

Definition defined (s : Z) : Prop := exists g, hcp s = Ok g.

Lemma two_bit_commit s1 s2 c : defined s1 -> defined s2 -> 0 <= c < 4 ->
  exists com, int_commit owp hcp [s1; s2] c = Ok com /\
    int_verify owp hcp 2 [s1; s2] com = Ok true /\ int_decode hcp 2 [s1; s2] com = Ok c.
Proof.
move=> D1 D2 Hc.
have T : total_on hcp [s1; s2] by move=> s /= [<-|[<-|//]].
have N : [s1; s2] <> [] by [].
have [cs [H1 [_ [H2 H3]]]] := @int_commit_total owp hcp [s1; s2] c ltac:(lia) T N.
exists cs; split=> //; split=> //; rewrite H3.
have : c = 0 \/ c = 1 \/ c = 2 \/ c = 3 by lia.
by move=> [->|[->|[->|->]]].
Qed.

(** acceptance when both openings verify *)
Lemma col_accepts_open committed u v ru rv cu cv comu comv :
  lookup committed u = Ok comu -> lookup committed v = Ok comv ->
  int_verify owp hcp 2 ru comu = Ok true -> int_decode hcp 2 ru comu = Ok cu ->
  int_verify owp hcp 2 rv comv = Ok true -> int_decode hcp 2 rv comv = Ok cv ->
  col_accepts owp hcp committed (u, v) [ru; rv] = Ok (negb (cu =? cv)).
Proof.
by rewrite /col_accepts /= => -> -> V1 D1 V2 D2; rewrite /= D1 /= V1 /= D2 /= V2.
Qed.

(** The secret list of a vertex. *)
Definition secret_list (secrets : Z -> Z * Z) (v : Z) : list Z :=
  [fst (secrets v); snd (secrets v)].

(** The commitments of an honest prover, for arbitrary two-bit colours. *)
Lemma commit_all (secrets : Z -> Z * Z) (col : Z -> Z) vs :
  (forall v, In v vs -> defined (fst (secrets v)) /\ defined (snd (secrets v)) /\ 0 <= col v < 4) ->
  exists com : Z -> list (Z * Z),
    (forall v, In v vs -> int_commit owp hcp (secret_list secrets v) (col v) = Ok (com v) /\
       int_verify owp hcp 2 (secret_list secrets v) (com v) = Ok true /\
       int_decode hcp 2 (secret_list secrets v) (com v) = Ok (col v)).
Proof.
move=> H.
exists (fun v => match int_commit owp hcp (secret_list secrets v) (col v) with Ok c => c | Err _ => [] end).
move=> v /H [D1 [D2 C]].
by have [com [H1 [H2 H3]]] := two_bit_commit D1 D2 C; rewrite /secret_list H1.
Qed.

Lemma sorted_graph_vertex G e : In e (sorted_graph G) -> vertex G (fst e) /\ vertex G (snd e).
Proof.
move=> /in_map_iff [x [<- I]] /=.
by split; exists x; split=> //; lia.
Qed.

Lemma sorted_graph_sorted G e : In e (sorted_graph G) -> fst e <= snd e.
Proof. by move=> /in_map_iff [x [<- I]] /=; lia. Qed.

Lemma edge_memP e G : In e G -> edge_mem e G = true.
Proof. by move=> I; apply/existsb_exists; exists e; rewrite !Z.eqb_refl. Qed.

Lemma py_nth_perm3 perm c : Permutation perm (zrange 0 3) -> 0 <= c < 3 ->
  exists c', py_nth perm c = Ok c' /\ 0 <= c' < 3 /\ c' = pfun perm (c + 1) - 1.
Proof.
move=> P Hc; have [H1 H2] := perm_fun P (i := c + 1) ltac:(lia).
move: H1; rewrite /make_permutation_function (_ : c + 1 - 1 = c); last by lia.
case: (py_nth perm c) => [x|//] /= [E]; exists x; rewrite -E; split=> //; lia.
Qed.

Lemma col_protocol G n coloring (col : Z -> Z) secrets perm e :
  num_vertices G = Ok n -> (forall v, vertex G v -> 1 <= v) ->
  (forall v, 1 <= v <= n -> lookup coloring v = Ok (col v) /\ 0 <= col v < 3) ->
  (forall v, 1 <= v <= n -> defined (fst (secrets v)) /\ defined (snd (secrets v))) ->
  Permutation perm (zrange 0 3) -> In e (sorted_graph G) ->
  col_run_protocol owp hcp G coloring secrets perm e =
  Ok (negb (col (fst e) =? col (snd e))).
Proof.
move=> N V1 HC HD P I.
have [_ Mn] := proj1 (num_vertices_spec _ _) N.
have [Vu Vv] := sorted_graph_vertex I; have Le := sorted_graph_sorted I.
have Bu : 1 <= fst e <= n by split; [apply: V1|apply: Mn].
have Bv : 1 <= snd e <= n by split; [apply: V1|apply: Mn].
pose vs := zrange 1 (n + 1).
have vsP : forall v, In v vs <-> 1 <= v <= n by move=> v; rewrite zrange_In; lia.
pose pc v := pfun perm (col v + 1) - 1.
have HV : forall v, In v vs ->
    defined (fst (secrets v)) /\ defined (snd (secrets v)) /\ 0 <= pc v < 4.
  move=> v /vsP Hv; have [D1 D2] := HD v Hv; have [_ C] := HC v Hv.
  have [c' [_ [B E]]] := py_nth_perm3 P C; rewrite E in B; rewrite -/(pc v) in B.
  by split=> //; split=> //; lia.
have [com HCom] := commit_all HV.
have EC : commit_to_coloring owp hcp G coloring secrets perm = Ok (map (fun v => (v, com v)) vs).
  rewrite /commit_to_coloring /prover_vertices N [bind (Ok n) _]/= [bind (Ok (zrange _ _)) _]/= -/vs.
  rewrite (@mapM_In _ _ _ (fun v => (v, pc v))) => [|v Hv]; last first.
    have [-> C] := HC v (proj1 (vsP v) Hv); rewrite /=.
    by have [c' [-> [_ ->]]] := py_nth_perm3 P C.
  rewrite [bind _ _]/=; apply: mapM_In => v Hv; rewrite lookup_map //=.
  have [H _] := HCom v Hv; move: H; rewrite /secret_list.
  by case: (secrets v) => a b /= ->.
rewrite /col_run_protocol EC [bind (Ok _) _]/=.
have ER : reveal_colors G secrets (fst e) (snd e) =
   Ok [secret_list secrets (fst e); secret_list secrets (snd e)].
  rewrite /reveal_colors Z.min_l // Z.max_r // edge_memP; last by case: (e) I.
  rewrite /= /prover_vertices N /= -/vs.
  have X : forall v, 1 <= v <= n -> existsb (Z.eqb v) vs = true.
    by move=> v Hv; apply/existsb_exists; exists v; rewrite Z.eqb_refl; split=> //; apply/vsP.
  rewrite !X //= /secret_list; by case: (secrets (fst e)) => *; case: (secrets (snd e)).
rewrite ER /= lookup_map; last by apply/vsP.
have [_ [Vu1 Du]] := HCom _ (proj2 (vsP _) Bu); have [_ [Vv1 Dv]] := HCom _ (proj2 (vsP _) Bv).
rewrite /= Du /= lookup_map; last by apply/vsP.
rewrite /= Dv /=.
have Lu : lookup (map (fun v => (v, com v)) vs) (fst e) = Ok (com (fst e)) by rewrite lookup_map //; apply/vsP.
have Lv : lookup (map (fun v => (v, com v)) vs) (snd e) = Ok (com (snd e)) by rewrite lookup_map //; apply/vsP.
rewrite (surjective_pairing e) (col_accepts_open Lu Lv Vu1 Du Vv1 Dv) /=; f_equal; f_equal.
have [_ Cu] := HC _ Bu; have [_ Cv] := HC _ Bv; rewrite /pc.
case: (Z.eqb_spec (col (fst e)) (col (snd e))) => [->|N2]; first exact: Z.eqb_refl.
apply/Z.eqb_neq => E; case: N2.
have : col (fst e) + 1 = col (snd e) + 1 by apply: (pfun_inj P); lia.
lia.
Qed.

(** Colours are only bounded by the two bits of the commitment. *)
Lemma col_four G n (col : Z -> Z) secrets :
  num_vertices G = Ok n -> (forall v, vertex G v -> 1 <= v) ->
  (forall v, 1 <= v <= n -> 0 <= col v < 4) ->
  (forall v, 1 <= v <= n -> defined (fst (secrets v)) /\ defined (snd (secrets v))) ->
  exists committed, forall e, In e (sorted_graph G) ->
    col_accepts owp hcp committed e [secret_list secrets (fst e); secret_list secrets (snd e)]
    = Ok (negb (col (fst e) =? col (snd e))).
Proof.
move=> N V1 HC HD; have [_ Mn] := proj1 (num_vertices_spec _ _) N.
pose vs := zrange 1 (n + 1).
have vsP : forall v, In v vs <-> 1 <= v <= n by move=> v; rewrite zrange_In; lia.
have [com HCom] := @commit_all secrets col vs (fun v Hv =>
   let '(conj a b) := HD v (proj1 (vsP v) Hv) in conj a (conj b (HC v (proj1 (vsP v) Hv)))).
exists (map (fun v => (v, com v)) vs) => e I.
have [Vu Vv] := sorted_graph_vertex I.
have Bu : In (fst e) vs by apply/vsP; split; [apply: V1|apply: Mn].
have Bv : In (snd e) vs by apply/vsP; split; [apply: V1|apply: Mn].
have [_ [Vu1 Du]] := HCom _ Bu; have [_ [Vv1 Dv]] := HCom _ Bv.
have Lu := lookup_map com Bu; have Lv := lookup_map com Bv.
by rewrite {1}(surjective_pairing e) (col_accepts_open Lu Lv Vu1 Du Vv1 Dv).
Qed.

(** A commitment to 3 = 11b opened with one secret only decodes to 1. *)
Lemma partial_opening s1 s2 com : defined s1 -> defined s2 ->
  int_commit owp hcp [s1; s2] 3 = Ok com ->
  int_verify owp hcp 2 [s1] com = Ok true /\ int_decode hcp 2 [s1] com = Ok 1.
Proof.
move=> [g1 G1] [g2 G2]; rewrite /int_commit /= /bit_commit G1 /= G2 /= => -[<-].
rewrite /int_verify /int_decode /decodeBits /= (bit_verify_spec _ _ G1) /= Z.eqb_refl /bit_decode G1 /=.
by rewrite (Z.lxor_comm g1 1) Z.lxor_assoc Z.lxor_nilpotent Z.lxor_0_r.
Qed.

Lemma col_cheat G n secrets :
  num_vertices G = Ok n -> (forall v, vertex G v -> 1 <= v) ->
  (forall v, 1 <= v <= n -> defined (fst (secrets v)) /\ defined (snd (secrets v))) ->
  exists committed, forall e, In e (sorted_graph G) ->
    col_accepts owp hcp committed e [secret_list secrets (fst e); [fst (secrets (snd e))]] = Ok true.
Proof.
move=> N V1 HD; have [_ Mn] := proj1 (num_vertices_spec _ _) N.
pose vs := zrange 1 (n + 1).
have vsP : forall v, In v vs <-> 1 <= v <= n by move=> v; rewrite zrange_In; lia.
have HV : forall v, In v vs ->
    defined (fst (secrets v)) /\ defined (snd (secrets v)) /\ 0 <= 3 < 4.
  by move=> v /vsP Hv; have [D1 D2] := HD v Hv; split=> //; split=> //; lia.
have [com HCom] := @commit_all secrets (fun _ => 3) vs HV.
exists (map (fun v => (v, com v)) vs) => e I.
have [Vu Vv] := sorted_graph_vertex I.
have Bu : In (fst e) vs by apply/vsP; split; [apply: V1|apply: Mn].
have Bv : In (snd e) vs by apply/vsP; split; [apply: V1|apply: Mn].
have [_ [Vu1 Du]] := HCom _ Bu; have [Cv _] := HCom _ Bv.
have [D1 D2] := HD _ (proj1 (vsP _) Bv).
have [Vv1 Dv] := partial_opening D1 D2 Cv.
have Lu := lookup_map com Bu; have Lv := lookup_map com Bv.
by rewrite {1}(surjective_pairing e) (col_accepts_open Lu Lv Vu1 Du Vv1 Dv).
Qed.
End Coloring.

(** ** Extraction from two accepted answers *)
Definition ends (G : graph) : list Z := flat_map (fun e : Z * Z => [fst e; snd e]) G.

Lemma ends_vertex G v : In v (ends G) <-> vertex G v.
Proof.
rewrite /ends in_flat_map; split=> -[e [I X]]; exists e; split=> //.
  by move: X => /= [?|[?|//]]; [left|right].
by rewrite /=; case: X; [left|right; left].
Qed.

Definition val (r : result Z) : Z := match r with Ok x => x | Err _ => 0 end.

Lemma apply_val H f G : apply_isomorphism H f = Ok G ->
  (forall v, vertex H v -> f v = Ok (val (f v))) /\ G = map_graph (fun v => val (f v)) H.
Proof.
move=> E; have [_ W] := apply_inv E.
have D : forall v, vertex H v -> f v = Ok (val (f v)).
  move=> v [[a b] [I X]]; have [k K] := In_nth_error _ _ I.
  have [a' [b' [Ea [Eb _]]]] := W _ _ _ K.
  by case: X => /= <-; rewrite ?Ea ?Eb.
by split=> //; move: E; rewrite (apply_ok D) => -[].
Qed.

Lemma zk_special H f1 f2 G1 G2 :
  apply_isomorphism H f1 = Ok G1 -> apply_isomorphism H f2 = Ok G2 ->
  (forall v w x, vertex H v -> vertex H w -> f1 v = Ok x -> f1 w = Ok x -> v = w) ->
  exists sigma : Z -> Z, G2 = map_graph sigma G1 /\
   ((forall v w x, vertex H v -> vertex H w -> f2 v = Ok x -> f2 w = Ok x -> v = w) ->
    forall v w, vertex G1 v -> vertex G1 w -> sigma v = sigma w -> v = w).
Proof.
move=> /apply_val [D1 ->] /apply_val [D2 ->] I1.
pose g v := val (f1 v); pose h v := val (f2 v).
pose sigma x := match find (fun v => g v =? x) (ends H) with Some v => h v | None => 0 end.
have S : forall v, vertex H v -> sigma (g v) = h v.
  move=> v Hv; rewrite /sigma.
  case F: (find _ _) => [w|].
    have [/ends_vertex Hw /Z.eqb_eq Ew] := find_some _ _ F.
    by rewrite (I1 w v (g v)) //; [rewrite -Ew|]; apply: D1.
  have := find_none _ _ F v; rewrite Z.eqb_refl => /(_ (proj2 (ends_vertex _ _) Hv)).
  by [].
exists sigma; split.
  by rewrite map_graph_comp; apply: map_graph_ext => v Hv; rewrite -/(g v) S.
move=> I2 v w /vertex_map [a [Ha ->]] /vertex_map [b [Hb ->]].
rewrite -/(g a) -/(g b) !S // => E.
by rewrite (I2 a b (h a)) //; [|rewrite E]; apply: D2.
Qed.
