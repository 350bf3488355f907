(** Exactly what starks/compression.py writes, and exactly what it accepts. *)
From Coq Require Import Bool ZArith List Lia.
From Coq Require Import ssreflect ssrbool.
From Verif Require Import Base BaseProofs MerkleModel MerkleProofs CompressionModel CompressionProofs.
Import ListNotations.
Local Open Scope Z_scope.
Local Set SsrOldRewriteGoalsOrder.
Local Set Bullet Behavior "None".

(** ** first occurrences *)
Fixpoint fidx (x : bytes) (l : list bytes) : option nat :=
  match l with
  | [] => None
  | y :: l' => if bytes_eqb y x then Some 0%nat else option_map S (fidx x l')
  end.

Definition first_at (xs : list bytes) (x : bytes) (j : nat) :=
  nth_error xs j = Some x /\ ~ In x (firstn j xs).

Lemma fidx_some x l j : fidx x l = Some j <-> first_at l x j.
Proof.
rewrite /first_at; elim: l j => [|y l IH] j /=.
  by split=> // -[]; case: j.
case: bytes_eqb_spec => [->|ne].
  split=> [[<-]|[H N]]; first by split=> // -[].
  by case: j H N => [|j] //= _ []; left.
case: j => [|j] /=.
  split; first by case: fidx.
  by move=> [[E] _].
split.
  case E: (fidx x l) => [k|] //= [<-]; move/IH: E => [H N].
  by split=> // -[].
move=> [H N]; have -> : fidx x l = Some j; last by [].
by apply/IH; split=> // I; apply: N; right.
Qed.

Lemma fidx_none x l : fidx x l = None <-> ~ In x l.
Proof.
elim: l => [|y l IH] /=; first by split=> // _ [].
case: bytes_eqb_spec => [->|ne]; first by split=> // H; case: H; left.
case: fidx IH => [k|] IH /=.
  by split=> // H; have := proj2 IH (fun h => H (or_intror h)).
split=> // _ [//|]; exact: (proj1 IH).
Qed.

Lemma fidx_snoc x l y : fidx x (l ++ [y]) =
  match fidx x l with Some j => Some j | None => if bytes_eqb y x then Some (length l) else None end.
Proof.
elim: l => [|z l IH] //=; case: bytes_eqb => //; rewrite IH.
by case: fidx => //=; case: bytes_eqb.
Qed.

Lemma firstn_split {A} (l : list A) i x : nth_error l i = Some x -> exists r, l = firstn i l ++ x :: r.
Proof.
move=> H; exists (skipn (S i) l).
elim: i l H => [|i IH] [|y l] //=; first by move=> [->].
by move=> H; rewrite -IH.
Qed.

Lemma fidx_app x l r : In x l -> fidx x (l ++ r) = fidx x l.
Proof.
elim: l => [|y l IH] //= H; case: bytes_eqb_spec => // ne.
by rewrite IH //; case: H.
Qed.

Lemma first_uniq xs x i j : first_at xs x i -> first_at xs x j -> i = j.
Proof. by move=> /fidx_some E1 /fidx_some E2; rewrite E1 in E2; case: E2. Qed.

Lemma first_le xs x i j : first_at xs x j -> nth_error xs i = Some x -> (j <= i)%nat.
Proof.
move=> [H N] Hi; case: (Nat.le_gt_cases j i) => // lt; case: N.
have [r E] := firstn_split _ _ _ H.
have Hl : (i < length (firstn j xs))%nat.
  by rewrite firstn_length; have := nth_error_in_lt _ _ _ H; lia.
by apply: (nth_error_In _ i); rewrite -Hi [in RHS]E nth_error_app1.
Qed.

Lemma first_exists xs x i : nth_error xs i = Some x -> exists j, first_at xs x j.
Proof.
move=> H; case E: (fidx x xs) => [j|]; first by exists j; apply/fidx_some.
by move/fidx_none: E => []; apply: nth_error_In H.
Qed.

(** ** the list of objects written *)
Definition code (pre : list bytes) (y : bytes) : result bytes :=
  match fidx y pre with Some j => to_bytes_be 2 (Z.of_nat j) | None => Ok y end.

Fixpoint enc (pre ys : list bytes) : result (list bytes) :=
  match ys with
  | [] => Ok []
  | y :: ys' => let* b := code pre y in let* r := enc (pre ++ [y]) ys' in Ok (b :: r)
  end.

Lemma add_enc ys : forall o d pre, length o = length pre -> (forall x, dict_get d x = fidx x pre) ->
  match enc pre ys with
  | Ok r => exists d', foldM add_obj ys (o, d) = Ok (o ++ r, d')
  | Err e => foldM add_obj ys (o, d) = Err e
  end.
Proof.
elim: ys => [|y ys IH] o d pre HL HD.
  by rewrite /=; exists d; rewrite app_nil_r.
rewrite [enc _ _]/= /code foldM_cons /add_obj HD.
case E: (fidx y pre) => [j|].
  case: to_bytes_be => [b|e] //; cbn [bind].
  have := IH (o ++ [b]) d (pre ++ [y]); case: enc => [r|e] H; cbn [bind].
    case: H => [||d' ->]; last by exists d'; rewrite -app_assoc.
    - by rewrite !app_length HL.
    - move=> x; rewrite HD fidx_snoc; case Ex: (fidx x pre) => [k|] //.
      by case: bytes_eqb_spec => // Eyx; rewrite -Eyx E in Ex.
  apply: H; first by rewrite !app_length HL.
  move=> x; rewrite HD fidx_snoc; case Ex: (fidx x pre) => [k|] //.
  by case: bytes_eqb_spec => // Eyx; rewrite -Eyx E in Ex.
cbn [bind].
have := IH (o ++ [y]) ((y, length o) :: d) (pre ++ [y]).
have H1 : length (o ++ [y]) = length (pre ++ [y]) by rewrite !app_length HL.
have H2 x : dict_get ((y, length o) :: d) x = fidx x (pre ++ [y]).
  rewrite fidx_snoc /= HL HD; case: bytes_eqb_spec => [<-|ne]; first by rewrite E.
  by case: fidx.
move=> /(_ H1 H2); case: enc => [r|e] //; cbn [bind].
by move=> [d' ->]; exists d'; rewrite -app_assoc.
Qed.

Lemma add_enc0 xs : match enc [] xs with
  | Ok r => exists d', foldM add_obj xs ([], []) = Ok (r, d')
  | Err e => foldM add_obj xs ([], []) = Err e
  end.
Proof. exact: (add_enc xs [] [] []). Qed.

Lemma enc_spec ys : forall pre r, enc pre ys = Ok r -> length r = length ys /\
  forall i x, nth_error ys i = Some x ->
    exists b, nth_error r i = Some b /\ code (pre ++ firstn i ys) x = Ok b.
Proof.
elim: ys => [|y ys IH] pre r /=; first by move=> [<-]; split=> // -[].
case E: code => [b|] //=; case E2: enc => [r'|] //= [<-].
have [L H] := IH _ _ E2; split; first by rewrite /= L.
case=> [|i] x /=; first by move=> [<-]; exists b; rewrite app_nil_r.
by move=> /H [c [H1 H2]]; exists c; rewrite -app_assoc in H2.
Qed.

Lemma enc_err ys : forall pre e, enc pre ys = Err e -> e = OverflowError /\
  exists i x j, [/\ nth_error ys i = Some x, fidx x (pre ++ firstn i ys) = Some j & 65536 <= Z.of_nat j].
Proof.
elim: ys => [|y ys IH] pre e //=.
case E: code => [b|e'] /=.
  case E2: enc => [r'|e2] //= [<-]; have [-> [i [x [j [H1 H2 H3]]]]] := IH _ _ E2; split=> //.
  by exists (S i), x, j; rewrite -app_assoc in H2.
move=> [<-]; move: E; rewrite /code; case Ej: (fidx y pre) => [j|] //.
rewrite /to_bytes_be; case C: (_ || _) => // -[<-]; split=> //.
exists 0%nat, y, j; rewrite app_nil_r; split=> //.
by move/orP: C => [/Z.ltb_lt|/Z.leb_le]; [lia|rewrite (_ : 256 ^ Z.of_nat 2 = 65536)].
Qed.

(** the two forms of an entry *)
Definition entries (xs o : list bytes) :=
  length o = length xs /\
  forall i j x, first_at xs x j -> nth_error xs i = Some x ->
    (i = j -> nth_error o i = Some x) /\
    (i <> j -> exists b, [/\ nth_error o i = Some b, length b = 2%nat & from_bytes_be b = Z.of_nat j]).

Definition no_overflow (xs : list bytes) :=
  forall i j x, first_at xs x j -> nth_error xs i = Some x -> i <> j -> Z.of_nat j < 65536.

Lemma fidx_prefix xs i x : nth_error xs i = Some x ->
  match fidx x (firstn i xs) with
  | Some j => first_at xs x j /\ (j < i)%nat
  | None => first_at xs x i
  end.
Proof.
move=> H; have [r E] := firstn_split _ _ _ H.
case Ef: (fidx x (firstn i xs)) => [j|]; last by split=> //; apply/fidx_none.
have F := proj1 (fidx_some _ _ _) Ef; split.
  apply/fidx_some; rewrite E fidx_app //; apply: nth_error_In; exact: (proj1 F).
by have := nth_error_in_lt _ _ _ (proj1 F); rewrite firstn_length; lia.
Qed.

Lemma enc_entries xs o : enc [] xs = Ok o -> entries xs o /\ no_overflow xs.
Proof.
move=> /enc_spec [L H]; split.
  split=> // i j x Fj Hi; have [b [Hb Cb]] := H _ _ Hi; move: Cb; rewrite /code /=.
  have := fidx_prefix _ _ _ Hi; case Ef: fidx => [k|] Hk.
    case: Hk => Fk lt; have Ek := first_uniq _ _ _ _ Fk Fj; subst k.
    rewrite /to_bytes_be; case C: (_ || _) => // -[Eb]; split=> [?|_]; first by lia.
    exists b; split=> //; first by rewrite -Eb; exact: (be_digits_length 2).
    rewrite -Eb (from_be_digits 2) Z.mod_small //; move: C.
    by case: Z.ltb_spec => //=; case: Z.leb_spec => //; lia.
  by move=> [Eb]; split=> [_|]; [rewrite Eb|move=> []; exact: first_uniq Hk Fj].
move=> i j x Fj Hi ne; have [b [Hb Cb]] := H _ _ Hi; move: Cb; rewrite /code /=.
have := fidx_prefix _ _ _ Hi; case Ef: fidx => [k|] Hk; last by case: ne; exact: first_uniq Hk Fj.
case: Hk => Fk lt; have Ek := first_uniq _ _ _ _ Fk Fj; subst k.
rewrite /to_bytes_be; case C: (_ || _) => // _; move: C.
by rewrite (_ : 256 ^ Z.of_nat 2 = 65536) //; case: Z.ltb_spec => //=; case: Z.leb_spec => //; lia.
Qed.

Lemma enc_overflow xs e : enc [] xs = Err e -> e = OverflowError /\
  exists i j x, [/\ first_at xs x j, nth_error xs i = Some x, i <> j & 65536 <= Z.of_nat j].
Proof.
move=> /enc_err [-> [i [x [j [H1 H2 H3]]]]]; split=> //; exists i, j, x.
have := fidx_prefix _ _ _ H1; rewrite H2 => -[F lt]; split=> //; lia.
Qed.

(** ** reading an entry *)
Definition agree (o : list bytes) (pos : nat) (l : list bytes) :=
  forall k x, nth_error l k = Some x -> get_obj o (pos + k) = Ok x.

Lemma agree_cons o pos x l : agree o pos (x :: l) <-> get_obj o pos = Ok x /\ agree o (S pos) l.
Proof.
split=> [H|[H1 H2] [|k] y /=]; last 2 first.
- by rewrite Nat.add_0_r => -[<-].
- by rewrite Nat.add_succ_r; apply: H2.
split; first by rewrite -(Nat.add_0_r pos); apply: H.
by move=> k y Hk; have := H (S k) y Hk; rewrite Nat.add_succ_r.
Qed.

Lemma agree_app o pos a b : agree o pos (a ++ b) <-> agree o pos a /\ agree o (pos + length a) b.
Proof.
elim: a pos => [|x a IH] pos.
  by rewrite /= Nat.add_0_r; split=> [H|[]//]; split=> // -[].
rewrite [_ ++ _]/= !agree_cons IH /= Nat.add_succ_r; tauto.
Qed.

Lemma agree_nil o pos : agree o pos [].
Proof. by case. Qed.

Lemma lget_inv {A} (l : list A) i a : lget l i = Ok a -> nth_error l i = Some a.
Proof. by rewrite /lget; case: nth_error => [b|] // [->]. Qed.

(** two-byte objects have to stand at the position they denote *)
Definition fixed (xs : list bytes) :=
  forall x j, first_at xs x j -> length x = 2%nat -> from_bytes_be x = Z.of_nat j.

Lemma from_bytes_nonneg b : 0 <= from_bytes_be b.
Proof.
have G : forall l z, 0 <= z -> 0 <= fold_left (fun acc x => acc * 256 + byte_val x) l z.
  by elim=> [|x l IH] z Hz //=; apply: IH; rewrite /byte_val; lia.
by apply: G.
Qed.

Lemma agree_entries xs o : entries xs o -> agree o 0 xs <-> fixed xs.
Proof.
move=> [L H]; split.
  move=> A x j F Hx; have [H1 _] := H j j x F (proj1 F).
  have := A j x (proj1 F); rewrite /get_obj /= (lget_some _ _ _ (H1 eq_refl)) /= Hx /=.
  move=> Hn0; have Hn := lget_inv _ _ _ Hn0; clear Hn0.
  set n := Z.to_nat (from_bytes_be x) in Hn *.
  have Hy : exists y, nth_error xs n = Some y.
    have := nth_error_in_lt _ _ _ Hn; rewrite L => /(proj2 (nth_error_Some xs n)).
    by case: nth_error => [y|] // _; exists y.
  case: Hy => y Hy; have [k Fk] := first_exists _ _ _ Hy.
  have [G1 G2] := H n k y Fk Hy.
  have P := from_bytes_nonneg x.
  case: (Nat.eq_dec n k) => [E|ne].
    have := G1 E; rewrite Hn => -[Exy]; subst y k.
    by rewrite (first_uniq _ _ _ _ F Fk) /n Z2Nat.id.
  have [b [B1 B2 B3]] := G2 ne; rewrite Hn in B1; case: B1 => B1; subst b.
  by case: ne; rewrite /n B3 Nat2Z.id.
move=> Fx i x Hi; have [j F] := first_exists _ _ _ Hi; have [G1 G2] := H i j x F Hi.
rewrite /get_obj [(0 + i)%nat]/=; case: (Nat.eq_dec i j) => [E|ne].
  rewrite (lget_some _ _ _ (G1 E)) /=; case: Nat.eqb_spec => // E2.
  by rewrite (Fx _ _ F E2) Nat2Z.id -E; apply: lget_some; apply: G1.
have [b [B1 B2 B3]] := G2 ne; rewrite (lget_some _ _ _ B1) /= B2 /= B3 Nat2Z.id.
apply: lget_some; exact: (proj1 (H j j x F (proj1 F)) eq_refl).
Qed.

(** ** decompress_branches *)
Lemma db_inner_inv o fuel : forall pos acc br pos', (pos <= length o)%nat ->
  db_inner fuel o pos acc = Ok (br, pos') ->
  exists b, [/\ br = acc ++ b, pos' = (pos + length b)%nat, ~ In dashes b, agree o pos b &
    pos' = length o \/ (pos' < length o)%nat /\ get_obj o pos' = Ok dashes].
Proof.
elim: fuel => [|fuel IH] pos acc br pos' Hp; rewrite [db_inner _ _ _ _]/=.
  case: Nat.ltb_spec => lt.
    case E: get_obj => [x|] //=; case: bytes_eqb_spec => // Ex [<- <-]; subst x.
    exists []; rewrite app_nil_r Nat.add_0_r; split=> //; [exact: agree_nil|by right].
  move=> [<- <-]; exists []; rewrite app_nil_r Nat.add_0_r; split=> //; first exact: agree_nil.
  by left; lia.
case: Nat.ltb_spec => lt; last first.
  move=> [<- <-]; exists []; rewrite app_nil_r Nat.add_0_r; split=> //; first exact: agree_nil.
  by left; lia.
case E: get_obj => [x|] //=; case: bytes_eqb_spec => Ex.
  move=> [<- <-]; subst x; exists []; rewrite app_nil_r Nat.add_0_r; split=> //; [exact: agree_nil|by right].
move=> /IH [|b [-> -> N A B]]; first by lia.
exists (x :: b); split.
- by rewrite -app_assoc.
- by rewrite /= Nat.add_succ_r.
- by move=> [].
- exact/agree_cons.
- exact: B.
Qed.

Lemma db_outer_inv o fuel : forall pos acc bs, (pos <= length o)%nat ->
  db_outer fuel o pos acc = Ok bs ->
  exists l, [/\ bs = acc ++ l, forall b, In b l -> ~ In dashes b &
    (pos + length (flat_map branch_objs l) = length o /\ agree o pos (flat_map branch_objs l) \/
     pos + length (flat_map branch_objs l) = S (length o))%nat].
Proof.
elim: fuel => [|fuel IH] pos acc bs Hp; rewrite [db_outer _ _ _ _]/=.
  case: Nat.ltb_spec => // ge [<-]; exists []; rewrite app_nil_r; split=> //=.
  by left; split; [lia|exact: agree_nil].
case: Nat.ltb_spec => lt; last first.
  move=> [<-]; exists []; rewrite app_nil_r; split=> //=.
  by left; split; [lia|exact: agree_nil].
case E: db_inner => [[b pos']|] //; cbn [bind].
have [b' [Eb Ep N A D]] := db_inner_inv _ _ _ _ _ _ Hp E; rewrite /= in Eb; subst b'.
case: D => [D|[lt' D]].
  have -> : db_outer fuel o (S pos') (acc ++ [b]) = Ok (acc ++ [b]).
    by case: (fuel) => [|n] /=; case: Nat.ltb_spec => //; lia.
  move=> [<-]; exists [b]; split=> //; first by move=> c [<-|].
  by right; rewrite /branch_objs /= app_nil_r app_length /=; lia.
move=> /IH [//|l [-> Nl Al]]; exists (b :: l); split.
- by rewrite -app_assoc.
- by move=> c [<-|/Nl].
rewrite /= /branch_objs -/branch_objs !app_length /=.
case: Al => [[El Al]|El]; last by right; lia.
left; split; first by lia.
apply/agree_app; split.
  by apply/agree_app; split=> //; apply/agree_cons; rewrite -Ep; split=> //; exact: agree_nil.
by rewrite app_length /= (_ : (pos + (length b + 1))%nat = S pos') //; lia.
Qed.

(** the list of objects of a list of branches *)
Definition branches_objs (bs : list (list bytes)) := flat_map branch_objs bs.

Lemma decompress_branches_iff o bs : length o = length (branches_objs bs) ->
  decompress_branches o = Ok bs <->
  (forall b, In b bs -> ~ In dashes b) /\ agree o 0 (branches_objs bs).
Proof.
move=> L; split=> [/db_outer_inv H|[N A]].
  have [|l [/= E N [[_ A]|F]]] := H; first by lia.
    by subst l.
  by subst l; move: F; rewrite /= -/(branches_objs bs); lia.
by apply: decompress_branches_view => //; split.
Qed.

Lemma compress_branches_iff bs : let xs := branches_objs bs in
  (exists o, compress_branches bs = Ok o) <->
  [/\ forall b, In b bs -> ~ In dashes b, fixed xs & no_overflow xs].
Proof.
move=> xs; rewrite /compress_branches compress_fold -/(branches_objs bs) -/xs.
have := add_enc0 xs; case E: (enc [] xs) => [o|e].
  move=> [d ->]; cbn [bind]; have [En No] := enc_entries _ _ E; have [L _] := En.
  have D := decompress_branches_iff o bs L.
  split.
    move=> [o']; case Ed: decompress_branches => [bs'|] //=.
    case: (list_eqb_spec _ (list_eqb_spec _ bytes_eqb_spec)) => //= Eb _; subst bs'.
    have [N A] := proj1 D Ed; split=> //; exact: (proj1 (agree_entries _ _ En)).
  move=> [N Fx _]; have Ed : decompress_branches o = Ok bs.
    by apply/D; split=> //; exact: (proj2 (agree_entries _ _ En)).
  rewrite Ed /=; exists o.
  by case: (list_eqb_spec _ (list_eqb_spec _ bytes_eqb_spec)).
move=> ->; split; first by case.
move=> [_ _ No]; have [_ [i [j [x [F H ne ge]]]]] := enc_overflow _ _ E.
by have := No _ _ _ F H ne; lia.
Qed.

Lemma compress_branches_entries bs o : compress_branches bs = Ok o -> entries (branches_objs bs) o.
Proof.
rewrite /compress_branches compress_fold -/(branches_objs bs).
have := add_enc0 (branches_objs bs); case E: (enc _ _) => [o'|e] H; last by rewrite H.
case: H => d ->; cbn [bind]; case: decompress_branches => [bs'|] //=.
by case: list_eqb => //= -[<-]; exact: (proj1 (enc_entries _ _ E)).
Qed.

(** ** errors *)
Lemma get_obj_err o i e : get_obj o i = Err e -> e = IndexError.
Proof.
rewrite /get_obj /lget; case: nth_error => [x|] /=; last by move=> [].
by case: ifP => // _; case: nth_error => [y|] // [].
Qed.

Lemma get_obj_lt o i x : get_obj o i = Ok x -> (i < length o)%nat.
Proof.
rewrite /get_obj /lget; case E: nth_error => [y|] //= _; exact: nth_error_in_lt E.
Qed.

Lemma db_inner_err o fuel : forall pos acc e, (length o <= fuel + pos)%nat ->
  db_inner fuel o pos acc = Err e -> e = IndexError.
Proof.
elim: fuel => [|fuel IH] pos acc e Hf; rewrite [db_inner _ _ _ _]/=; case: Nat.ltb_spec => // lt.
  by lia.
case E: get_obj => [x|e'] /=; last by move=> [<-]; exact: get_obj_err E.
by case: bytes_eqb => //; apply: IH; lia.
Qed.

Lemma db_outer_err o fuel : forall pos acc e, (length o <= fuel + pos)%nat ->
  db_outer fuel o pos acc = Err e -> e = IndexError.
Proof.
elim: fuel => [|fuel IH] pos acc e Hf; rewrite [db_outer _ _ _ _]/=; case: Nat.ltb_spec => // lt.
  by lia.
case E: db_inner => [[b pos']|e'] /=; last by move=> [<-]; apply: db_inner_err E; lia.
have [|b' [_ -> _ _ _]] := db_inner_inv _ _ _ _ _ _ _ E; first by lia.
by apply: IH; lia.
Qed.

Lemma decompress_branches_err o e : decompress_branches o = Err e -> e = IndexError.
Proof. by apply: db_outer_err; lia. Qed.

(** when decompress_branches returns *)
Definition in_range (o : list bytes) :=
  forall b, In b o -> length b = 2%nat -> (from_bytes_be b < Z.of_nat (length o)).

Lemma in_range_get o : in_range o <-> forall i, (i < length o)%nat -> exists x, get_obj o i = Ok x.
Proof.
split=> [R i lt|H b /(@In_nth_error _ _ _) [i Hi] Hb].
  have [b Hb] : exists b, nth_error o i = Some b.
    by move/nth_error_Some: lt; case: nth_error => // b _; exists b.
  rewrite /get_obj (lget_some _ _ _ Hb) /=; case: Nat.eqb_spec => E; last by exists b.
  have lt2 := R b (nth_error_In _ _ Hb) E; have P := from_bytes_nonneg b.
  have : (Z.to_nat (from_bytes_be b) < length o)%nat by lia.
  by move/nth_error_Some; rewrite /lget; case: nth_error => // c _; exists c.
have [x] := H i (nth_error_in_lt _ _ _ Hi).
rewrite /get_obj (lget_some _ _ _ Hi) /= Hb /= => G.
have lt := nth_error_in_lt _ _ _ (lget_inv _ _ _ G).
by have P := from_bytes_nonneg b; lia.
Qed.

Lemma db_inner_total o fuel : in_range o -> forall pos acc, (length o <= fuel + pos)%nat ->
  exists r, db_inner fuel o pos acc = Ok r.
Proof.
move=> /in_range_get R; elim: fuel => [|fuel IH] pos acc Hf /=; case: Nat.ltb_spec => lt.
- by lia.
- by eexists.
- have [x ->] := R _ lt; cbn [bind]; case: bytes_eqb; first by eexists.
  by apply: IH; lia.
- by eexists.
Qed.

Lemma db_outer_total o fuel : in_range o -> forall pos acc, (length o <= fuel + pos)%nat ->
  exists r, db_outer fuel o pos acc = Ok r.
Proof.
move=> R; elim: fuel => [|fuel IH] pos acc Hf /=; case: Nat.ltb_spec => lt.
- by lia.
- by eexists.
- have [|[b pos'] E] := db_inner_total o (length o) R pos []; first by lia.
  rewrite E; cbn [bind].
  have [|b' [_ -> _ _ _]] := db_inner_inv _ _ _ _ _ _ _ E; first by lia.
  by apply: IH; lia.
- by eexists.
Qed.

Lemma db_outer_reads o fuel : forall pos acc r, db_outer fuel o pos acc = Ok r ->
  forall i, (pos <= i < length o)%nat -> exists x, get_obj o i = Ok x.
Proof.
elim: fuel => [|fuel IH] pos acc r; rewrite [db_outer _ _ _ _]/=; case: Nat.ltb_spec => // lt.
- by move=> _ i; lia.
- case E: db_inner => [[b pos']|e'] //=.
  have [|b' [Eb Ep _ A D]] := db_inner_inv _ _ _ _ _ _ _ E; first by lia.
  move=> /IH H i [H1 H2]; case: (Nat.lt_trichotomy i pos') => [lt'|[Ei|gt]].
  + have : (i - pos < length b')%nat by lia.
    move/nth_error_Some; case En: nth_error => [x|] // _; exists x.
    by have := A _ _ En; rewrite (_ : (pos + (i - pos))%nat = i) //; lia.
  + by case: D => [D|[_ D]]; [lia|exists dashes; rewrite Ei].
  + by apply: H; lia.
- by move=> _ i; lia.
Qed.

Lemma decompress_branches_total o : (exists bs, decompress_branches o = Ok bs) <-> in_range o.
Proof.
split=> [[bs E]|R]; last by apply: db_outer_total => //; lia.
by apply/in_range_get => i lt; apply: (db_outer_reads _ _ _ _ _ E); lia.
Qed.

Lemma compress_branches_err bs e : compress_branches bs = Err e ->
  [\/ e = OverflowError, e = IndexError | e = AssertionError].
Proof.
rewrite /compress_branches compress_fold -/(branches_objs bs).
have := add_enc0 (branches_objs bs); case E: (enc _ _) => [o'|e'] H; last first.
  by rewrite H => -[<-]; have [-> _] := enc_overflow _ _ E; constructor 1.
case: H => d ->; cbn [bind]; case D: decompress_branches => [bs'|e'] /=.
  by case: list_eqb => //= -[<-]; constructor 3.
by move=> [<-]; rewrite (decompress_branches_err _ _ D); constructor 2.
Qed.

Lemma compress_branches_overflow bs : let xs := branches_objs bs in
  compress_branches bs = Err OverflowError <->
  exists i j x, [/\ first_at xs x j, nth_error xs i = Some x, i <> j & 65536 <= Z.of_nat j].
Proof.
move=> xs; rewrite /compress_branches compress_fold -/(branches_objs bs) -/xs.
have := add_enc0 xs; case E: (enc [] xs) => [o|e] H.
  case: H => d ->; cbn [bind]; have [_ No] := enc_entries _ _ E.
  split; last by move=> [i [j [x [F Hi ne ge]]]]; have := No _ _ _ F Hi ne; lia.
  case D: decompress_branches => [bs'|e'] /=; first by case: list_eqb.
  by rewrite (decompress_branches_err _ _ D).
rewrite H; have [-> W] := enc_overflow _ _ E; split=> //.
Qed.

(** ** decompress_fri *)
Definition branch_ok (b : list bytes) := ~ In pluses b /\ hd_error b <> Some equals.
Definition yp_ok (yp : yproof) :=
  (forall b, In b yp -> branch_ok b) /\
  hd_error (hd [] yp) <> Some dashes /\ hd_error (hd [] yp) <> Some slashes.

Lemma yproof_reads o xs yp : view o xs -> (forall b, In b yp -> branch_ok b) ->
  forall fuel pos acc rest, skipn pos xs = yp_objs yp ++ rest -> (length yp <= fuel)%nat ->
  df_yproof fuel o pos acc = Ok (acc ++ yp, pos + length (yp_objs yp) - 1)%nat.
Proof.
move=> HV; have [HL HG] := HV; elim: yp => [|b yp IH] Hb fuel pos acc rest.
  move=> /(skipn_cons _ _ _ _) [E [_ H]] _.
  case: fuel => [|fuel]; rewrite /= (HG _ _ E) /= app_nil_r; congr (Ok (_, _)); lia.
rewrite /yp_objs [flat_map _ _]/= -!app_assoc => Hs Hf.
case: fuel Hf => [|fuel] /= Hf; first by lia.
have [x [r [Hx Hxe]]] : exists x r, b ++ [pluses] ++ flat_map (fun b0 => b0 ++ [pluses]) yp ++ [equals] ++ rest = x :: r /\ x <> equals.
  case: (b) (Hb b (or_introl eq_refl)) => [|x b'] Hc /=; first by eexists _, _.
  eexists x, _; split; first by reflexivity.
  by move=> Ex; apply: (proj2 Hc); rewrite Ex.
move: (Hs); rewrite Hx => /(skipn_cons _ _ _ _) [E [_ H]].
rewrite (HG _ _ E) /= bytes_eqb_neq //.
rewrite (df_branch_ok o xs b HV _ _ [] _ Hs) /=; first last.
- by have := skipn_len _ _ _ Hs; rewrite app_length HL; lia.
- exact: (proj1 (Hb b (or_introl eq_refl))).
have Hs' := skipn_shift xs pos (b ++ [pluses]) _ (eq_trans Hs (app_assoc _ _ _)).
rewrite app_length /= in Hs'.
rewrite (IH _ fuel (S (pos + length b)) (acc ++ [b]) rest); first last.
- lia.
- by rewrite /yp_objs -app_assoc -Hs'; congr skipn; lia.
- by move=> b' Hb'; apply: Hb; right.
rewrite -app_assoc /=; congr (Ok (_, _)).
rewrite /yp_objs !app_length /= ?app_length /=; lia.
Qed.

Lemma yp_head yp rest : exists x r, yp_objs yp ++ rest = x :: r /\
  (yp_ok yp -> x <> dashes /\ x <> slashes) /\
  (x <> dashes -> x <> slashes -> hd_error (hd [] yp) <> Some dashes /\ hd_error (hd [] yp) <> Some slashes).
Proof.
case: yp => [|[|x b] yp]; [by eexists _, _ | by eexists _, _ |].
eexists x, _; split; first by reflexivity.
split=> [[_ [/= H1 H2]]|H1 H2 /=]; split=> E.
- by apply: H1; rewrite E.
- by apply: H2; rewrite E.
- by apply: H1; case: E.
- by apply: H2; case: E.
Qed.

Lemma yproofs_reads o xs yps : view o xs -> (forall yp, In yp yps -> yp_ok yp) ->
  forall fuel pos acc x rest, skipn pos xs = flat_map yp_objs yps ++ x :: rest ->
  x = dashes \/ x = slashes -> (length yps <= fuel)%nat ->
  df_yproofs fuel o pos acc = Ok (acc ++ yps, pos + length (flat_map yp_objs yps))%nat.
Proof.
move=> HV; have [HL HG] := HV; elim: yps => [|yp yps IH] Hb fuel pos acc x rest.
  move=> /(skipn_cons _ _ _ _) [E [_ H]] Hx _.
  have Hc : bytes_eqb x dashes || bytes_eqb x slashes by case: Hx => ->.
  by case: fuel => [|fuel]; rewrite /= (HG _ _ E) /= Hc app_nil_r Nat.add_0_r.
rewrite [flat_map _ _]/= -app_assoc => Hs Hx Hf.
case: fuel Hf => [|fuel] /= Hf; first by lia.
have Hyp := Hb yp (or_introl eq_refl).
have [y [r [Ey [Hy _]]]] := yp_head yp (flat_map yp_objs yps ++ x :: rest).
have [Hd Hsl] := Hy Hyp.
move: (Hs); rewrite Ey => /(skipn_cons _ _ _ _) [E [_ H]].
rewrite (HG _ _ E) /= !bytes_eqb_neq //=.
have Hlen := yp_objs_len yp.
rewrite (yproof_reads o xs yp HV (proj1 Hyp) _ _ [] _ Hs) /=; last first.
  by have := skipn_len _ _ _ Hs; rewrite app_length HL; lia.
have Hs' := skipn_shift _ _ _ _ Hs.
rewrite (_ : S (pos + length (yp_objs yp) - 1) = (pos + length (yp_objs yp))%nat); last by lia.
rewrite (IH _ _ _ _ _ _ Hs' Hx); first last.
- lia.
- by move=> yp' H1; apply: Hb; right.
rewrite -app_assoc /= app_length; congr (Ok (_, _)); lia.
Qed.

Lemma items_reads o xs its pre last : view o xs -> entries xs o ->
  (forall it yp, In it its -> In yp (snd it) -> yp_ok yp) ->
  ~ In slashes (flat_map item_objs its) -> ~ In slashes pre ->
  xs = pre ++ flat_map item_objs its ++ slashes :: last ->
  forall fuel acc, (length its <= fuel)%nat ->
  df_items fuel o (length pre) acc = Ok (acc ++ its, length pre + length (flat_map item_objs its))%nat.
Proof.
move=> HV HR; have [HL HG] := HV; elim: its pre => [|it its IH] pre Hb Hsl Hpre Exs fuel acc Hf.
  have E : nth_error xs (length pre) = Some slashes by rewrite Exs nth_error_app2 // Nat.sub_diag.
  have F : first_at xs slashes (length pre).
    by split=> //; rewrite Exs firstn_app firstn_all Nat.sub_diag /= app_nil_r.
  have Hraw := proj1 (proj2 HR _ _ _ F E) eq_refl.
  by case: fuel {Hf} => [|fuel]; rewrite /= (lget_some _ _ _ Hraw) /= app_nil_r Nat.add_0_r.
case: fuel Hf => [|fuel] /= Hf; first by lia.
case: it Hb Hsl Exs => root yps Hb Hsl Exs.
rewrite [flat_map _ _]/= in Exs Hsl.
have E0 : skipn (length pre) xs = dashes :: root :: flat_map yp_objs yps ++ flat_map item_objs its ++ slashes :: last.
  by rewrite Exs skipn_app skipn_all Nat.sub_diag /= -app_assoc.
have [E1 [E2 _]] := skipn_cons _ _ _ _ E0; have [E3 [E4 _]] := skipn_cons _ _ _ _ E2.
have [raw [Hraw Hrne]] : exists raw, lget o (length pre) = Ok raw /\ raw <> slashes.
  have [j F] := first_exists _ _ _ E1; have [H1 H2] := proj2 HR _ _ _ F E1.
  case: (Nat.eq_dec (length pre) j) => [/H1 H|/H2 [b [B1 B2 _]]].
    by exists dashes; split=> //; apply: lget_some.
  by exists b; split; [apply: lget_some | move=> Eb; rewrite Eb in B2].
rewrite Hraw /= bytes_eqb_neq // (HG _ _ E1) /= Nat.add_1_r (HG _ _ E3) /=.
have [x [r [Ex Hx]]] : exists x r, flat_map item_objs its ++ slashes :: last = x :: r /\ (x = dashes \/ x = slashes).
  case: (its) => [|it its'] /=; first by eexists _, _; split; [reflexivity | right].
  by eexists _, _; split; [reflexivity | left].
rewrite Ex in E4.
have Hlen : (length yps <= length o)%nat.
  have := skipn_len _ _ _ E4; rewrite app_length HL.
  have : (length yps <= length (flat_map yp_objs yps))%nat.
    by elim: (yps) => [|yp l IHl] //=; rewrite app_length; have := yp_objs_len yp; lia.
  lia.
rewrite (_ : (length pre + 2)%nat = S (S (length pre))); last by lia.
rewrite (yproofs_reads o xs yps HV _ _ _ [] _ _ E4 Hx Hlen) /=; last first.
  by move=> yp H1; apply: (Hb (root, yps) yp) => //; left.
have := IH (pre ++ item_objs (root, yps)).
rewrite !app_length /= (_ : (length pre + S (S (length (flat_map yp_objs yps))))%nat
  = S (S (length pre + length (flat_map yp_objs yps)))); last by lia.
move=> IH'; rewrite IH'.
- by rewrite -app_assoc /=; congr (Ok (_, _)); lia.
- by move=> it yp H1 H2; apply: (Hb it yp) => //; right.
- by move=> H; apply: Hsl; right; right; apply/in_or_app; right.
- move=> /(@in_app_or _ _ _ _) [//|H]; apply: Hsl; case: H => [//|[H|H]]; first by right; left.
  by right; right; apply/in_or_app; left.
- by rewrite Exs -app_assoc /= -app_assoc.
- lia.
Qed.

Definition fri_clean (p : fri_proof) :=
  (forall it yp, In it (fst p) -> In yp (snd it) -> yp_ok yp) /\
  ~ In slashes (flat_map item_objs (fst p)).

Lemma decompress_fri_reads o p : view o (fri_objs p) -> entries (fri_objs p) o -> fri_clean p ->
  decompress_fri o = Ok p.
Proof.
case: p => its last HV HR [/= Hb Hsl]; have [HL HG] := HV; rewrite /decompress_fri.
rewrite (items_reads o _ its [] last HV HR Hb Hsl (fun H => H) eq_refl _ []); last first.
  rewrite HL /fri_objs app_length /=; apply: (Nat.le_trans _ _ _ (item_objs_len its)).
  by apply: Nat.le_add_r.
rewrite /=; set pos := S _.
have Hpos : (length o - pos)%nat = length last by rewrite HL /fri_objs app_length /=; lia.
have Hn : forall i x, nth_error last i = Some x -> get_obj o (pos + i) = Ok x.
  move=> i x Hi; apply: HG; rewrite /fri_objs [fst _]/= [snd _]/= nth_error_app2; last by rewrite /pos; lia.
  by rewrite (_ : (pos + i - length (flat_map item_objs its))%nat = S i) //; rewrite /pos; lia.
rewrite Hpos; have -> : mapM (get_obj o) (seq pos (length last)) = Ok last.
  elim: (last) (pos) Hn => [|x l IH] q Hn //=.
  rewrite -{1}(Nat.add_0_r q) (Hn 0%nat x) //= IH // => i y Hi.
  by rewrite -(Hn (S i) y) // Nat.add_succ_r.
by [].
Qed.

(** inversion *)
Lemma df_branch_inv o fuel : forall pos acc br pos', df_branch fuel o pos acc = Ok (br, pos') ->
  exists b, [/\ br = acc ++ b, pos' = (pos + length b)%nat, ~ In pluses b & agree o pos (b ++ [pluses])].
Proof.
elim: fuel => [|fuel IH] pos acc br pos'; rewrite [df_branch _ _ _ _]/=;
  case E: get_obj => [x|] //=; case: bytes_eqb_spec => Ex //.
- move=> [<- <-]; subst x; exists []; rewrite app_nil_r Nat.add_0_r; split=> //.
  by apply/agree_cons; split=> //; exact: agree_nil.
- move=> [<- <-]; subst x; exists []; rewrite app_nil_r Nat.add_0_r; split=> //.
  by apply/agree_cons; split=> //; exact: agree_nil.
move=> /IH [b [-> -> N A]]; exists (x :: b); split.
- by rewrite -app_assoc.
- by rewrite /= Nat.add_succ_r.
- by move=> [].
- exact/agree_cons.
Qed.

Lemma df_yproof_inv o fuel : forall pos acc res pos', df_yproof fuel o pos acc = Ok (res, pos') ->
  exists yp, [/\ res = acc ++ yp, S pos' = (pos + length (yp_objs yp))%nat,
    forall b, In b yp -> branch_ok b & agree o pos (yp_objs yp)].
Proof.
elim: fuel => [|fuel IH] pos acc res pos'; rewrite [df_yproof _ _ _ _]/=;
  case E: get_obj => [x|] //=; case: bytes_eqb_spec => Ex //.
- move=> [<- <-]; subst x; exists []; rewrite app_nil_r; split=> //; first by rewrite /=; lia.
  by apply/agree_cons; split=> //; exact: agree_nil.
- move=> [<- <-]; subst x; exists []; rewrite app_nil_r; split=> //; first by rewrite /=; lia.
  by apply/agree_cons; split=> //; exact: agree_nil.
case Eb: df_branch => [[b q]|] //=; have [b' [Eb' Eq N A]] := df_branch_inv _ _ _ _ _ _ Eb.
rewrite /= in Eb'; subst b'.
move=> /IH [yp [-> Ep Ok1 A2]]; exists (b :: yp).
have El : (length (yp_objs (b :: yp)) = length b + 1 + length (yp_objs yp))%nat.
  by rewrite /yp_objs /= !app_length /=; lia.
split.
- by rewrite -app_assoc.
- by rewrite El Ep Eq; lia.
- move=> c [<-|/Ok1 //]; split=> //.
  case: (b) A => [|y l] //= /agree_cons [Ey _] [Eye]; apply: Ex.
  by rewrite Ey in E; case: E => <-.
- rewrite (_ : yp_objs (b :: yp) = (b ++ [pluses]) ++ yp_objs yp); last by rewrite /yp_objs /= !app_assoc.
  apply/agree_app; split=> //; rewrite app_length /=.
  by rewrite (_ : (pos + (length b + 1))%nat = S q) //; lia.
Qed.

Lemma df_yproofs_inv o fuel : forall pos acc res pos', df_yproofs fuel o pos acc = Ok (res, pos') ->
  exists yps, [/\ res = acc ++ yps, pos' = (pos + length (flat_map yp_objs yps))%nat,
    forall yp, In yp yps -> yp_ok yp & agree o pos (flat_map yp_objs yps)].
Proof.
elim: fuel => [|fuel IH] pos acc res pos'; rewrite [df_yproofs _ _ _ _]/=;
  case E: get_obj => [x|] //=; case C: (_ || _) => //.
- by move=> [<- <-]; exists []; rewrite app_nil_r /= Nat.add_0_r; split=> //; exact: agree_nil.
- by move=> [<- <-]; exists []; rewrite app_nil_r /= Nat.add_0_r; split=> //; exact: agree_nil.
case Ey: df_yproof => [[yp q]|] //=; have [yp' [Ey' Eq Hb A]] := df_yproof_inv _ _ _ _ _ _ Ey.
rewrite /= in Ey'; subst yp'.
move=> /IH [yps [-> -> Hy A2]]; exists (yp :: yps); split.
- by rewrite -app_assoc.
- by rewrite /= app_length; lia.
- move=> c [<-|/Hy //]; split=> //.
  have [y [r [Er [_ H]]]] := yp_head yp []; rewrite app_nil_r in Er.
  move: A; rewrite Er => /agree_cons [Eg _]; rewrite Eg in E; case: E => Exy; subst y.
  by apply: H => Ex; rewrite Ex in C.
- by apply/agree_app; split=> //; rewrite -Eq.
Qed.

Lemma df_items_inv o fuel : forall pos acc res pos', df_items fuel o pos acc = Ok (res, pos') ->
  exists its, [/\ res = acc ++ its, pos' = (pos + length (flat_map item_objs its))%nat,
    forall it yp, In it its -> In yp (snd it) -> yp_ok yp, agree o pos (flat_map item_objs its) &
    nth_error o pos' = Some slashes].
Proof.
elim: fuel => [|fuel IH] pos acc res pos'; rewrite [df_items _ _ _ _]/=;
  case E: lget => [x|] //=; case: bytes_eqb_spec => Ex //.
- move=> [<- <-]; subst x; exists []; rewrite app_nil_r /= Nat.add_0_r.
  by split=> //; [exact: agree_nil|exact: lget_inv].
- move=> [<- <-]; subst x; exists []; rewrite app_nil_r /= Nat.add_0_r.
  by split=> //; [exact: agree_nil|exact: lget_inv].
case Ed: get_obj => [d|] //=; case: bytes_eqb_spec => //= Edd; subst d.
case Er: get_obj => [root|] //=.
case Ey: df_yproofs => [[yps q]|] //=; have [yps' [Ey' Eq Hy A]] := df_yproofs_inv _ _ _ _ _ _ Ey.
rewrite /= in Ey'; subst yps'.
move=> /IH [its [-> -> Hi A2 Hn]]; exists ((root, yps) :: its); split.
- by rewrite -app_assoc.
- by rewrite /= app_length Eq; lia.
- by move=> it yp [<- /Hy //|]; apply: Hi.
- rewrite (_ : flat_map item_objs ((root, yps) :: its) =
    dashes :: root :: flat_map yp_objs yps ++ flat_map item_objs its) //.
  apply/agree_cons; split=> //; apply/agree_cons; split; first by rewrite -Nat.add_1_r.
  apply/agree_app; rewrite (_ : S (S pos) = (pos + 2)%nat); last by lia.
  by split=> //; rewrite -Eq.
- by move: Hn.
Qed.

Lemma mapM_agree o pos n l : mapM (get_obj o) (seq pos n) = Ok l -> length l = n /\ agree o pos l.
Proof.
elim: n pos l => [|n IH] pos l /=; first by move=> [<-]; split=> //; exact: agree_nil.
case E: get_obj => [x|] //=; case E2: mapM => [l'|] //= [<-]; have [H1 H2] := IH _ _ E2.
by split; [rewrite /= H1|apply/agree_cons].
Qed.

Lemma decompress_fri_inv o p : decompress_fri o = Ok p ->
  [/\ length o = length (fri_objs p), agree o 0 (fri_objs p),
      forall it yp, In it (fst p) -> In yp (snd it) -> yp_ok yp &
      nth_error o (length (flat_map item_objs (fst p))) = Some slashes].
Proof.
rewrite /decompress_fri; case E: df_items => [[its pos]|] //=.
have [its' [E1 Ep Hy A Hn]] := df_items_inv _ _ _ _ _ _ E; rewrite /= in E1 Ep; subst its' pos.
set n := length _ in Hn *.
case El: mapM => [last|] //= [<-] /=; have [Ll Al] := mapM_agree _ _ _ _ El.
have lt := nth_error_in_lt _ _ _ Hn; split=> //.
- by rewrite /fri_objs app_length /= Ll -/n; lia.
- rewrite /fri_objs /=; apply/agree_app; split=> //; rewrite -/n; apply/agree_cons.
  by split=> //; rewrite /get_obj (lget_some _ _ _ Hn).
Qed.

Lemma slashes_first p o : entries (fri_objs p) o ->
  nth_error o (length (flat_map item_objs (fst p))) = Some slashes ->
  ~ In slashes (flat_map item_objs (fst p)).
Proof.
set l := flat_map _ _ => -[L H] Hn.
have Hi : nth_error (fri_objs p) (length l) = Some slashes.
  by rewrite /fri_objs -/l nth_error_app2 // Nat.sub_diag.
have [j F] := first_exists _ _ _ Hi; have [_ H2] := H _ _ _ F Hi.
case: (Nat.eq_dec (length l) j) => [E|ne].
  have := proj2 F; rewrite -E /fri_objs -/l firstn_app firstn_all Nat.sub_diag /= app_nil_r.
  by [].
by have [b [B1 B2 _]] := H2 ne; rewrite Hn in B1; case: B1 B2 => <-.
Qed.

Lemma compress_fri_iff p : let xs := fri_objs p in
  (exists o, compress_fri p = Ok o) <-> [/\ fri_clean p, fixed xs & no_overflow xs].
Proof.
move=> xs; rewrite /compress_fri compress_fri_fold -/xs.
have := add_enc0 xs; case E: (enc [] xs) => [o|e].
  move=> [d ->]; cbn [bind]; have [En No] := enc_entries _ _ E; have [L _] := En.
  split.
    move=> [o']; case Ed: decompress_fri => [p'|] //=; case: fri_eqb_spec => //= Ep _; subst p'.
    have [_ A Hy Hn] := decompress_fri_inv _ _ Ed.
    split=> //; first by split=> //; exact: slashes_first Hn.
    exact: (proj1 (agree_entries _ _ En)).
  move=> [C Fx _]; have Ed : decompress_fri o = Ok p.
    by apply: decompress_fri_reads => //; split=> //; exact: (proj2 (agree_entries _ _ En)).
  by rewrite Ed /=; exists o; case: fri_eqb_spec.
move=> ->; split; first by case.
move=> [_ _ No]; have [_ [i [j [x [F H ne ge]]]]] := enc_overflow _ _ E.
by have := No _ _ _ F H ne; lia.
Qed.

Lemma compress_fri_entries p o : compress_fri p = Ok o -> entries (fri_objs p) o.
Proof.
rewrite /compress_fri compress_fri_fold.
have := add_enc0 (fri_objs p); case E: (enc _ _) => [o'|e] H; last by rewrite H.
case: H => d ->; cbn [bind]; case: decompress_fri => [p'|] //=.
by case: fri_eqb => //= -[<-]; exact: (proj1 (enc_entries _ _ E)).
Qed.

(** errors *)
Lemma df_branch_err o fuel : forall pos acc e, (length o <= fuel + pos)%nat ->
  df_branch fuel o pos acc = Err e -> e = IndexError.
Proof.
elim: fuel => [|fuel IH] pos acc e Hf; rewrite [df_branch _ _ _ _]/=;
  (case E: get_obj => [x|e'] /=; last by move=> [<-]; exact: get_obj_err E); case: bytes_eqb => //.
- by have := get_obj_lt _ _ _ E; lia.
- by apply: IH; lia.
Qed.

Lemma df_yproof_err o fuel : forall pos acc e, (length o <= fuel + pos)%nat ->
  df_yproof fuel o pos acc = Err e -> e = IndexError.
Proof.
elim: fuel => [|fuel IH] pos acc e Hf; rewrite [df_yproof _ _ _ _]/=;
  (case E: get_obj => [x|e'] /=; last by move=> [<-]; exact: get_obj_err E); case: bytes_eqb => //.
- by have := get_obj_lt _ _ _ E; lia.
- case Eb: df_branch => [[b q]|e'] /=; last by move=> [<-]; apply: df_branch_err Eb; lia.
  have [b' [_ -> _ _]] := df_branch_inv _ _ _ _ _ _ Eb.
  by apply: IH; lia.
Qed.

Lemma df_yproofs_err o fuel : forall pos acc e, (length o <= fuel + pos)%nat ->
  df_yproofs fuel o pos acc = Err e -> e = IndexError.
Proof.
elim: fuel => [|fuel IH] pos acc e Hf; rewrite [df_yproofs _ _ _ _]/=;
  (case E: get_obj => [x|e'] /=; last by move=> [<-]; exact: get_obj_err E); case: (_ || _) => //.
- by have := get_obj_lt _ _ _ E; lia.
- case Eb: df_yproof => [[b q]|e'] /=; last by move=> [<-]; apply: df_yproof_err Eb; lia.
  have [b' [_ Eq _ _]] := df_yproof_inv _ _ _ _ _ _ Eb.
  by apply: IH; have := yp_objs_len b'; lia.
Qed.

Lemma df_items_err o fuel : forall pos acc e, (length o <= fuel + pos)%nat ->
  df_items fuel o pos acc = Err e -> e = IndexError \/ e = AssertionError.
Proof.
have L : forall pos e, lget o pos = Err e -> e = IndexError.
  by move=> pos e; rewrite /lget; case: nth_error => // -[].
elim: fuel => [|fuel IH] pos acc e Hf; rewrite [df_items _ _ _ _]/=;
  (case E: lget => [x|e'] /=; last by move=> [<-]; left; exact: L E); case: bytes_eqb => //.
- by have := nth_error_in_lt _ _ _ (lget_inv _ _ _ E); lia.
- case Ed: get_obj => [d|e'] /=; last by move=> [<-]; left; exact: get_obj_err Ed.
  case: bytes_eqb => /=; last by move=> [<-]; right.
  case Er: get_obj => [r|e'] /=; last by move=> [<-]; left; exact: get_obj_err Er.
  case Ey: df_yproofs => [[yps q]|e'] /=; last by move=> [<-]; left; apply: df_yproofs_err Ey; lia.
  have [yps' [_ -> _ _]] := df_yproofs_inv _ _ _ _ _ _ Ey.
  by apply: IH; lia.
Qed.

Lemma mapM_get_err o n : forall q e, mapM (get_obj o) (seq q n) = Err e -> e = IndexError.
Proof.
elim: n => [|n IH] q e //=.
case G: get_obj => [x|e2] /=; last by move=> [<-]; exact: get_obj_err G.
by case M: mapM => [l|e2] //= -[<-]; apply: IH M.
Qed.

Lemma decompress_fri_err o e : decompress_fri o = Err e -> e = IndexError \/ e = AssertionError.
Proof.
rewrite /decompress_fri; case E: df_items => [[its pos]|e'] /=; last first.
  by move=> [<-]; apply: df_items_err E; lia.
case M: mapM => [l|e'] //= -[<-]; left.
exact: mapM_get_err M.
Qed.

Lemma compress_fri_err p e : compress_fri p = Err e ->
  [\/ e = OverflowError, e = IndexError | e = AssertionError].
Proof.
rewrite /compress_fri compress_fri_fold.
have := add_enc0 (fri_objs p); case E: (enc _ _) => [o'|e'] H; last first.
  by rewrite H => -[<-]; have [-> _] := enc_overflow _ _ E; constructor 1.
case: H => d ->; cbn [bind]; case D: decompress_fri => [p'|e'] /=.
  by case: fri_eqb => //= -[<-]; constructor 3.
by move=> [<-]; case: (decompress_fri_err _ _ D) => ->; [constructor 2|constructor 3].
Qed.

Lemma compress_fri_overflow p : let xs := fri_objs p in
  compress_fri p = Err OverflowError <->
  exists i j x, [/\ first_at xs x j, nth_error xs i = Some x, i <> j & 65536 <= Z.of_nat j].
Proof.
move=> xs; rewrite /compress_fri compress_fri_fold -/xs.
have := add_enc0 xs; case E: (enc [] xs) => [o|e] H.
  case: H => d ->; cbn [bind]; have [_ No] := enc_entries _ _ E.
  split; last by move=> [i [j [x [F Hi ne ge]]]]; have := No _ _ _ F Hi ne; lia.
  case D: decompress_fri => [p'|e'] /=; first by case: fri_eqb.
  by case: (decompress_fri_err _ _ D) => ->.
rewrite H; have [-> W] := enc_overflow _ _ E; split=> //.
Qed.
