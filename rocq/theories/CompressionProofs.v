From Coq Require Import Bool ZArith List Lia.
From Coq Require Import ssreflect ssrbool.
From Verif Require Import Base BaseProofs MerkleModel MerkleProofs CompressionModel.
Import ListNotations.
Local Open Scope Z_scope.
Local Set SsrOldRewriteGoalsOrder.
Local Set Bullet Behavior "None".

(** Conditions under which the format is unambiguous. *)
Definition plain (x : bytes) := length x <> 2%nat.

(** [o] decodes, position by position, to the object list [xs]. *)
Definition view (o xs : list bytes) :=
  length o = length xs /\ forall i x, nth_error xs i = Some x -> get_obj o i = Ok x.

(** raw entries: a first occurrence is stored as is, a repetition as 2 bytes *)
Definition raw_ok (o xs : list bytes) :=
  forall i x, nth_error xs i = Some x ->
    (nth_error o i = Some x /\ ~ In x (firstn i xs)) \/
    (exists j b, [/\ nth_error o i = Some b, length b = 2%nat, from_bytes_be b = Z.of_nat j,
                     nth_error o j = Some x & In x (firstn i xs)]).

Definition dict_ok (o xs : list bytes) (d : list (bytes * nat)) :=
  forall x, match dict_get d x with
            | Some j => nth_error o j = Some x /\ In x xs
            | None => ~ In x xs
            end.

Lemma nth_error_snoc {A} (l : list A) x i y : nth_error (l ++ [x]) i = Some y ->
  nth_error l i = Some y \/ i = length l /\ y = x.
Proof.
case: (Nat.lt_ge_cases i (length l)) => H.
  by rewrite nth_error_app1 //; left.
rewrite nth_error_app2 //; case E: (i - length l)%nat => [|n]; last by case: n {E}.
by move=> [<-]; right; split=> //; lia.
Qed.

Lemma nth_error_app_l {A} (l : list A) r i y : nth_error l i = Some y -> nth_error (l ++ r) i = Some y.
Proof. by move=> E; rewrite nth_error_app1 //; apply: nth_error_in_lt E. Qed.

Lemma firstn_snoc_le {A} (l : list A) x i : (i <= length l)%nat -> firstn i (l ++ [x]) = firstn i l.
Proof. by move=> H; rewrite firstn_app (_ : (i - length l)%nat = 0%nat) ?app_nil_r //; lia. Qed.

Lemma add_obj_ok o d xs x : length o = length xs -> raw_ok o xs -> dict_ok o xs d ->
  Z.of_nat (length xs) < 65536 ->
  exists o' d', [/\ add_obj (o, d) x = Ok (o', d'), length o' = length (xs ++ [x]),
    raw_ok o' (xs ++ [x]), dict_ok o' (xs ++ [x]) d' & exists b, o' = o ++ [b]].
Proof.
move=> HL HR HD Hlt; rewrite /add_obj.
have Hdx := HD x; case Ed: (dict_get d x) Hdx => [j|] Hx.
- case: Hx => Hj Hin; have Hjl := nth_error_in_lt _ _ _ Hj.
  have Hr : 0 <= Z.of_nat j < 256 ^ Z.of_nat 2 by rewrite (_ : 256 ^ Z.of_nat 2 = 65536) //; lia.
  rewrite (to_bytes_digits 2 _ Hr); cbn [bind]; eexists _, d; split; [reflexivity| | | |by eexists].
  + by rewrite !app_length HL.
  + move=> i y /(nth_error_snoc _ _ _ _) [Hi|[-> ->]].
      have Hil := nth_error_in_lt _ _ _ Hi; rewrite firstn_snoc_le; last by lia.
      case: (HR i y Hi) => [[H1 H2]|[j' [b [H1 H2 H3 H4 H5]]]].
        by left; split=> //; apply: nth_error_app_l.
      by right; exists j', b; split=> //; apply: nth_error_app_l.
    right; exists j, (be_digits 2 (Z.of_nat j)); split.
    * by rewrite -HL nth_error_app2 // Nat.sub_diag.
    * exact: (be_digits_length 2).
    * by rewrite (from_be_digits 2) Z.mod_small.
    * exact: nth_error_app_l.
    * by rewrite firstn_snoc_le // firstn_all.
  + move=> y; have := HD y; case: (dict_get d y) => [j'|].
      by move=> [H1 H2]; split; [apply: nth_error_app_l | apply/in_or_app; left].
    move=> H1 /(@in_app_or _ _ _ _) [//|[E|//]]; subst y; exact: H1.
- eexists _, _; split; [reflexivity| | | |by eexists].
  + by rewrite !app_length HL.
  + move=> i y /(nth_error_snoc _ _ _ _) [Hi|[-> ->]].
      have Hil := nth_error_in_lt _ _ _ Hi; rewrite firstn_snoc_le; last by lia.
      case: (HR i y Hi) => [[H1 H2]|[j' [b [H1 H2 H3 H4 H5]]]].
        by left; split=> //; apply: nth_error_app_l.
      by right; exists j', b; split=> //; apply: nth_error_app_l.
    left; split; first by rewrite -HL nth_error_app2 // Nat.sub_diag.
    by rewrite firstn_snoc_le // firstn_all.
  + move=> y /=; case: (bytes_eqb_spec x y) => [<-|Hne].
      split; first by rewrite nth_error_app2 // Nat.sub_diag.
      by apply/in_or_app; right; left.
    have := HD y; case: (dict_get d y) => [j'|].
      by move=> [H1 H2]; split; [apply: nth_error_app_l | apply/in_or_app; left].
    by move=> H1 /(@in_app_or _ _ _ _) [//|[E|//]]; apply: Hne.
Qed.

Lemma foldM_cons {A S} (f : S -> A -> result S) x l s :
  foldM f (x :: l) s = let* s' := f s x in foldM f l s'.
Proof. by []. Qed.

Lemma add_all ys : forall o d xs, length o = length xs -> raw_ok o xs -> dict_ok o xs d ->
  Z.of_nat (length xs + length ys) <= 65536 ->
  exists o' d', [/\ foldM add_obj ys (o, d) = Ok (o', d'), length o' = length (xs ++ ys),
    raw_ok o' (xs ++ ys) & dict_ok o' (xs ++ ys) d'].
Proof.
elim: ys => [|y ys IH] o d xs HL HR HD Hlen.
  by exists o, d; rewrite app_nil_r; split.
have [|o1 [d1 [E L1 R1 D1 _]]] := add_obj_ok o d xs y HL HR HD; first by move: Hlen => /=; lia.
have [|o2 [d2 [E2 L2 R2 D2]]] := IH o1 d1 (xs ++ [y]) L1 R1 D1.
  by rewrite app_length; move: Hlen => /=; lia.
exists o2, d2; move: L2 R2 D2; rewrite -app_assoc => L2 R2 D2; split=> //.
by rewrite foldM_cons E.
Qed.

Lemma raw_view o xs : length o = length xs -> (forall x, In x xs -> plain x) -> raw_ok o xs -> view o xs.
Proof.
move=> HL Hp HR; split=> // i x Hi; rewrite /get_obj.
case: (HR i x Hi) => [[H1 _]|[j [b [H1 H2 H3 H4 _]]]].
  rewrite (lget_some _ _ _ H1) /= (proj2 (Nat.eqb_neq _ _)) //.
  exact: (Hp x (nth_error_In _ _ Hi)).
by rewrite (lget_some _ _ _ H1) /= H2 /= H3 Nat2Z.id; apply: lget_some.
Qed.

Lemma add_objs_view xs : (forall x, In x xs -> plain x) -> Z.of_nat (length xs) <= 65536 ->
  exists o d, [/\ foldM add_obj xs ([], []) = Ok (o, d), view o xs & raw_ok o xs].
Proof.
move=> Hp Hl; have [||||o [d [E L R D]]] := add_all xs [] [] [].
- by [].
- by case.
- by move=> x /=.
- by [].
exists o, d; split=> //; exact: raw_view.
Qed.

Lemma foldM_app {A S} (f : S -> A -> result S) l1 l2 s :
  foldM f (l1 ++ l2) s = let* s' := foldM f l1 s in foldM f l2 s'.
Proof. by elim: l1 s => [|x l1 IH] s //=; case: (f s x) => [s'|e] //=. Qed.

Lemma foldM_one {A S} (f : S -> A -> result S) x s : foldM f [x] s = f s x.
Proof. by rewrite /=; case: (f s x). Qed.

Lemma bind_assoc {A B C} (m : result A) (f : A -> result B) (g : B -> result C) :
  bind (bind m f) g = bind m (fun a => bind (f a) g).
Proof. by case: m. Qed.

Lemma foldM_flat {A B S} (f : S -> B -> result S) (g : S -> A -> result S) (h : A -> list B) l s :
  (forall s a, g s a = foldM f (h a) s) -> foldM g l s = foldM f (flat_map h l) s.
Proof.
move=> E; elim: l s => [|x l IH] s //=.
by rewrite foldM_app -E; case: (g s x) => [s'|e] //=.
Qed.

Lemma bytes_eqb_neq a b : a <> b -> bytes_eqb a b = false.
Proof. by case: bytes_eqb_spec. Qed.

(** list equality *)
Lemma list_eqb_spec {A} (eqb : A -> A -> bool) : (forall a b, reflect (a = b) (eqb a b)) ->
  forall a b, reflect (a = b) (list_eqb eqb a b).
Proof.
move=> H; elim=> [|x a IH] [|y b] /=; try by constructor.
case: H => [->|Hn] /=; last by constructor; move=> [].
by case: IH => [->|Hn]; constructor => // -[].
Qed.

(** reading an object list *)
Lemma skipn_cons {A} (l : list A) i x r : skipn i l = x :: r ->
  nth_error l i = Some x /\ skipn (S i) l = r /\ (i < length l)%nat.
Proof.
elim: i l => [|i IH] [|y l]; try by [].
  by move=> [<- <-]; split=> //; split=> //=; lia.
by move=> /IH [E1 [E2 H]]; split=> //; split=> //=; lia.
Qed.

Lemma db_inner_ok o xs b : view o xs -> forall fuel pos acc rest,
  skipn pos xs = b ++ dashes :: rest -> ~ In dashes b -> (length b <= fuel)%nat ->
  db_inner fuel o pos acc = Ok (acc ++ b, pos + length b)%nat.
Proof.
move=> [HL HV]; elim: b => [|y b IH] fuel pos acc rest.
  move=> /(skipn_cons _ _ _ _) [E [_ H]] _ _.
  have Hx : (pos <? length o)%nat by apply/Nat.ltb_lt; lia.
  have Hg : get_obj o pos = Ok dashes by apply: HV.
  by case: fuel => [|fuel]; rewrite /= Hx Hg /= app_nil_r Nat.add_0_r.
move=> /(skipn_cons _ _ _ _) [E [Hs H]] Hni; case: fuel => [|fuel] /= Hf; first by lia.
rewrite (proj2 (Nat.ltb_lt _ _)); last by lia.
rewrite (HV _ _ E) /= bytes_eqb_neq; last by move=> Ey; apply: Hni; left.
rewrite (IH _ _ _ rest Hs); first last.
- lia.
- by move=> Hi; apply: Hni; right.
by rewrite -app_assoc /= Nat.add_succ_r.
Qed.

Definition branch_objs (b : list bytes) := b ++ [dashes].

Lemma skipn_shift {A} (l : list A) i a b : skipn i l = a ++ b -> skipn (i + length a) l = b.
Proof.
elim: i l => [|i IH] [|x l] /=.
- by case: a.
- by move=> ->; rewrite skipn_app skipn_all Nat.sub_diag.
- by case: (a) => [|y a'] //= <-.
- exact: IH.
Qed.

Lemma db_outer_ok o xs bs : view o xs -> (forall b, In b bs -> ~ In dashes b) ->
  forall fuel pos acc, skipn pos xs = flat_map branch_objs bs -> (length bs <= fuel)%nat -> (pos <= length xs)%nat ->
  db_outer fuel o pos acc = Ok (acc ++ bs).
Proof.
move=> HV; have [HL _] := HV; elim: bs => [|b bs IH] Hb fuel pos acc Hs Hf Hp.
  have := f_equal (@length _) Hs; rewrite skipn_length /= => Hlen.
  rewrite app_nil_r; case: fuel {Hf} => [|fuel] /=; rewrite (proj2 (Nat.ltb_ge _ _)) //; lia.
move: Hs; rewrite [flat_map _ _]/= {1}/branch_objs -app_assoc => Hs.
have Hlen := f_equal (@length _) Hs; move: Hlen; rewrite skipn_length app_length /= => Hlen.
case: fuel Hf => [|fuel] /= Hf; first by lia.
rewrite (proj2 (Nat.ltb_lt _ _)); last by lia.
rewrite (db_inner_ok o xs b HV _ _ [] (flat_map branch_objs bs)) //=; first last.
- lia.
- by apply: Hb; left.
rewrite IH -?app_assoc //.
- by move=> b' Hb'; apply: Hb; right.
- have := skipn_shift xs pos (b ++ [dashes]) (flat_map branch_objs bs).
  rewrite -app_assoc => /(_ Hs); rewrite app_length => <-.
  by congr skipn; rewrite [length [_]]/=; lia.
- lia.
- lia.
Qed.

Lemma flat_length bs : (length bs <= length (flat_map branch_objs bs))%nat.
Proof. by elim: bs => [|b bs IH] //=; rewrite !app_length /=; lia. Qed.

Lemma decompress_branches_view o bs : view o (flat_map branch_objs bs) ->
  (forall b, In b bs -> ~ In dashes b) -> decompress_branches o = Ok bs.
Proof.
move=> HV Hb; have [HL _] := HV; rewrite /decompress_branches.
by rewrite (db_outer_ok o _ bs HV Hb _ 0 []) //; rewrite ?HL; [apply: flat_length | lia].
Qed.

Lemma compress_fold bs : foldM (fun st branch =>
    let* st := foldM add_obj branch st in add_obj st dashes) bs ([], [])
  = foldM add_obj (flat_map branch_objs bs) ([], []).
Proof.
apply: foldM_flat => s a; rewrite /branch_objs foldM_app.
by case: (foldM add_obj a s) => [s'|e] //=; case: add_obj.
Qed.

Lemma compress_branches_ok bs :
  (forall b, In b bs -> ~ In dashes b) -> (forall b x, In b bs -> In x b -> length x <> 2%nat) ->
  Z.of_nat (length (concat bs) + length bs) <= 65536 ->
  exists o, [/\ compress_branches bs = Ok o, decompress_branches o = Ok bs &
                length o = (length (concat bs) + length bs)%nat].
Proof.
move=> H1 H2 H3.
have HL : length (flat_map branch_objs bs) = (length (concat bs) + length bs)%nat.
  by elim: bs {H1 H2 H3} => [|b bs IH] //=; rewrite !app_length /= IH; lia.
have [||o [d [E V R]]] := add_objs_view (flat_map branch_objs bs).
- move=> x /in_flat_map [b [Hb /(@in_app_or _ _ _ _) [Hx|[<-|//]]]]; [exact: (H2 b) | by []].
- by rewrite HL.
have D := decompress_branches_view o bs V H1.
exists o; split=> //; last by have [-> _] := V.
rewrite /compress_branches compress_fold E /= D /=.
by case: (list_eqb_spec _ (list_eqb_spec _ bytes_eqb_spec)).
Qed.

Lemma compress_branches_sound bs o : compress_branches bs = Ok o -> decompress_branches o = Ok bs.
Proof.
rewrite /compress_branches; case: foldM => [[o' d]|e] //=.
case D: (decompress_branches o') => [bs'|e] //=.
case: (list_eqb_spec _ (list_eqb_spec _ bytes_eqb_spec)) => //= E [<-].
by rewrite D E.
Qed.

(** every object list ending in the delimiter splits into delimiter-free branches *)
Lemma split_dashes xs : exists bs, flat_map branch_objs bs = xs ++ [dashes] /\
  forall b, In b bs -> ~ In dashes b.
Proof.
have gen : forall xs acc, ~ In dashes acc -> exists bs,
    flat_map branch_objs bs = acc ++ xs ++ [dashes] /\ forall b, In b bs -> ~ In dashes b.
  elim=> [|x l IH] acc Hacc.
    by exists [acc]; split; [rewrite /= app_nil_r | move=> b [<-|]].
  case: (bytes_dec x dashes) => [->|Hne].
    have [bs [E Hb]] := IH [] (fun H => H).
    exists (acc :: bs); split; last by move=> b [<-|/Hb].
    by rewrite /= E /branch_objs -app_assoc.
  have [|bs [E Hb]] := IH (acc ++ [x]).
    by move=> /(@in_app_or _ _ _ _) [//|[E|//]]; apply: Hne.
  by exists bs; split=> //; rewrite E -app_assoc.
by have := gen xs [] (fun H => H).
Qed.

Lemma compress_branches_delimiter bs :
  (exists b, In b bs /\ In dashes b) -> (forall b x, In b bs -> In x b -> length x <> 2%nat) ->
  Z.of_nat (length (concat bs) + length bs) <= 65536 ->
  compress_branches bs = Err AssertionError.
Proof.
move=> H1 H2 H3.
have HL : length (flat_map branch_objs bs) = (length (concat bs) + length bs)%nat.
  by elim: bs {H1 H2 H3} => [|b bs IH] //=; rewrite !app_length /= IH; lia.
have [||o [d [E V R]]] := add_objs_view (flat_map branch_objs bs).
- move=> x /in_flat_map [b [Hb /(@in_app_or _ _ _ _) [Hx|[<-|//]]]]; [exact: (H2 b) | by []].
- by rewrite HL.
have [bs' [E' Hb']] : exists bs', flat_map branch_objs bs' = flat_map branch_objs bs /\
    forall b, In b bs' -> ~ In dashes b.
  have [xs Exs] : exists xs, flat_map branch_objs bs = xs ++ [dashes].
    have Hne : bs <> [] by case: H1 => b [Hb _] Eb; rewrite Eb in Hb.
    have [l' [z ->]] := exists_last Hne.
    exists (flat_map branch_objs l' ++ z); by rewrite flat_map_app /= app_nil_r app_assoc.
  by rewrite Exs; apply: split_dashes.
rewrite -E' in V; have D := decompress_branches_view o bs' V Hb'.
rewrite /compress_branches compress_fold E /= D /=.
case: (list_eqb_spec _ (list_eqb_spec _ bytes_eqb_spec)) => //= Eb.
by case: H1 => b []; rewrite -Eb => /Hb'.
Qed.

(** FRI proofs *)
Definition yp_objs (yp : yproof) := flat_map (fun b => b ++ [pluses]) yp ++ [equals].
Definition item_objs (it : bytes * list yproof) := dashes :: fst it :: flat_map yp_objs (snd it).
Definition fri_objs (p : fri_proof) := flat_map item_objs (fst p) ++ slashes :: snd p.

Lemma compress_fri_fold p : compress_fri_objs p = foldM add_obj (fri_objs p) ([], []).
Proof.
rewrite /compress_fri_objs /fri_objs foldM_app.
rewrite -(foldM_flat add_obj (fun st '(root, yproofs) =>
      let* st := add_obj st dashes in
      let* st := add_obj st root in
      foldM (fun st yp =>
        let* st := foldM (fun st branch =>
          let* st := foldM add_obj branch st in
          add_obj st pluses) yp st in
        add_obj st equals) yproofs st)) //.
move=> s [root yps] /=; case: add_obj => [s1|e] //=; case: add_obj => [s2|e] //=.
apply: foldM_flat => s3 yp; rewrite /yp_objs foldM_app.
rewrite -(foldM_flat add_obj (fun st branch => let* st := foldM add_obj branch st in add_obj st pluses)).
  by case: foldM => [s4|e] //=; case: add_obj.
by move=> s4 b; rewrite foldM_app; case: (foldM add_obj b s4) => [s5|e] //=; case: add_obj.
Qed.

Definition delims := [dashes; pluses; equals; slashes].

Lemma df_branch_ok o xs b : view o xs -> forall fuel pos acc rest,
  skipn pos xs = b ++ pluses :: rest -> ~ In pluses b -> (length b <= fuel)%nat ->
  df_branch fuel o pos acc = Ok (acc ++ b, pos + length b)%nat.
Proof.
move=> [HL HV]; elim: b => [|y b IH] fuel pos acc rest.
  move=> /(skipn_cons _ _ _ _) [E [_ H]] _ _.
  by case: fuel => [|fuel]; rewrite /= (HV _ _ E) /= app_nil_r Nat.add_0_r.
move=> /(skipn_cons _ _ _ _) [E [Hs H]] Hni; case: fuel => [|fuel] /= Hf; first by lia.
rewrite (HV _ _ E) /= bytes_eqb_neq; last by move=> Ey; apply: Hni; left.
rewrite (IH _ _ _ rest Hs); first last.
- lia.
- by move=> Hi; apply: Hni; right.
by rewrite -app_assoc /= Nat.add_succ_r.
Qed.

Definition clean_branch (b : list bytes) := forall x, In x b -> ~ In x delims.

Lemma skipn_len {A} (l : list A) i r : skipn i l = r -> (length r <= length l)%nat.
Proof. by move=> <-; rewrite skipn_length; lia. Qed.

Lemma df_yproof_ok o xs yp : view o xs -> (forall b, In b yp -> clean_branch b) ->
  forall fuel pos acc rest, skipn pos xs = yp_objs yp ++ rest -> (length yp <= fuel)%nat ->
  df_yproof fuel o pos acc = Ok (acc ++ yp, pos + length (yp_objs yp) - 1)%nat.
Proof.
move=> HV; have [HL HG] := HV; elim: yp => [|b yp IH] Hb fuel pos acc rest.
  move=> /(skipn_cons _ _ _ _) [E [_ H]] _.
  case: fuel => [|fuel]; rewrite /= (HG _ _ E) /= app_nil_r; congr (Ok (_, _)); lia.
rewrite /yp_objs [flat_map _ _]/= -!app_assoc => Hs Hf.
case: fuel Hf => [|fuel] /= Hf; first by lia.
have [x [r [Hx Hxe]]] : exists x r, b ++ [pluses] ++ flat_map (fun b0 => b0 ++ [pluses]) yp ++ [equals] ++ rest = x :: r /\ x <> equals.
  case: (b) (Hb b (or_introl eq_refl)) => [|x b'] Hc /=; first by eexists _, _.
  eexists x, _; split; first by reflexivity.
  by move=> Ex; apply: (Hc x); [left | rewrite Ex; right; right; left].
move: (Hs); rewrite Hx => /(skipn_cons _ _ _ _) [E [_ H]].
rewrite (HG _ _ E) /= bytes_eqb_neq //.
rewrite (df_branch_ok o xs b HV _ _ [] _ Hs) /=; first last.
- by have := skipn_len _ _ _ Hs; rewrite app_length HL; lia.
- by move=> /(Hb b (or_introl eq_refl)); apply; right; left.
have Hs' := skipn_shift xs pos (b ++ [pluses]) _ (eq_trans Hs (app_assoc _ _ _)).
rewrite app_length /= in Hs'.
rewrite (IH _ fuel (S (pos + length b)) (acc ++ [b]) rest); first last.
- lia.
- by rewrite /yp_objs -app_assoc -Hs'; congr skipn; lia.
- by move=> b' Hb'; apply: Hb; right.
rewrite -app_assoc /=; congr (Ok (_, _)).
rewrite /yp_objs !app_length /= ?app_length /=; lia.
Qed.

Lemma yp_objs_len yp : (length yp < length (yp_objs yp))%nat.
Proof. by rewrite /yp_objs app_length /=; elim: yp => [|b yp IH] //=; rewrite !app_length /=; lia. Qed.

(** first object of a yproof is neither ---- nor //// *)
Lemma yp_objs_head yp rest : (forall b, In b yp -> clean_branch b) ->
  exists x r, [/\ yp_objs yp ++ rest = x :: r, x <> dashes & x <> slashes].
Proof.
case: yp => [|[|x b] yp] Hb; [by eexists _, _; split | by eexists _, _; split |].
have Hc := Hb _ (or_introl eq_refl) x (or_introl eq_refl).
eexists x, _; split; first by reflexivity.
- by move=> E; apply: Hc; left.
- by move=> E; apply: Hc; right; right; right; left.
Qed.

Lemma df_yproofs_ok o xs yps : view o xs -> (forall yp b, In yp yps -> In b yp -> clean_branch b) ->
  forall fuel pos acc x rest, skipn pos xs = flat_map yp_objs yps ++ x :: rest ->
  x = dashes \/ x = slashes -> (length yps <= fuel)%nat ->
  df_yproofs fuel o pos acc = Ok (acc ++ yps, pos + length (flat_map yp_objs yps))%nat.
Proof.
move=> HV; have [HL HG] := HV; elim: yps => [|yp yps IH] Hb fuel pos acc x rest.
  move=> /(skipn_cons _ _ _ _) [E [_ H]] Hx _.
  have Hc : bytes_eqb x dashes || bytes_eqb x slashes by case: Hx => ->.
  by case: fuel => [|fuel]; rewrite /= (HG _ _ E) /= Hc app_nil_r Nat.add_0_r.
rewrite [flat_map _ _]/= -app_assoc => Hs Hx Hf.
case: fuel Hf => [|fuel] /= Hf; first by lia.
have [|y [r [Ey Hd Hsl]]] := yp_objs_head yp (flat_map yp_objs yps ++ x :: rest).
  by move=> b Hbb; apply: (Hb yp) => //; left.
move: (Hs); rewrite Ey => /(skipn_cons _ _ _ _) [E [_ H]].
rewrite (HG _ _ E) /= !bytes_eqb_neq //=.
have Hlen := yp_objs_len yp.
rewrite (df_yproof_ok o xs yp HV _ _ _ [] _ Hs) /=; first last.
- by have := skipn_len _ _ _ Hs; rewrite app_length HL; lia.
- by move=> b Hbb; apply: (Hb yp) => //; left.
have Hs' := skipn_shift _ _ _ _ Hs.
rewrite (_ : S (pos + length (yp_objs yp) - 1) = (pos + length (yp_objs yp))%nat); last by lia.
rewrite (IH _ _ _ _ _ _ Hs' Hx); first last.
- lia.
- by move=> yp' b' H1 H2; apply: (Hb yp') => //; right.
rewrite -app_assoc /= app_length; congr (Ok (_, _)); lia.
Qed.

Lemma df_items_ok o xs its pre last : view o xs -> raw_ok o xs ->
  (forall it yp b, In it its -> In yp (snd it) -> In b yp -> clean_branch b) ->
  ~ In slashes (flat_map item_objs its) -> ~ In slashes pre ->
  xs = pre ++ flat_map item_objs its ++ slashes :: last ->
  forall fuel acc, (length its <= fuel)%nat ->
  df_items fuel o (length pre) acc = Ok (acc ++ its, length pre + length (flat_map item_objs its))%nat.
Proof.
move=> HV HR; have [HL HG] := HV; elim: its pre => [|it its IH] pre Hb Hsl Hpre Exs fuel acc Hf.
  have E : nth_error xs (length pre) = Some slashes by rewrite Exs nth_error_app2 // Nat.sub_diag.
  have Hraw : nth_error o (length pre) = Some slashes.
    case: (HR _ _ E) => [[]//|[j [b [_ _ _ _]]]].
    by rewrite Exs firstn_app firstn_all Nat.sub_diag /= app_nil_r => /Hpre.
  by case: fuel {Hf} => [|fuel]; rewrite /= (lget_some _ _ _ Hraw) /= app_nil_r Nat.add_0_r.
case: fuel Hf => [|fuel] /= Hf; first by lia.
case: it Hb Hsl Exs => root yps Hb Hsl Exs.
rewrite [flat_map _ _]/= in Exs Hsl.
have E0 : skipn (length pre) xs = dashes :: root :: flat_map yp_objs yps ++ flat_map item_objs its ++ slashes :: last.
  by rewrite Exs skipn_app skipn_all Nat.sub_diag /= -app_assoc.
have [E1 [E2 _]] := skipn_cons _ _ _ _ E0; have [E3 [E4 _]] := skipn_cons _ _ _ _ E2.
have [raw [Hraw Hrne]] : exists raw, lget o (length pre) = Ok raw /\ raw <> slashes.
  case: (HR _ _ E1) => [[H1 _]|[j [b [H1 H2 _ _ _]]]].
    by exists dashes; split=> //; apply: lget_some.
  by exists b; split; [apply: lget_some | move=> Eb; rewrite Eb in H2].
rewrite Hraw /= bytes_eqb_neq // (HG _ _ E1) /= Nat.add_1_r (HG _ _ E3) /=.
have [x [r [Ex Hx]]] : exists x r, flat_map item_objs its ++ slashes :: last = x :: r /\ (x = dashes \/ x = slashes).
  case: (its) => [|it its'] /=; first by eexists _, _; split; [reflexivity | right].
  by eexists _, _; split; [reflexivity | left].
rewrite Ex in E4.
have Hlen : (length yps <= length o)%nat.
  have := skipn_len _ _ _ E4; rewrite app_length HL.
  have : (length yps <= length (flat_map yp_objs yps))%nat.
    by elim: (yps) => [|yp l IHl] //=; rewrite app_length; have := yp_objs_len yp; lia.
  lia.
rewrite (_ : (length pre + 2)%nat = S (S (length pre))); last by lia.
rewrite (df_yproofs_ok o xs yps HV _ _ _ [] _ _ E4 Hx Hlen) /=; last first.
  by move=> yp b H1 H2; apply: (Hb (root, yps) yp) => //; left.
have := IH (pre ++ item_objs (root, yps)).
rewrite !app_length /= (_ : (length pre + S (S (length (flat_map yp_objs yps))))%nat
  = S (S (length pre + length (flat_map yp_objs yps)))); last by lia.
move=> IH'; rewrite IH'.
- by rewrite -app_assoc /=; congr (Ok (_, _)); lia.
- by move=> it yp b H1 H2 H3; apply: (Hb it yp) => //; right.
- by move=> H; apply: Hsl; right; right; apply/in_or_app; right.
- move=> /(@in_app_or _ _ _ _) [//|H]; apply: Hsl; case: H => [//|[H|H]]; first by right; left.
  by right; right; apply/in_or_app; left.
- by rewrite Exs -app_assoc /= -app_assoc.
- lia.
Qed.

Lemma item_objs_len its : (length its <= length (flat_map item_objs its))%nat.
Proof. by elim: its => [|it its IH] //=; rewrite app_length; lia. Qed.

Lemma decompress_fri_view o p : view o (fri_objs p) -> raw_ok o (fri_objs p) ->
  (forall it yp b, In it (fst p) -> In yp (snd it) -> In b yp -> clean_branch b) ->
  (forall it, In it (fst p) -> fst it <> slashes) ->
  decompress_fri o = Ok p.
Proof.
case: p => its last /= HV HR Hb Hroot; have [HL HG] := HV; rewrite /decompress_fri.
have Hsl : ~ In slashes (flat_map item_objs its).
  move=> /in_flat_map [[root yps] [Hit /= [//|[Hr|]]]]; first exact: (Hroot _ Hit).
  move=> /in_flat_map [yp [Hyp /(@in_app_or _ _ _ _) [|[//|//]]]].
  move=> /in_flat_map [b [Hbb /(@in_app_or _ _ _ _) [Hin|[//|//]]]].
  by apply: (Hb _ _ _ Hit Hyp Hbb _ Hin); right; right; right; left.
rewrite (df_items_ok o _ its [] last HV HR Hb Hsl (fun H => H) eq_refl _ []); last first.
  rewrite HL /fri_objs app_length /=; apply: (Nat.le_trans _ _ _ (item_objs_len its)).
  by apply: Nat.le_add_r.
rewrite /=; set pos := S _.
have Hpos : (length o - pos)%nat = length last by rewrite HL /fri_objs app_length /=; lia.
have Hn : forall i x, nth_error last i = Some x -> get_obj o (pos + i) = Ok x.
  move=> i x Hi; apply: HG; rewrite /fri_objs [fst _]/= [snd _]/= nth_error_app2; last by rewrite /pos; lia.
  by rewrite (_ : (pos + i - length (flat_map item_objs its))%nat = S i) //; rewrite /pos; lia.
rewrite Hpos; have -> : mapM (get_obj o) (seq pos (length last)) = Ok last.
  elim: (last) (pos) Hn => [|x l IH] q Hn //=.
  rewrite -{1}(Nat.add_0_r q) (Hn 0%nat x) //= IH // => i y Hi.
  by rewrite -(Hn (S i) y) // Nat.add_succ_r.
by [].
Qed.

Lemma fri_eqb_spec a b : reflect (a = b) (fri_eqb a b).
Proof.
case: a b => [a1 a2] [b1 b2]; rewrite /fri_eqb /=.
have Hit : forall a b, reflect (a = b) (fri_item_eqb a b).
  move=> [a a'] [b b']; rewrite /fri_item_eqb /=.
  case: bytes_eqb_spec => [->|Hn] /=; last by constructor; move=> [].
  by case: (list_eqb_spec _ (list_eqb_spec _ (list_eqb_spec _ bytes_eqb_spec))) => [->|Hn]; constructor => // -[].
case: (list_eqb_spec _ Hit) => [->|Hn] /=; last by constructor; move=> [].
by case: (list_eqb_spec _ bytes_eqb_spec) => [->|Hn]; constructor => // -[].
Qed.

Lemma compress_fri_ok p :
  (forall it yp b, In it (fst p) -> In yp (snd it) -> In b yp -> clean_branch b) ->
  (forall it, In it (fst p) -> fst it <> slashes) ->
  (forall x, In x (fri_objs p) -> length x <> 2%nat) -> Z.of_nat (length (fri_objs p)) <= 65536 ->
  exists o, compress_fri p = Ok o /\ decompress_fri o = Ok p.
Proof.
move=> H1 H2 H3 H4; have [o [d [E V R]]] := add_objs_view _ H3 H4.
have D := decompress_fri_view o p V R H1 H2.
exists o; split=> //; rewrite /compress_fri compress_fri_fold E /= D /=.
by case: fri_eqb_spec.
Qed.

Lemma compress_fri_sound p o : compress_fri p = Ok o -> decompress_fri o = Ok p.
Proof.
rewrite /compress_fri; case: compress_fri_objs => [[o' d]|e] //=.
case D: (decompress_fri o') => [p'|e] //=.
by case: fri_eqb_spec => //= E [<-]; rewrite D E.
Qed.

Lemma bin_length_spec (c : list bytes) :
  bin_length c = (list_sum (map (@length _) c) +
                  length (filter (fun x => Nat.eqb (length x) 32) c))%nat.
Proof.
  unfold bin_length. induction c as [|x c IH]; cbn [map concat filter list_sum fold_right]; [reflexivity|].
  rewrite !app_length IH. destruct (Nat.eqb (length x) 32); cbn [length]; unfold list_sum; lia.
Qed.
