(** Proofs about FriModel.v *)
From mathcomp Require Import zify ssrZ.
From Verif Require Import Prelude BaseProofs PolyModel PolyProofs FftProofs InterpModel InterpProofs
  ModpField FiniteFieldModel FiniteFieldProofs FriModel.
Set Implicit Arguments.
Unset Strict Implicit.
Unset Printing Implicit Defensive.
Import GRing.Theory.
Local Open Scope ring_scope.
Local Open Scope py_scope.

Lemma map_const_nseq (A B : Type) (l : seq A) (c : B) : [seq c | _ <- l] = nseq (size l) c.
Proof. by elim: l => //= _ l ->. Qed.

Lemma flatten_nseqM (A : Type) m N (l : seq A) :
  flatten (nseq m (flatten (nseq N l))) = flatten (nseq (m * N) l).
Proof. by elim: m => [//|m IH]; rewrite mulSn nseqD flatten_cat /= IH. Qed.

Lemma foldM1 (A S : Type) (f : S -> A -> result S) a st : foldM f [:: a] st = f st a.
Proof. by rewrite /=; case: (f st a). Qed.

Lemma mapM1 (A B : Type) (f : A -> result B) a : mapM f [:: a] = let* y := f a in Ok [:: y].
Proof. by []. Qed.

Lemma py0 (A : Type) (a : A) l : py_nth (a :: l) (Z.of_nat 0) = Ok a.
Proof. by rewrite (py_nth_ok a). Qed.

Lemma py1 (A : Type) (a b : A) l : py_nth [:: a, b & l] (Z.of_nat 0 + 1) = Ok b.
Proof. by rewrite -[(Z.of_nat 0 + 1)%Z]/(Z.of_nat 1) (py_nth_ok a). Qed.

Lemma pym1 (A : Type) (a : A) : py_nth [:: a] (-1) = Ok a.
Proof. by []. Qed.

Section Fri.
Variable F : fieldType.
Variable p : nat.
Hypothesis Cp : p \in [char F].
Implicit Types (basis : seq F) (x y s : F).

Local Notation Zs := (zp_images F p).
Local Notation aff bs s := (affine_iter Zs (bs : seq F^o) (s : F^o)).

Lemma p_pos : (0 < p)%N.
Proof. exact: prime_gt0 (charf_prime Cp). Qed.

Lemma nat_pow n : (n%:R : F) ^+ p = n%:R.
Proof. by rewrite -(Frobenius_autE Cp) rmorph_nat. Qed.

Lemma add_pow x y : (x + y) ^+ p = x ^+ p + y ^+ p.
Proof. by rewrite -!(Frobenius_autE Cp) rmorphD. Qed.

Lemma nat_inj i j : (i < p)%N -> (j < p)%N -> i%:R = j%:R :> F -> i = j.
Proof.
wlog : i j / (i <= j)%N => [H Hi Hj E|Hij Hi Hj /eqP].
  by case: (leqP i j) => [/H|/ltnW /H E']; [exact|apply/esym; apply: E'].
rewrite eq_sym -subr_eq0 -natrB // -(dvdn_charf Cp) => /dvdnP [k E].
case: k E => [|k]; first by rewrite mul0n; lia.
by rewrite mulSn; lia.
Qed.

Lemma uniq_zp : uniq Zs.
Proof.
rewrite /zp_images map_inj_in_uniq ?iota_uniq // => i j; rewrite !mem_iota => Hi Hj.
by apply: nat_inj; lia.
Qed.

Lemma zp_prod (a Y : F) : \prod_(c <- Zs) (Y - c * a) = Y ^+ p - a ^+ p.-1 * Y.
Proof.
have Hp := p_pos; have Hp1 := prime_gt1 (charf_prime Cp).
have [->|Na] := eqVneq a 0.
  rewrite expr0n (_ : (p.-1 == 0)%N = false) ?mul0r ?subr0; last by apply/eqP; lia.
  rewrite (eq_bigr (fun _ => Y)) => [|c _]; last by rewrite mulr0 subr0.
  by rewrite big_const_seq count_predT size_map size_iota iter_mulr_1.
pose q : {poly F} := 'X^p - a ^+ p.-1 *: 'X.
have Sq : size q = p.+1.
  rewrite /q size_addl size_polyXn // size_opp (leq_ltn_trans (size_scale_leq _ _)) // size_polyX; lia.
have R : all (root q) [seq c * a | c <- Zs].
  apply/allP => _ /mapP [_ /mapP [n _ ->] ->]; rewrite /root /q hornerD hornerN hornerZ hornerXn hornerX exprMn nat_pow.
  by rewrite mulrCA -exprSr prednK // subrr.
have U : uniq_roots [seq c * a | c <- Zs].
  by rewrite uniq_rootsE map_inj_uniq ?uniq_zp //; exact: mulIf.
have E := all_roots_prod_XsubC (p := q) (rs := [seq c * a | c <- Zs]).
rewrite size_map size_map size_iota Sq in E.
have /(congr1 (fun f => f.[Y])) := E erefl R U.
have -> : lead_coef q = 1.
  rewrite /lead_coef Sq /q coefB coefXn eqxx coefZ coefX (_ : (p == 1)%N = false) ?mulr0 ?subr0 //.
  by apply/eqP; lia.
rewrite scale1r /q hornerD hornerN hornerZ hornerXn hornerX => ->.
by rewrite horner_prod [RHS]big_map; apply: eq_bigr => c _; rewrite hornerXsubC.
Qed.

(** the vanishing polynomial of the span of [bs], as a function *)
Definition van (bs : seq F) x : F := \prod_(l <- aff bs 0) (x - l).

Lemma aff_nil s : aff [::] s = [:: s].
Proof. by []. Qed.

Lemma aff_cons b bs s : aff (b :: bs) s = flatten [seq aff bs (s + c * b) | c <- Zs].
Proof.
rewrite /affine_iter /= map_flatten -map_comp; congr flatten; apply: eq_map => c /=.
by rewrite -map_comp.
Qed.

Lemma aff_shift bs s t : aff bs (s + t) = [seq s + l | l <- aff bs t].
Proof.
elim: bs s t => [//|b bs IH] s t; rewrite !aff_cons map_flatten -[in RHS]map_comp; congr flatten.
by apply: eq_map => c /=; rewrite -IH addrA.
Qed.

Lemma van_cons b bs x : (forall y z, van bs (y + z) = van bs y + van bs z) ->
  van (b :: bs) x = van bs x ^+ p - van bs b ^+ p.-1 * van bs x.
Proof.
move=> A; rewrite {1}/van aff_cons big_flatten /= big_map -zp_prod.
have N0 : van bs 0 = 0 by apply: (addrI (van bs 0)); rewrite -A !addr0.
have NN y : van bs (- y) = - van bs y by apply: (addrI (van bs y)); rewrite -A !subrr.
have Nn n y : van bs (n%:R * y) = n%:R * van bs y.
  by elim: n => [|n IH]; rewrite ?mul0r // !mulrSr !mulrDl A IH !mul1r.
rewrite !big_map; apply: eq_bigr => n _.
rewrite add0r -Nn -NN -A /van -[n%:R * b]addr0 (aff_shift bs) big_map addr0.
by apply: eq_bigr => l _; rewrite opprD addrA.
Qed.

Lemma van_add bs x y : van bs (x + y) = van bs x + van bs y.
Proof.
elim: bs x y => [|b bs IH] x y; first by rewrite /van aff_nil !big_seq1 !subr0.
rewrite !van_cons // IH add_pow mulrDr.
by rewrite opprD addrACA.
Qed.

Lemma van0 bs : van bs 0 = 0.
Proof. by apply: (addrI (van bs 0)); rewrite -van_add !addr0. Qed.

Lemma van_nat bs n x : van bs (n%:R * x) = n%:R * van bs x.
Proof. by elim: n => [|n IH]; rewrite ?mul0r ?van0 // !mulrSr !mulrDl van_add IH !mul1r. Qed.

Lemma van_opp bs x : van bs (- x) = - van bs x.
Proof. by apply: (addrI (van bs x)); rewrite -van_add !subrr van0. Qed.

Lemma vanE bs x : pcall (zpoly (aff bs 0)) x = van bs x.
Proof.
rewrite pcallE Poly_zpoly horner_prod; apply: eq_bigr => l _; by rewrite hornerXsubC.
Qed.

Lemma van_eq0 bs x : (van bs x == 0) = (x \in aff bs 0).
Proof. by rewrite -vanE; have [_ _ _ _ ->] := zpoly_spec (aff bs 0). Qed.

Lemma zp_mem (c : F) : c \in Zs -> exists n, c = n%:R.
Proof. by move=> /mapP [n _ ->]; exists n. Qed.

Lemma zp0 : 0 \in Zs.
Proof. by apply/mapP; exists 0%N => //; rewrite mem_iota p_pos. Qed.

Lemma zp1 : 1 \in Zs.
Proof. by apply/mapP; exists 1%N => //; rewrite mem_iota (prime_gt1 (charf_prime Cp)). Qed.

Lemma zpB (c d : F) : c \in Zs -> d \in Zs -> c - d \in Zs.
Proof.
have M n : (n%:R : F) \in Zs.
  apply/mapP; exists (n %% p)%N; first by rewrite mem_iota /= ltn_mod p_pos.
  by rewrite [in LHS](divn_eq n p) natrD natrM (charf0 Cp) mulr0 add0r.
move=> /zp_mem [n ->] /mapP [m]; rewrite mem_iota => Hm ->.
have -> : n%:R - m%:R = (n + (p - m))%:R :> F.
  by rewrite natrD natrB ?(charf0 Cp) ?sub0r //; lia.
exact: M.
Qed.

Lemma map_van_aff B bs s : [seq van B x | x <- aff bs s] = aff [seq van B b | b <- bs] (van B s).
Proof.
elim: bs s => [//|b bs IH] s; rewrite [map _ (b :: bs)]/= !aff_cons map_flatten -[in LHS]map_comp.
congr flatten; apply/eq_in_map => c /zp_mem [n ->] /=.
by rewrite IH van_add van_nat.
Qed.

Lemma aff_zeros k bs s : aff (nseq k 0 ++ bs) s = flatten (nseq (p ^ k) (aff bs s)).
Proof.
elim: k => [|k IH]; first by rewrite expn0 /= cats0.
rewrite [nseq _ _ ++ _]/= aff_cons -[RHS]/(flatten _) expnS.
have -> : [seq aff (nseq k 0 ++ bs) (s + c * 0) | c <- Zs] = nseq p (flatten (nseq (p ^ k) (aff bs s))).
  rewrite (eq_map (f2 := fun _ => flatten (nseq (p ^ k) (aff bs s)))) => [|c].
    by rewrite map_const_nseq size_map size_iota.
  by rewrite mulr0 addr0 IH.
exact: flatten_nseqM.
Qed.

Lemma mem_aff bs s x : (x \in aff bs s) <->
  exists c : seq F, [/\ size c = size bs, all (mem Zs) c & x = s + \sum_(i < size bs) nth 0 c i * nth 0 bs i].
Proof. by rewrite affine_mem; split. Qed.

Lemma basis_mem bs b : b \in bs -> b \in aff bs 0.
Proof.
move=> Hb; apply/mem_aff; exists [seq (if i == index b bs then 1 else 0) | i <- iota 0 (size bs)].
split; first by rewrite size_map size_iota.
  by apply/allP => _ /mapP [i _ ->]; case: ifP => _ /=; rewrite ?zp0 ?zp1.
have Hi : (index b bs < size bs)%N by rewrite index_mem.
rewrite add0r (bigD1 (Ordinal Hi)) //= (nth_map 0%N) ?size_iota // nth_iota // add0n eqxx mul1r nth_index //.
rewrite big1 ?addr0 // => i; rewrite -val_eqE /= => Hne.
by rewrite (nth_map 0%N) ?size_iota // nth_iota // add0n (negbTE Hne) mul0r.
Qed.

(** the image of the space under the vanishing polynomial of its first [eta] directions *)
Lemma image_enum eta basis s :
  let q := van (take eta basis) in
  [seq q x | x <- aff basis s] =
  flatten (nseq (p ^ minn eta (size basis)) (aff [seq q b | b <- drop eta basis] (q s))).
Proof.
move=> q; rewrite -{1}(cat_take_drop eta basis) map_van_aff map_cat.
have -> : [seq van (take eta basis) b | b <- take eta basis] = nseq (minn eta (size basis)) 0.
  rewrite -(size_take_min eta) -map_const_nseq; apply/eq_in_map => b Hb /=.
  by apply/eqP; rewrite van_eq0; exact: basis_mem.
exact: aff_zeros.
Qed.

Lemma uniq_map_inj (A B : eqType) (f : A -> B) (l : seq A) : uniq l -> uniq [seq f x | x <- l] ->
  {in l &, injective f}.
Proof.
elim: l => [//|a l IH] /= /andP [Na Ul] /andP [Nf Uf] x y; rewrite !inE.
have H z : z \in l -> f a <> f z by move=> Hz E; move: Nf; rewrite E map_f.
move=> /predU1P [->|Hx] /predU1P [->|Hy] // E; first by case: (H _ Hy).
  by case: (H _ Hx).
exact: IH.
Qed.

Local Notation el s c bs := (foldl (fun e (vb : F * F^o) => e + vb.1 *: vb.2) (s : F^o) (zip c (bs : seq F^o))).

Lemma aff_lin bs s x : x \in aff bs s ->
  exists c : seq F, [/\ size c = size bs, all (mem Zs) c & x = s + lin c (bs : seq F^o)].
Proof. by rewrite affine_mem. Qed.

Lemma image_uniq eta basis s : uniq (aff basis s) ->
  uniq (aff [seq van (take eta basis) b | b <- drop eta basis] (van (take eta basis) s)).
Proof.
move=> U; rewrite -map_van_aff; set T := take eta basis; set D := drop eta basis.
have Eb : T ++ D = basis by exact: cat_take_drop.
have Inj : {in cart_power Zs (size basis) &, injective (fun c => el s c basis)}.
  by apply: uniq_map_inj; first exact: cart_power_uniq uniq_zp.
have catE c d : size c = size T -> size d = size D ->
    el s (c ++ d) basis = s + lin c (T : seq F^o) + lin d (D : seq F^o).
  by move=> Hc Hd; rewrite -Eb zip_cat // foldl_cat !affine_fold.
have inC c d : size c = size T -> size d = size D -> all (mem Zs) c -> all (mem Zs) d ->
    c ++ d \in cart_power Zs (size basis).
  by move=> Hc Hd Ac Ad; rewrite cart_power_mem -Eb !size_cat Hc Hd eqxx all_cat Ac.
have Z0 : all (mem Zs) (nseq (size T) 0) by rewrite all_nseq /= zp0 orbT.
have L0 : lin (nseq (size T) 0) (T : seq F^o) = 0.
  by rewrite /lin big1 // => i _; rewrite nth_nseq if_same scale0r.
rewrite map_inj_in_uniq => [|x y /aff_lin [c [Hc Ac ->]] /aff_lin [d [Hd Ad ->]] E].
  rewrite /affine_iter map_inj_in_uniq ?cart_power_uniq ?uniq_zp // => c d.
  rewrite !cart_power_mem => /andP [/eqP Hc Ac] /andP [/eqP Hd Ad]; rewrite !affine_fold // => /addrI E.
  have /eqP : nseq (size T) 0 ++ c = nseq (size T) 0 ++ d.
    by apply: Inj; rewrite ?inC ?size_nseq // !catE ?size_nseq // E.
  by rewrite eqseq_cat // eqxx /= => /eqP.
have : van T ((s + lin c (D : seq F^o)) - (s + lin d (D : seq F^o))) == 0 by rewrite van_add van_opp E subrr.
rewrite van_eq0 => /aff_lin [e [He Ae Ee]].
have /eqP : nseq (size T) 0 ++ c = e ++ d.
  apply: Inj; rewrite ?inC ?size_nseq // !catE ?size_nseq // L0 addr0.
  rewrite add0r in Ee; rewrite -Ee addrAC.
  by apply/esym; apply: (etrans (addrC _ _)); exact: subrK.
by rewrite eqseq_cat ?size_nseq // => /andP [_ /eqP ->].
Qed.

Lemma sub_uniq eta basis s : uniq (aff basis s) -> uniq (aff (take eta basis) 0).
Proof.
move=> U; set T := take eta basis; set D := drop eta basis.
have Eb : T ++ D = basis by exact: cat_take_drop.
have Inj : {in cart_power Zs (size basis) &, injective (fun c => el s c basis)}.
  by apply: uniq_map_inj; first exact: cart_power_uniq uniq_zp.
have L0 : lin (nseq (size D) 0) (D : seq F^o) = 0.
  by rewrite /lin big1 // => i _; rewrite nth_nseq if_same scale0r.
have catE c : size c = size T -> el s (c ++ nseq (size D) 0) basis = s + lin c (T : seq F^o).
  by move=> Hc; rewrite -Eb zip_cat // foldl_cat !affine_fold ?size_nseq // L0 addr0.
rewrite /affine_iter map_inj_in_uniq ?cart_power_uniq ?uniq_zp // => c d.
rewrite !cart_power_mem => /andP [/eqP Hc Ac] /andP [/eqP Hd Ad]; rewrite !affine_fold // => /addrI E.
have Z0 : all (mem Zs) (nseq (size D) 0) by rewrite all_nseq /= zp0 orbT.
have /eqP : c ++ nseq (size D) 0 = d ++ nseq (size D) 0.
  apply: Inj; rewrite ?catE ?E // cart_power_mem -Eb !size_cat size_nseq all_cat Z0 ?Hc ?Hd eqxx.
    by rewrite Ac.
  by rewrite Ad.
by rewrite eqseq_cat ?Hc // => /andP [/eqP].
Qed.

(** interpolation on a list in which every value occurs a multiple of p times *)
Lemma lag_repeated k (l : seq F) (h : F -> F) : (0 < k)%N ->
  let xs := flatten (nseq (p ^ k) l) in lag xs [seq h x | x <- xs] = 0.
Proof.
move=> Hk xs; rewrite /lag.
pose G x := (h x / nz (num_of xs x).[x]) *: num_of xs x.
have -> : \sum_(i < size xs) ([seq h x | x <- xs]`_i / nz (num_of xs xs`_i).[xs`_i]) *: num_of xs xs`_i
    = \sum_(x <- xs) G x.
  by rewrite (big_nth 0) big_mkord; apply: eq_bigr => i _; rewrite (nth_map 0).
rewrite {1}/xs big_flatten big_nseq /= iter_addr_0 -scaler_nat.
by rewrite -(prednK Hk) expnS natrM (charf0 Cp) mul0r scale0r.
Qed.

(** the number of elements *)
Lemma elements_size basis s : size (elements p (DSpace basis s)) = (p ^ size basis)%N.
Proof. by apply: (etrans (affine_size Zs (basis : seq F^o) (s : F^o))); rewrite size_map size_iota. Qed.

Lemma domain_lenE basis s n : domain_len p (DSpace basis s) = Ok n ->
  n = Z.of_nat (size (elements p (DSpace basis s))) /\ (n < 2 ^ 63)%Z.
Proof.
rewrite elements_size /domain_len /affine_len Z.pow_1_r.
case: Z.leb_spec => // H [<-]; split=> //.
by elim: (size basis) => [//|k IH]; rewrite expnS Nat2Z.inj_succ Z.pow_succ_r ?IH; lia.
Qed.

Lemma vanishingE basis x : pcall (vanishing p (DSpace (take fri_eta basis) (0 : F))) x = van (take fri_eta basis) x.
Proof. exact: vanE. Qed.

Lemma mapM_total (A B : Type) (f : A -> result B) (h : A -> B) (l : seq A) :
  (forall x : A, f x = Ok (h x)) -> mapM f l = Ok [seq h x | x <- l].
Proof. by move=> H; elim: l => [//|a l IH] /=; rewrite H /= IH. Qed.

(** *** commit *)
Section Commit.
Variables (rho : rate) (rnd : nat -> result F) (f : F -> result F) (h : F -> F).
Hypothesis Hf : forall x, f x = Ok (h x).
Variables (basis : seq F) (s : F) (n : Z).
Local Notation L := (DSpace basis s).
Hypothesis Hn : domain_len p L = Ok n.
Hypothesis Hr : check_rate rho = Ok tt.

Lemma commit_none r : (r <= 0)%Z -> commit p L rho r rnd f = Ok None.
Proof. by move=> H; rewrite /commit Hr bind_ok Hn bind_ok /= (_ : Z.to_nat r = 0%N); last lia. Qed.

Lemma commit_one x : rnd 0%N = Ok x ->
  commit p L rho 1 rnd f = match rho with
    | RateInt _ => Ok (Some (polyseq (lag (elements p L) [seq h v | v <- elements p L])))
    | RateFloat _ => Err TypeError end.
Proof.
move=> Hx; rewrite /commit Hr bind_ok Hn bind_ok bind_ok (_ : Z.to_nat 1 = 1%N) // /commit_loop Hx bind_ok.
rewrite [(Z.of_nat 0 <? 1 - 1)%Z]/= (mapM_total _ Hf) bind_ok lagrange_total ?size_map // bind_ok.
rewrite Hn bind_ok; case: rho Hr => // z; rewrite /check_rate; case: Z.ltb_spec => // Hz _.
have [E _] := domain_lenE Hn; congr (Ok (Some _)); apply: take_oversize.
rewrite (leq_trans (size_lag _ _)) //.
rewrite E; move: (size _) => m; nia.
Qed.

Lemma commit_more x r : rnd 0%N = Ok x -> (2 <= r)%Z -> commit p L rho r rnd f = Err AttributeError.
Proof.
move=> Hx Hr2; rewrite /commit Hr bind_ok Hn bind_ok bind_ok (_ : Z.to_nat r = (Z.to_nat r - 1).+1); last by lia.
rewrite /commit_loop Hx bind_ok (_ : (Z.of_nat 0 <? r - 1)%Z = true); last by apply/Z.ltb_spec0; lia.
rewrite (mapM_total (h := fun y => let c := [seq y + l | l <- elements p (DSpace (take fri_eta basis) 0)] in
  (lag c [seq h v | v <- c]).[x])) // => y.
by rewrite /= (mapM_total _ Hf) bind_ok lagrange_total ?size_map // bind_ok pcallE polyseqK.
Qed.
End Commit.

(** *** query *)
Lemma select_count (l : seq F) k (n : Z) :
  [seq ce.2 | ce <- zip (iota k (size l)) l & (Z.of_nat ce.1 =? n)%Z] =
  if ((Z.of_nat k <=? n) && (n <? Z.of_nat k + Z.of_nat (size l)))%Z then [:: nth 0 l (Z.to_nat (n - Z.of_nat k))] else [::].
Proof.
elim: l k => [|a l IH] k; first by rewrite /=; case: ifP => //; lia.
rewrite [iota _ _]/= [zip _ _]/= [filter _ _]/= .
case: Z.eqb_spec => E.
  rewrite [map _ _]/= IH; case: ifP => H; first by exfalso; lia.
  by case: ifP => H'; [rewrite -E Z.sub_diag|exfalso; rewrite /= in H'; lia].
rewrite IH; case: ifP => H; case: ifP => H' //.
- by rewrite (_ : Z.to_nat (n - Z.of_nat k) = (Z.to_nat (n - Z.of_nat k.+1)).+1); last by lia.
- by exfalso; move: H H'; rewrite [size (_ :: _)]/=; lia.
- by exfalso; move: H H'; rewrite [size (_ :: _)]/=; lia.
Qed.

Section Query.
Variables (basis : seq F) (s : F).
Local Notation L := (DSpace basis s).
Local Notation L0 := (DSpace (take fri_eta basis) (0 : F)).
Local Notation q := (vanishing p L0).

(** the interpolant of [h] on the coset of [v] *)
Definition coset_poly (h : F -> F) (v : F) : {poly F} :=
  let c := [seq v + l | l <- elements p L0] in lag c [seq h w | w <- c].

Lemma round_one (x0 : F) (f0 f1 : F -> result F) (fs : seq (F -> result F)) (h : F -> F) (n : Z) :
  (forall v, f0 v = Ok (h v)) ->
  query_round p [:: L] [:: L0] [:: q] [:: x0] 1 [:: f0, f1 & fs] n =
  if ((1 <=? n) && (n <=? Z.of_nat (size (elements p L))))%Z then
    let v := nth 0 (elements p L) (Z.to_nat (n - 1)) in
    let* w := f1 (van (take fri_eta basis) v) in Ok (w != (coset_poly h v).[x0])
  else Err IndexError.
Proof.
move=> H0; rewrite /query_round [py_nth [:: L] 0]/= bind_ok select_count.
have -> : ((Z.of_nat 1 <=? n) && (n <? Z.of_nat 1 + Z.of_nat (size (elements p L))) =
           (1 <=? n) && (n <=? Z.of_nat (size (elements p L))))%Z by lia.
have -> : iota 0 (Z.to_nat 1) = [:: 0%N] by [].
case: ifP => [H|_]; last by [].
set v := nth _ _ _; rewrite foldM1 py0 bind_ok pym1 bind_ok bind_ok vanishingE.
rewrite mapM1 py0 bind_ok py0 bind_ok bind_ok bind_ok.
rewrite mapM1 py0 bind_ok py0 bind_ok (mapM_total _ H0) bind_ok lagrange_total; last by rewrite !size_map.
rewrite bind_ok.
rewrite foldM1 py1 bind_ok py1 bind_ok py0 py0 /=.
by case: (f1 _) => //= w; rewrite pcallE polyseqK.
Qed.

Lemma query_spaces_one r : (r <= 1)%Z -> query_spaces p L r = Ok ([:: L], [:: L0], [:: q]).
Proof. by move=> H; rewrite /query_spaces (_ : Z.to_nat (r - 1) = 0%N); last lia. Qed.

Lemma query_spaces_more r : (2 <= r)%Z -> query_spaces p L r = Err AttributeError.
Proof.
move=> H; rewrite /query_spaces (_ : Z.to_nat (r - 1) = (Z.to_nat (r - 2)).+1); last by lia.
by [].
Qed.

(** the function appended to the caller's list *)
Lemma appended (c : seq F) : (0 < size basis)%N ->
  let xs := elements p (eval_on_subspace p q L) in
  lagrange_interp xs [seq pcall c v | v <- xs] = Ok [::].
Proof.
move=> Hb xs; rewrite lagrange_total ?size_map //; congr Ok.
have -> : xs = flatten (nseq (p ^ minn fri_eta (size basis))
    (aff [seq van (take fri_eta basis) b | b <- drop fri_eta basis] (van (take fri_eta basis) s))).
  by rewrite -image_enum /xs /=; apply: eq_map => x; rewrite vanishingE.
by rewrite lag_repeated ?polyseq0 // leq_min.
Qed.
End Query.
End Fri.

(** *** HextoBin and select_random *)
Definition bitlen (n : Z) : nat := if (0 <? n)%Z then (Z.to_nat (Z.log2 n)).+1 else 0%N.
Definition msb (n : Z) : seq Z :=
  [seq Z.b2z (Z.testbit n (Z.of_nat (bitlen n - 1 - i)%N)) | i <- iota 0 (bitlen n)].

Lemma bitlen_half n : (0 < n)%Z -> bitlen n = (bitlen (n / 2)).+1.
Proof.
move=> Hn; rewrite /bitlen (proj2 (Z.ltb_lt _ _) Hn); congr S.
case: Z.ltb_spec => H.
  have := Z.log2_shiftr n 1 Hn; rewrite Z.shiftr_div_pow2 // -[(2 ^ 1)%Z]/2%Z.
  have E := Z.div_mod n 2 ltac:(done); have B := Z.mod_pos_bound n 2 ltac:(done).
  by have := Z.log2_pos n ltac:(lia); have := Z.log2_nonneg (n / 2); lia.
have E := Z.div_mod n 2 ltac:(done); have B := Z.mod_pos_bound n 2 ltac:(done).
by have -> : n = 1%Z by lia.
Qed.

Lemma msb_half n : (0 < n)%Z -> msb n = msb (n / 2) ++ [:: (n mod 2)%Z].
Proof.
move=> Hn; rewrite /msb (bitlen_half Hn) -[X in iota 0 X]addn1 iotaD map_cat [iota (0 + _) 1]/= add0n.
congr (_ ++ _); last by rewrite /= subn1 /= subnn /= Z.bit0_mod.
apply/eq_in_map => i; rewrite mem_iota => Hi; congr Z.b2z.
rewrite Z.div2_bits; last by lia.
congr Z.testbit; lia.
Qed.

Lemma hextobin_loopE fuel n acc : (0 <= n)%Z -> (bitlen n <= fuel)%N -> hextobin_loop fuel n acc = Ok (msb n ++ acc).
Proof.
elim: fuel n acc => [|f IH] n acc Hn; rewrite /= /bitlen; case: Z.ltb_spec => //.
- by move=> H _; rewrite /msb /bitlen; case: Z.ltb_spec => //; lia.
- move=> H Hb; rewrite Z.shiftr_div_pow2 // -[(2 ^ 1)%Z]/2%Z IH; first by rewrite (msb_half H) -catA.
    by apply: Z.div_pos; lia.
  by rewrite -ltnS -bitlen_half // /bitlen (proj2 (Z.ltb_lt _ _) H).
- by move=> H _; rewrite /msb /bitlen; case: Z.ltb_spec => //; lia.
Qed.

Lemma hextobinE d : hextobin d = Ok (msb (from_bytes_be d)).
Proof.
rewrite /hextobin hextobin_loopE ?cats0 //; first by have [] := from_bytes_be_range d.
by rewrite /bitlen; case: ifP.
Qed.
