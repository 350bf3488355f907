(** Property theorems C105-C108: starks/fri.py.

    [F] is a field of prime characteristic p (the FiniteField of the protocol);
    [DSpace basis s] is the affine space s + span(basis) over Z/p, [elements] the list of
    the values it yields, [vanishing] its vanishing polynomial as a coefficient list. *)
From mathcomp Require Import zify ssrZ.
From Verif Require Import Prelude BaseProofs PolyModel PolyProofs FftProofs InterpModel InterpProofs
  ModpModel ModpField QField FiniteFieldModel FiniteFieldProofs FriModel FriProofs.
Import GRing.Theory.
Local Open Scope ring_scope.
Local Open Scope py_scope.

(** C105: HextoBin writes the digits of the number, most significant first. *)
Theorem C105_hextobin (digest : bytes) :
  let N := from_bytes_be digest in
  exists bits : seq Z, [/\ hextobin digest = Ok bits,
    (N = 0 -> bits = [::])%Z,
    (0 < N -> Z.of_nat (size bits) = Z.log2 N + 1)%Z &
    forall i, (i < size bits)%N ->
      nth 0%Z bits i = Z.b2z (Z.testbit N (Z.of_nat (size bits) - 1 - Z.of_nat i))].
Proof.
move=> N; exists (msb N); rewrite hextobinE -/N; split=> //.
- by move=> ->.
- move=> H; rewrite /msb size_map size_iota /bitlen (proj2 (Z.ltb_lt _ _) H).
  by have := Z.log2_nonneg N; lia.
- rewrite /msb size_map size_iota => i Hi; rewrite (nth_map 0%N) ?size_iota // nth_iota // add0n.
  by congr (Z.b2z (Z.testbit _ _)); lia.
Qed.
Print Assumptions C105_hextobin.

(** The element that select_random returns: the i-th most significant bit of the hash is
    the coefficient of X^i, reduced modulo the generator of the field. *)
Theorem C105_select_random (P : primeZ) (g : seq (modp_finFieldType P)) (sha : bytes -> bytes) (x : bytes) :
  normal g -> irreducible_poly (Poly g) ->
  let N := from_bytes_be (sha x) in
  let k := if (0 <? N)%Z then Z.to_nat (Z.log2 N + 1) else 0%N in
  exists z, [/\ select_random sha (CFq g) x = Ok z, fq_valid g z &
    Poly z = (\sum_(i < k) (if Z.testbit N (Z.of_nat k - 1 - Z.of_nat i) then 1 else 0) *: 'X^i) %% Poly g].
Proof.
move=> Ng Hirr N k.
have Ek : k = bitlen N.
  by rewrite /k /bitlen; case: ifP => // _; have := Z.log2_nonneg N; lia.
rewrite /select_random hextobinE bind_ok -/N.
have [z [E V Pz _]] := fq_list_ok Ng Hirr [seq in_modp P d | d <- msb N].
exists z; split=> //; rewrite Pz; congr (_ %% _); apply/polyP => i.
rewrite coef_Poly coef_sum /msb -map_comp -Ek.
have [Hi|Hi] := ltnP i k.
  rewrite (nth_map 0%N) ?size_iota // nth_iota // add0n (bigD1 (Ordinal Hi)) //= coefZ coefXn eqxx mulr1.
  rewrite big1 ?addr0 => [|j Hj]; last by rewrite coefZ coefXn -val_eqE /= in Hj *; rewrite eq_sym (negbTE Hj) mulr0.
  have -> : Z.of_nat (k - 1 - i)%N = (Z.of_nat k - 1 - Z.of_nat i)%Z by lia.
  by case: Z.testbit; apply: mval_inj; rewrite /= ?mval1.
rewrite nth_default ?size_map ?size_iota // big1 // => j _; rewrite coefZ coefXn.
by rewrite (_ : (i == j) = false) ?mulr0 //; apply/eqP => E'; move: (ltn_ord j); rewrite -E'; lia.
Qed.
Print Assumptions C105_select_random.

(** Two digests whose numbers differ by a factor 2 give the same coefficients: the
    trailing zero bit is the leading coefficient and is stripped. *)
Theorem C105_trailing_zero_bits (P : primeZ) (c : field_class (modp_fieldType P)) (sha : bytes -> bytes) (x y : bytes) :
  from_bytes_be (sha y) = (2 * from_bytes_be (sha x))%Z ->
  select_random sha c y = select_random sha c x.
Proof.
move=> E; rewrite /select_random !hextobinE !bind_ok E.
set N := from_bytes_be (sha x); have [H0 _] := from_bytes_be_range (sha x); rewrite -/N in H0.
have [->//|HN] : N = 0%Z \/ (0 < N)%Z by lia.
rewrite msb_half; last by lia.
have -> : (2 * N / 2 = N)%Z by rewrite Z.mul_comm Z.div_mul.
have -> : ((2 * N) mod 2 = 0)%Z by rewrite Z.mul_comm Z.mod_mul.
rewrite map_cat /=; case: c => // g; congr (fq_poly g _).
rewrite !pmkE; congr polyseq; apply/polyP => i; rewrite !coef_Poly nth_cat.
case: ltnP => // Hi; rewrite [RHS]nth_default //.
by case: (i - _)%N => [|[|j]] //=; apply: mval_inj.
Qed.
Print Assumptions C105_trailing_zero_bits.

(** Over a prime field the conversion of the polynomial fails. *)
Theorem C105_prime_field (P : primeZ) (sha : bytes -> bytes) (x : bytes) :
  select_random (P := P) sha (CZp _) x = Err TypeError.
Proof. by rewrite /select_random hextobinE. Qed.
Print Assumptions C105_prime_field.

(** The digest 00 0d = 1101b over GF(4): 1 + X + X^3 = X mod X^2 + X + 1; the digest
    00 1a = 11010b gives the same element, the digest 00 0b = 1011b another one. *)
Definition g4 : seq (modp_fieldType P2) := [seq in_modp P2 z | z <- [:: 1; 1; 1]%Z].
Example C105_example :
  let d n := [:: Byte.x00; n] in
  let r n := rmap (fun z => [seq mval c | c <- z]) (select_random (fun _ => d n) (CFq g4) [::]) in
  [/\ hextobin (d Byte.x0d) = Ok [:: 1; 1; 0; 1]%Z, r Byte.x0d = Ok [:: 0; 1]%Z,
      r Byte.x1a = Ok [:: 0; 1]%Z & r Byte.x0b = Ok [:: 1; 1]%Z].
Proof. by vm_compute. Qed.

Section Spaces.
Variables (F : fieldType) (p : nat).
Hypothesis Cp : p \in [char F].
Implicit Types (basis bs : seq F) (s x y : F).

(** C106: the subspace is spanned by the first basis vectors and never shifted. *)
Theorem C106_select_subspace basis s eta : exists d, [/\ select_subspace (DSpace basis s) eta = Ok d,
  size (elements p d) = (p ^ minn eta (size basis))%N,
  (forall x, x \in elements p d <-> exists c : seq nat, [/\ size c = minn eta (size basis), all (fun a => a < p)%N c &
     x = \sum_(i < minn eta (size basis)) (nth 0%N c i)%:R * nth 0 basis i]),
  (forall x, x \in elements p d -> s + x \in elements p (DSpace basis s)) &
  (uniq (elements p (DSpace basis s)) -> uniq (elements p d))].
Proof.
exists (DSpace (take eta basis) 0).
have Sm : size (take eta basis) = minn eta (size basis) by rewrite size_take /minn.
have Mem bs t x : x \in elements p (DSpace bs t) <-> exists c : seq nat, [/\ size c = size bs, all (fun a => a < p)%N c &
     x = t + \sum_(i < size bs) (nth 0%N c i)%:R * nth 0 bs i].
  rewrite mem_aff; split=> [[c [Sc Hc ->]]|[c [Sc Hc ->]]].
    exists [seq index a (zp_images F p) | a <- c]; rewrite size_map; split=> //.
      apply/allP => _ /mapP [a Ha ->]; move/allP: Hc => /(_ _ Ha) /=.
      by rewrite -index_mem size_map size_iota.
    congr (_ + _); apply: eq_bigr => i _; congr (_ * _).
    have Hi : (i < size c)%N by rewrite Sc.
    rewrite (nth_map 0) //; move/allP: Hc => /(_ _ (mem_nth 0 Hi)) /= Hm.
    have Hx : (index (c`_i)%R (zp_images F p) < p)%N by move: Hm; rewrite -index_mem size_map size_iota.
    by rewrite -{1}(nth_index 0 Hm) (nth_map 0%N) ?size_iota // nth_iota // add0n.
  exists [seq a%:R | a <- c]; rewrite size_map; split=> //.
    by apply/allP => _ /mapP [a Ha ->]; apply/mapP; exists a => //; rewrite mem_iota; move/allP: Hc => /(_ _ Ha).
  by congr (_ + _); apply: eq_bigr => i _; rewrite (nth_map 0%N) // Sc.
split=> //.
- by rewrite elements_size Sm.
- move=> x; rewrite Mem Sm; split=> -[c [Sc Hc ->]]; exists c; split=> //; rewrite ?add0r; apply: eq_bigr => i _;
    by rewrite nth_take // (leq_trans (ltn_ord i)) // geq_minl.
- move=> x /Mem [c [Sc Hc ->]]; apply/Mem; exists (c ++ nseq (size basis - size c) 0%N).
  have Le : (size c <= size basis)%N by rewrite Sc size_take; case: ltnP => // /ltnW.
  split.
  + by rewrite size_cat size_nseq subnKC.
  + by rewrite all_cat Hc /=; apply/allP => a /nseqP [-> _]; exact: p_pos Cp.
  + rewrite add0r; congr (_ + _); rewrite -Sc [RHS](bigID (fun i : 'I_(size basis) => (i < size c)%N)) /=.
    rewrite [X in _ = _ + X]big1 ?addr0 => [|i]; last first.
      by move=> Hi; rewrite nth_cat (negbTE Hi) nth_nseq; case: ifP; rewrite mul0r.
    rewrite (big_ord_widen_cond _ xpredT (fun i => (nth 0%N c i)%:R * nth 0 (take eta basis) i) Le).
    apply: eq_big => i; first by [].
    by move=> /= Hi; rewrite nth_cat Hi nth_take // -ltnS; move: Hi; rewrite Sc Sm; lia.
- exact: sub_uniq.
Qed.

(** It is a subset of the space only if the shift lies in the span. *)
Theorem C106_subspace_contained basis s eta :
  (forall d, select_subspace (DSpace basis s) eta = Ok d -> {subset elements p d <= elements p (DSpace basis s)}) <->
  s \in elements p (DSpace basis 0).
Proof.
have Tr x : (x \in elements p (DSpace basis s)) = (van p basis (x - s) == 0).
  rewrite van_eq0 /= -[s in LHS]addr0 (aff_shift _ _ s 0).
  by rewrite -{1}(subrK s x) addrC mem_map //; exact: addrI.
rewrite -van_eq0; split=> [/(_ _ erefl)|/eqP Hs d [<-] x].
  move=> /(_ 0); rewrite Tr sub0r van_opp // oppr_eq0; apply.
  have [d [[<-] _ M _ _]] := C106_select_subspace basis s eta.
  apply/M; exists (nseq (minn eta (size basis)) 0%N); split; first by rewrite size_nseq.
    by apply/allP => a /nseqP [-> _]; exact: p_pos Cp.
  by rewrite big1 // => i _; rewrite nth_nseq if_same mul0r.
have [d' [[<-] _ _ M _]] := C106_select_subspace basis s eta.
move=> /M; rewrite !Tr => /eqP; rewrite addrC addKr => E.
by rewrite [x - s]addrC [- s + x]addrC van_add // E van_opp // Hs oppr0 addr0.
Qed.

(** The vanishing polynomial of a space is monic of degree p^dim, zero exactly on the
    space; without shift it is additive and Z/p-homogeneous. *)
Theorem C106_vanishing bs s :
  [/\ normal (vanishing p (DSpace bs s)), size (vanishing p (DSpace bs s)) = (p ^ size bs).+1,
      nth 0 (vanishing p (DSpace bs s)) (p ^ size bs) = 1 &
      forall x, (pcall (vanishing p (DSpace bs s)) x == 0) = (x \in elements p (DSpace bs s))].
Proof.
have [N Pz D Le M] := zpoly_spec (elements p (DSpace bs s)).
have Sz : size (vanishing p (DSpace bs s)) = (p ^ size bs).+1.
  rewrite /vanishing -(elements_size p bs s); move: D; rewrite /pdegree /pabs; set a := size (zpoly _); set b := size _.
  by clearbody a b; lia.
split=> //; move: Le; rewrite /plead -/(vanishing p (DSpace bs s)).
by case E : (vanishing _ _) Sz => [//|a l] [<-] [] <-; rewrite (last_nth 0).
Qed.

Theorem C106_vanishing_additive bs : let q := pcall (vanishing p (DSpace bs 0)) in
  [/\ forall x y, q (x + y) = q x + q y, forall n x, q (n%:R * x) = n%:R * q x &
      forall s x, pcall (vanishing p (DSpace bs s)) x = q (x - s)].
Proof.
have Q x : pcall (vanishing p (DSpace bs 0)) x = van p bs x by exact: vanE.
move=> q; rewrite /q; split=> [x y|n x|s x]; rewrite !Q; [exact: van_add|exact: van_nat|].
rewrite /vanishing pcallE Poly_zpoly horner_prod /= -[s in LHS]addr0 (aff_shift _ _ s 0) big_map /van.
by apply: eq_bigr => l _; rewrite hornerXsubC opprD addrA.
Qed.

(** The next domain: a list in which the image space is repeated p^min(2,dim) times. *)
Theorem C106_next_domain basis s eta :
  let q := vanishing p (DSpace (take eta basis) 0) in
  let image := DSpace [seq pcall q b | b <- drop eta basis] (pcall q s) in
  elements p (eval_on_subspace p q (DSpace basis s)) = flatten (nseq (p ^ minn eta (size basis)) (elements p image)) /\
  (uniq (elements p (DSpace basis s)) -> uniq (elements p image)).
Proof.
move=> q image; have Q x : pcall q x = van p (take eta basis) x by exact: vanE.
have Ei : image = DSpace [seq van p (take eta basis) b | b <- drop eta basis] (van p (take eta basis) s).
  by rewrite /image Q; congr DSpace; apply: eq_map.
rewrite Ei; split; last exact: image_uniq.
by rewrite /= (eq_map Q) image_enum.
Qed.
End Spaces.
Print Assumptions C106_select_subspace.
Print Assumptions C106_subspace_contained.
Print Assumptions C106_vanishing.
Print Assumptions C106_vanishing_additive.
Print Assumptions C106_next_domain.

Section Example106.
Local Notation z5 l := [seq in_modp P5 z | z <- l].

(** Over Z/5 the space 2 + <1>: the subspace is all of Z/5, the next domain is 0 five times;
    over Z/2 the space 1 + <> has the subspace {0}. *)
Example C106_example :
  [/\ [seq mval v | v <- elements 5 (DSpace [:: in_modp P5 1] (in_modp P5 2))] = [:: 2; 3; 4; 0; 1]%Z,
      rmap (fun d => [seq mval v | v <- elements 5 d]) (select_subspace (DSpace [:: in_modp P5 1] (in_modp P5 2)) 2)
        = Ok [:: 0; 1; 2; 3; 4]%Z,
      [seq mval c | c <- vanishing 5 (DSpace [:: in_modp P5 1] (in_modp P5 2))] = [:: 0; 4; 0; 0; 0; 1]%Z,
      [seq mval v | v <- elements 5 (eval_on_subspace 5 (z5 [:: 0; 4; 0; 0; 0; 1]%Z) (DSpace [:: in_modp P5 1] (in_modp P5 2)))]
        = [:: 0; 0; 0; 0; 0]%Z &
      rmap (fun d => [seq mval v | v <- elements 2 d]) (select_subspace (DSpace [::] (in_modp P2 1)) 2) = Ok [:: 0]%Z].
Proof. by vm_compute. Qed.
End Example106.

Section Protocol.
Variables (F : fieldType) (p : nat).
Hypothesis Cp : p \in [char F].
Implicit Types (basis bs : seq F) (s x y : F) (f : F -> result F) (rho : rate).

(** C107: the errors of [commit], and the number of rounds for which it returns a value. *)
Theorem C107_commit_rate basis s rho r rnd f :
  (forall z, rho = RateInt z -> z <= 0)%Z -> rho <> RateFloat true ->
  commit p (DSpace basis s) rho r rnd f = Err ValueError.
Proof.
case: rho => [z|b] Hz Hb.
  by rewrite /commit /check_rate; case: Z.ltb_spec => //; have := Hz z erefl; lia.
by case: b Hb {Hz} => // Hb; case: Hb.
Qed.

Lemma lenE basis s : domain_len p (DSpace basis s) =
  if (2 ^ 63 <=? Z.of_nat (p ^ size basis))%Z then Err OverflowError else Ok (Z.of_nat (p ^ size basis)).
Proof.
rewrite /domain_len /affine_len Z.pow_1_r.
have -> : (Z.of_nat p ^ Z.of_nat (size basis) = Z.of_nat (p ^ size basis))%Z; last by [].
by elim: (size basis) => [//|k IH]; rewrite expnS Nat2Z.inj_succ Z.pow_succ_r ?IH; lia.
Qed.

Lemma lenOk basis s : (Z.of_nat (p ^ size basis) < 2 ^ 63)%Z ->
  domain_len p (DSpace basis s) = Ok (Z.of_nat (p ^ size basis)).
Proof. by move=> H; rewrite lenE; case: Z.leb_spec => //; lia. Qed.

Lemma rateOk z : (0 < z)%Z -> check_rate (RateInt z) = Ok tt.
Proof. by move=> /Z.ltb_lt H; rewrite /check_rate H. Qed.

Theorem C107_commit_too_long basis s z r rnd f : (0 < z)%Z -> (2 ^ 63 <= Z.of_nat (p ^ size basis))%Z ->
  commit p (DSpace basis s) (RateInt z) r rnd f = Err OverflowError.
Proof.
by move=> Hz Hl; rewrite /commit rateOk // bind_ok lenE; case: Z.leb_spec => //; lia.
Qed.

Theorem C107_commit_no_round basis s z r rnd f : (0 < z)%Z -> (Z.of_nat (p ^ size basis) < 2 ^ 63)%Z -> (r <= 0)%Z ->
  commit p (DSpace basis s) (RateInt z) r rnd f = Ok None.
Proof. by move=> Hz Hl Hr; apply: (commit_none Cp _ _ (lenOk _ s Hl) (rateOk _ Hz) Hr). Qed.

Theorem C107_commit_one_round basis s z rnd f g : (0 < z)%Z -> (Z.of_nat (p ^ size basis) < 2 ^ 63)%Z ->
  uniq (elements p (DSpace basis s)) -> normal g -> (size g <= p ^ size basis)%N ->
  (forall x, f x = Ok (pcall g x)) -> forall x, rnd 0%N = Ok x ->
  commit p (DSpace basis s) (RateInt z) 1 rnd f = Ok (Some g).
Proof.
move=> Hz Hl U N Sg Hf x Hx; rewrite (commit_one Cp Hf (lenOk _ s Hl) (rateOk _ Hz) Hx); congr (Ok (Some _)).
move: U (elements_size p basis s); move: (elements _ _) => e U Se.
have H : size e = size [seq pcall g v | v <- e] by rewrite size_map.
suff : lagrange_interp e [seq pcall g v | v <- e] = Ok g by rewrite lagrange_total // => -[->].
apply: lagrange_unique => //; first by rewrite Se.
by move=> i Hi; rewrite (nth_map 0).
Qed.

(** for every function, the result determines its values on the space *)
Theorem C107_commit_values basis s z rnd f h : (0 < z)%Z -> (Z.of_nat (p ^ size basis) < 2 ^ 63)%Z ->
  uniq (elements p (DSpace basis s)) ->
  (forall x, f x = Ok (h x)) -> forall x, rnd 0%N = Ok x ->
  exists g, [/\ commit p (DSpace basis s) (RateInt z) 1 rnd f = Ok (Some g), normal g, (size g <= p ^ size basis)%N &
    forall v, v \in elements p (DSpace basis s) -> pcall g v = h v].
Proof.
move=> Hz Hl U Hf x Hx; rewrite (commit_one Cp Hf (lenOk _ s Hl) (rateOk _ Hz) Hx).
move: U (elements_size p basis s); move: (elements _ _) => l U Sl.
have [g [E N Sg V]] := @lagrange_spec F l [seq h v | v <- l] U (esym (size_map _ _)).
move: E; rewrite lagrange_total ?size_map // => -[E]; exists g; split=> //; first by rewrite E.
  by rewrite -Sl.
by move=> v Hv; rewrite -{1}(nth_index 0 Hv) V ?index_mem // (nth_map 0) ?index_mem // nth_index.
Qed.

Theorem C107_commit_float basis s r rnd f h x : (Z.of_nat (p ^ size basis) < 2 ^ 63)%Z ->
  (forall x, f x = Ok (h x)) -> rnd 0%N = Ok x ->
  commit p (DSpace basis s) (RateFloat true) r rnd f =
    if (r <=? 0)%Z then Ok None else if (r =? 1)%Z then Err TypeError else Err AttributeError.
Proof.
have Hr : check_rate (RateFloat true) = Ok tt by [].
move=> Hl Hf Hx; case: Z.leb_spec => H0; first exact: (commit_none Cp _ _ (lenOk _ s Hl) Hr H0).
case: Z.eqb_spec => H1; first by rewrite H1 (commit_one Cp Hf (lenOk _ s Hl) Hr Hx).
by apply: (commit_more Cp Hf (lenOk _ s Hl) Hr Hx); lia.
Qed.

Theorem C107_commit_more_rounds basis s z r rnd f h x : (0 < z)%Z -> (Z.of_nat (p ^ size basis) < 2 ^ 63)%Z ->
  (forall x, f x = Ok (h x)) -> rnd 0%N = Ok x -> (2 <= r)%Z ->
  commit p (DSpace basis s) (RateInt z) r rnd f = Err AttributeError.
Proof. by move=> Hz Hl Hf Hx Hr; exact: (commit_more Cp Hf (lenOk _ s Hl) (rateOk _ Hz) Hx Hr). Qed.

(** The verdict of [query] (the list to which the interpolant was appended is dropped). *)
Local Notation verdict L rho r rnd draw fs coeff := (rmap fst (query p L rho r rnd draw fs coeff)).

(** C108: without a proof (commit returned None) query fails; without rounds it accepts
    every codeword and every coefficient list. *)
Theorem C108_query_no_proof basis s z r rnd draw fs : (0 < z)%Z -> (Z.of_nat (p ^ size basis) < 2 ^ 63)%Z ->
  (r <= 1)%Z -> query p (DSpace basis s) (RateInt z) r rnd draw fs None = Err TypeError.
Proof. by move=> Hz Hl Hr; rewrite /query rateOk // bind_ok lenOk // bind_ok (query_spaces_one Cp). Qed.

Theorem C108_query_no_round basis s z r rnd draw fs c : (0 < z)%Z -> (Z.of_nat (p ^ size basis) < 2 ^ 63)%Z ->
  (r <= 0)%Z -> verdict (DSpace basis s) (RateInt z) r rnd draw fs (Some c) = Ok true.
Proof.
move=> Hz Hl Hr; rewrite /query rateOk // bind_ok lenOk // bind_ok (query_spaces_one Cp); last by lia.
rewrite bind_ok bind_ok pym1 bind_ok pym1 bind_ok lagrange_total ?size_map // bind_ok.
have E0 : Z.to_nat r = 0%N by move: Hr; clear; lia.
by rewrite /query_round !E0.
Qed.

Theorem C108_query_more_rounds basis s z r rnd draw fs coeff : (0 < z)%Z -> (Z.of_nat (p ^ size basis) < 2 ^ 63)%Z ->
  (2 <= r)%Z -> query p (DSpace basis s) (RateInt z) r rnd draw fs coeff = Err AttributeError.
Proof. by move=> Hz Hl Hr; rewrite /query rateOk // bind_ok lenOk // bind_ok (query_spaces_more Cp). Qed.

(** One round: the element drawn is number [draw j] of the space, counted from 1. *)
Local Notation drawn basis s n := (nth 0 (elements p (DSpace basis s)) (Z.to_nat n - 1)%N).

(** [poly_on_coset basis h v P]: P interpolates h on the coset v + <first two basis vectors> *)
Definition poly_on_coset basis (h : F -> F) v (P : seq F) :=
  [/\ normal P, (size P <= p ^ minn 2 (size basis))%N &
   forall c : seq nat, size c = minn 2 (size basis) -> all (fun a => a < p)%N c ->
     let w := v + \sum_(i < minn 2 (size basis)) (nth 0%N c i)%:R * nth 0 basis i in pcall P w = h w].

Lemma coset_polyE basis s h v P : uniq (elements p (DSpace basis s)) -> poly_on_coset basis h v P ->
  coset_poly p basis h v = Poly P.
Proof.
move=> U [N Sz V]; rewrite /coset_poly.
have [d [[Ed] Sd M _ Ud]] := C106_select_subspace _ _ Cp basis s 2; rewrite -Ed in Sd Ud.
set c := [seq v + l | l <- _].
have Uc : uniq c by rewrite map_inj_uniq ?Ud //; exact: addrI.
have Sc : size c = (p ^ minn 2 (size basis))%N by rewrite size_map Sd.
have Ec i : (i < size c)%N -> exists l, l \in elements p d /\ nth 0 c i = v + l.
  by move=> /(mem_nth 0) /mapP [l Hl E]; exists l; rewrite -Ed.
move: c Uc Sc Ec => c Uc Sc Ec.
have := @lagrange_unique F c [seq h w | w <- c] P Uc.
rewrite lagrange_total ?size_map // => H; have {H} [<-] : Ok (polyseq (lag c [seq h w | w <- c])) = Ok P.
  apply: H => //; first by rewrite Sc.
  move=> i Hi; rewrite (nth_map 0) //.
  by have [l [/M [a [Sa Ha ->]] ->]] := Ec i Hi; exact: V.
by rewrite polyseqK.
Qed.

Lemma coset_poly_on basis s h v : uniq (elements p (DSpace basis s)) ->
  poly_on_coset basis h v (coset_poly p basis h v).
Proof.
move=> U; rewrite /coset_poly.
have [d [[Ed] Sd M _ Ud]] := C106_select_subspace _ _ Cp basis s 2; rewrite -Ed in Sd Ud.
set c := [seq v + l | l <- _].
have Uc : uniq c by rewrite map_inj_uniq ?Ud //; exact: addrI.
have Sc : size c = (p ^ minn 2 (size basis))%N by rewrite size_map Sd.
have Mc l : l \in elements p d -> v + l \in c by rewrite -Ed => Hl; apply: map_f.
move: c Uc Sc Mc => c Uc Sc Mc.
have [g [E N Sg V]] := @lagrange_spec F c [seq h v | v <- c] Uc (esym (size_map _ _)).
move: E; rewrite lagrange_total ?size_map // => -[->]; split=> //; first by rewrite -Sc.
move=> a Sa Ha w; have /Mc Hw : w - v \in elements p d by rewrite /w [v + _]addrC addrK; apply/M; exists a.
rewrite addrCA subrr addr0 in Hw.
by rewrite -{1}(nth_index 0 Hw) V ?index_mem // (nth_map 0) ?index_mem // nth_index.
Qed.

Lemma query_one basis s z rnd draw f0 h0 fs c x0 : (0 < z)%Z -> (Z.of_nat (p ^ size basis) < 2 ^ 63)%Z ->
  (0 < size basis)%N -> rnd 0%N = Ok x0 -> (forall v, f0 v = Ok (h0 v)) ->
  verdict (DSpace basis s) (RateInt z) 1 rnd draw (f0 :: fs) (Some c) =
  let f1 := head (fun _ => Ok 0) fs in
  foldM (fun (go : bool) j => if go then
    let n := draw j in
    if ((1 <=? n) && (n <=? Z.of_nat (p ^ size basis)))%Z then
      let* w := f1 (pcall (vanishing p (DSpace (take 2 basis) 0)) (drawn basis s n)) in
      Ok (w != (coset_poly p basis h0 (drawn basis s n)).[x0])
    else Err IndexError else Ok false) [:: 0%N; 1%N] true.
Proof.
move=> Hz Hl Hb Hx H0; rewrite /query rateOk // bind_ok lenOk // bind_ok (query_spaces_one Cp); last by lia.
rewrite bind_ok bind_ok pym1 bind_ok pym1 bind_ok (appended Cp) // bind_ok.
rewrite [iota 0 (Z.to_nat 1)]/= mapM1 py0 bind_ok py0 bind_ok Hx !bind_ok.
have -> : rcons (f0 :: fs) (fun v : F => Ok (pcall [::] v)) =
    [:: f0, head (fun v => Ok (pcall [::] v)) fs & behead (rcons fs (fun v => Ok (pcall [::] v)))].
  by case: fs.
set g := head _ fs; have Eg v : head (fun=> Ok 0) fs v = g v by rewrite /g; case: fs {g}.
have Step n : query_round p [:: DSpace basis s] [:: DSpace (take fri_eta basis) 0]
    [:: vanishing p (DSpace (take fri_eta basis) 0)] [:: x0] 1
    [:: f0, g & behead (rcons fs (fun v => Ok (pcall [::] v)))] n =
  if ((1 <=? n) && (n <=? Z.of_nat (p ^ size basis)))%Z then
      let* w := head (fun=> Ok 0) fs (pcall (vanishing p (DSpace (take 2 basis) 0)) (drawn basis s n)) in
      Ok (w != (coset_poly p basis h0 (drawn basis s n)).[x0])
    else Err IndexError.
  rewrite (round_one Cp _ _ _ _ _ _ H0); cbv zeta; rewrite -vanishingE Eg elements_size.
  by case: ifP => // _; have -> : Z.to_nat (n - 1) = (Z.to_nat n - 1)%N by clear; lia.
move: Step; move: (query_round _ _ _ _ _ _ _) => Q Step.
move: (Step (draw 0%N)) (Step (draw 1%N)); rewrite [iota 0 2]/= /foldM => -> ->.
set A := (if _ then _ else _); set B := (if _ then _ else _).
by case: A => //= -[|] //; case: B.
Qed.

(** The codeword alone: the verdict is independent of the proof [c]; it is "both
    interpolants are nonzero at x0". *)
Theorem C108_query_codeword basis s z rnd draw f0 h0 c x0 P0 P1 :
  (0 < z)%Z -> (Z.of_nat (p ^ size basis) < 2 ^ 63)%Z -> (0 < size basis)%N ->
  uniq (elements p (DSpace basis s)) -> rnd 0%N = Ok x0 -> (forall v, f0 v = Ok (h0 v)) ->
  (1 <= draw 0%N <= Z.of_nat (p ^ size basis))%Z -> (1 <= draw 1%N <= Z.of_nat (p ^ size basis))%Z ->
  poly_on_coset basis h0 (drawn basis s (draw 0%N)) P0 ->
  poly_on_coset basis h0 (drawn basis s (draw 1%N)) P1 ->
  verdict (DSpace basis s) (RateInt z) 1 rnd draw [:: f0] (Some c) =
  Ok ((pcall P0 x0 != 0) && (pcall P1 x0 != 0)).
Proof.
move=> Hz Hl Hb U Hx Hf D0 D1 /(coset_polyE _ s _ _ _ U) E0 /(coset_polyE _ s _ _ _ U) E1.
rewrite (query_one _ s z rnd draw f0 h0 [::] c x0 Hz Hl Hb Hx Hf).
have I n : (1 <= n <= Z.of_nat (p ^ size basis))%Z -> (1 <=? n)%Z && (n <=? Z.of_nat (p ^ size basis))%Z by lia.
by rewrite /= !I // E0 E1 -!pcallE ![0 == _]eq_sym; case: (pcall P0 x0 == 0).
Qed.

(** The codeword and the folded function: accepted exactly when both checks of the
    protocol fail. *)
Theorem C108_query_pair basis s z rnd draw f0 h0 f1 h1 fs c x0 P0 P1 :
  (0 < z)%Z -> (Z.of_nat (p ^ size basis) < 2 ^ 63)%Z -> (0 < size basis)%N ->
  uniq (elements p (DSpace basis s)) -> rnd 0%N = Ok x0 ->
  (forall v, f0 v = Ok (h0 v)) -> (forall v, f1 v = Ok (h1 v)) ->
  (1 <= draw 0%N <= Z.of_nat (p ^ size basis))%Z -> (1 <= draw 1%N <= Z.of_nat (p ^ size basis))%Z ->
  poly_on_coset basis h0 (drawn basis s (draw 0%N)) P0 ->
  poly_on_coset basis h0 (drawn basis s (draw 1%N)) P1 ->
  let q := pcall (vanishing p (DSpace (take 2 basis) 0)) in
  verdict (DSpace basis s) (RateInt z) 1 rnd draw [:: f0, f1 & fs] (Some c) =
  Ok ((h1 (q (drawn basis s (draw 0%N))) != pcall P0 x0) && (h1 (q (drawn basis s (draw 1%N))) != pcall P1 x0)).
Proof.
move=> Hz Hl Hb U Hx Hf Hf1 D0 D1 /(coset_polyE _ s _ _ _ U) E0 /(coset_polyE _ s _ _ _ U) E1 q.
rewrite (query_one _ s z rnd draw f0 h0 (f1 :: fs) c x0 Hz Hl Hb Hx Hf).
have I n : (1 <= n <= Z.of_nat (p ^ size basis))%Z -> (1 <=? n)%Z && (n <=? Z.of_nat (p ^ size basis))%Z by lia.
by rewrite /= !I // !Hf1 /= E0 E1 -!pcallE; case: eqP.
Qed.

(** Completeness is false: a folded function with f1(q(v)) = P_v(x0) for every v is rejected. *)
Theorem C108_completeness_refuted basis s z rnd draw f0 h0 f1 h1 fs c x0 :
  (0 < z)%Z -> (Z.of_nat (p ^ size basis) < 2 ^ 63)%Z -> (0 < size basis)%N ->
  uniq (elements p (DSpace basis s)) -> rnd 0%N = Ok x0 ->
  (forall v, f0 v = Ok (h0 v)) -> (forall v, f1 v = Ok (h1 v)) ->
  (1 <= draw 0%N <= Z.of_nat (p ^ size basis))%Z ->
  (forall v P, v \in elements p (DSpace basis s) -> poly_on_coset basis h0 v P ->
     h1 (pcall (vanishing p (DSpace (take 2 basis) 0)) v) = pcall P x0) ->
  verdict (DSpace basis s) (RateInt z) 1 rnd draw [:: f0, f1 & fs] (Some c) = Ok false.
Proof.
move=> Hz Hl Hb U Hx Hf Hf1 D0 Hon.
rewrite (query_one _ s z rnd draw f0 h0 (f1 :: fs) c x0 Hz Hl Hb Hx Hf).
have I n : (1 <= n <= Z.of_nat (p ^ size basis))%Z -> (1 <=? n)%Z && (n <=? Z.of_nat (p ^ size basis))%Z by lia.
rewrite /= (I _ D0) Hf1 /=; set v := drawn _ _ _.
have Hv : v \in elements p (DSpace basis s) by rewrite mem_nth // elements_size; move: D0; clear; lia.
rewrite (Hon v _ Hv (coset_poly_on _ s h0 v U)).
by rewrite pcallE polyseqK eqxx.
Qed.

(** The element number 0 that randint may draw, or one beyond the space. *)
Theorem C108_query_draw basis s z rnd draw f0 h0 fs c x0 :
  (0 < z)%Z -> (Z.of_nat (p ^ size basis) < 2 ^ 63)%Z -> (0 < size basis)%N ->
  rnd 0%N = Ok x0 -> (forall v, f0 v = Ok (h0 v)) ->
  (draw 0%N <= 0 \/ Z.of_nat (p ^ size basis) < draw 0%N)%Z ->
  query p (DSpace basis s) (RateInt z) 1 rnd draw (f0 :: fs) (Some c) = Err IndexError.
Proof.
move=> Hz Hl Hb Hx Hf D0; have := query_one _ s z rnd draw f0 h0 fs c x0 Hz Hl Hb Hx Hf.
have I : (1 <=? draw 0%N)%Z && (draw 0%N <=? Z.of_nat (p ^ size basis))%Z = false by move: D0; clear; lia.
by rewrite /= I; case: (query _ _ _ _ _ _ _ _) => //= e [->].
Qed.
End Protocol.

(** The space 2 + <1> over Z/5, f0 = 1 + x^2 and f0 = x^7: the proof of the second one is
    x^3, the interpolant of its values. *)
Example C107_example :
  let L := DSpace [:: in_modp P5 1] (in_modp P5 2) in
  let c r z f := rmap (omap (map (@mval P5))) (commit 5 L (RateInt z) r (fun _ => Ok (in_modp P5 3)) f) in
  let f0 v := Ok (1 + v * v : modp_fieldType P5) in
  let f7 v := Ok (v ^+ 7 : modp_fieldType P5) in
  [/\ c 1%Z 1%Z f0 = Ok (Some [:: 1; 0; 1]%Z), c 1%Z 3%Z f7 = Ok (Some [:: 0; 0; 0; 1]%Z), c 0%Z 1%Z f0 = Ok None,
      c 2%Z 1%Z f0 = Err AttributeError & c 1%Z 0%Z f0 = Err ValueError].
Proof. by vm_compute. Qed.

(** With x0 = 3 the interpolant 1 + x^2 is zero at x0, with x0 = 1 it is 2: the verdict
    does not depend on the proof.  The folded function must differ from 2 to be accepted. *)
Example C108_example :
  let L := DSpace [:: in_modp P5 1] (in_modp P5 2) in
  let v x d fs c := rmap fst (query 5 L (RateInt 1) 1 (fun _ => Ok (in_modp P5 x)) (fun _ => d) fs (Some [seq in_modp P5 a | a <- c])) in
  let f0 v := Ok (1 + v * v : modp_fieldType P5) in
  let f1 a v := Ok (in_modp P5 a : modp_fieldType P5) in
  [/\ v 3%Z 2%Z [:: f0] [:: 1; 0; 1]%Z = Ok false, v 1%Z 2%Z [:: f0] [:: 1; 0; 1]%Z = Ok true,
      v 1%Z 2%Z [:: f0] [:: 4; 4; 4; 4; 4; 4]%Z = Ok true, v 1%Z 5%Z [:: f0; f1 2%Z] [:: 1; 0; 1]%Z = Ok false &
      v 1%Z 5%Z [:: f0; f1 3%Z] [:: 1; 0; 1]%Z = Ok true /\ v 1%Z 0%Z [:: f0] [::] = Err IndexError].
Proof. by vm_compute. Qed.

Print Assumptions C107_commit_rate.
Print Assumptions C107_commit_too_long.
Print Assumptions C107_commit_no_round.
Print Assumptions C107_commit_one_round.
Print Assumptions C107_commit_values.
Print Assumptions C107_commit_float.
Print Assumptions C107_commit_more_rounds.
Print Assumptions C108_query_no_proof.
Print Assumptions C108_query_no_round.
Print Assumptions C108_query_more_rounds.
Print Assumptions C108_query_codeword.
Print Assumptions C108_query_pair.
Print Assumptions C108_completeness_refuted.
Print Assumptions C108_query_draw.
