(** Proofs about the Moore matrix part of GaussModel.v *)
From mathcomp Require Import zify ssrZ.
From Verif Require Import Prelude BaseProofs PolyModel PolyProofs FftProofs InterpProofs GaussModel GaussProofs.
Set Implicit Arguments.
Unset Strict Implicit.
Unset Printing Implicit Defensive.
Import GRing.Theory.
Local Open Scope ring_scope.
Local Open Scope py_scope.

Section Moore.
Variable K : fieldType.
Variable starts_one : K -> bool.
Variable F : fieldType.
Variable cast : seq K -> result F.

Lemma moore_size b f : moore starts_one cast b = Ok f -> normal f /\ (size f <= size b)%N.
Proof.
rewrite /moore; case: moore_matrix => //= M; case E : (gauss _ _ _) => [[k M']|] //=.
case: mapM => //= _; case Em : (mapM cast k) => [l|] //= [<-]; split; first exact: normal_pmk.
have Sl : size l = size k.
  by elim: k l {E} Em => [|a k IH] l /=; [case=> <-|case: (cast a) => // y /=; case: mapM IH => // l' /(_ _ erefl) IH [<-] /=; rewrite IH].
have Sk : size k = size b.
  by move: E; rewrite /gauss; case: foldM => //= M1; case: foldM => // -[x M2] [<- _]; rewrite size_mkseq.
by rewrite -Sk -Sl pmkE size_Poly.
Qed.

Lemma moore_matrixE b : all (@normal K) b -> exists M, moore_matrix b = Ok M /\
  forall r c, (r < size b)%N -> (c <= size b)%N -> M r c = polyseq (Poly (nth [::] b r) ^+ (2 ^ c)).
Proof.
move=> /allP N; rewrite /moore_matrix.
rewrite (mapM_ok_in (g := fun bi => bi :: [seq polyseq (Poly bi ^+ (2 ^ j.+1)) | j <- iota 0 (size b)])); last first.
  move=> bi Hb; rewrite (mapM_ok (g := fun j => polyseq (Poly bi ^+ (2 ^ j.+1)))) ?bind_ok // => j.
  rewrite ppowE ?N //; last by lia.
  by congr (Ok (polyseq (_ ^+ _))); lia.
rewrite bind_ok; eexists; split; first by [].
move=> r c Hr Hc; cbv beta; rewrite (nth_map [::]) //; case: c Hc => [|c] Hc; first by rewrite expn0 expr1 /= PolyK_normal ?N ?mem_nth.
by rewrite [nth _ (_ :: _) _]/= (nth_map 0%N) ?size_iota // nth_iota.
Qed.

Lemma moore_one b0 : normal b0 ->
  moore starts_one cast [:: b0] =
  if b0 is [::] then Err ZeroDivisionError else let* c := cast b0 in Ok (pmk [:: c]).
Proof.
move=> N; rewrite /moore; have [|M [-> HM]] := @moore_matrixE [:: b0]; first by rewrite /= N.
rewrite bind_ok [size _]/=.
have M0 := HM 0%N 0%N erefl erefl; have M1 := HM 0%N 1%N erefl erefl.
rewrite /= expn0 expr1 PolyK_normal // in M0; rewrite [nth _ _ _]/= expn1 in M1.
rewrite /gauss /gauss_step /pivot /swap [iota _ _]/= [foldM _ _ _]/= /set_entry /= M0 M1.
case: (@eqP _ b0 [::]) N => [->|/eqP Nz N]; first by move=> _; rewrite /pdiv.
have PN : Poly b0 != 0 by rewrite -(inj_eq (@poly_inj _)) polyseq0 PolyK_normal.
rewrite (pdivE _ N Nz) ?normal_polyseq // polyseqK expr2 mulpK // PolyK_normal // !bind_ok /=.
rewrite pmulE peqE eqxx /=.
by case: b0 Nz {N HM M0 M1 PN} => // a l _; case: (cast _).
Qed.
End Moore.

(** *** Two rows over a field of two elements *)
Section Moore2.
Variable K : fieldType.
Hypothesis K2 : forall c : K, c = 0 \/ c = 1.
Hypothesis C2 : 1 + 1 = 0 :> K.
Variable starts_one : K -> bool.
Variable F : fieldType.
Variable cast : seq K -> result F.

Lemma addpp2 (u : {poly K}) : u + u = 0.
Proof. by apply/polyP => i; rewrite coefD coef0 -[u`_i]mul1r -mulrDl C2 mul0r. Qed.
Lemma oppp2 (u : {poly K}) : - u = u.
Proof. by apply/eqP; rewrite -subr_eq0 -opprD addpp2 oppr0. Qed.
Lemma sqrp2 (u v : {poly K}) : (u + v) ^+ 2 = u ^+ 2 + v ^+ 2.
Proof. by rewrite sqrrD mulr2n addpp2 addr0. Qed.

Lemma div_small (u v : {poly K}) : u != 0 -> (size v <= size u)%N ->
  (v %/ u == 0) || (v %/ u == 1).
Proof.
move=> Nu S; have Sd : (size (v %/ u)%R <= 1)%N.
  rewrite size_divp //; move: Nu; rewrite -size_poly_gt0; move: S; move: (size v) (size u) => x y; clear; lia.
by rewrite (size1_polyC Sd); case: (K2 (v %/ u)`_0) => ->; rewrite ?polyC0 ?polyC1 eqxx ?orbT.
Qed.

Lemma moore_two b0 b1 : normal b0 -> normal b1 ->
  moore starts_one cast [:: b0; b1] =
  if [|| b0 == [::], b1 == [::] | b0 == b1] then Err ZeroDivisionError else Err AssertionError.
Proof.
move=> N0 N1; rewrite /moore; have [|M [-> HM]] := @moore_matrixE K [:: b0; b1]; first by rewrite /= N0 N1.
rewrite bind_ok [size _]/=.
have [] := gauss_two starts_one M; set p := if _ then _ else _; set o := (1 - p)%N => HE HO.
have Hp : (p = 1%N \/ p = 0%N) by rewrite /p; case: ifP; [left|right].
pose u := Poly (nth [::] [:: b0; b1] p); pose v := Poly (nth [::] [:: b0; b1] o).
have Mp c : (c <= 2)%N -> M p c = polyseq (u ^+ (2 ^ c)) by move=> Hc; apply: HM => //; case: Hp => ->.
have Mo c : (c <= 2)%N -> M o c = polyseq (v ^+ (2 ^ c)) by move=> Hc; apply: HM => //; rewrite /o; case: Hp => ->.
have S : (size v <= size u)%N.
  have : if max_is_one starts_one (M 1%N 0%N) (M 0%N 0%N) then p = 1%N else p = 0%N by rewrite /p; case: (max_is_one _ _ _).
  rewrite (HM 1%N 0%N erefl erefl) (HM 0%N 0%N erefl erefl) expn0 !expr1 /max_is_one /pdegree /u /v /o.
  case H1 : (Z.ltb _ _); first by move=> -> /=; move: H1; clear; rewrite /pabs /=; move: (size (Poly b0)) (size (Poly b1)) => x y; lia.
  case H2 : (Z.ltb _ _); first by move=> -> /=; move: H2; clear; rewrite /pabs /=; move: (size (Poly b0)) (size (Poly b1)) => x y; lia.
  have Es : size (Poly b0) = size (Poly b1) by move: H1 H2; clear; rewrite /pabs /=; move: (size (Poly b0)) (size (Poly b1)) => x y; lia.
  by case: Hp => -> _ /=; rewrite Es.
have Z : [|| b0 == [::], b1 == [::] | b0 == b1] = [|| u == 0, v == 0 | u == v].
  have Q b : normal b -> (b == [::]) = (Poly b == 0) by move=> N; rewrite -(inj_eq (@poly_inj _)) polyseq0 PolyK_normal.
  have Q' : (b0 == b1) = (Poly b0 == Poly b1) by apply/eqP/eqP => [-> //|]; exact: Poly_inj.
  by rewrite Q // Q // Q' /u /v /o; case: Hp => -> //=; rewrite orbCA; congr [|| _, _ | _]; rewrite eq_sym.
rewrite {}Z; move: HE HO; rewrite !Mp // !Mo // expn0 expn1 !expr1 (_ : 2 ^ 2 = 4)%N // => HE HO.
have [Eu|Nu] := eqVneq u 0.
  by rewrite (HE ZeroDivisionError) // Eu polyseq0.
have Nu' : polyseq u != [::] by rewrite -(inj_eq (@poly_inj _)) polyseq0 in Nu.
move: HO; rewrite pnegE pdivE ?normal_polyseq // !polyseqK oppp2 => /(_ _ erefl) [].
set w := v %/ u; pose t := v + w * u.
have w2 : w ^+ 2 = w by have /orP [] := div_small Nu S; rewrite -/w => /eqP ->; rewrite ?expr0n ?expr1n.
have E1 : padd (polyseq (v ^+ 2)) (pmul (polyseq w) (polyseq (u ^+ 2))) = polyseq (t ^+ 2).
  by rewrite pmulE paddE !polyseqK /t sqrp2 exprMn w2.
have E2 : padd (polyseq (v ^+ 4)) (pmul (polyseq w) (polyseq (u ^+ 4))) = polyseq (t ^+ 4).
  have -> : t ^+ 4 = (t ^+ 2) ^+ 2 by rewrite -exprM.
  by rewrite pmulE paddE !polyseqK /t sqrp2 (exprMn 2 w) w2 sqrp2 (exprMn 2 w) w2 -!exprM.
rewrite {}E1 {}E2 => HZ HO.
have [Et|Nt] := eqVneq t 0.
  rewrite (HZ ZeroDivisionError) /=; last by rewrite Et (_ : 0 ^+ 2 = 0 :> {poly K}) ?expr0n // polyseq0 /pdiv.
  case: ifP => // /negbT; rewrite negb_or => /andP [Nv Nuv]; exfalso.
  have Ev : v = w * u by move: Et => /eqP; rewrite /t addr_eq0 oppp2 => /eqP.
  have /orP [] := div_small Nu S; rewrite -/w => /eqP Ew; move: Nv Nuv; rewrite Ev Ew ?mul0r ?mul1r eqxx //.
have -> : (v == 0) || (u == v) = false.
  apply/negP => /orP [] /eqP E; move/eqP: Nt; apply.
    by rewrite /t /w E div0p mul0r addr0.
  by rewrite /t /w -E divpp // mul1r addpp2.
have Nt2 : polyseq (t ^+ 2) != [::] by rewrite -polyseq0 (inj_eq (@poly_inj _)) expf_neq0.
move: HO; rewrite pdivE ?normal_polyseq // !polyseqK (_ : t ^+ 4 %/ t ^+ 2 = t ^+ 2); last first.
  by rewrite -[4%N]/(2 + 2)%N exprD mulpK // expf_neq0.
move=> /(_ _ erefl); cbv zeta; rewrite pmulE psubE !polyseqK pdivE ?normal_polyseq // !polyseqK.
set x0 := _ %/ _ => /(_ _ erefl) [M' [-> [A0 A1 A2] _]].
rewrite bind_ok [iota 0 2]/= [mapM _ _]/= A0 A1 A2 !pmulE paddE !polyseqK.
rewrite (_ : peq _ _ = false) // peqE (inj_eq (@poly_inj _)); apply/negbTE.
have -> : u * x0 = u ^+ 4 - u ^+ 2 * t ^+ 2.
  by rewrite mulrC /x0 divpK // -[4%N]/(2 + 2)%N exprD -mulrBr expr2 -mulrA dvdp_mulr.
rewrite subrK -subr_eq0 opprB addrC subrK mulf_neq0 // expf_neq0 //.
Qed.
End Moore2.
