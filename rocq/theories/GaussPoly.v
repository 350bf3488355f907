(** Gaussian elimination (GaussModel.v) on a matrix of constants with an arbitrary
    polynomial right hand side: all divisions are exact. *)
From mathcomp Require Import zify ssrZ.
From Verif Require Import Prelude BaseProofs PolyModel PolyProofs FftProofs InterpProofs GaussModel GaussProofs.
Set Implicit Arguments.
Unset Strict Implicit.
Unset Printing Implicit Defensive.
Import GRing.Theory.
Local Open Scope ring_scope.
Local Open Scope py_scope.

Section Gauss.
Variable K : fieldType.
Variable starts_one : K -> bool.
Implicit Types (M : matrix K) (A : nat -> nat -> {poly K}).

Definition ps (p : {poly K}) : seq K := polyseq p.
Lemma ps0 : ps 0 = [::].
Proof. exact: polyseq0. Qed.
Lemma ps_nil p : (ps p == [::]) = (p == 0).
Proof. by rewrite -polyseq0 (inj_eq (@poly_inj K)). Qed.
Lemma ps_add p q : padd (ps p) (ps q) = ps (p + q).
Proof. by rewrite paddE !polyseqK. Qed.
Lemma ps_sub p q : psub (ps p) (ps q) = ps (p - q).
Proof. by rewrite psubE !polyseqK. Qed.
Lemma ps_mul p q : pmul (ps p) (ps q) = ps (p * q).
Proof. by rewrite pmulE !polyseqK. Qed.
Lemma ps_neg p : pneg (ps p) = ps (- p).
Proof. by rewrite pnegE !polyseqK. Qed.
Lemma ps_div p q : pdiv (ps p) (ps q) = if q == 0 then Err ZeroDivisionError else Ok (ps (p %/ q)).
Proof.
case: eqP => [->|/eqP N]; first by rewrite ps0.
by rewrite pdivE ?normal_polyseq ?ps_nil // !polyseqK.
Qed.
Lemma exK (p q : {poly K}) : (size q <= 1)%N -> q != 0 -> p %/ q * q = p.
Proof.
move=> S N; have E : size q = 1%N by apply/eqP; rewrite eqn_leq S size_poly_gt0.
by apply: divpK; move/eqP: E; rewrite size_poly_eq1 => /eqp_dvdl ->; exact: dvd1p.
Qed.
Lemma ct_step (p q d e : {poly K}) : (size p <= 1)%N -> (size q <= 1)%N -> (size e <= 1)%N ->
  (size (p - q %/ d * e)%R <= 1)%N.
Proof.
move=> Hp Hq He; rewrite (leq_trans (size_add _ _)) // geq_max Hp size_opp.
apply: leq_trans (size_mul_leq _ _) _; have := leq_trans (leq_divp q d) Hq.
by move: (size (q %/ d)) (size e) He => a b; clear; lia.
Qed.

Section Fixed.
Variable row : nat.

Definition rel M A := forall r c, (r < row)%N -> (c <= row)%N -> M r c = ps (A r c).
(** the entries of the matrix are constants, those of the right hand side are arbitrary *)
Definition ct A := forall r c, (r < row)%N -> (c < row)%N -> (size (A r c) <= 1)%N.
(** [x] solves the system whose right hand side is multiplied by [t] *)
Definition sol A (x : nat -> {poly K}) (t : {poly K}) :=
  forall r, (r < row)%N -> \sum_(c < row) A r c * x c = A r row * t.
(** zeros below the diagonal in the first [i] columns *)
Definition tri A (i : nat) := forall r c, (c < i)%N -> (c < r)%N -> (r < row)%N -> A r c = 0.

Definition swapK A (i m : nat) : nat -> nat -> {poly K} :=
  fun r c => if r == i then A m c else if r == m then A i c else A r c.

Lemma swap_rel M A i m : rel M A -> tri A i -> (i <= m < row)%N -> rel (swap M row i m) (swapK A i m).
Proof.
move=> R T Hm r c Hr Hc; rewrite swapE /swapK.
have [Hi|Hi] : (i <= c)%N \/ (c < i)%N by lia.
  by rewrite Hi Hc /=; case: eqP => [_|_]; [|case: eqP => [_|_]]; apply: R => //; lia.
rewrite leqNgt Hi /= R //; congr ps.
case: eqP => [->|_]; first by rewrite !T //; lia.
by case: eqP => [->|_] //; rewrite !T //; lia.
Qed.

Lemma swap_tri A i m : tri A i -> (i <= m < row)%N -> tri (swapK A i m) i.
Proof.
move=> T Hm r c Hc Hcr Hr; rewrite /swapK.
by case: eqP => [_|_]; [|case: eqP => [_|_]]; apply: T => //; lia.
Qed.

Lemma swap_ct A i m : ct A -> (i <= m < row)%N -> ct (swapK A i m).
Proof.
move=> C Hm r c Hr Hc; rewrite /swapK.
by case: eqP => [_|_]; [|case: eqP => [_|_]]; apply: C => //; lia.
Qed.

Lemma swap_sol A i m x t : (i <= m < row)%N -> sol (swapK A i m) x t <-> sol A x t.
Proof.
move=> Hm; have Inv r : swapK (swapK A i m) i m r =1 A r.
  move=> c; rewrite /swapK eqxx.
  have [->|Ni] := eqVneq r i; first by case: eqP => [->|].
  by have [->|Nm] := eqVneq r m; rewrite ?eqxx.
have D B : sol B x t -> sol (swapK B i m) x t.
  move=> H r Hr; rewrite /swapK; case: eqP => [_|_]; first by apply: H; lia.
  by case: eqP => [_|_]; apply: H; lia.
split=> [/D H r Hr|]; last exact: D.
by have := H r Hr; rewrite (Inv r row) (eq_bigr (fun c : 'I_row => A r c * x c)) // => c _; rewrite Inv.
Qed.

Definition elimK A (i : nat) (ks : seq nat) : nat -> nat -> {poly K} :=
  fun r c => if r \in ks then A r c - A r i %/ A i i * A i c else A r c.

Lemma elim_ct A i ks : ct A -> (i < row)%N -> ct (elimK A i ks).
Proof. by move=> C Hi r c Hr Hc; rewrite /elimK; case: ifP => _; [apply: ct_step|]; apply: C. Qed.

Lemma elim_rel M A i ks : rel M A -> ct A -> tri A i -> uniq ks -> all (fun k => (i < k < row)%N) ks -> (i < row)%N ->
  if (A i i == 0) && (ks != [::]) then foldM (fun M k => eliminate M row i k) ks M = Err ZeroDivisionError
  else exists M', foldM (fun M k => eliminate M row i k) ks M = Ok M' /\ rel M' (elimK A i ks).
Proof.
elim: ks M A => [|k ks IH] M A R C T /=; first by rewrite andbF => _ _ _; exists M.
rewrite andbT => /andP [Nk U] /andP [Hk Hks] Hi.
rewrite /eliminate R ?R; try by lia.
rewrite ps_neg ps_div; case: eqP => [//|/eqP Nz]; rewrite bind_ok bind_ok.
set d := _ %/ _; set M' := foldl _ _ _.
pose A' r c := if r == k then A r c - A r i %/ A i i * A i c else A r c.
have RA : rel M' A'.
  move=> r c Hr Hc; rewrite /M' elim_loop ?iota_uniq //; last by apply/eqP; lia.
  rewrite mem_iota (_ : (i <= c < i + (row.+1 - i)) = (i <= c))%N /A'; last by lia.
  have [->|Nr] /= := eqVneq r k; last by apply: R.
  have [Hic|Hic] : (i <= c)%N \/ (c < i)%N by lia.
    rewrite Hic; have [<-|Nc] := eqVneq i c; first by rewrite exK ?subrr ?ps0 //; apply: C; lia.
    by rewrite R ?R; try lia; rewrite ps_mul ps_add /d divpN !mulNr.
  by rewrite leqNgt Hic /= R; try lia; rewrite [A i c]T ?mulr0 ?subr0 //; lia.
have TA : tri A' i.
  move=> r c Hc Hcr Hr; rewrite /A'; case: eqP => _; rewrite T //.
  by rewrite sub0r [A i c]T ?mulr0 ?oppr0 //; lia.
have Ai c : A' i c = A i c by rewrite /A'; case: eqP => //; lia.
have CA : ct A' by move=> r c Hr Hc; rewrite /A'; case: ifP => _; [apply: ct_step|]; apply: C.
have := IH M' A' RA CA TA U Hks Hi; rewrite Ai (negbTE Nz) /= => -[M2 [E R2]]; exists M2; split=> //.
have Eik : (i == k) = false by apply/eqP; lia.
move=> r c Hr Hc; rewrite R2 //; congr ps; rewrite /elimK in_cons /A' Eik.
by have [->|Nr] /= := eqVneq r k; first by rewrite (negbTE Nk) ?eqxx.
Qed.

Lemma elim_sol A i ks x t : (i < row)%N -> all (fun k => (i < k < row)%N) ks ->
  sol (elimK A i ks) x t <-> sol A x t.
Proof.
move=> Hi Hks; have Nik : (i \in ks) = false by apply/negbTE/negP => /(allP Hks); rewrite ltnn.
have Row r : \sum_(c < row) (A r c - A r i %/ A i i * A i c) * x c =
    \sum_(c < row) A r c * x c - A r i %/ A i i * \sum_(c < row) A i c * x c.
  by rewrite mulr_sumr -sumrB; apply: eq_bigr => c _; rewrite mulrBl !mulrA.
split=> H r Hr; have Hi' := H i Hi; have Hr' := H r Hr; move: Hi' Hr'; rewrite /elimK ?Nik.
  case: ifP => // _ Ei; rewrite Row Ei mulrBl !mulrA => /eqP; rewrite subr_eq subrK => /eqP; exact.
case: ifP => // _ Ei Er; by rewrite Row Ei Er mulrBl !mulrA.
Qed.

Lemma elim_tri A i : ct A -> tri A i -> A i i != 0 -> (i < row)%N -> tri (elimK A i (iota i.+1 (row - i.+1))) i.+1.
Proof.
move=> C T N Hi r c Hc Hcr Hr; rewrite /elimK mem_iota.
have [E|Hci] := eqVneq c i.
  rewrite E; have -> : (i < r < i.+1 + (row - i.+1))%N by lia.
  by rewrite exK ?subrr //; apply: C.
have E1 : A r c = 0 by apply: T => //; lia.
case: ifP => // Hri; have E2 : A i c = 0 by apply: T => //; lia.
by rewrite E1 E2 mulr0 subrr.
Qed.

(** *** Triangular systems *)
Lemma tri_solve A i (b : nat -> {poly K}) : (i <= row)%N -> ct A -> tri A i -> (forall j, (j < i)%N -> A j j != 0) ->
  exists y : nat -> {poly K}, forall r, (r < i)%N -> \sum_(c < i) A r c * y c = b r.
Proof.
elim: i b => [|i IH] b Hi C T D; first by exists (fun _ => 0).
have [||||y Hy] := IH (fun r => b r - A r i * (b i %/ A i i)); first by lia.
- exact: C.
- by move=> r c H1 H2 H3; apply: T => //; lia.
- by move=> j Hj; apply: D; lia.
exists (fun c => if c == i then b i %/ A i i else y c) => r Hr.
rewrite big_ord_recr /= eqxx.
have -> : \sum_(c < i) A r c * (if c == i :> nat then b i %/ A i i else y c) = \sum_(c < i) A r c * y c.
  by apply: eq_bigr => c _; rewrite (_ : (c == i :> nat) = false) //; apply/eqP; have := ltn_ord c; lia.
have [E|N] := eqVneq r i; last by rewrite Hy ?subrK //; lia.
rewrite E big1 ?add0r => [|c _]; first by rewrite mulrC exK ?D //; apply: C; lia.
by rewrite T ?mul0r //; have := ltn_ord c; lia.
Qed.

Lemma tri_kernel A i : (i < row)%N -> ct A -> tri A i -> (forall j, (j < i)%N -> A j j != 0) ->
  (forall r, (i <= r < row)%N -> A r i = 0) ->
  exists x : nat -> {poly K}, (exists c, (c < row)%N /\ x c != 0) /\ sol A x 0.
Proof.
move=> Hi C T D Z; have [|//|//|//|y Hy] := @tri_solve A i (fun r => - A r i); first by lia.
exists (fun c => if (c < i)%N then y c else if c == i then 1 else 0); split.
  by exists i; rewrite ltnn eqxx oner_neq0.
move=> r Hr; rewrite mulr0.
pose G c := A r c * (if (c < i)%N then y c else if c == i then 1 else 0).
rewrite -(big_mkord xpredT G) (@big_cat_nat _ _ _ i) //= ?(ltnW Hi) // (@big_ltn _ _ _ i) //.
rewrite [X in _ + (_ + X)]big1_seq => [|c]; last first.
  rewrite mem_index_iota /G => /andP [_ /andP [Hc _]].
  by rewrite ltnNge (ltnW Hc) /= (_ : (c == i) = false) ?mulr0 //; apply/eqP; lia.
rewrite addr0 {2}/G ltnn eqxx mulr1 big_mkord.
have -> : \sum_(c < i) G c = \sum_(c < i) A r c * y c by apply: eq_bigr => c _; rewrite /G ltn_ord.
have [H|H] : (r < i)%N \/ (i <= r < row)%N by lia.
  by rewrite Hy // addNr.
rewrite (Z _ H) addr0 big1 // => c _.
by rewrite T ?mul0r //; have := ltn_ord c; lia.
Qed.

Lemma tri_unique A x : tri A row -> (forall j, (j < row)%N -> A j j != 0) -> sol A x 0 ->
  forall c, (c < row)%N -> x c = 0.
Proof.
move=> T D S; suff H n c : (n <= row)%N -> (row - n <= c < row)%N -> x c = 0.
  by move=> c Hc; apply: (H row) => //; lia.
elim: n c => [|n IH] c Hn Hc; first by lia.
have [E|N] := eqVneq c (row - n.+1)%N; last by apply: IH; lia.
have Hc' : (c < row)%N by lia.
have := S c Hc'; rewrite mulr0 (bigD1 (Ordinal Hc')) //= big1 ?addr0 => [/eqP|j Hj].
  by rewrite mulf_eq0 (negbTE (D c Hc')) /= => /eqP.
have Hj' : (j : nat) != c by rewrite -val_eqE in Hj.
have [H|H] : (j < c)%N \/ (c < j)%N by move: Hj'; clear; case: ltngtP => // _ _; [left|right].
  by rewrite T ?mul0r.
by rewrite IH ?mulr0 //; have := ltn_ord j; lia.
Qed.

(** *** The outer loop *)
Lemma forward M A n : (n <= row)%N -> rel M A -> ct A ->
  (exists M' A', [/\ foldM (fun M i => gauss_step starts_one M row i) (iota 0 n) M = Ok M', rel M' A' /\ ct A', tri A' n,
      (forall x t, sol A' x t <-> sol A x t) &
      forall j, (j < n)%N -> (j.+1 < row)%N -> A' j j != 0]) \/
  (foldM (fun M i => gauss_step starts_one M row i) (iota 0 n) M = Err ZeroDivisionError /\
   exists x : nat -> {poly K}, (exists c, (c < row)%N /\ x c != 0) /\ sol A x 0).
Proof.
elim: n => [|n IH] Hn R C; first by left; exists M, A; split.
rewrite -addn1 iotaD foldM_catE.
have [|//|//|[M1 [A1 [-> [R1 C1] T1 S1 D1]]]|[-> H]] := IH; [by lia| |by right].
rewrite bind_ok add0n -[foldM _ _ _]/(let* s := gauss_step starts_one M1 row n in Ok s) /gauss_step.
set m := (pivot _ _ _ _).2.
have [Hm Hz] := pivotP starts_one M1 Hn; rewrite -/m in Hm Hz; clearbody m.
have R2 := swap_rel R1 T1 Hm; have C2 := swap_ct C1 Hm; have T2 := swap_tri T1 Hm.
set A2 := swapK A1 n m in R2 T2 C2.
have S2 x t : sol A2 x t <-> sol A x t by rewrite swap_sol.
have D2 j : (j < n)%N -> (j.+1 < row)%N -> A2 j j != 0.
  by move=> Hj Hj'; rewrite /A2 /swapK; do 2 (case: ifP => [/eqP E|_]; first by lia); exact: D1.
have Z2 : A2 n n = 0 -> forall r, (n <= r < row)%N -> A2 r n = 0.
  rewrite /A2 /swapK eqxx => E r Hr.
  have Hm0 : M1 m n = [::] by rewrite R1 ?E ?ps0 //; lia.
  have Hall k : (n <= k < row)%N -> A1 k n = 0.
    move=> Hk; have := Hz Hm0 k Hk; rewrite R1; try by lia.
    by move/eqP; rewrite ps_nil => /eqP.
  by case: eqP => [_|_]; [|case: eqP => [_|_]]; apply: Hall; lia.
have Hks : all (fun k => (n < k < row)%N) (iota n.+1 (row - n.+1)).
  by apply/allP => k; rewrite mem_iota; lia.
have := elim_rel R2 C2 T2 (iota_uniq _ _) Hks Hn.
case: ifP => [/andP [/eqP E0 Hne] ->|H0 [M3 [-> R3]]].
  right; split=> //; have D3 j : (j < n)%N -> A2 j j != 0 by move=> Hj; apply: D2 => //; lia.
  by have [x [Hx Sx]] := tri_kernel Hn C2 T2 D3 (Z2 E0); exists x; split=> //; apply/S2.
left; exists M3, (elimK A2 n (iota n.+1 (row - n.+1))); split=> //.
- by split=> //; apply: elim_ct.
- have [E0|N0] := eqVneq (A2 n n) 0; last by rewrite addn1; exact: elim_tri.
  move: H0; rewrite E0 eqxx /= => /negbFE/eqP El.
  rewrite El => r c Hc Hcr Hr; rewrite /elimK /=.
  have Er : row = n.+1 by have := congr1 size El; rewrite size_iota /=; lia.
  by apply: T2 => //; lia.
- by move=> x t; rewrite elim_sol.
- move=> j Hj Hj'; rewrite /elimK mem_iota (_ : (n < j < _)%N = false); last by lia.
  have [E|N] := eqVneq j n; last by apply: D2 => //; lia.
  rewrite E; apply/negP => /eqP E0; move: H0; rewrite E0 eqxx /=.
  by move=> /negbFE/eqP /(congr1 size); rewrite size_iota /=; lia.
Qed.

(** *** Back substitution *)
Lemma back M A x n : (n <= row)%N -> rel M A -> ct A -> tri A n -> (forall j, (j < n)%N -> A j j != 0) ->
  exists x' M' (y : nat -> {poly K}), [/\ foldM (back_step row) (rev (iota 0 n)) (x, M) = Ok (x', M'),
    (forall j, x' j = if (j < n)%N then ps (y j) else x j) &
    forall r, (r < n)%N -> \sum_(c < n) A r c * y c = A r row].
Proof.
elim: n x M A => [|n IH] x M A Hn R C T D; first by exists x, M, (fun _ => 0); split.
rewrite -addn1 iotaD rev_cat add0n [foldM _ _ _]/= R // R ?(ltnW Hn) // ps_div (negbTE (D n (ltnSn _))) bind_ok bind_ok.
set xi := _ %/ _; set M1 := foldl _ _ _.
pose A1 r c := if (c == row) && (r < n)%N then A r row - A r n * xi else A r c.
have R1 : rel M1 A1.
  move=> r c Hr Hc; rewrite /M1 back_loop ?rev_uniq ?iota_uniq // mem_rev mem_iota add0n /A1 /=.
  case: ifP => [_|_]; last by apply: R.
  by rewrite R // R ?(ltnW Hn) // ps_mul ps_sub.
have Low r c : (c < row)%N -> A1 r c = A r c by rewrite /A1 => Hc; case: eqP => //; lia.
have C1 : ct A1 by move=> r c Hr Hc; rewrite Low //; apply: C.
have [|||||x' [M' [y [E Ex Hy]]]] := IH (fun j => if j == n then ps xi else x j) M1 A1; rewrite ?E //; try by [lia].
- by move=> r c Hc Hcr Hr; rewrite Low ?T //; lia.
- by move=> j Hj; rewrite Low ?D //; lia.
exists x', M', (fun j => if j == n then xi else y j); split=> //.
  move=> j; rewrite Ex addn1 ltnS; have [->|N] := eqVneq j n; first by rewrite ltnn leqnn.
  by have -> : (j <= n)%N = (j < n)%N by lia.
move=> r Hr; rewrite addn1 big_ord_recr /= eqxx.
have -> : \sum_(c < n) A r c * (if c == n :> nat then xi else y c) = \sum_(c < n) A1 r c * y c.
  apply: eq_bigr => c _; have Hc := ltn_ord c; rewrite Low; last by lia.
  by rewrite (_ : (c == n :> nat) = false) //; apply/eqP; lia.
have [Er|N] := eqVneq r n; last first.
  have Hrn : (r < n)%N by lia.
  by rewrite Hy // /A1 eqxx Hrn subrK.
rewrite Er big1 ?add0r => [|c _]; first by rewrite mulrC exK ?D //; apply: C; lia.
by have Hc := ltn_ord c; rewrite Low ?T ?mul0r //; lia.
Qed.

Lemma gauss_ct M A : rel M A -> ct A ->
  (exists x : nat -> {poly K}, [/\ rmap fst (gauss starts_one M row) = Ok (mkseq (fun j => ps (x j)) row),
     sol A x 1 & forall y, sol A y 1 -> forall c, (c < row)%N -> y c = x c]) \/
  (gauss starts_one M row = Err ZeroDivisionError /\
   exists x : nat -> {poly K}, (exists c, (c < row)%N /\ x c != 0) /\ sol A x 0).
Proof.
move=> R C; rewrite /gauss.
have [[M1 [A1 [-> [R1 C1] T1 S1 D1]]]|[-> H]] := forward (leqnn row) R C; last by right.
rewrite bind_ok.
have [Z|D] : (exists n, row = n.+1 /\ A1 n n = 0) \/ (forall j, (j < row)%N -> A1 j j != 0).
  case E : row D1 => [|n] D1; first by right.
  have [E0|N0] := eqVneq (A1 n n) 0; first by left; exists n.
  by right=> j Hj; have [->//|Nj] := eqVneq j n; apply: D1; rewrite ?E; lia.
- right; case: Z => n [En E0]; split.
    rewrite {2}En -addn1 iotaD rev_cat add0n [foldM _ _ _]/= R1; try by lia.
    by rewrite [M1 n n]R1; try lia; rewrite E0 ps_div eqxx.
  have [|//||j Hj|r Hr|x [Hx Sx]] := @tri_kernel A1 n; first by lia.
  + by move=> r c H1 H2 H3; apply: T1 => //; lia.
  + by apply: D1; lia.
  + by have -> : r = n by lia.
  + by exists x; split=> //; apply/S1.
left; have [x' [M' [y [-> Ex Hy]]]] := @back M1 A1 (fun _ => [::]) row (leqnn row) R1 C1 T1 D.
have Sy : sol A1 y 1 by move=> r Hr; rewrite Hy // mulr1.
exists y; split; first by rewrite /=; congr Ok; apply/eq_in_map => j; rewrite mem_iota add0n => /= Hj; rewrite Ex Hj.
  by apply/S1.
move=> z /S1 Sz c Hc; apply/eqP; rewrite -subr_eq0; apply/eqP.
apply: (tri_unique (x := fun c => z c - y c) T1 D _ Hc) => r Hr.
rewrite mulr0 (eq_bigr (fun c : 'I_row => A1 r c * z c - A1 r c * y c)) => [|j _]; last by rewrite mulrBr.
by rewrite sumrB Sz // Sy // subrr.
Qed.

(** *** Triangular matrices of polynomials *)
Lemma pivot_tri M i : M i i != [::] -> (forall k, (i < k < row)%N -> M k i = [::]) ->
  pivot starts_one M row i = (M i i, i).
Proof.
move=> N Z; rewrite /pivot.
have : all (fun k => (i < k < row)%N) (iota i.+1 (row - i.+1)) by apply/allP => k; rewrite mem_iota; lia.
elim: (iota _ _) => // k ks IH /= /andP [Hk Hks]; rewrite Z //.
by case E: (M i i) N => [//|a l] _; rewrite max_nil_l -E IH.
Qed.

Lemma elim_triangular M A i ks : rel M A -> (forall r c, (c < r)%N -> (r < row)%N -> A r c = 0) ->
  A i i != 0 -> (i < row)%N -> all (fun k => (i < k < row)%N) ks ->
  exists M', foldM (fun M k => eliminate M row i k) ks M = Ok M' /\ rel M' A.
Proof.
move=> + T N Hi; elim: ks M => [|k ks IH] M R /=; first by exists M.
move=> /andP [Hk Hks]; rewrite /eliminate R ?R; try by lia.
rewrite ps_neg ps_div (negbTE N) [A k i]T; try by lia.
rewrite oppr0 div0p /=; apply: IH => // r c Hr Hc.
rewrite elim_loop ?iota_uniq //; last by apply/eqP; lia.
case: ifP => [/andP [/eqP -> Hm]|_]; last exact: R.
case: eqP => [<-|_]; first by rewrite T ?ps0 //; lia.
by rewrite ps0 R ?R; try lia; rewrite -ps0 ps_mul ps_add mul0r addr0.
Qed.

Lemma forward_triangular M A n : (n <= row)%N -> rel M A ->
  (forall r c, (c < r)%N -> (r < row)%N -> A r c = 0) -> (forall r, (r < row)%N -> A r r != 0) ->
  exists M', foldM (fun M i => gauss_step starts_one M row i) (iota 0 n) M = Ok M' /\ rel M' A.
Proof.
move=> Hn R T D; elim: n Hn => [|n IH] Hn; first by exists M.
rewrite -addn1 iotaD foldM_catE; have [|M1 [-> R1]] := IH; first by lia.
rewrite bind_ok add0n -[foldM _ _ _]/(let* s := gauss_step starts_one M1 row n in Ok s) /gauss_step.
rewrite pivot_tri; last 2 first.
- by rewrite R1 ?ps_nil ?D //; lia.
- by move=> k Hk; rewrite R1 ?T ?ps0 //; lia.
have R2 : rel (swap M1 row n n) A.
  by move=> r c Hr Hc; rewrite swapE; case: ifP => _; [case: eqP => [->|_]|]; rewrite R1.
have [|M2 [E2 R3]] := elim_triangular (ks := iota n.+1 (row - n.+1)) R2 T (D _ Hn) Hn.
  by apply/allP => k; rewrite mem_iota; lia.
by exists M2; rewrite [X in bind X _]E2.
Qed.

Lemma back_triangular M A x n : (n <= row)%N -> rel M A -> (forall r, (r < row)%N -> A r r != 0) ->
  exists x' M' (y : nat -> {poly K}), [/\ foldM (back_step row) (rev (iota 0 n)) (x, M) = Ok (x', M'),
    (forall j, x' j = if (j < n)%N then ps (y j) else x j) &
    forall r, (r < n)%N -> y r = (A r row - \sum_(r.+1 <= c < n) A r c * y c) %/ A r r].
Proof.
elim: n x M A => [|n IH] x M A Hn R D; first by exists x, M, (fun _ => 0); split.
rewrite -addn1 iotaD rev_cat add0n [foldM _ _ _]/= R // R ?(ltnW Hn) // ps_div (negbTE (D n Hn)) bind_ok bind_ok.
set xi := _ %/ _; set M1 := foldl _ _ _.
pose A1 r c := if (c == row) && (r < n)%N then A r row - A r n * xi else A r c.
have R1 : rel M1 A1.
  move=> r c Hr Hc; rewrite /M1 back_loop ?rev_uniq ?iota_uniq // mem_rev mem_iota add0n /A1 /=.
  case: ifP => [_|_]; last by apply: R.
  by rewrite R // R ?(ltnW Hn) // ps_mul ps_sub.
have Low r c : (c < row)%N -> A1 r c = A r c by rewrite /A1 => Hc; case: eqP => //; lia.
have [|//|r Hr|x' [M' [y [E Ex Hy]]]] := IH (fun j => if j == n then ps xi else x j) M1 A1; first by lia.
  by rewrite Low // D.
exists x', M', (fun j => if j == n then xi else y j); split=> //.
  move=> j; rewrite Ex addn1 ltnS; have [->|N] := eqVneq j n; first by rewrite ltnn leqnn.
  by have -> : (j <= n)%N = (j < n)%N by lia.
move=> r Hr; rewrite addn1; have [Er|N] := eqVneq r n.
  by rewrite Er big_geq // subr0.
have Hrn : (r < n)%N by lia.
rewrite Hy // [A1 r r]Low; last by lia.
rewrite {1}/A1 eqxx Hrn /= big_nat_recr //= eqxx.
rewrite (eq_big_nat _ _ (F2 := fun c => A r c * (if c == n then xi else y c))) => [|c Hc].
  by rewrite -addrA -opprD [X in - X]addrC.
have Hcr : (c < row)%N by lia.
have -> : (c == n) = false by apply/eqP; lia.
by rewrite Low.
Qed.

Lemma gauss_triangular M A : rel M A -> (forall r c, (c < r)%N -> (r < row)%N -> A r c = 0) ->
  (forall r, (r < row)%N -> A r r != 0) ->
  exists y : nat -> {poly K}, rmap fst (gauss starts_one M row) = Ok (mkseq (fun j => ps (y j)) row) /\
    forall r, (r < row)%N -> y r = (A r row - \sum_(r.+1 <= c < row) A r c * y c) %/ A r r.
Proof.
move=> R T D; rewrite /gauss; have [M1 [-> R1]] := forward_triangular (leqnn row) R T D.
rewrite bind_ok; have [x' [M' [y [-> Ex Hy]]]] := @back_triangular M1 A (fun _ => [::]) row (leqnn row) R1 D.
by exists y; split=> //=; congr Ok; apply/eq_in_map => j; rewrite mem_iota add0n => /= Hj; rewrite Ex Hj.
Qed.
End Fixed.
End Gauss.

