(** Proofs about GaussModel.v *)
From mathcomp Require Import zify ssrZ.
From Verif Require Import Prelude BaseProofs PolyModel PolyProofs FftProofs InterpProofs GaussModel.
Set Implicit Arguments.
Unset Strict Implicit.
Unset Printing Implicit Defensive.
Import GRing.Theory.
Local Open Scope ring_scope.
Local Open Scope py_scope.

Lemma foldM_catE (A S : Type) (f : S -> A -> result S) l1 l2 st :
  foldM f (l1 ++ l2) st = let* s := foldM f l1 st in foldM f l2 s.
Proof. by elim: l1 st => [//|a l IH] st /=; case: (f st a) => //=. Qed.

Section Gauss.
Variable K : fieldType.
Variable starts_one : K -> bool.
Implicit Types (M : matrix K) (A : nat -> nat -> K).

(** *** The loops on arbitrary matrices *)
Lemma swap_loop M i m ks r c : uniq ks ->
  foldl (fun M k => let tmp := M m k in let M := set_entry M m k (M i k) in set_entry M i k tmp) M ks r c =
  if c \in ks then (if r == i then M m c else if r == m then M i c else M r c) else M r c.
Proof.
elim: ks M => [//|k ks IH] M /= /andP [Nk U]; rewrite IH // in_cons.
have [->|Nc] /= := eqVneq c k.
  by rewrite (negbTE Nk) /set_entry eqxx !andbT.
by rewrite /set_entry (negbTE Nc) !andbF.
Qed.

Lemma swapE M row i m r c : swap M row i m r c =
  if (i <= c <= row)%N then (if r == i then M m c else if r == m then M i c else M r c) else M r c.
Proof.
rewrite /swap swap_loop ?iota_uniq // mem_iota.
by have -> : ((i <= c < i + (row.+1 - i)) = (i <= c <= row))%N by lia.
Qed.

Lemma elim_loop M i k (d : seq K) ks r c : uniq ks -> i != k ->
  foldl (fun M j => set_entry M k j (if i == j then [::] else padd (M k j) (pmul d (M i j)))) M ks r c =
  if (r == k) && (c \in ks) then (if i == c then [::] else padd (M k c) (pmul d (M i c))) else M r c.
Proof.
move=> U Nik; elim: ks M U => [|j ks IH] M /=; first by rewrite andbF.
move=> /andP [Nj U]; rewrite IH // in_cons /set_entry.
have [->|Nc] /= := eqVneq c j; first by rewrite (negbTE Nj) andbF !andbT.
by rewrite !andbF.
Qed.

Lemma back_loop M row i (xi : seq K) ks r c : uniq ks -> (i < row)%N ->
  foldl (fun M k => set_entry M k row (psub (M k row) (pmul (M k i) xi))) M ks r c =
  if (c == row) && (r \in ks) then psub (M r row) (pmul (M r i) xi) else M r c.
Proof.
move=> U Hi; elim: ks M U => [|j ks IH] M /=; first by rewrite andbF.
move=> /andP [Nj U]; rewrite IH // in_cons /set_entry.
have Ni : (i == row) = false by apply/eqP; lia.
rewrite eqxx Ni !andbT !andbF; have [->|Nc] /= := eqVneq r j; first by rewrite (negbTE Nj) andbF andbT.
by [].
Qed.

Lemma max_nil_l a (l : seq K) : max_is_one starts_one [::] (a :: l) = false.
Proof.
rewrite /max_is_one /pdegree /pabs; set n := Z.of_nat (size (a :: l)); set m := Z.of_nat _.
have [E1 E2] : (m = 0 /\ 0 < n)%Z by rewrite /m /n; split=> //=; lia.
clearbody m n; case: Z.ltb_spec => [|_]; first by lia.
by case: Z.ltb_spec => //; lia.
Qed.

Lemma max_nil_r a (l : seq K) : max_is_one starts_one (a :: l) [::].
Proof.
rewrite /max_is_one /pdegree /pabs; set n := Z.of_nat (size (a :: l)); set m := Z.of_nat _.
have [E1 E2] : (m = 0 /\ 0 < n)%Z by rewrite /m /n; split=> //=; lia.
by clearbody m n; case: Z.ltb_spec => //; lia.
Qed.

Lemma pivotP M row i : (i < row)%N ->
  let m := (pivot starts_one M row i).2 in
  [/\ (i <= m < row)%N & M m i = [::] -> forall k, (i <= k < row)%N -> M k i = [::]].
Proof.
move=> Hi m; rewrite /m /pivot.
suff H n : (i.+1 + n <= row)%N ->
    let st := foldl (fun st k => if max_is_one starts_one (M k i) st.1 then (M k i, k) else st)
        (M i i, i) (iota i.+1 n) in
    [/\ (i <= st.2 < i.+1 + n)%N, st.1 = M st.2 i & st.1 = [::] -> forall k, (i <= k < i.+1 + n)%N -> M k i = [::]].
  have Er : (i.+1 + (row - i.+1) = row)%N by lia.
  have := H (row - i.+1)%N; rewrite Er => /(_ (leqnn _)) [H1 H2 H3]; split; first by [].
  by rewrite -H2.
elim: n => [|n IH] Hn st.
  by rewrite /st /=; split=> [||H k Hk]; [lia|by []|have -> : k = i by lia].
rewrite /st -[n.+1]addn1 iotaD foldl_cat /=; have [|H1 H2 H3] := IH; first by lia.
set s := foldl _ _ _ in H1 H2 H3 *.
case: ifP => Hm /=; split=> //; try by [lia].
- move=> Ek k Hk; have [->|Nk] := eqVneq k (i.+1 + n)%N; first by [].
  apply: H3; last by lia.
  by move: Hm; rewrite Ek; case: (s.1) => [//|a l]; rewrite max_nil_l.
- move=> Es k Hk; have [->|Nk] := eqVneq k (i.+1 + n)%N; last by apply: H3 => //; lia.
  by move: Hm; rewrite Es; case: (M _ i) => [//|a l]; rewrite max_nil_r.
Qed.

(** *** Constants *)
Definition cst (a : K) : seq K := polyseq a%:P.

Lemma Poly_cst a : Poly (cst a) = a%:P.
Proof. exact: polyseqK. Qed.
Lemma normal_cst a : normal (cst a).
Proof. exact: normal_polyseq. Qed.
Lemma cst0 : cst 0 = [::].
Proof. by rewrite /cst polyseq0. Qed.
Lemma cst_nil a : (cst a == [::]) = (a == 0).
Proof.
rewrite /cst; have [->|N] := eqVneq a 0; first by rewrite polyseq0 eqxx.
by rewrite polyseqC N.
Qed.
Lemma pconstE a : pconst a = cst a.
Proof. by rewrite /pconst pmkE /cst; congr polyseq; rewrite /= cons_poly_def mul0r add0r. Qed.
Lemma cst_add a b : padd (cst a) (cst b) = cst (a + b).
Proof. by rewrite paddE !Poly_cst -polyCD. Qed.
Lemma cst_sub a b : psub (cst a) (cst b) = cst (a - b).
Proof. by rewrite psubE !Poly_cst -polyCB. Qed.
Lemma cst_mul a b : pmul (cst a) (cst b) = cst (a * b).
Proof. by rewrite pmulE !Poly_cst -polyCM. Qed.
Lemma cst_neg a : pneg (cst a) = cst (- a).
Proof. by rewrite pnegE !Poly_cst -polyCN. Qed.
Lemma cst_div a b : pdiv (cst a) (cst b) = if b == 0 then Err ZeroDivisionError else Ok (cst (a / b)).
Proof.
case: eqP => [->|/eqP N]; first by rewrite cst0.
rewrite pdivE ?normal_cst ?cst_nil // !Poly_cst; congr (Ok (polyseq _)).
by rewrite -[a in LHS](divfK N) [in LHS]polyCM mulpK // polyC_eq0.
Qed.

(** *** Elimination on a matrix of constants *)
Section Fixed.
Variable row : nat.

Definition rel M A := forall r c, (r < row)%N -> (c <= row)%N -> M r c = cst (A r c).
(** [x] solves the system whose right hand side is multiplied by [t] *)
Definition sol A (x : nat -> K) (t : K) :=
  forall r, (r < row)%N -> \sum_(c < row) A r c * x c = A r row * t.
(** zeros below the diagonal in the first [i] columns *)
Definition tri A (i : nat) := forall r c, (c < i)%N -> (c < r)%N -> (r < row)%N -> A r c = 0.

Definition swapK A (i m : nat) : nat -> nat -> K :=
  fun r c => if r == i then A m c else if r == m then A i c else A r c.

Lemma swap_rel M A i m : rel M A -> tri A i -> (i <= m < row)%N -> rel (swap M row i m) (swapK A i m).
Proof.
move=> R T Hm r c Hr Hc; rewrite swapE /swapK.
have [Hi|Hi] : (i <= c)%N \/ (c < i)%N by lia.
  by rewrite Hi Hc /=; case: eqP => [_|_]; [|case: eqP => [_|_]]; apply: R => //; lia.
rewrite leqNgt Hi /= R //; congr cst.
case: eqP => [->|_]; first by rewrite !T //; lia.
by case: eqP => [->|_] //; rewrite !T //; lia.
Qed.

Lemma swap_tri A i m : tri A i -> (i <= m < row)%N -> tri (swapK A i m) i.
Proof.
move=> T Hm r c Hc Hcr Hr; rewrite /swapK.
by case: eqP => [_|_]; [|case: eqP => [_|_]]; apply: T => //; lia.
Qed.

Lemma swap_sol A i m x t : (i <= m < row)%N -> sol (swapK A i m) x t <-> sol A x t.
Proof.
move=> Hm; have Inv r : swapK (swapK A i m) i m r =1 A r.
  move=> c; rewrite /swapK eqxx.
  have [->|Ni] := eqVneq r i; first by case: eqP => [->|].
  by have [->|Nm] := eqVneq r m; rewrite ?eqxx.
have D B : sol B x t -> sol (swapK B i m) x t.
  move=> H r Hr; rewrite /swapK; case: eqP => [_|_]; first by apply: H; lia.
  by case: eqP => [_|_]; apply: H; lia.
split=> [/D H r Hr|]; last exact: D.
by have := H r Hr; rewrite (Inv r row) (eq_bigr (fun c : 'I_row => A r c * x c)) // => c _; rewrite Inv.
Qed.

Definition elimK A (i : nat) (ks : seq nat) : nat -> nat -> K :=
  fun r c => if r \in ks then A r c - A r i / A i i * A i c else A r c.

Lemma elim_rel M A i ks : rel M A -> tri A i -> uniq ks -> all (fun k => (i < k < row)%N) ks -> (i < row)%N ->
  if (A i i == 0) && (ks != [::]) then foldM (fun M k => eliminate M row i k) ks M = Err ZeroDivisionError
  else exists M', foldM (fun M k => eliminate M row i k) ks M = Ok M' /\ rel M' (elimK A i ks).
Proof.
elim: ks M A => [|k ks IH] M A R T /=; first by rewrite andbF => _ _ _; exists M.
rewrite andbT => /andP [Nk U] /andP [Hk Hks] Hi.
rewrite /eliminate R ?R; try by lia.
rewrite cst_neg cst_div; case: eqP => [//|/eqP Nz]; rewrite bind_ok bind_ok.
set d := _ / _; set M' := foldl _ _ _.
pose A' r c := if r == k then A r c - A r i / A i i * A i c else A r c.
have RA : rel M' A'.
  move=> r c Hr Hc; rewrite /M' elim_loop ?iota_uniq //; last by apply/eqP; lia.
  rewrite mem_iota (_ : (i <= c < i + (row.+1 - i)) = (i <= c))%N /A'; last by lia.
  have [->|Nr] /= := eqVneq r k; last by apply: R.
  have [Hic|Hic] : (i <= c)%N \/ (c < i)%N by lia.
    rewrite Hic; have [<-|Nc] := eqVneq i c; first by rewrite mulfVK // subrr cst0.
    by rewrite R ?R; try lia; rewrite cst_mul cst_add /d !mulNr.
  by rewrite leqNgt Hic /= R; try lia; rewrite [A i c]T ?mulr0 ?subr0 //; lia.
have TA : tri A' i.
  move=> r c Hc Hcr Hr; rewrite /A'; case: eqP => _; rewrite T //.
  by rewrite sub0r [A i c]T ?mulr0 ?oppr0 //; lia.
have Ai c : A' i c = A i c by rewrite /A'; case: eqP => //; lia.
have := IH M' A' RA TA U Hks Hi; rewrite Ai (negbTE Nz) /= => -[M2 [E R2]]; exists M2; split=> //.
have Eik : (i == k) = false by apply/eqP; lia.
move=> r c Hr Hc; rewrite R2 //; congr cst; rewrite /elimK in_cons /A' Eik.
by have [->|Nr] /= := eqVneq r k; first by rewrite (negbTE Nk) ?eqxx.
Qed.

Lemma elim_sol A i ks x t : (i < row)%N -> all (fun k => (i < k < row)%N) ks ->
  sol (elimK A i ks) x t <-> sol A x t.
Proof.
move=> Hi Hks; have Nik : (i \in ks) = false by apply/negbTE/negP => /(allP Hks); rewrite ltnn.
have Row r : \sum_(c < row) (A r c - A r i / A i i * A i c) * x c =
    \sum_(c < row) A r c * x c - A r i / A i i * \sum_(c < row) A i c * x c.
  by rewrite mulr_sumr -sumrB; apply: eq_bigr => c _; rewrite mulrBl !mulrA.
split=> H r Hr; have Hi' := H i Hi; have Hr' := H r Hr; move: Hi' Hr'; rewrite /elimK ?Nik.
  case: ifP => // _ Ei; rewrite Row Ei mulrBl !mulrA => /eqP; rewrite subr_eq subrK => /eqP; exact.
case: ifP => // _ Ei Er; by rewrite Row Ei Er mulrBl !mulrA.
Qed.

Lemma elim_tri A i : tri A i -> A i i != 0 -> (i < row)%N -> tri (elimK A i (iota i.+1 (row - i.+1))) i.+1.
Proof.
move=> T N Hi r c Hc Hcr Hr; rewrite /elimK mem_iota.
have [E|Hci] := eqVneq c i.
  rewrite E; have -> : (i < r < i.+1 + (row - i.+1))%N by lia.
  by rewrite mulfVK // subrr.
have E1 : A r c = 0 by apply: T => //; lia.
case: ifP => // Hri; have E2 : A i c = 0 by apply: T => //; lia.
by rewrite E1 E2 mulr0 subrr.
Qed.

(** *** Triangular systems *)
Lemma tri_solve A i (b : nat -> K) : (i <= row)%N -> tri A i -> (forall j, (j < i)%N -> A j j != 0) ->
  exists y : nat -> K, forall r, (r < i)%N -> \sum_(c < i) A r c * y c = b r.
Proof.
elim: i b => [|i IH] b Hi T D; first by exists (fun _ => 0).
have [|||y Hy] := IH (fun r => b r - A r i * (b i / A i i)); first by lia.
- by move=> r c H1 H2 H3; apply: T => //; lia.
- by move=> j Hj; apply: D; lia.
exists (fun c => if c == i then b i / A i i else y c) => r Hr.
rewrite big_ord_recr /= eqxx.
have -> : \sum_(c < i) A r c * (if c == i :> nat then b i / A i i else y c) = \sum_(c < i) A r c * y c.
  by apply: eq_bigr => c _; rewrite (_ : (c == i :> nat) = false) //; apply/eqP; have := ltn_ord c; lia.
have [E|N] := eqVneq r i; last by rewrite Hy ?subrK //; lia.
rewrite E big1 ?add0r => [|c _]; first by rewrite mulrC divfK // D.
by rewrite T ?mul0r //; have := ltn_ord c; lia.
Qed.

Lemma tri_kernel A i : (i < row)%N -> tri A i -> (forall j, (j < i)%N -> A j j != 0) ->
  (forall r, (i <= r < row)%N -> A r i = 0) ->
  exists x : nat -> K, (exists c, (c < row)%N /\ x c != 0) /\ sol A x 0.
Proof.
move=> Hi T D Z; have [|//|//|y Hy] := @tri_solve A i (fun r => - A r i); first by lia.
exists (fun c => if (c < i)%N then y c else if c == i then 1 else 0); split.
  by exists i; rewrite ltnn eqxx oner_neq0.
move=> r Hr; rewrite mulr0.
pose G c := A r c * (if (c < i)%N then y c else if c == i then 1 else 0).
rewrite -(big_mkord xpredT G) (@big_cat_nat _ _ _ i) //= ?(ltnW Hi) // (@big_ltn _ _ _ i) //.
rewrite [X in _ + (_ + X)]big1_seq => [|c]; last first.
  rewrite mem_index_iota /G => /andP [_ /andP [Hc _]].
  by rewrite ltnNge (ltnW Hc) /= (_ : (c == i) = false) ?mulr0 //; apply/eqP; lia.
rewrite addr0 {2}/G ltnn eqxx mulr1 big_mkord.
have -> : \sum_(c < i) G c = \sum_(c < i) A r c * y c by apply: eq_bigr => c _; rewrite /G ltn_ord.
have [H|H] : (r < i)%N \/ (i <= r < row)%N by lia.
  by rewrite Hy // addNr.
rewrite (Z _ H) addr0 big1 // => c _.
by rewrite T ?mul0r //; have := ltn_ord c; lia.
Qed.

Lemma tri_unique A x : tri A row -> (forall j, (j < row)%N -> A j j != 0) -> sol A x 0 ->
  forall c, (c < row)%N -> x c = 0.
Proof.
move=> T D S; suff H n c : (n <= row)%N -> (row - n <= c < row)%N -> x c = 0.
  by move=> c Hc; apply: (H row) => //; lia.
elim: n c => [|n IH] c Hn Hc; first by lia.
have [E|N] := eqVneq c (row - n.+1)%N; last by apply: IH; lia.
have Hc' : (c < row)%N by lia.
have := S c Hc'; rewrite mulr0 (bigD1 (Ordinal Hc')) //= big1 ?addr0 => [/eqP|j Hj].
  by rewrite mulf_eq0 (negbTE (D c Hc')) /= => /eqP.
have Hj' : (j : nat) != c by rewrite -val_eqE in Hj.
have [H|H] : (j < c)%N \/ (c < j)%N by move: Hj'; clear; case: ltngtP => // _ _; [left|right].
  by rewrite T ?mul0r.
by rewrite IH ?mulr0 //; have := ltn_ord j; lia.
Qed.

(** *** The outer loop *)
Lemma forward M A n : (n <= row)%N -> rel M A ->
  (exists M' A', [/\ foldM (fun M i => gauss_step starts_one M row i) (iota 0 n) M = Ok M', rel M' A', tri A' n,
      (forall x t, sol A' x t <-> sol A x t) &
      forall j, (j < n)%N -> (j.+1 < row)%N -> A' j j != 0]) \/
  (foldM (fun M i => gauss_step starts_one M row i) (iota 0 n) M = Err ZeroDivisionError /\
   exists x : nat -> K, (exists c, (c < row)%N /\ x c != 0) /\ sol A x 0).
Proof.
elim: n => [|n IH] Hn R; first by left; exists M, A; split.
rewrite -addn1 iotaD foldM_catE.
have [|//|[M1 [A1 [-> R1 T1 S1 D1]]]|[-> H]] := IH; [by lia| |by right].
rewrite bind_ok add0n -[foldM _ _ _]/(let* s := gauss_step starts_one M1 row n in Ok s) /gauss_step.
set m := (pivot _ _ _ _).2.
have [Hm Hz] := pivotP M1 Hn; rewrite -/m in Hm Hz; clearbody m.
have R2 := swap_rel R1 T1 Hm; have T2 := swap_tri T1 Hm.
set A2 := swapK A1 n m in R2 T2.
have S2 x t : sol A2 x t <-> sol A x t by rewrite swap_sol.
have D2 j : (j < n)%N -> (j.+1 < row)%N -> A2 j j != 0.
  by move=> Hj Hj'; rewrite /A2 /swapK; do 2 (case: ifP => [/eqP E|_]; first by lia); exact: D1.
have Z2 : A2 n n = 0 -> forall r, (n <= r < row)%N -> A2 r n = 0.
  rewrite /A2 /swapK eqxx => E r Hr.
  have Hm0 : M1 m n = [::] by rewrite R1 ?E ?cst0 //; lia.
  have Hall k : (n <= k < row)%N -> A1 k n = 0.
    move=> Hk; have := Hz Hm0 k Hk; rewrite R1; try by lia.
    by move/eqP; rewrite cst_nil => /eqP.
  by case: eqP => [_|_]; [|case: eqP => [_|_]]; apply: Hall; lia.
have Hks : all (fun k => (n < k < row)%N) (iota n.+1 (row - n.+1)).
  by apply/allP => k; rewrite mem_iota; lia.
have := elim_rel R2 T2 (iota_uniq _ _) Hks Hn.
case: ifP => [/andP [/eqP E0 Hne] ->|H0 [M3 [-> R3]]].
  right; split=> //; have D3 j : (j < n)%N -> A2 j j != 0 by move=> Hj; apply: D2 => //; lia.
  by have [x [Hx Sx]] := tri_kernel Hn T2 D3 (Z2 E0); exists x; split=> //; apply/S2.
left; exists M3, (elimK A2 n (iota n.+1 (row - n.+1))); split=> //.
- have [E0|N0] := eqVneq (A2 n n) 0; last by rewrite addn1; exact: elim_tri.
  move: H0; rewrite E0 eqxx /= => /negbFE/eqP El.
  rewrite El => r c Hc Hcr Hr; rewrite /elimK /=.
  have Er : row = n.+1 by have := congr1 size El; rewrite size_iota /=; lia.
  by apply: T2 => //; lia.
- by move=> x t; rewrite elim_sol.
- move=> j Hj Hj'; rewrite /elimK mem_iota (_ : (n < j < _)%N = false); last by lia.
  have [E|N] := eqVneq j n; last by apply: D2 => //; lia.
  rewrite E; apply/negP => /eqP E0; move: H0; rewrite E0 eqxx /=.
  by move=> /negbFE/eqP /(congr1 size); rewrite size_iota /=; lia.
Qed.

(** *** Back substitution *)
Lemma back M A x n : (n <= row)%N -> rel M A -> tri A n -> (forall j, (j < n)%N -> A j j != 0) ->
  exists x' M' (y : nat -> K), [/\ foldM (back_step row) (rev (iota 0 n)) (x, M) = Ok (x', M'),
    (forall j, x' j = if (j < n)%N then cst (y j) else x j) &
    forall r, (r < n)%N -> \sum_(c < n) A r c * y c = A r row].
Proof.
elim: n x M A => [|n IH] x M A Hn R T D; first by exists x, M, (fun _ => 0); split.
rewrite -addn1 iotaD rev_cat add0n [foldM _ _ _]/= R // R ?(ltnW Hn) // cst_div (negbTE (D n (ltnSn _))) bind_ok bind_ok.
set xi := _ / _; set M1 := foldl _ _ _.
pose A1 r c := if (c == row) && (r < n)%N then A r row - A r n * xi else A r c.
have R1 : rel M1 A1.
  move=> r c Hr Hc; rewrite /M1 back_loop ?rev_uniq ?iota_uniq // mem_rev mem_iota add0n /A1 /=.
  case: ifP => [_|_]; last by apply: R.
  by rewrite R // R ?(ltnW Hn) // cst_mul cst_sub.
have Low r c : (c < row)%N -> A1 r c = A r c by rewrite /A1 => Hc; case: eqP => //; lia.
have [||||x' [M' [y [E Ex Hy]]]] := IH (fun j => if j == n then cst xi else x j) M1 A1; rewrite ?E //; try by [lia].
- by move=> r c Hc Hcr Hr; rewrite Low ?T //; lia.
- by move=> j Hj; rewrite Low ?D //; lia.
exists x', M', (fun j => if j == n then xi else y j); split=> //.
  move=> j; rewrite Ex addn1 ltnS; have [->|N] := eqVneq j n; first by rewrite ltnn leqnn.
  by have -> : (j <= n)%N = (j < n)%N by lia.
move=> r Hr; rewrite addn1 big_ord_recr /= eqxx.
have -> : \sum_(c < n) A r c * (if c == n :> nat then xi else y c) = \sum_(c < n) A1 r c * y c.
  apply: eq_bigr => c _; have Hc := ltn_ord c; rewrite Low; last by lia.
  by rewrite (_ : (c == n :> nat) = false) //; apply/eqP; lia.
have [Er|N] := eqVneq r n; last first.
  have Hrn : (r < n)%N by lia.
  by rewrite Hy // /A1 eqxx Hrn subrK.
rewrite Er big1 ?add0r => [|c _]; first by rewrite mulrC divfK // D.
by have Hc := ltn_ord c; rewrite Low ?T ?mul0r //; lia.
Qed.

Lemma gauss_cst M A : rel M A ->
  (exists x : nat -> K, [/\ rmap fst (gauss starts_one M row) = Ok (mkseq (fun j => cst (x j)) row),
     sol A x 1 & forall y, sol A y 1 -> forall c, (c < row)%N -> y c = x c]) \/
  (gauss starts_one M row = Err ZeroDivisionError /\
   exists x : nat -> K, (exists c, (c < row)%N /\ x c != 0) /\ sol A x 0).
Proof.
move=> R; rewrite /gauss.
have [[M1 [A1 [-> R1 T1 S1 D1]]]|[-> H]] := forward (leqnn row) R; last by right.
rewrite bind_ok.
have [Z|D] : (exists n, row = n.+1 /\ A1 n n = 0) \/ (forall j, (j < row)%N -> A1 j j != 0).
  case E : row D1 => [|n] D1; first by right.
  have [E0|N0] := eqVneq (A1 n n) 0; first by left; exists n.
  by right=> j Hj; have [->//|Nj] := eqVneq j n; apply: D1; rewrite ?E; lia.
- right; case: Z => n [En E0]; split.
    rewrite {2}En -addn1 iotaD rev_cat add0n [foldM _ _ _]/= R1; try by lia.
    by rewrite [M1 n n]R1; try lia; rewrite E0 cst_div eqxx.
  have [||j Hj|r Hr|x [Hx Sx]] := @tri_kernel A1 n; first by lia.
  + by move=> r c H1 H2 H3; apply: T1 => //; lia.
  + by apply: D1; lia.
  + by have -> : r = n by lia.
  + by exists x; split=> //; apply/S1.
left; have [x' [M' [y [-> Ex Hy]]]] := @back M1 A1 (fun _ => [::]) row (leqnn row) R1 T1 D.
have Sy : sol A1 y 1 by move=> r Hr; rewrite Hy // mulr1.
exists y; split; first by rewrite /=; congr Ok; apply/eq_in_map => j; rewrite mem_iota add0n => /= Hj; rewrite Ex Hj.
  by apply/S1.
move=> z /S1 Sz c Hc; apply/eqP; rewrite -subr_eq0; apply/eqP.
apply: (tri_unique (x := fun c => z c - y c) T1 D _ Hc) => r Hr.
rewrite mulr0 (eq_bigr (fun c : 'I_row => A1 r c * z c - A1 r c * y c)) => [|j _]; last by rewrite mulrBr.
by rewrite sumrB Sz // Sy // subrr.
Qed.
End Fixed.
End Gauss.

(** *** Two rows *)
Section Two.
Variable K : fieldType.
Variable starts_one : K -> bool.

Lemma gauss_two (M : matrix K) :
  let p := if max_is_one starts_one (M 1%N 0%N) (M 0%N 0%N) then 1%N else 0%N in
  let o := (1 - p)%N in
  (forall e, pdiv (pneg (M o 0%N)) (M p 0%N) = Err e -> gauss starts_one M 2 = Err e) /\
  forall c, pdiv (pneg (M o 0%N)) (M p 0%N) = Ok c ->
  let o1 := padd (M o 1%N) (pmul c (M p 1%N)) in
  let o2 := padd (M o 2%N) (pmul c (M p 2%N)) in
  (forall e, pdiv o2 o1 = Err e -> gauss starts_one M 2 = Err e) /\
  forall x1, pdiv o2 o1 = Ok x1 ->
  let p2 := psub (M p 2%N) (pmul (M p 1%N) x1) in
  forall x0, pdiv p2 (M p 0%N) = Ok x0 ->
  exists M', [/\ gauss starts_one M 2 = Ok ([:: x0; x1], M'),
    (M' 0%N 0%N, M' 0%N 1%N, M' 0%N 2%N) = (M p 0%N, M p 1%N, p2) &
    (M' 1%N 0%N, M' 1%N 1%N, M' 1%N 2%N) = ([::], o1, o2)].
Proof.
rewrite /gauss /gauss_step /pivot /=; case: ifP => Hm /=; split=> [e E|c Ec].
- by rewrite /eliminate /swap /= /set_entry /= E.
- rewrite /eliminate /swap /= /set_entry /= Ec !bind_ok /=; split=> [e E|x1 E1 x0 E0]; first by rewrite E.
  by rewrite E1 /= E0 /=; eexists; split; [reflexivity|by []|by []].
- by rewrite /eliminate /swap /= /set_entry /= E.
- rewrite /eliminate /swap /= /set_entry /= Ec !bind_ok /=; split=> [e E|x1 E1 x0 E0]; first by rewrite E.
  by rewrite E1 /= E0 /=; eexists; split; [reflexivity|by []|by []].
Qed.
End Two.
