(** Model of the additive FFT (starks/fft.py:10-254).  [self.field] is the class
    FiniteField(2, m) with modulus [g]; its elements are coefficient lists over
    Z/2 (FiniteFieldModel.v).  [P] stands for the prime of IntegersModP(2); the
    theorems assume [pz P = 2].  Casts of [@typecheck] between the class and other
    types do not occur.  Powers are given the recursion depth they need. *)
From Verif Require Import Prelude PolyModel ModpModel ModpField FiniteFieldModel.
Set Implicit Arguments.
Unset Strict Implicit.
Unset Printing Implicit Defensive.
Import GRing.Theory.
Local Open Scope ring_scope.
Local Open Scope py_scope.

(** starks/fft.py:9-19 [int_to_bin_string] for [i >= 0]: the digits in the order of
    the string; one iteration per bit, so [i] iterations suffice *)
Fixpoint bin_loop (fuel i : nat) (s : seq bool) : seq bool :=
  if fuel is f.+1 then if i == 0%N then s else bin_loop f i./2 (odd i :: s) else s.
Definition int_to_bin_string (i : nat) : seq bool :=
  if i == 0%N then [:: false] else bin_loop i i [::].

Section AdditiveFft.
Variable P : primeZ.
Local Notation F := (modp_fieldType P).
Variable g : seq F.
Local Notation elt := (seq F).

(** [self.field(polysOver(l))] for a list of ints *)
Definition field_of (l : seq Z) : result elt := fq_poly g (pmk [seq in_modp P z | z <- l]).

(** The value of [Taylor_Expansion]: one element, or a pair. *)
Inductive taylor_out := Single (x : elt) | Pair (V1 V2 : taylor_out).

(** starks/fft.py:53-58 (and 60-65, 67-72 with offsets): the coefficients from
    [off], [len] of them, 0 beyond the degree; [int(str(c)[0])] is [digit0] *)
Definition block (x : elt) (off len : nat) : seq Z :=
  [seq (if (pdegree x <? Z.of_nat (off + i))%Z then 0%Z else digit0 (nth 0%R x (off + i))) | i <- iota 0 len].

(** starks/fft.py:42-95 [Taylor_Expansion] called with the float [n/2], [n] an int
    (exact below 2^53): line 49 [range(n)] of a float raises TypeError *)
Definition taylor_half (x : elt) (n : Z) : result taylor_out :=
  if (n <=? 4)%Z then Ok (Single x) else Err TypeError.

(** starks/fft.py:49-51: the last [x] in [range(n)] with the property *)
Definition taylor_k (n : nat) : option nat :=
  foldl (fun k x => if (2 ^ x.+1 < n)%N && (n <= 2 ^ x.+2)%N then Some x else k) None (iota 0 n).

(** starks/fft.py:42-95 [Taylor_Expansion], [n] an int *)
Definition taylor (x : elt) (n : Z) : result taylor_out :=
  if (n <=? 2)%Z then Ok (Single x) else
  let* k := (if taylor_k (Z.to_nat n) is Some k then Ok k else Err UnboundLocalError) in
  let* f0 := field_of (block x 0 (2 ^ k.+1)) in
  let* f1 := field_of (block x (2 ^ k.+1) (2 ^ k)) in
  let* f2 := field_of (block x (2 ^ k.+1 + 2 ^ k) (2 ^ k)) in
  let* h := fq_add g f1 f2 in
  let* f_twoK := field_of (nseq (2 ^ k) 0%Z ++ [:: 1%Z]) in
  let* m0 := fq_mul g f_twoK h in
  let* g0 := fq_add g f0 m0 in
  let* m1 := fq_mul g f_twoK f2 in
  let* g1 := fq_add g h m1 in
  let* V1 := taylor_half g0 n in
  let* V2 := taylor_half g1 n in
  Ok (Pair V1 V2).

(** [b ** i] *)
Definition pow_i (b : elt) (i : nat) : result elt := fq_pow g (2 * i).+2 b (Z.of_nat i).

(** starks/fft.py:101-104 and 119-121: the loop over the coefficients of [x];
    [b] is evaluated only for coefficients '1' *)
Definition eval_loop (x : elt) (b : result elt) : result elt :=
  let* z := field_of [:: 0%Z] in
  foldM (fun f i => if (digit0 (nth 0%R x i) =? 1)%Z then
                      let* bv := b in let* t := pow_i bv i in fq_add g f t
                    else Ok f) (iota 0 (size x)) z.

(** starks/fft.py:138-144 (also 197-203, 215-221): [temp] for one index: the sum
    of [l[j]] over the digits '1' of the string *)
Definition subset_sum (l : seq elt) (s : seq bool) : result elt :=
  let* z := field_of [:: 0%Z] in
  foldM (fun t j => if nth false s j then let* c := py_nth l (Z.of_nat j) in fq_add g t c else Ok t)
        (iota 0 (size s)) z.

(** starks/fft.py:98-167 [adfft] for [m >= 1]: the first argument is [m - 1].  The
    pair returned for [m == 1] is a list of two. *)
Fixpoint adfft (m' : nat) (x : elt) (beta : seq elt) : result (seq elt) :=
  let m := m'.+1 in
  let* f1 := eval_loop x (py_nth beta 0) in
  let* f2 := field_of [:: 0%Z] in
  if m' is m''.+1 then
    let* X := field_of [:: 0%Z; 1%Z] in
    let* beta_m := py_nth beta (Z.of_nat m - 1) in
    let* Xb := fq_mul g X beta_m in
    let* gx := eval_loop x (Ok Xb) in
    let* V := taylor gx (2 ^ Z.of_nat m) in
    let* (g0, g1) := (match V with
                       | Pair (Single g0) (Single g1) => Ok (g0, g1)
                       | Pair _ _ => Err AttributeError
                       | Single _ => Err TypeError
                       end) in
    let* beta_m_I := fq_inverse g beta_m in
    let* gamma := mapM (fun i => let* b := py_nth beta (Z.of_nat i) in fq_mul g b beta_m_I) (iota 0 m') in
    let* delta := mapM (fun i => let* c := py_nth gamma (Z.of_nat i) in
                                 let* s := pow_i c 2 in fq_sub g s c) (iota 0 m') in
    let* G := mapM (fun i => subset_sum gamma (int_to_bin_string i)) (iota 0 (2 ^ m')) in
    let* u := adfft m'' g0 delta in
    let* v := adfft m'' g1 delta in
    let* w := mapM (fun i =>
        let* ui := py_nth u (Z.of_nat i) in
        let* Gi := py_nth G (Z.of_nat i) in
        let* vi := py_nth v (Z.of_nat i) in
        let* t := fq_mul g Gi vi in
        let* w1 := fq_add g ui t in
        let* w2 := fq_add g w1 vi in Ok (w1, w2)) (iota 0 (2 ^ m')) in
    Ok ([seq p.1 | p <- w] ++ [seq p.2 | p <- w])
  else Ok [:: f1; f2].

(** starks/fft.py:251: [int(c)] of a coefficient, 0 beyond the degree *)
Definition coef_int (x : elt) (i : nat) : Z :=
  if (Z.of_nat i <=? pdegree x)%Z then mval (nth 0%R x i) else 0%Z.

(** starks/fft.py:170-254 [adfft_inverse] for [m >= 1]: the first argument is
    [m - 1].  For [m == 1] and different points the local name [polysOver] is
    unbound (it is assigned on line 179, after the return). *)
Fixpoint adfft_inverse (m' : nat) (x y : seq elt) : result elt :=
  if m' is m''.+1 then
    let* beta := mapM (fun i => py_nth x (Z.of_nat (2 ^ i))) (iota 0 m'.+1) in
    let* last := py_nth beta (-1) in
    let* Ibeta := fq_inverse g last in
    let* gamma := mapM (fun i => let* b := py_nth beta (Z.of_nat i) in fq_mul g b Ibeta) (iota 0 m') in
    let* delta := mapM (fun i => let* c := py_nth gamma (Z.of_nat i) in
                                 let* s := fq_mul g c c in fq_sub g s c) (iota 0 m') in
    let* G := mapM (fun i => subset_sum gamma (int_to_bin_string i)) (iota 0 (2 ^ m')) in
    let* vu := mapM (fun i =>
        let* a := py_nth y (Z.of_nat (i + 2 ^ m')) in
        let* b := py_nth y (Z.of_nat i) in
        let* v := fq_sub g a b in
        let* Gi := py_nth G (Z.of_nat i) in
        let* t := fq_mul g Gi v in
        let* u := fq_sub g b t in Ok (v, u)) (iota 0 (2 ^ m')) in
    let v := [seq p.1 | p <- vu] in
    let u := [seq p.2 | p <- vu] in
    let* x1 := mapM (fun i => subset_sum delta (int_to_bin_string i.+1)) (iota 0 (2 ^ m')) in
    let* g_0 := adfft_inverse m'' x1 u in
    let* g_1 := adfft_inverse m'' x1 v in
    let* zero := field_of [:: 0%Z] in
    let* one := field_of [:: 1%Z] in
    let* X := field_of [:: 0%Z; 1%Z] in
    let* grt := fq_mul g X Ibeta in
    let* sq := fq_mul g grt grt in
    let* gr := fq_sub g sq grt in
    let* op := fq_add g one grt in
    let multiplier := [:: zero; grt; one; op] in
    let* g_right := foldM (fun l _ => let* e := py_nth l (-1) in
                                      let* t := fq_mul g e gr in Ok (l ++ [:: t]))
                          (iota 0 (2 ^ m')) [:: one] in
    foldM (fun acc i =>
        let* c := py_nth multiplier (coef_int g_0 i + 2 ^ coef_int g_1 i) in
        let* r := py_nth g_right (Z.of_nat i) in
        let* t := fq_mul g c r in fq_add g acc t) (iota 0 (2 ^ m')) zero
  else
    let* x0 := py_nth x 0 in
    let* x1 := py_nth x 1 in
    if fq_eq x0 x1 then Ok x0 else
    let* y1 := py_nth y 1 in
    let* y0 := py_nth y 0 in
    let* dy := fq_sub g y1 y0 in
    let* dx := fq_sub g x1 x0 in
    let* _ := fq_div g dy dx in
    Err UnboundLocalError.
End AdditiveFft.
