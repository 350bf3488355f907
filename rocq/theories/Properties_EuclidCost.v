(** Property theorems C126: how many divisions starks/euclidean.py makes and how
    large the coefficients it returns are. *)
From Coq Require Import Znumtheory Lia.
From Verif Require Import Prelude EuclidModel EuclidProofs EuclidCost
  ModpModel ModpProofs ModpField PolyModel PolyProofs EuclidCostPoly.
Import GRing.Theory.

(** The Fibonacci numbers, by their recurrence. *)
Definition fibonacci (F : nat -> Z) : Prop :=
  F 0%N = 0%Z /\ F 1%N = 1%Z /\ forall n, F n.+2 = (F n + F n.+1)%Z.

Lemma fibonacci_fib F : fibonacci F -> forall n, F n = fib n.
Proof.
  intros (H0 & H1 & HS) n.
  assert (H : F n = fib n /\ F n.+1 = fib n.+1).
  { induction n as [|n [I1 I2]]; [split; assumption|].
    split; [exact I2|]. rewrite HS fib_SS I1 I2. reflexivity. }
  exact (proj1 H).
Qed.

(** C126 (1): Lame's theorem for both functions on ints of any sign.  With
    [k.+1] tests of the loop condition, that is with at most [k] divisions, both
    functions return their result as soon as the smaller absolute value is less
    than the Fibonacci number of index [k+2]. *)
Theorem C126_lame : forall (F : nat -> Z), fibonacci F -> forall (a b : Z) (k : nat),
  (Z.min (Z.abs a) (Z.abs b) < F k.+2)%Z ->
  gcd_gen Z Z.abs int_divmod k.+1 a b = gcd_int a b /\
  eea_gen Z Z.abs int_divmod Z.sub Z.mul 0%Z 1%Z k.+1 a b = eea_int a b.
Proof.
  intros F HF a b k H. rewrite (fibonacci_fib F HF) in H. exact (gcd_gen_lame a b k H).
Qed.
Print Assumptions C126_lame.

(** C126 (2): the bound is attained: two consecutive Fibonacci numbers need one
    division more, in both functions. *)
Theorem C126_lame_sharp : forall (F : nat -> Z), fibonacci F -> forall k : nat,
  gcd_gen Z Z.abs int_divmod k.+1 (F k.+3) (F k.+2) = Err Diverges /\
  eea_gen Z Z.abs int_divmod Z.sub Z.mul 0%Z 1%Z k.+1 (F k.+3) (F k.+2) = Err Diverges /\
  gcd_gen Z Z.abs int_divmod k.+2 (F k.+3) (F k.+2) = Ok 1%Z.
Proof.
  intros F HF k. rewrite !(fibonacci_fib F HF).
  destruct (gcd_gen_fib k) as [H1 H2].
  split; [exact H1|]. split; [exact (eea_gen_fib k)|exact H2].
Qed.
Print Assumptions C126_lame_sharp.

(** C126 (3): 256-bit numbers take at most 369 divisions. *)
Theorem C126_256_bits : forall a b : Z, (Z.min (Z.abs a) (Z.abs b) < 2 ^ 256)%Z ->
  gcd_gen Z Z.abs int_divmod 370%N a b = gcd_int a b /\
  eea_gen Z Z.abs int_divmod Z.sub Z.mul 0%Z 1%Z 370%N a b = eea_int a b.
Proof.
  intros a b H. apply gcd_gen_lame. apply (Z.lt_le_trans _ _ _ H).
  vm_compute. discriminate.
Qed.
Print Assumptions C126_256_bits.

(** C126 (4): when neither int divides the other, the coefficients are at most
    half of (the other operand divided by the gcd, plus one); for operands of the
    same sign the "plus one" is not needed. *)
Theorem C126_coefficients : forall a b x y g : Z,
  eea_int a b = Ok (x, y, g) -> ~ (a | b)%Z -> ~ (b | a)%Z ->
  (2 * Z.abs x * Z.abs g <= Z.abs b + Z.abs g)%Z /\
  (2 * Z.abs y * Z.abs g <= Z.abs a + Z.abs g)%Z /\
  (0 <= a * b -> 2 * Z.abs x * Z.abs g <= Z.abs b /\ 2 * Z.abs y * Z.abs g <= Z.abs a)%Z.
Proof. exact eea_int_coefs. Qed.
Print Assumptions C126_coefficients.

(** C126 (5): when one divides the other, the answer is the dividing operand
    itself, with coefficients 0 and 1. *)
Theorem C126_divides : forall a b : Z,
  ((b | a) -> (Z.abs b <= Z.abs a)%Z -> b <> 0%Z -> eea_int a b = Ok (0, 1, b)%Z)%Z /\
  ((a | b) -> (Z.abs a < Z.abs b)%Z -> a <> 0%Z -> eea_int a b = Ok (1, 0, a)%Z)%Z /\
  (b = 0%Z -> eea_int a b = Ok (1, 0, a)%Z) /\
  (a = 0%Z -> b <> 0%Z -> eea_int a b = Ok (0, 1, b)%Z).
Proof. exact eea_int_divides. Qed.
Print Assumptions C126_divides.

(** C126 (6): polynomials.  When neither divides the other, each coefficient has
    degree less than the other operand's minus the gcd's. *)
Theorem C126_poly_degrees : forall (F : fieldType) (a b x y g : seq F),
  normal a -> normal b -> ~~ (Poly a %| Poly b)%R -> ~~ (Poly b %| Poly a)%R ->
  peea a b = Ok (x, y, g) ->
  (size x + size g <= size b)%N /\ (size y + size g <= size a)%N.
Proof. intros F a b x y g; exact (@eea_degree F a b x y g). Qed.
Print Assumptions C126_poly_degrees.

(** C126 (7): and the number of divisions is at most the number of coefficients of
    the shorter operand. *)
Theorem C126_poly_steps : forall (F : fieldType) (a b : seq F), normal a -> normal b ->
  gcd_gen (seq F) (@pabs F) (@pdivmod F) (minn (size a) (size b)).+1 a b = pgcd a b.
Proof. intros F a b; exact (@gcd_steps F a b). Qed.
Print Assumptions C126_poly_steps.

(** The bounds are attained: 3 and -2 need coefficient 2 = (3 + 1) / 2; 34 and 21
    take seven divisions; over F_7 x^2 + 1 and x take two. *)
Example C126_example :
  eea_int 3 (-2) = Ok (1, 2, -1)%Z /\ eea_int 3 2 = Ok (1, -1, 1)%Z /\
  eea_int 10 6 = Ok (-1, 2, 2)%Z /\
  gcd_gen Z Z.abs int_divmod 8%N 34%Z 21%Z = Ok 1%Z /\
  gcd_gen Z Z.abs int_divmod 7%N 34%Z 21%Z = Err Diverges /\
  (let p := [seq in_modp P7 z | z <- [:: 1; 0; 1]%Z] in
   let q := [seq in_modp P7 z | z <- [:: 0; 1]%Z] in
   gcd_gen _ (@pabs _) (@pdivmod _) 3%N p q = pgcd p q /\
   gcd_gen _ (@pabs _) (@pdivmod _) 2%N p q = Err Diverges).
Proof. by repeat split; vm_compute. Qed.
