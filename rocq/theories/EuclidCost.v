(** Number of iterations and size of the coefficients of starks/euclidean.py on ints. *)
From Coq Require Import ZArith List Lia Znumtheory.
From Verif Require Import Base EuclidModel EuclidProofs.
Local Open Scope Z_scope.

(** ** runs of the loop *)
(** [run a b k g]: dividing [k] times with remainder leads from [(a, b)] to [(g, 0)]. *)
Inductive run : Z -> Z -> nat -> Z -> Prop :=
| run_end a : run a 0 0 a
| run_step a b k g : b <> 0 -> run b (a mod b) k g -> run a b (S k) g.

Lemma iloop_run f : forall a b g,
  iloop f a b = Ok g <-> exists k, (k < f)%nat /\ run a b k g.
Proof.
  induction f as [|f IH]; intros a b g.
  - split; [discriminate|]. intros (k & H & _); lia.
  - cbn -[Z.ltb Z.abs]. destruct (Z.ltb_spec 0 (Z.abs b)).
    + rewrite int_divmod_ok by lia. cbn -[Z.ltb Z.abs]. rewrite IH. split.
      * intros (k & Hk & R). exists (S k). split; [lia|]. constructor; [lia|exact R].
      * intros (k & Hk & R). inversion R; subst; [lia|]. exists k0. split; [lia|assumption].
    + assert (b = 0) by lia; subst. split.
      * intros E; inversion E; subst. exists 0%nat. split; [lia|constructor].
      * intros (k & Hk & R). inversion R; subst; [reflexivity|lia].
Qed.

Lemma run_det a b k g : run a b k g -> forall k' g', run a b k' g' -> k' = k /\ g' = g.
Proof.
  induction 1 as [a|a b k g Hb R IH]; intros k' g' R'; inversion R' as [|? ? k2 ? ? R2]; subst; try lia.
  destruct (IH _ _ R2); lia.
Qed.

Lemma run_total a b : exists k g, run a b k g.
Proof.
  destruct (int_fuel_enough a b a b) as [g E]; [lia|].
  apply iloop_run in E. destruct E as (k & _ & R). eauto.
Qed.

(** the loop of the extended algorithm makes the same divisions *)
Lemma ieloop_iloop f : forall a b x2 x1 y2 y1,
  (exists r, ieloop f a b x2 x1 y2 y1 = Ok r) <-> (exists g, iloop f a b = Ok g).
Proof.
  induction f as [|f IH]; intros a b x2 x1 y2 y1.
  - split; intros [? H]; discriminate H.
  - cbn -[Z.ltb Z.abs]. destruct (Z.ltb_spec 0 (Z.abs b)).
    + rewrite int_divmod_ok by lia. cbn -[Z.ltb Z.abs]. apply IH.
    + split; intros _; eauto.
Qed.

(** ** Fibonacci numbers *)
Definition fib_step (p : Z * Z) := (snd p, fst p + snd p).
Definition fib (n : nat) : Z := fst (Nat.iter n fib_step (0, 1)).

Lemma fib_pair n : Nat.iter n fib_step (0, 1) = (fib n, fib (S n)).
Proof.
  unfold fib. simpl Nat.iter. destruct (Nat.iter n fib_step (0, 1)). reflexivity.
Qed.

Lemma fib_SS n : fib (S (S n)) = fib n + fib (S n).
Proof.
  unfold fib at 1. change (Nat.iter (S (S n)) fib_step (0, 1))
    with (fib_step (fib_step (Nat.iter n fib_step (0, 1)))).
  rewrite fib_pair. reflexivity.
Qed.

Lemma fib_pos n : 0 <= fib n /\ 1 <= fib (S n).
Proof.
  induction n as [|n [H1 H2]]; [cbv; split; discriminate|]. rewrite fib_SS. lia.
Qed.

Lemma fib_mono m n : (m <= n)%nat -> fib m <= fib n.
Proof.
  induction 1 as [|n H IH]; [lia|].
  destruct n as [|n]; [assert (m = 0%nat) by lia; subst; cbv; discriminate|].
  rewrite fib_SS. pose proof (fib_pos n). lia.
Qed.

(** ** Lame's theorem *)
Lemma ss_split a b : b <> 0 -> same_sign a b -> Z.abs b <= Z.abs a ->
  1 <= a / b /\ Z.abs a = (a / b) * Z.abs b + Z.abs (a mod b).
Proof.
  intros Hb Hs Hlt. destruct (mod_facts a b Hb) as [H1 H2].
  pose proof (Z.div_mod a b Hb) as E.
  set (q := a / b) in *. set (m := a mod b) in *. unfold same_sign in *.
  assert (1 <= q) by (destruct Hs as [[? ?]|[? ?]]; destruct H2 as [[? ?]|[? ?]]; nia).
  split; [assumption|]. destruct Hs as [[? ?]|[? ?]]; destruct H2 as [[? ?]|[? ?]]; nia.
Qed.

Lemma lame_ss a b k g : run a b k g -> same_sign a b -> Z.abs b < Z.abs a ->
  (0 < k)%nat -> fib (S k) <= Z.abs b /\ fib (S (S k)) <= Z.abs a.
Proof.
  induction 1 as [|a b k g Hb R IH]; intros Hs Hlt Hk; [lia|].
  destruct (ss_split a b Hb Hs ltac:(lia)) as [Hq Ha].
  destruct (mod_facts a b Hb) as [M1 M2].
  destruct k as [|k].
  - cbn. lia.
  - destruct (IH M2 M1 ltac:(lia)) as [I1 I2]. rewrite (fib_SS (S (S k))). split; [exact I2|]. nia.
Qed.

Lemma lame a b k g : run a b k g -> (0 < k)%nat -> fib (S k) <= Z.abs b.
Proof.
  intros R Hk. inversion R as [|a' b' k' g' Hb R']; subst; [lia|].
  destruct (mod_facts a b Hb) as [M1 M2].
  destruct k' as [|k']; [cbn; lia|].
  apply (lame_ss _ _ _ _ R' M2 M1). lia.
Qed.

Lemma iloop_lame a b k : Z.abs b < fib (S (S k)) -> exists g, iloop (S k) a b = Ok g.
Proof.
  intros H. destruct (run_total a b) as (k' & g & R). exists g. apply iloop_run.
  exists k'. split; [|exact R].
  destruct (Nat.lt_ge_cases k' (S k)) as [|L]; [assumption|].
  pose proof (lame _ _ _ _ R ltac:(lia)). pose proof (fib_mono (S (S k)) (S k') ltac:(lia)). lia.
Qed.

Lemma fib_run k : run (fib (3 + k)) (fib (2 + k)) (S k) 1.
Proof.
  induction k as [|k IH].
  - apply run_step; [discriminate|]. apply run_end.
  - apply run_step.
    + pose proof (fib_pos (2 + k)). simpl Nat.add in *. lia.
    + replace (fib (3 + S k) mod fib (2 + S k)) with (fib (2 + k)); [exact IH|].
      simpl Nat.add. rewrite (fib_SS (S (S k))).
      pose proof (fib_pos (S k)). pose proof (fib_pos k). 
      assert (fib (S (S k)) < fib (S (S (S k)))) by (rewrite (fib_SS (S k)); lia).
      rewrite <- (Z.mul_1_l (fib (S (S (S k))))) at 1.
      rewrite Z.mod_add by lia. rewrite Z.mod_small; lia.
Qed.

(** ** size of the coefficients *)
Lemma coef_bound B f : forall a b x2 x1 y2 y1 x y g,
  b <> 0 -> same_sign a b -> Z.abs b < Z.abs a -> x2 * x1 <= 0 ->
  Z.abs a * Z.abs x1 + Z.abs b * Z.abs x2 = B ->
  ieloop f a b x2 x1 y2 y1 = Ok (x, y, g) -> 2 * Z.abs x * Z.abs g <= B.
Proof.
  induction f as [|f IH]; intros a b x2 x1 y2 y1 x y g Hb Hs Hlt Hx HB E; [discriminate|].
  cbn -[Z.ltb Z.abs] in E. destruct (Z.ltb_spec 0 (Z.abs b)); [|lia].
  rewrite int_divmod_ok in E by lia. cbn -[Z.ltb Z.abs] in E.
  destruct (ss_split a b Hb Hs ltac:(lia)) as [Hq Ha].
  destruct (mod_facts a b Hb) as [M1 M2].
  destruct (Z.eq_dec (a mod b) 0) as [R0|R0].
  - rewrite R0 in E, Ha. destruct f as [|f]; [discriminate|]. cbn in E. inversion E; subst.
    assert (a / g <> 1) by (intro Q; rewrite Q in Ha; lia).
    change (Z.abs 0) with 0 in Ha. rewrite Ha.
    pose proof (Z.abs_nonneg x). pose proof (Z.abs_nonneg x2). pose proof (Z.abs_nonneg g).
    assert (0 <= Z.abs g * Z.abs x) by nia. assert (0 <= Z.abs g * Z.abs x2) by nia. nia.
  - assert (O : x1 * (x2 - a / b * x1) <= 0) by nia.
    assert (V : Z.abs (x2 - a / b * x1) = Z.abs x2 + a / b * Z.abs x1).
    { destruct (Z.le_ge_cases 0 x1); destruct (Z.le_ge_cases 0 x2); try nia. }
    refine (IH _ _ _ _ _ _ _ _ _ R0 M2 M1 O _ E). rewrite V. nia.
Qed.

(* the same for the other pair of coefficients *)
Lemma ieloop_swap f : forall a b x2 x1 y2 y1,
  ieloop f a b y2 y1 x2 x1 =
  match ieloop f a b x2 x1 y2 y1 with Ok (x, y, g) => Ok (y, x, g) | Err e => Err e end.
Proof.
  induction f as [|f IH]; intros; [reflexivity|].
  cbn -[Z.ltb Z.abs]. destruct (0 <? Z.abs b); [|reflexivity].
  destruct (int_divmod a b) as [[q r]|e]; [apply IH|reflexivity].
Qed.

(* unfolding of one round *)
Lemma ieloop_step f a b x2 x1 y2 y1 : b <> 0 ->
  ieloop (S f) a b x2 x1 y2 y1 =
  ieloop f b (a mod b) x1 (x2 - a / b * x1) y1 (y2 - a / b * y1).
Proof.
  intros Hb. cbn -[Z.ltb Z.abs]. destruct (Z.ltb_spec 0 (Z.abs b)); [|lia].
  rewrite int_divmod_ok by lia. reflexivity.
Qed.

Lemma ieloop_divides f a b x2 x1 y2 y1 x y g : b <> 0 -> (b | a) ->
  ieloop f a b x2 x1 y2 y1 = Ok (x, y, g) -> (x, y, g) = (x1, y1, b).
Proof.
  intros Hb Hd E. destruct f as [|f]; [discriminate|]. rewrite ieloop_step in E by assumption.
  rewrite (Zdivide_mod _ _ Hd) in E. destruct f as [|f]; [discriminate|].
  cbn in E. inversion E; reflexivity.
Qed.

Notation iord := (eea_ordered Z Z.abs int_divmod Z.sub Z.mul 0 1).

Lemma coef_arith A B G X Y : 0 <= A -> 0 < B -> 0 <= G ->
  2 * X * G <= B -> 2 * G <= B -> B * Y <= G + A * X -> 2 * Y * G <= A + G.
Proof.
  intros HA HB HG H1 H2 H3. apply (Z.mul_le_mono_pos_l _ _ B HB).
  transitivity (2 * G * (G + A * X)).
  - replace (B * (2 * Y * G)) with (2 * G * (B * Y)) by ring. apply Z.mul_le_mono_nonneg_l; lia.
  - replace (2 * G * (G + A * X)) with (G * (2 * G) + A * (2 * X * G)) by ring.
    pose proof (Z.mul_le_mono_nonneg_l _ _ G HG H2).
    pose proof (Z.mul_le_mono_nonneg_l _ _ A HA H1). lia.
Qed.

Lemma ord_bound f a b x y g : Z.abs b <= Z.abs a -> ~ (a | b) -> ~ (b | a) ->
  a * x + b * y = g -> (g | a) -> (g | b) -> iord f a b = Ok (x, y, g) ->
  2 * Z.abs x * Z.abs g <= Z.abs b /\ 2 * Z.abs y * Z.abs g <= Z.abs a + Z.abs g /\
  (0 <= a * b -> 2 * Z.abs y * Z.abs g <= Z.abs a).
Proof.
  intros L Nab Nba BZ Ga Gb E. unfold eea_ordered in E.
  assert (b0 : b <> 0) by (intros ->; apply Nab, Z.divide_0_r).
  destruct (Z.eqb_spec (Z.abs b) 0); [lia|].
  assert (r0 : a mod b <> 0) by (intros R; apply Nba, Z.mod_divide; assumption).
  destruct (mod_facts a b b0) as [M1 M2].
  assert (Bx : 2 * Z.abs x * Z.abs g <= Z.abs b).
  { destruct f as [|f]; [discriminate|]. rewrite ieloop_step in E by assumption.
    rewrite Z.mul_0_r, Z.sub_0_r in E.
    refine (coef_bound _ _ _ _ _ _ _ _ _ _ _ r0 M2 M1 _ _ E);
      change (Z.abs 1) with 1; change (Z.abs 0) with 0; lia. }
  split; [exact Bx|]. split.
  - assert (G2 : 2 * Z.abs g <= Z.abs b).
    { destruct Gb as [k Hk].
      assert (k <> 1) by (intros ->; apply Nba; rewrite Hk, Z.mul_1_l; exact Ga).
      assert (k <> -1).
      { intros ->; apply Nba; rewrite Hk. destruct Ga as [j Hj]. exists (- j). lia. }
      assert (k <> 0) by (intros ->; lia). rewrite Hk, Z.abs_mul.
      apply Z.mul_le_mono_nonneg_r; lia. }
    assert (Hy : Z.abs b * Z.abs y <= Z.abs g + Z.abs a * Z.abs x).
    { rewrite <- !Z.abs_mul. replace (b * y) with (g - a * x) by lia. lia. }
    assert (B0 : 0 < Z.abs b) by lia.
    exact (coef_arith _ _ _ _ _ (Z.abs_nonneg a) B0 (Z.abs_nonneg g) Bx G2 Hy).
  - intros S.
    assert (Hs : same_sign a b).
    { unfold same_sign. destruct (Z.lt_trichotomy b 0) as [B|[B|B]]; [right|lia|left].
      - split; [|lia]. destruct (Z.le_gt_cases a 0); [assumption|]. pose proof (Z.mul_pos_neg a b ltac:(lia) B). lia.
      - split; [|lia]. destruct (Z.le_gt_cases 0 a); [assumption|]. pose proof (Z.mul_neg_pos a b ltac:(lia) B). lia. }
    assert (Hlt : Z.abs b < Z.abs a).
    { destruct (Z.eq_dec (Z.abs b) (Z.abs a)) as [Q|]; [|lia]. exfalso; apply Nba.
      apply Z.divide_abs_r. rewrite <- Q. apply Z.divide_abs_r, Z.divide_refl. }
    assert (E' : ieloop f a b 0 1 1 0 = Ok (y, x, g)) by (rewrite ieloop_swap, E; reflexivity).
    refine (coef_bound _ _ _ _ _ _ _ _ _ _ _ b0 Hs Hlt _ _ E');
      change (Z.abs 1) with 1; change (Z.abs 0) with 0; lia.
Qed.

Lemma eea_int_coefs a b x y g : eea_int a b = Ok (x, y, g) -> ~ (a | b) -> ~ (b | a) ->
  2 * Z.abs x * Z.abs g <= Z.abs b + Z.abs g /\ 2 * Z.abs y * Z.abs g <= Z.abs a + Z.abs g /\
  (0 <= a * b -> 2 * Z.abs x * Z.abs g <= Z.abs b /\ 2 * Z.abs y * Z.abs g <= Z.abs a).
Proof.
  intros E Nab Nba. destruct (eea_int_spec a b) as (x' & y' & g' & E' & _ & B & S).
  rewrite E in E'; injection E' as <- <- <-.
  destruct (proj1 (S g) (Z.divide_refl g)) as [Ga Gb]. clear S.
  unfold eea_int, eea_gen in E. destruct (Z.ltb_spec (Z.abs a) (Z.abs b)).
  - destruct (iord (int_fuel a b) b a) as [[[u v] d]|] eqn:O; [|discriminate].
    cbn in E. inversion E; subst u v d; clear E.
    destruct (ord_bound _ b a y x g ltac:(lia) Nba Nab ltac:(lia) Gb Ga O) as (H1 & H2 & H3).
    split; [exact H2|]. split; [pose proof (Z.abs_nonneg g); lia|].
    intros P. split; [apply H3; lia|exact H1].
  - destruct (ord_bound _ a b x y g ltac:(lia) Nab Nba ltac:(lia) Ga Gb E) as (H1 & H2 & H3).
    split; [pose proof (Z.abs_nonneg g); lia|]. split; [exact H2|].
    intros P. split; [exact H1|apply H3; lia].
Qed.

(** when one operand divides the other, its coefficient is 1 *)
Lemma eea_int_divides a b :
  ((b | a) -> Z.abs b <= Z.abs a -> b <> 0 -> eea_int a b = Ok (0, 1, b)) /\
  ((a | b) -> Z.abs a < Z.abs b -> a <> 0 -> eea_int a b = Ok (1, 0, a)) /\
  (b = 0 -> eea_int a b = Ok (1, 0, a)) /\ (a = 0 -> b <> 0 -> eea_int a b = Ok (0, 1, b)).
Proof.
  destruct (eea_int_spec a b) as (x & y & g & E & _). rewrite E.
  unfold eea_int, eea_gen, eea_ordered in E.
  repeat split.
  - intros D L b0. destruct (Z.ltb_spec (Z.abs a) (Z.abs b)); [lia|].
    destruct (Z.eqb_spec (Z.abs b) 0); [lia|].
    rewrite (ieloop_divides _ _ _ _ _ _ _ _ _ _ b0 D E). reflexivity.
  - intros D L a0. destruct (Z.ltb_spec (Z.abs a) (Z.abs b)); [|lia].
    destruct (Z.eqb_spec (Z.abs a) 0); [lia|].
    destruct (ieloop _ _ _ _ _ _ _) as [[[u v] d]|] eqn:O; [|discriminate].
    pose proof (ieloop_divides _ _ _ _ _ _ _ _ _ _ a0 D O) as Q. inversion Q; subst.
    cbn in E. congruence.
  - intros ->. destruct (Z.ltb_spec (Z.abs a) (Z.abs 0)); [lia|].
    cbn in E. congruence.
  - intros -> b0. destruct (Z.ltb_spec (Z.abs 0) (Z.abs b)); [|lia].
    cbn in E. congruence.
Qed.

(** both functions with an explicit number of iterations *)
Lemma gcd_gen_lame a b k : Z.min (Z.abs a) (Z.abs b) < fib (S (S k)) ->
  gcd_gen Z Z.abs int_divmod (S k) a b = gcd_int a b /\
  eea_gen Z Z.abs int_divmod Z.sub Z.mul 0 1 (S k) a b = eea_int a b.
Proof.
  intros H.
  assert (M : forall f c d x2 x1 y2 y1 r, ieloop f c d x2 x1 y2 y1 = Ok r ->
    forall f' r', ieloop f' c d x2 x1 y2 y1 = Ok r' -> r = r').
  { induction f as [|f IH]; intros; [discriminate|]. destruct f'; [discriminate|].
    cbn -[Z.ltb Z.abs] in *. destruct (0 <? Z.abs d); [|congruence].
    destruct (int_divmod c d) as [[q m]|]; [|discriminate]. cbn -[Z.ltb Z.abs] in *. eauto. }
  assert (N : forall c d, Z.abs d < fib (S (S k)) -> Z.abs c + Z.abs d <= Z.abs a + Z.abs b ->
     iloop (S k) c d = iloop (int_fuel a b) c d /\
     forall x2 x1 y2 y1, ieloop (S k) c d x2 x1 y2 y1 = ieloop (int_fuel a b) c d x2 x1 y2 y1).
  { intros c d Hd Hs. destruct (iloop_lame c d k Hd) as [g E].
    destruct (int_fuel_enough a b c d Hs) as [g' E'].
    split.
    - rewrite E, E'. apply iloop_run in E. apply iloop_run in E'.
      destruct E as (n & _ & R). destruct E' as (n' & _ & R').
      destruct (run_det _ _ _ _ R _ _ R'). congruence.
    - intros. destruct (proj2 (ieloop_iloop _ _ _ x2 x1 y2 y1) (ex_intro _ g E)) as [r Er].
      destruct (proj2 (ieloop_iloop _ _ _ x2 x1 y2 y1) (ex_intro _ g' E')) as [r' Er'].
      rewrite Er, Er'. f_equal. exact (M _ _ _ _ _ _ _ _ Er _ _ Er'). }
  unfold gcd_int, eea_int, gcd_gen, eea_gen, eea_ordered.
  destruct (Z.ltb_spec (Z.abs a) (Z.abs b)).
  - destruct (N b a ltac:(lia) ltac:(lia)) as [-> N2]. split; [reflexivity|].
    destruct (Z.abs a =? 0); [reflexivity|]. rewrite N2. reflexivity.
  - destruct (N a b ltac:(lia) ltac:(lia)) as [-> N2]. split; [reflexivity|].
    destruct (Z.abs b =? 0); [reflexivity|]. apply N2.
Qed.

Lemma gcd_gen_fib k :
  gcd_gen Z Z.abs int_divmod (S k) (fib (3 + k)) (fib (2 + k)) = Err Diverges /\
  gcd_gen Z Z.abs int_divmod (S (S k)) (fib (3 + k)) (fib (2 + k)) = Ok 1.
Proof.
  unfold gcd_gen.
  pose proof (fib_mono (2 + k) (3 + k) ltac:(lia)). pose proof (fib_pos (2 + k)).
  destruct (Z.ltb_spec (Z.abs (fib (3 + k))) (Z.abs (fib (2 + k)))); [lia|].
  split.
  - destruct (iloop (S k) (fib (3 + k)) (fib (2 + k))) as [g|e] eqn:E.
    + apply iloop_run in E. destruct E as (n & Hn & R).
      destruct (run_det _ _ _ _ (fib_run k) _ _ R). lia.
    + assert (D : forall f a b e', iloop f a b = Err e' -> e' = Diverges).
      { clear. induction f as [|f IH]; intros a b e' E; [cbn in E; congruence|].
        cbn -[Z.ltb Z.abs] in E. destruct (Z.ltb_spec 0 (Z.abs b)); [|discriminate].
        rewrite int_divmod_ok in E by lia. cbn -[Z.ltb Z.abs] in E. eauto. }
      rewrite (D _ _ _ _ E). reflexivity.
  - apply iloop_run. exists (S k). split; [lia|apply fib_run].
Qed.

Lemma ieloop_err f : forall a b x2 x1 y2 y1 e, ieloop f a b x2 x1 y2 y1 = Err e -> e = Diverges.
Proof.
  induction f as [|f IH]; intros a b x2 x1 y2 y1 e E; [cbn in E; congruence|].
  cbn -[Z.ltb Z.abs] in E. destruct (Z.ltb_spec 0 (Z.abs b)); [|discriminate].
  rewrite int_divmod_ok in E by lia. cbn -[Z.ltb Z.abs] in E. eauto.
Qed.

Lemma eea_gen_fib k :
  eea_gen Z Z.abs int_divmod Z.sub Z.mul 0 1 (S k) (fib (3 + k)) (fib (2 + k)) = Err Diverges.
Proof.
  destruct (gcd_gen_fib k) as [H _]. unfold eea_gen, eea_ordered, gcd_gen in *.
  pose proof (fib_mono (2 + k) (3 + k) ltac:(lia)).
  assert (0 < fib (2 + k)) by (pose proof (fib_pos (S k)); simpl Nat.add; lia).
  destruct (Z.ltb_spec (Z.abs (fib (3 + k))) (Z.abs (fib (2 + k)))); [lia|].
  destruct (Z.eqb_spec (Z.abs (fib (2 + k))) 0); [lia|].
  destruct (ieloop (S k) (fib (3 + k)) (fib (2 + k)) 1 0 0 1) as [r|e] eqn:E.
  - destruct (proj1 (ieloop_iloop _ _ _ _ _ _ _) (ex_intro _ r E)) as [g G]. congruence.
  - rewrite (ieloop_err _ _ _ _ _ _ _ _ E). reflexivity.
Qed.
