(** Property C125: misc/primality.py, Rabin's bound for the error of the test. *)
From Coq Require Import Bool ZArith List Lia Znumtheory.
From Coq Require Import ssreflect ssrbool.
From Verif Require Import Base PrimalityModel PrimalityProofs MillerRabinProofs.
Import ListNotations.
Local Open Scope Z_scope.
Local Set SsrOldRewriteGoalsOrder.
Local Set Implicit Arguments.
Local Unset Strict Implicit.

(** ** C125: at most a quarter of the bases fool the test *)

(** Of the n - 3 values that [random.randint(2, n - 2)] can return, at most (n - 9)/4
    make one round accept the odd composite number [n]. *)
Theorem C125_liars_at_most_quarter (n : Z) :
  3 < n -> n mod 2 = 1 -> ~ prime n ->
  forall L, NoDup L ->
    (forall a, In a L -> 2 <= a <= n - 2 /\ probablyPrime n [a] = Ok true) ->
    4 * Z.of_nat (length L) <= n - 9.
Proof.
move=> Hn Ho Np L NL HL.
have := @pp_error_quarter n 1 Hn Ho Np; set U := map _ _.
have -> : vectors 1 U = map (fun a => [a]) U by elim: (U) => //= a m ->.
rewrite filter_map_length !Z.pow_1_r => H.
suff /NoDup_incl_length : incl L (filter (fun a => match probablyPrime n [a] with Ok b => b | Err _ => true end) U).
  by move=> /(_ NL); lia.
move=> a /HL [R E]; apply/filter_In; rewrite E; split=> //.
by apply/in_map_iff; exists (Z.to_nat (a - 2)); split; [lia|apply/in_seq; lia].
Qed.
Print Assumptions C125_liars_at_most_quarter.

(** With [k] draws at most ((n - 9)/4)^k of the (n - 3)^k possible outcomes accept an odd
    composite number. *)
Theorem C125_error_bound (n : Z) (k : nat) :
  3 < n -> n mod 2 = 1 -> ~ prime n ->
  forall L, NoDup L ->
    (forall d, In d L -> length d = k /\ (forall a, In a d -> 2 <= a <= n - 2) /\
       probablyPrime n d = Ok true) ->
    4 ^ Z.of_nat k * Z.of_nat (length L) <= (n - 9) ^ Z.of_nat k.
Proof.
move=> Hn Ho Np L NL HL.
have := @pp_error_quarter n k Hn Ho Np; set U := map _ _ => H.
suff /NoDup_incl_length : incl L (filter (fun d => match probablyPrime n d with Ok b => b | Err _ => true end) (vectors k U)).
  move=> /(_ NL) LL; have P := Z.pow_pos_nonneg 4 (Z.of_nat k); nia.
move=> d /HL [Ld [R E]]; apply/filter_In; rewrite E; split=> //.
apply/vectors_In; split=> // a /R Ra.
by apply/in_map_iff; exists (Z.to_nat (a - 2)); split; [lia|apply/in_seq; lia].
Qed.
Print Assumptions C125_error_bound.

(** 91 = 7 * 13 has 16 liars among 2..89, and 4 * 16 <= 82; 9 has none. *)
Example C125_example :
  filter (fun a => match probablyPrime 91 [a] with Ok b => b | Err _ => false end)
    (map Z.of_nat (seq 2 88)) = [9; 10; 12; 16; 17; 22; 29; 38; 53; 62; 69; 74; 75; 79; 81; 82] /\
  filter (fun a => match probablyPrime 9 [a] with Ok b => b | Err _ => false end)
    (map Z.of_nat (seq 2 6)) = [] /\
  probablyPrime 91 [9; 12; 82] = Ok true /\ probablyPrime 91 [9; 11] = Ok false.
Proof. by vm_compute. Qed.
