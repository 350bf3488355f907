(** Property theorems C120: starks/test/Logistic_Regression.py.

    A file is the list of its lines, or an exception.  [parse] is [float], [negative] and
    [negate] are [num < 0] and [num * -1], [pack] gives the 64 bits of a float as an int,
    [elem] is [field(polysOver(.))].  A list object is an address into a heap; [contents h r]
    is what the list at address [r] contains. *)
From Coq Require Import Bool ZArith List Lia ssreflect ssrbool.
From Verif Require Import Base LogisticModel LogisticProofs.
Import ListNotations.
Local Open Scope Z_scope.

(** [pack] is total and gives 64 bits *)
Definition packs64 {Flt : Type} (pack : Flt -> result Z) : Prop :=
  forall y, exists val, pack y = Ok val /\ 0 <= val < 2 ^ 64.

(** ** C120 *)
(** As the module stands, every call of [Logistic_Regression] fails, and how: without a number
    in the file IndexError, else what [float] raises on the first line, else NameError, because
    [struct] is not imported *)
Theorem C120_as_it_stands : forall (Line Flt E : Type) (parse : Line -> result Flt) negative negate
    (elem : list Z -> result E) N file, (0 < N)%nat ->
  logistic_inputs parse negative negate no_struct elem N (Ok tt) file =
  Err (match file with
       | Err e => e
       | Ok [] => IndexError
       | Ok (line :: _) => match parse line with Err e => e | Ok _ => NameError end
       end).
Proof.
move=> Line Flt E parse negative negate elem N file HN.
rewrite /logistic_inputs /read_from_file; case: file => [[|line lines]|e] //=.
  by case: N HN => [|N] H; [lia|].
rewrite /read_line; case: (parse line) => [x|e] //=.
by case: (negative x).
Qed.
Print Assumptions C120_as_it_stands.

(** With [struct] imported: all entries of the list that [Read_from_File] returns are the same
    list object, and it is empty *)
Theorem C120_one_empty_list : forall (Line Flt : Type) (parse : Line -> result Flt) negative negate pack lines,
  packs64 pack -> (forall line, In line lines -> exists x, parse line = Ok x) ->
  exists h l, read_from_file parse negative negate pack (Ok lines) = Ok (h, l) /\
    length l = (4 * length lines)%nat /\
    (forall r r', In r l -> In r' l -> r = r') /\ forall r, In r l -> contents h r = [].
Proof.
move=> Line Flt parse negative negate pack lines K P.
exists [[]], (repeat 0%nat (4 * length lines)); split; first exact: read_file_ok.
rewrite repeat_length; split=> //; split=> [r r' H H'|r H].
  by rewrite (repeat_spec _ _ _ H) (repeat_spec _ _ _ H').
by rewrite (repeat_spec _ _ _ H).
Qed.
Print Assumptions C120_one_empty_list.

(** so [Logistic_Regression] still never returns, whatever the file contains *)
Theorem C120_never_returns : forall (Line Flt E : Type) (parse : Line -> result Flt) negative negate pack
    (elem : list Z -> result E) N setup file,
  packs64 pack -> (0 < N)%nat -> (exists v, elem [] = Ok v) ->
  match setup, file with
  | Err e, _ => logistic_inputs parse negative negate pack elem N setup file = Err e
  | Ok _, Err e => logistic_inputs parse negative negate pack elem N setup file = Err e
  | Ok _, Ok lines =>
    ((forall line, In line lines -> exists x, parse line = Ok x) ->
       logistic_inputs parse negative negate pack elem N setup file = Err IndexError) /\
    ((exists line, In line lines /\ exists e, parse line = Err e) ->
       exists e, logistic_inputs parse negative negate pack elem N setup file = Err e)
  end.
Proof.
move=> Line Flt E parse negative negate pack elem N setup file K HN Ev.
case: setup => [u|e] //; case: file => [lines|e] //; split=> P.
  rewrite /logistic_inputs /read_from_file; cbn [bind]; rewrite read_file_ok //; cbn [bind].
  case: N HN => [|N] HN; first by lia.
  cbn [seq mapM]; rewrite read_number_ie //.
  by apply/Forall_forall => r; exact: repeat_spec.
rewrite /logistic_inputs /read_from_file; cbn [bind].
by have [e ->] := read_file_err parse negative negate pack lines [] K P; exists e.
Qed.
Print Assumptions C120_never_returns.

(** What the loops collect before the lists are emptied, for the bits of a float without sign
    bit: the significand without its highest bit (51), the exponent without its highest bit
    (62), least significant bit first; [z] stays 1 when all of these bits are 0 *)
Theorem C120_collected_bits : forall val, 0 <= val < 2 ^ 63 -> exists z,
  bit_loop (zfill 63 (get_bin val)) 0 (range_down 62 11) ([[]], 1) =
    Ok ([map (fun i => Z.b2z (Z.testbit val (Z.of_nat i))) (seq 0 51)], z) /\
  exists z', bit_loop (zfill 63 (get_bin val)) 0 (range_down 10 0) ([[]], z) =
    Ok ([map (fun i => Z.b2z (Z.testbit val (Z.of_nat i))) (seq 52 10)], z') /\
    (z' = 0 \/ z' = 1) /\
    (z' = 1 <-> forall i, (i < 51 \/ 52 <= i < 62)%nat -> Z.testbit val (Z.of_nat i) = false).
Proof.
move=> val V; have V' : 0 <= val < 2 ^ 64 by lia.
have [f [E1 [E2 F]]] := loops val [] 1 V'.
have Ef j : f j = (62 - j)%nat by apply: F; lia.
have M a b s n : (b <= a <= 62)%nat -> (s = 62 - a)%nat -> (n = a - b)%nat ->
    map (fun j => bit val (f (Z.to_nat j))) (range_down a b) = map (bit val) (seq s n).
  move=> H -> ->; rewrite /range_down map_map.
  have Sh m n' : forall s', seq (m + s') n' = map (fun k => (m + k)%nat) (seq s' n').
    by elim: n' => //= n' IH s'; rewrite -Nat.add_succ_r IH.
  rewrite -(Nat.add_0_r (62 - a)) Sh.
  rewrite map_map; apply: map_ext_in => k /in_seq Hk; rewrite Nat2Z.id Ef; congr (bit val _); lia.
have X a b : (b <= a <= 62)%nat -> existsb (fun j => bit val (f (Z.to_nat j)) =? 1) (range_down a b) = false <->
    (forall i, (62 - a <= i < 62 - b)%nat -> Z.testbit val (Z.of_nat i) = false).
  move=> H; split.
    move=> N i Hi; case T: (Z.testbit val (Z.of_nat i)) => //; exfalso.
    suff : existsb (fun j => bit val (f (Z.to_nat j)) =? 1) (range_down a b) = true by rewrite N.
    apply/existsb_exists; exists (Z.of_nat (62 - i)); split.
      rewrite /range_down in_map_iff; exists (a - (62 - i))%nat; split; first by congr (Z.of_nat _); lia.
      by apply/in_seq; lia.
    by rewrite Nat2Z.id Ef /bit (_ : (62 - (62 - i))%nat = i) ?T //; lia.
  move=> N; case T: existsb => //; exfalso.
  have [j [Ij Hj]] := proj1 (existsb_exists _ _) T.
  have [k [Ek Hk]] := in_range_down a b j ltac:(lia) Ij.
  by move: Hj; rewrite Ek Nat2Z.id Ef /bit N //; lia.
rewrite (M 62 11 0 51)%nat // in E1; try lia.
eexists; split; first exact: E1.
eexists; split; first by rewrite E2 (M 10 0 52 10)%nat //; lia.
have X1 := X 62%nat 11%nat ltac:(lia); have X2 := X 10%nat 0%nat ltac:(lia).
have Split : (forall i, (i < 51 \/ 52 <= i < 62)%nat -> Z.testbit val (Z.of_nat i) = false) <->
    (forall i, (62 - 62 <= i < 62 - 11)%nat -> Z.testbit val (Z.of_nat i) = false) /\
    (forall i, (62 - 10 <= i < 62 - 0)%nat -> Z.testbit val (Z.of_nat i) = false).
  by split=> [H|[H1 H2] i [Hi|Hi]]; [split=> i Hi; apply: H; lia|apply: H1; lia|apply: H2; lia].
move: X1 X2 Split.
case: (existsb _ (range_down 62 11)) => X1; case: (existsb _ (range_down 10 0)) => X2 S.
- by split; [left|split=> // /S [/X1]].
- by split; [left|split=> // /S [/X1]].
- by split; [left|split=> // /S [_ /X2]].
- by split; [right|split=> // _; apply/S; split; [apply/X1|apply/X2]].
Qed.
Print Assumptions C120_collected_bits.

(** so the flag for zero is set for the float 2.0 *)
Theorem C120_zero_flag_refuted : exists val, val <> 0 /\
  let text := zfill 63 (get_bin val) in
  exists t t', bit_loop text 0 (range_down 62 11) ([[]], 1) = Ok (t, 1) /\
    bit_loop text 0 (range_down 10 0) ([[]], 1) = Ok (t', 1).
Proof. by exists 0x4000000000000000; split=> //; do 2 eexists; vm_compute. Qed.
Print Assumptions C120_zero_flag_refuted.

Example C120_example :
  (* the bits of 1.5 and of 2.0 *)
  let pack (y : Z) := if y =? 15 then Ok 0x3FF8000000000000 else if y =? 20 then Ok 0x4000000000000000 else Ok 0 in
  read_from_file (fun x => Ok x) (fun x => x <? 0) Z.opp pack (Ok [15; -20]) =
    Ok ([[]], repeat 0%nat 8) /\
  logistic_inputs (fun x => Ok x) (fun x => x <? 0) Z.opp pack (fun l => Ok (length l)) 2 (Ok tt)
    (Ok (repeat 15 6)) = Err IndexError /\
  logistic_inputs (fun x => Ok x) (fun x => x <? 0) Z.opp (@no_struct Z) (fun l => Ok (length l)) 2 (Ok tt)
    (Ok (repeat 15 6)) = Err NameError /\
  rmap fst (bit_loop (zfill 63 (get_bin 0x3FF8000000000000)) 0 (range_down 10 0) ([[]], 1)) =
    Ok [repeat 1 10].
Proof. by vm_compute. Qed.
