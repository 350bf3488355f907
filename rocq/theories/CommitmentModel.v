(** Model of misc/commitment.py, misc/zero_knowledge.py and
    misc/zkp_3_coloring.py.

    The one-way permutation is an arbitrary total function on integers and the
    hardcore predicate an arbitrary function that may raise (the predicate the
    project uses, [parity], raises ValueError on negative numbers).  Random
    choices (secrets, permutations, challenges) are inputs.  [print] is dropped. *)
From Coq Require Import Bool ZArith List.
From Coq Require Import DecimalString.
From Coq.Strings Require Import Ascii.
From Coq.Strings Require String.
From Verif Require Import Base PrimalityModel.
Import String.StringSyntax.
Delimit Scope string_scope with string.
Delimit Scope char_scope with char.
Import ListNotations.
Local Open Scope Z_scope.

(** Python's [zip] of two and of three lists: as long as the shortest. *)
Fixpoint zip {A B} (l : list A) (m : list B) : list (A * B) :=
  match l, m with
  | x :: l', y :: m' => (x, y) :: zip l' m'
  | _, _ => []
  end.

(** [range(a, b)] *)
Definition zrange (a b : Z) : list Z :=
  map (fun i => a + Z.of_nat i) (seq 0 (Z.to_nat (b - a))).

(** [all(f(x) for x in l)]: stops at the first false value. *)
Fixpoint allM {A} (f : A -> result bool) (l : list A) : result bool :=
  match l with
  | [] => Ok true
  | x :: l' => let* b := f x in if b then allM f l' else Ok false
  end.

(** [d[k]] for a dictionary given as an association list. *)
Fixpoint lookup {A} (d : list (Z * A)) (k : Z) : result A :=
  match d with
  | [] => Err KeyError
  | (k', v) :: d' => if k' =? k then Ok v else lookup d' k
  end.

(** The digits of [int(s, 2)] after an optional sign.  The strings this is used
    on consist of decimal digits and minus signs only, so the other forms Python
    accepts (blanks, underscores, [0b], a plus sign) do not occur. *)
Fixpoint digits2 (acc : Z) (s : String.string) : result Z :=
  match s with
  | String.EmptyString => Ok acc
  | String.String c s' =>
      if Ascii.eqb c "0"%char then digits2 (2 * acc) s'
      else if Ascii.eqb c "1"%char then digits2 (2 * acc + 1) s'
      else Err ValueError
  end.

(** [int(s, 2)]; the empty string and a lone sign raise ValueError. *)
Definition int2 (s : String.string) : result Z :=
  match s with
  | String.EmptyString => Err ValueError
  | String.String c s' =>
      if Ascii.eqb c "-"%char then
        match s' with
        | String.EmptyString => Err ValueError
        | _ => let* n := digits2 0 s' in Ok (- n)
        end
      else digits2 0 s
  end.

(** [str(n)] for an integer. *)
Definition str_Z (n : Z) : String.string := NilZero.string_of_int (Z.to_int n).

(** [''.join(str(b) for b in bits)] *)
Definition join_bits (bits : list Z) : String.string :=
  fold_right (fun b s => String.append (str_Z b) s) String.EmptyString bits.

Section Commitment.
Variable owp : Z -> Z.               (** [oneWayPermutation] *)
Variable hcp : Z -> result Z.        (** [hardcorePredicate] *)

(** misc/commitment.py:31-35; [draw] is [random.getrandbits(...)]. *)
Definition generateSecret (draw : Z) : Z := owp draw.

(** misc/commitment.py:37-42 *)
Definition bit_commit (secret bit : Z) : result (Z * Z) :=
  let* unguessableBit := hcp secret in
  Ok (owp secret, Z.lxor unguessableBit bit).

(** misc/commitment.py:60-62 *)
Definition bit_decode (securityString : Z) (c : Z * Z) : result Z :=
  let* unguessableBit := hcp securityString in
  Ok (Z.lxor (snd c) unguessableBit).

(** misc/commitment.py:51-58 *)
Definition bit_verify (securityString : Z) (c : Z * Z) : result bool :=
  let* trueBit := bit_decode securityString c in
  let* unguessableBit := hcp securityString in
  Ok ((fst c =? owp securityString) && (snd c =? Z.lxor unguessableBit trueBit)).

(** misc/commitment.py:88-89: [bin(integer)[2:].zfill(n)] as a list of bits.  A
    negative integer raises ValueError (see [bin_bits]). *)
Definition padded_bits (n : nat) (integer : Z) : result (list Z) :=
  let* bits := bin_bits integer in
  Ok (repeat 0 (n - length bits) ++ bits).

(** misc/commitment.py:86-90; [secrets] are the secrets of [self.schemes]. *)
Definition int_commit (secrets : list Z) (integer : Z) : result (list (Z * Z)) :=
  let* bits := padded_bits (length secrets) integer in
  mapM (fun sb : Z * Z => let (s, b) := sb in bit_commit s b) (zip secrets bits).

(** misc/commitment.py:101-106; [numBits] verifiers. *)
Definition decodeBits (numBits : nat) (secrets : list Z) (cs : list (Z * Z))
  : result (list Z) :=
  mapM (fun sc : Z * (Z * Z) => let (s, c) := sc in bit_decode s c)
       (firstn numBits (zip secrets cs)).

(** misc/commitment.py:108-112 *)
Definition int_verify (numBits : nat) (secrets : list Z) (cs : list (Z * Z))
  : result bool :=
  allM (fun sc : Z * (Z * Z) => let (s, c) := sc in bit_verify s c)
       (firstn numBits (zip secrets cs)).

(** misc/commitment.py:114-116 *)
Definition int_decode (numBits : nat) (secrets : list Z) (cs : list (Z * Z))
  : result Z :=
  let* bits := decodeBits numBits secrets cs in
  int2 (join_bits bits).
End Commitment.

(** ** misc/zero_knowledge.py *)

Definition graph := list (Z * Z).

(** zero_knowledge.py:3-5; [max] of an empty sequence raises ValueError. *)
Definition num_vertices (G : graph) : result Z :=
  match G with
  | [] => Err ValueError
  | (a, b) :: G' =>
      Ok (fold_left (fun m e => Z.max (Z.max m (fst e)) (snd e)) G' (Z.max a b))
  end.

(** zero_knowledge.py:15-17 *)
Definition make_permutation_function (L : list Z) : Z -> result Z :=
  fun i => let* x := py_nth L (i - 1) in Ok (x + 1).

(** [L.index(x)], from position [i] on *)
Fixpoint list_index (L : list Z) (x i : Z) : result Z :=
  match L with
  | [] => Err ValueError
  | y :: L' => if y =? x then Ok i else list_index L' x (i + 1)
  end.

(** zero_knowledge.py:20-22 *)
Definition make_inverse_permutation_function (L : list Z) : Z -> result Z :=
  fun i => let* k := list_index L (i - 1) 0 in Ok (1 + k).

(** zero_knowledge.py:25-27 *)
Definition apply_isomorphism (G : graph) (f : Z -> result Z) : result graph :=
  mapM (fun e : Z * Z => let (i, j) := e in
        let* a := f i in let* b := f j in Ok (a, b)) G.

Definition graph_eqb (G H : graph) : bool :=
  (length G =? length H)%nat &&
  forallb (fun p : (Z * Z) * (Z * Z) =>
             (fst (fst p) =? fst (snd p)) && (snd (fst p) =? snd (snd p)))
          (zip G H).

(** The constructor shared by [ZKProver] (44-64) and [ZKVerifier] (105-117);
    returns [self.n]. *)
Definition zk_init (G1 G2 : graph) : result Z :=
  let* n := num_vertices G1 in
  let* n2 := num_vertices G2 in
  assert_ (n =? n2) ;;* Ok n.

(** zero_knowledge.py:66-73; [L] is the value of [random_permutation(self.n)]. *)
Definition send_isomorphic_copy (G1 : graph) (L : list Z) : result graph :=
  apply_isomorphism G1 (make_permutation_function L).

(** zero_knowledge.py:75-93; [iso] is [self.isomorphism]. *)
Definition prove_isomorphic_to (iso L : list Z) (graph_choice : Z) : Z -> result Z :=
  let pi_inverse := make_inverse_permutation_function L in
  if graph_choice =? 1 then pi_inverse
  else fun i => let* j := pi_inverse i in make_permutation_function iso j.

(** zero_knowledge.py:124-137 *)
Definition zk_accepts (G1 G2 : graph) (f : Z -> result Z) (choice : Z) (H : graph)
  : result bool :=
  let* graph_to_check := py_nth [G1; G2] (choice - 1) in
  let* image := apply_isomorphism H f in
  Ok (graph_eqb graph_to_check image).

(** zero_knowledge.py:140-149; [L] and [choice] are the random values. *)
Definition run_protocol (G1 G2 : graph) (iso L : list Z) (choice : Z) : result bool :=
  zk_init G1 G2 ;;*
  zk_init G1 G2 ;;*
  let* H := send_isomorphic_copy G1 L in
  zk_accepts G1 G2 (prove_isomorphic_to iso L choice) choice H.

(** zero_knowledge.py:174-185; returns [(H, choice, pi)]. *)
Definition simulate_protocol (G1 G2 : graph) (choice : Z) (L : list Z)
  : result (graph * Z * (Z -> result Z)) :=
  let* G := py_nth [G1; G2] (choice - 1) in
  num_vertices G ;;*
  let pi := make_permutation_function L in
  let* H := apply_isomorphism G pi in
  Ok (H, choice, pi).

(** ** misc/zkp_3_coloring.py *)
Section ThreeColoring.
Variable owp : Z -> Z.
Variable hcp : Z -> result Z.

(** zkp_3_coloring.py:24 and 66: [tuple(sorted(e))] for every edge. *)
Definition sorted_graph (G : graph) : graph :=
  map (fun e : Z * Z => (Z.min (fst e) (snd e), Z.max (fst e) (snd e))) G.

(** zkp_3_coloring.py:26 *)
Definition prover_vertices (G : graph) : result (list Z) :=
  let* n := num_vertices G in Ok (zrange 1 (n + 1)).

(** zkp_3_coloring.py:31-46.  [secrets v] are the two secrets of the scheme of
    vertex [v], [permutation] the value of [random_permutation(3)], [coloring] a
    dictionary.  The dictionary [permutedColoring] (41) is computed completely
    before the commitments. *)
Definition commit_to_coloring (G : graph) (coloring : list (Z * Z))
    (secrets : Z -> Z * Z) (permutation : list Z)
  : result (list (Z * list (Z * Z))) :=
  let* vertices := prover_vertices G in
  let* permutedColoring :=
    mapM (fun v => let* c := lookup coloring v in
                   let* c' := py_nth permutation c in Ok (v, c')) vertices in
  mapM (fun v => let* c := lookup permutedColoring v in
                 let (s1, s2) := secrets v in
                 let* com := int_commit owp hcp [s1; s2] c in
                 Ok (v, com)) vertices.

Definition edge_mem (e : Z * Z) (G : graph) : bool :=
  existsb (fun e' => (fst e =? fst e') && (snd e =? snd e')) G.

(** zkp_3_coloring.py:48-56 *)
Definition reveal_colors (G : graph) (secrets : Z -> Z * Z) (u v : Z)
  : result (list (list Z)) :=
  let u' := Z.min u v in
  let v' := Z.max u v in
  if negb (edge_mem (u', v') (sorted_graph G)) then Err GenericException
  else
    let* vertices := prover_vertices G in
    let reveal w := if existsb (Z.eqb w) vertices
                    then Ok (let (a, b) := secrets w in [a; b])
                    else Err KeyError in
    let* ru := reveal u' in
    let* rv := reveal v' in
    Ok [ru; rv].

(** zkp_3_coloring.py:81-85, the loop over the end points; the state is
    [revealed_colors].  [None] means that the loop returned False. *)
Fixpoint accept_loop (committed : list (Z * list (Z * Z)))
    (todo : list (Z * list Z)) (revealed_colors : list Z)
  : result (option (list Z)) :=
  match todo with
  | [] => Ok (Some revealed_colors)
  | (w, bitSecrets) :: todo' =>
      let* com := lookup committed w in
      let* trueColor := int_decode hcp 2 bitSecrets com in
      let* ok := int_verify owp hcp 2 bitSecrets com in
      if ok then accept_loop committed todo' (revealed_colors ++ [trueColor])
      else Ok None
  end.

(** zkp_3_coloring.py:78-87; [revealed] is whatever the prover sends (a tuple of
    lists of secrets). *)
Definition col_accepts (committed : list (Z * list (Z * Z))) (edge : Z * Z)
    (revealed : list (list Z)) : result bool :=
  let* r := accept_loop committed (zip [fst edge; snd edge] revealed) [] in
  match r with
  | None => Ok false
  | Some colors =>
      let* c0 := py_nth colors 0 in
      let* c1 := py_nth colors 1 in
      Ok (negb (c0 =? c1))
  end.

(** zkp_3_coloring.py:90-111 for the edge [edge] chosen by
    [random.choice(self.graph)] (74-76). *)
Definition col_run_protocol (G : graph) (coloring : list (Z * Z))
    (secrets : Z -> Z * Z) (permutation : list Z) (edge : Z * Z) : result bool :=
  let* committed := commit_to_coloring G coloring secrets permutation in
  let* revealed := reveal_colors G secrets (fst edge) (snd edge) in
  let* r0 := py_nth revealed 0 in
  let* c0 := lookup committed (fst edge) in
  int_decode hcp 2 r0 c0 ;;*
  let* r1 := py_nth revealed 1 in
  let* c1 := lookup committed (snd edge) in
  int_decode hcp 2 r1 c1 ;;*
  col_accepts committed edge revealed.
End ThreeColoring.
