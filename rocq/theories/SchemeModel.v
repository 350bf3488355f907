(** Model of the objects of misc/commitment.py and of the stateful prover of
    misc/zkp_3_coloring.py: constructors, [generateSecret], [reveal] and
    sequences of method calls on one object.

    The values drawn by [random.getrandbits] are inputs.  One-way permutation and
    hardcore predicate are as in CommitmentModel.v. *)
From Coq Require Import Bool ZArith List.
From Verif Require Import Base PrimalityModel CommitmentModel.
Import ListNotations.
Local Open Scope Z_scope.

(** misc/commitment.py:19-23: [raise NotImplemented].  [NotImplemented] is no
    exception, so that the statement raises TypeError. *)
Definition base_generateSecret : result Z := Err TypeError.
Definition base_commit (x : Z) : result (Z * Z) := Err TypeError.

(** misc/commitment.py:7-17: the constructor stores what [generateSecret] of the
    class of the object returns. *)
Definition scheme_init {A} (gen : result A) : result A := gen.

Section Schemes.
Variable owp : Z -> Z.
Variable hcp : Z -> result Z.

(** misc/commitment.py:29-35: a [BBSBitCommitmentScheme] is its attribute
    [secret]; [draw] is what the constructor draws. *)
Definition bit_scheme := Z.
Definition new_bit_scheme (draw : Z) : result bit_scheme := scheme_init (Ok (generateSecret owp draw)).

(** Calls of methods of a bit scheme.  [BGenerate draw] is [generateSecret()]
    (lines 31-35), which also assigns the attribute. *)
Inductive bit_event := BCommit (bit : Z) | BReveal | BGenerate (draw : Z).
Inductive bit_answer := ACommitment (c : Z * Z) | ASecret (s : Z).

(** misc/commitment.py:25-26, 31-35, 37-42 *)
Definition bit_step (o : bit_scheme) (e : bit_event) : result (bit_answer * bit_scheme) :=
  match e with
  | BCommit bit => let* c := bit_commit owp hcp o bit in Ok (ACommitment c, o)
  | BReveal => Ok (ASecret o, o)
  | BGenerate draw => let s := generateSecret owp draw in Ok (ASecret s, s)
  end.

(** The answers to a sequence of calls; stops at the first exception. *)
Fixpoint bit_run (o : bit_scheme) (es : list bit_event) : result (list bit_answer * bit_scheme) :=
  match es with
  | [] => Ok ([], o)
  | e :: es' =>
    let* (a, o1) := bit_step o e in
    let* (as', o2) := bit_run o1 es' in
    Ok (a :: as', o2)
  end.

(** misc/commitment.py:67-80: a [BBSIntCommitmentScheme] has the attributes
    [schemes] and [secret]; the constructor creates one bit scheme per bit, then
    calls [generateSecret] (82-84). *)
Record int_scheme := { is_schemes : list bit_scheme; is_secret : list Z }.
Definition int_generateSecret (schemes : list bit_scheme) : list Z := schemes.
Definition new_int_scheme (draws : list Z) : result int_scheme :=
  let* schemes := mapM new_bit_scheme draws in
  let* s := scheme_init (Ok (int_generateSecret schemes)) in
  Ok {| is_schemes := schemes; is_secret := s |}.

(** Calls of methods of an int scheme, and of [generateSecret] of the i-th of its
    bit schemes. *)
Inductive int_event := ICommit (x : Z) | IReveal | IGenerate | IMember (i : Z) (draw : Z).
Inductive int_answer := ICommitment (cs : list (Z * Z)) | ISecret (s : list Z) | IMemberSecret (s : Z).

(** misc/commitment.py:25-26, 82-90 *)
Definition int_step (o : int_scheme) (e : int_event) : result (int_answer * int_scheme) :=
  match e with
  | ICommit x => let* cs := int_commit owp hcp (is_schemes o) x in Ok (ICommitment cs, o)
  | IReveal => Ok (ISecret (is_secret o), o)
  | IGenerate =>
    let s := int_generateSecret (is_schemes o) in
    Ok (ISecret s, {| is_schemes := is_schemes o; is_secret := s |})
  | IMember i draw =>
    py_nth (is_schemes o) i ;;*
    let s := generateSecret owp draw in
    let k := Z.to_nat (if i <? 0 then i + Z.of_nat (length (is_schemes o)) else i) in
    Ok (IMemberSecret s, {| is_schemes := set_nth_list (is_schemes o) k s; is_secret := is_secret o |})
  end.

Fixpoint int_run (o : int_scheme) (es : list int_event) : result (list int_answer * int_scheme) :=
  match es with
  | [] => Ok ([], o)
  | e :: es' =>
    let* (a, o1) := int_step o e in
    let* (as', o2) := int_run o1 es' in
    Ok (a :: as', o2)
  end.

(** misc/zkp_3_coloring.py:18-29 and 31-56: a [ZK3ColProver] is its graph,
    colouring and [vertexToScheme] (None before the first commitment, otherwise
    given by the secrets of each vertex). *)
Record col_prover := { cp_graph : graph; cp_coloring : list (Z * Z); cp_schemes : option (Z -> Z * Z) }.

(** misc/zkp_3_coloring.py:18-29; [num_vertices] raises on an empty graph *)
Definition new_col_prover (G : graph) (coloring : list (Z * Z)) : result col_prover :=
  prover_vertices G ;;* Ok {| cp_graph := G; cp_coloring := coloring; cp_schemes := None |}.

(** Calls of [commit_to_coloring] (with the secrets and the permutation drawn)
    and of [reveal_colors]. *)
Inductive col_event := CCommit (secrets : Z -> Z * Z) (permutation : list Z) | CReveal (u v : Z).
Inductive col_answer := CCommitted (c : list (Z * list (Z * Z))) | CRevealed (r : list (list Z)).

(** misc/zkp_3_coloring.py:31-56.  Subscripting None raises TypeError. *)
Definition col_step (o : col_prover) (e : col_event) : result (col_answer * col_prover) :=
  match e with
  | CCommit secrets permutation =>
    let* c := commit_to_coloring owp hcp (cp_graph o) (cp_coloring o) secrets permutation in
    Ok (CCommitted c, {| cp_graph := cp_graph o; cp_coloring := cp_coloring o; cp_schemes := Some secrets |})
  | CReveal u v =>
    match cp_schemes o with
    | Some secrets => let* r := reveal_colors (cp_graph o) secrets u v in Ok (CRevealed r, o)
    | None =>
      if negb (edge_mem (Z.min u v, Z.max u v) (sorted_graph (cp_graph o))) then Err GenericException
      else Err TypeError
    end
  end.

Fixpoint col_run (o : col_prover) (es : list col_event) : result (list col_answer * col_prover) :=
  match es with
  | [] => Ok ([], o)
  | e :: es' =>
    let* (a, o1) := col_step o e in
    let* (as', o2) := col_run o1 es' in
    Ok (a :: as', o2)
  end.
End Schemes.
