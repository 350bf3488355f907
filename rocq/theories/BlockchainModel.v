(** Model of misc/blockchain.py and of the request handlers of
    misc/run_blockchain.py that change the chain.

    Abstracted: SHA-256 ([sha], an arbitrary function on strings), the JSON
    encoding of a block ([enc], an arbitrary function on blocks), the clock
    (each mining request carries its timestamp), HTTP (the answers of the
    neighbours are inputs).  Blocks and transactions are records, so the
    KeyErrors of malformed JSON received from a neighbour are not modelled.
    [register_node] (21-35) is modelled in NodesModel.v: here the set of nodes
    only determines which answers [resolve_conflicts] receives and in which
    order. *)
From Coq Require Import Bool ZArith List.
From Coq Require Import DecimalString.
From Coq.Strings Require String.
From Verif Require Import Base.
Import String.StringSyntax.
Delimit Scope string_scope with string.
Import ListNotations.
Local Open Scope Z_scope.

(** A transaction, misc/blockchain.py:134-138. *)
Record tx := Tx { sender : String.string; recipient : String.string; amount : Z }.

(** A block, misc/blockchain.py:111-117. *)
Record block := Block {
  index : Z;
  timestamp : Z;
  transactions : list tx;
  proof : Z;
  previous_hash : String.string }.

(** The attributes of [Blockchain] the modelled code uses. *)
Record state := State { current_transactions : list tx; chain : list block }.

(** [str(n)], the decimal representation. *)
Definition str_int (n : Z) : String.string := NilZero.string_of_int (Z.to_int n).

(** Python truth of a string. *)
Definition str_truth (s : String.string) : bool :=
  match s with String.EmptyString => false | _ => true end.

Section Chain.
Variable sha : String.string -> String.string.
Variable enc : block -> String.string.

(** misc/blockchain.py:146-156. *)
Definition hash (b : block) : String.string := sha (enc b).

(** misc/blockchain.py:178-192. *)
Definition valid_proof (last_proof prf : Z) (last_hash : String.string) : bool :=
  let guess := String.append (str_int last_proof)
                 (String.append (str_int prf) last_hash) in
  String.eqb (String.substring 0 4 (sha guess)) "0000"%string.

(** misc/blockchain.py:172-176, from the candidate [prf] on; [fuel] bounds the
    number of candidates tried. *)
Fixpoint pow_loop (fuel : nat) (last_proof prf : Z) (last_hash : String.string)
  : result Z :=
  match fuel with
  | O => Err Diverges
  | S fuel' =>
      if valid_proof last_proof prf last_hash then Ok prf
      else pow_loop fuel' last_proof (prf + 1) last_hash
  end.

(** misc/blockchain.py:158-176. *)
Definition proof_of_work (fuel : nat) (last_block : block) : result Z :=
  pow_loop fuel (proof last_block) 0 (hash last_block).

(** misc/blockchain.py:142-144. *)
Definition last_block (s : state) : result block := py_nth (chain s) (-1).

(** misc/blockchain.py:102-123.  [now] is the value of [time()]. *)
Definition new_block (s : state) (now prf : Z) (prev : String.string)
  : result (state * block) :=
  let* ph := (if str_truth prev then Ok prev
              else let* b := last_block s in Ok (hash b)) in
  let b := Block (Z.of_nat (length (chain s)) + 1) now (current_transactions s)
             prf ph in
  Ok (State [] (chain s ++ [b]), b).

(** misc/blockchain.py:13-19. *)
Definition init (now : Z) : result state :=
  let* (s, _) := new_block (State [] []) now 100 "1"%string in Ok s.

(** misc/blockchain.py:125-140. *)
Definition new_transaction (s : state) (t : tx) : result (state * Z) :=
  let s' := State (current_transactions s ++ [t]) (chain s) in
  let* b := last_block s' in
  Ok (s', index b + 1).

(** misc/run_blockchain.py:11-36, without the HTTP answer. *)
Definition mine (fuel : nat) (node_identifier : String.string) (now : Z) (s : state)
  : result (state * block) :=
  let* lb := last_block s in
  let* prf := proof_of_work fuel lb in
  let* (s1, _) := new_transaction s (Tx "0"%string node_identifier 1) in
  new_block s1 now prf (hash lb).

(** misc/blockchain.py:48-66, the loop over the rest of the chain. *)
Fixpoint valid_loop (last : block) (rest : list block) : bool :=
  match rest with
  | [] => true
  | b :: rest' =>
      let last_block_hash := hash last in
      if negb (String.eqb (previous_hash b) last_block_hash) then false
      else if negb (valid_proof (proof last) (proof b) last_block_hash) then false
      else valid_loop b rest'
  end.

(** misc/blockchain.py:37-66; [chain[0]] raises IndexError for an empty chain. *)
Definition valid_chain (c : list block) : result bool :=
  match c with
  | [] => Err IndexError
  | b :: rest => Ok (valid_loop b rest)
  end.

(** The answer of a neighbour: status code, and the fields [length] and [chain]
    of the JSON body. *)
Record answer := Answer { status : Z; claimed : Z; their_chain : list block }.

(** misc/blockchain.py:83-93, one neighbour; the state is
    [(max_length, new_chain)]. *)
Definition resolve_step (st : Z * option (list block)) (a : answer)
  : result (Z * option (list block)) :=
  let (max_length, new_chain) := st in
  if status a =? 200 then
    if claimed a >? max_length then
      let* ok := valid_chain (their_chain a) in
      if ok then Ok (claimed a, Some (their_chain a)) else Ok st
    else Ok st
  else Ok st.

(** misc/blockchain.py:68-100. *)
Definition resolve_conflicts (s : state) (answers : list answer)
  : result (state * bool) :=
  let* (_, new_chain) :=
    foldM resolve_step answers (Z.of_nat (length (chain s)), None) in
  match new_chain with
  | Some ((_ :: _) as c) => Ok (State (current_transactions s) c, true)
  | _ => Ok (s, false)
  end.

(** The requests that change a node: [POST /transactions/new]
    (run_blockchain.py:39-53), [GET /mine] (11-36) and [GET /nodes/resolve]
    (83-98). *)
Inductive request :=
| ReqTx (t : tx)
| ReqMine (fuel : nat) (now : Z)
| ReqResolve (answers : list answer).

(** Serving one request on node [me]. *)
Definition serve (me : String.string) (s : state) (r : request) : result state :=
  match r with
  | ReqTx t => let* (s', _) := new_transaction s t in Ok s'
  | ReqMine fuel now => let* (s', _) := mine fuel me now s in Ok s'
  | ReqResolve answers => let* (s', _) := resolve_conflicts s answers in Ok s'
  end.

(** Serving a sequence of requests from a fresh node created at time [t0]. *)
Definition serve_all (me : String.string) (t0 : Z) (rs : list request)
  : result state :=
  let* s := init t0 in foldM (serve me) rs s.
End Chain.
