(** Model of misc/blockchain.py:21-35 [register_node], of the request handlers
    misc/run_blockchain.py:56-62 [full_chain], 65-80 [register_nodes] and 83-98
    [consensus], and of a network of nodes that run this server.

    Abstracted: [urlparse] (an arbitrary function from the JSON value it is
    applied to, to the pair (netloc, path), that may raise); HTTP between the
    nodes (a request to a name of the network is answered by [full_chain] of
    that node, a request to any other name raises ConnectionError, which
    [GenericException] stands for); requests are served one at a time.  The
    iteration order of a Python set is arbitrary and may differ from call to
    call: [enum k] is the order of the set in the call number [k].  Text is a
    string of bytes, that is ASCII. *)
From Coq Require Import Bool ZArith List.
From Coq.Strings Require String.
From Verif Require Import Base BlockchainModel.
Import String.StringSyntax.
Import ListNotations.
Local Open Scope Z_scope.

(** A decoded JSON document; the keys of an object are distinct. *)
Inductive json :=
| JNull
| JBool (b : bool)
| JNum (z : Z)
| JStr (s : String.string)
| JArr (l : list json)
| JObj (l : list (String.string * json)).

(** [set.add] *)
Definition set_add (nodes : list String.string) (x : String.string)
  : list String.string :=
  if existsb (String.eqb x) nodes then nodes else nodes ++ [x].

(** [d.get(key)] of a dictionary; a missing key gives None. *)
Fixpoint dict_get (d : list (String.string * json)) (key : String.string) : json :=
  match d with
  | [] => JNull
  | (k, v) :: d' => if String.eqb k key then v else dict_get d' key
  end.

(** The one-character strings a string is iterated as. *)
Fixpoint characters (s : String.string) : list String.string :=
  match s with
  | String.EmptyString => []
  | String.String c s' => String.String c String.EmptyString :: characters s'
  end.

(** [for x in v]: an array gives its elements, a string its characters, an
    object its keys; anything else is not iterable. *)
Definition iterate (v : json) : result (list json) :=
  match v with
  | JArr l => Ok l
  | JStr s => Ok (map JStr (characters s))
  | JObj d => Ok (map (fun kv => JStr (fst kv)) d)
  | _ => Err TypeError
  end.

Section Nodes.
Variable urlparse : json -> result (String.string * String.string).

(** misc/blockchain.py:21-35; [nodes] is [self.nodes]. *)
Definition register_node (nodes : list String.string) (address : json)
  : result (list String.string) :=
  let* (netloc, path) := urlparse address in
  if str_truth netloc then Ok (set_add nodes netloc)
  else if str_truth path then Ok (set_add nodes path)
  else Err ValueError.

(** misc/run_blockchain.py:73-74.  The first component is [blockchain.nodes]
    after the loop, also when the loop raises. *)
Fixpoint register_loop (nodes : list String.string) (addresses : list json)
  : list String.string * result unit :=
  match addresses with
  | [] => (nodes, Ok tt)
  | a :: addresses' =>
      match register_node nodes a with
      | Ok nodes' => register_loop nodes' addresses'
      | Err e => (nodes, Err e)
      end
  end.

(** misc/run_blockchain.py:65-80.  [values] is [request.get_json()]; the answer
    is the status code and [total_nodes] (absent with status 400). *)
Definition register_nodes (nodes : list String.string) (values : json)
  : list String.string * result (Z * option (list String.string)) :=
  match values with
  | JObj d =>
      match dict_get d "nodes"%string with
      | JNull => (nodes, Ok (400, None))
      | v =>
          match iterate v with
          | Err e => (nodes, Err e)
          | Ok addresses =>
              match register_loop nodes addresses with
              | (nodes', Ok _) => (nodes', Ok (201, Some nodes'))
              | (nodes', Err e) => (nodes', Err e)
              end
          end
      end
  | _ => (nodes, Err AttributeError)
  end.

(** misc/run_blockchain.py:56-62 *)
Definition full_chain (s : state) : answer :=
  Answer 200 (Z.of_nat (length (chain s))) (chain s).

(** A running server: the attributes of its [Blockchain]. *)
Record node := Node { node_state : state; node_peers : list String.string }.

(** The servers that can be reached, by the text that follows [http://]. *)
Definition network := list (String.string * node).

Fixpoint find_node (net : network) (name : String.string) : option node :=
  match net with
  | [] => None
  | (k, n) :: net' => if String.eqb k name then Some n else find_node net' name
  end.

Fixpoint set_node (net : network) (name : String.string) (n : node) : network :=
  match net with
  | [] => []
  | (k, m) :: net' =>
      if String.eqb k name then (k, n) :: net' else (k, m) :: set_node net' name n
  end.

(** misc/blockchain.py:84, [requests.get(f'http://{node}/chain')] *)
Definition fetch (net : network) (name : String.string) : result answer :=
  match find_node net name with
  | Some n => Ok (full_chain (node_state n))
  | None => Err GenericException
  end.

Variable sha : String.string -> String.string.
Variable enc : block -> String.string.
Variable enum : nat -> list String.string -> list String.string.

(** misc/blockchain.py:68-100 with the requests it sends. *)
Definition consensus (net : network) (k : nat) (n : node) : result (node * bool) :=
  let s := node_state n in
  let* (_, new_chain) :=
    foldM (fun st name => let* a := fetch net name in resolve_step sha enc st a)
          (enum k (node_peers n)) (Z.of_nat (length (chain s)), None) in
  match new_chain with
  | Some ((_ :: _) as c) =>
      Ok (Node (State (current_transactions s) c) (node_peers n), true)
  | _ => Ok (n, false)
  end.

(** The requests to a server of the network. *)
Inductive net_request :=
| NetTx (t : tx)
| NetMine (fuel : nat) (now : Z)
| NetRegister (values : json)
| NetResolve (k : nat).

(** Serving a request on the server [name].  A request that raises is answered
    with status 500 and leaves what was done before; a request to an unknown
    server reaches nobody. *)
Definition net_serve (net : network) (q : String.string * net_request) : network :=
  let (name, r) := q in
  match find_node net name with
  | None => net
  | Some n =>
      match r with
      | NetTx t =>
          match new_transaction (node_state n) t with
          | Ok (s, _) => set_node net name (Node s (node_peers n))
          | Err _ => net
          end
      | NetMine fuel now =>
          match mine sha enc fuel name now (node_state n) with
          | Ok (s, _) => set_node net name (Node s (node_peers n))
          | Err _ => net
          end
      | NetRegister values =>
          set_node net name (Node (node_state n) (fst (register_nodes (node_peers n) values)))
      | NetResolve k =>
          match consensus net k n with
          | Ok (n', _) => set_node net name n'
          | Err _ => net
          end
      end
  end.

(** A history of requests. *)
Definition net_run (net : network) (qs : list (String.string * net_request)) : network :=
  fold_left net_serve qs net.

(** Servers that have just been started, [(name, time of the start)]. *)
Definition net_init (names : list (String.string * Z)) : result network :=
  mapM (fun nt : String.string * Z => let (name, t) := nt in
        let* s := init sha enc t in Ok (name, Node s [])) names.
End Nodes.
