(** Properties C111 and C112: registration of nodes and networks of nodes
    (misc/blockchain.py, misc/run_blockchain.py). *)
From Coq Require Import Bool ZArith List Lia.
From Coq Require Import ssreflect ssrbool.
From Coq.Strings Require Ascii String.
From Verif Require Import Base BaseProofs BlockchainModel BlockchainProofs NodesModel NodesProofs.
Import Ascii.AsciiSyntax String.StringSyntax.
Delimit Scope char_scope with char.
Delimit Scope string_scope with string.
Import ListNotations.
Local Open Scope Z_scope.
Local Set SsrOldRewriteGoalsOrder.
Local Set Bullet Behavior "None".
Local Set Implicit Arguments.
Local Unset Strict Implicit.

(** The address [a] stands for the non-empty name [x]: the network location if
    there is one, the path otherwise. *)
Definition stands_for (urlparse : json -> result (String.string * String.string))
    (a : json) (x : String.string) : Prop :=
  x <> ""%string /\
  ((exists p, urlparse a = Ok (x, p)) \/ urlparse a = Ok (""%string, x)).

Lemma stands_forE up a x : stands_for up a x <-> names_ up a x.
Proof. by rewrite /stands_for /names_; split=> [[N [H|H]]|[[N H]|[N H]]]; auto. Qed.

(** An address for the examples: a text with a colon in front is a network
    location, any other text a path. *)
Definition toy_parse (a : json) : result (String.string * String.string) :=
  match a with
  | JStr (String.String ":"%char s) => Ok (s, "/"%string)
  | JStr s => Ok (""%string, s)
  | _ => Err AttributeError
  end.

(** C111.  [register_node] adds exactly the name the address stands for, keeps
    the set free of duplicates, and raises exactly when there is no such name. *)
Theorem C111_register_node up nodes a :
  match register_node up nodes a with
  | Ok nodes' =>
      exists x, stands_for up a x /\ (forall y, In y nodes' <-> In y nodes \/ y = x) /\
        (NoDup nodes -> NoDup nodes') /\ (In x nodes -> nodes' = nodes)
  | Err e =>
      (forall x, ~ stands_for up a x) /\
      (up a = Err e \/ (up a = Ok (""%string, ""%string) /\ e = ValueError))
  end.
Proof.
case R: (register_node up nodes a) => [nodes'|e].
  move/register_ok: R => [x [N ->]]; exists x; split; first by apply/stands_forE.
  split; first exact: set_add_in.
  split; first exact: set_add_nodup.
  move=> I; rewrite /set_add; case E: (existsb _ _) => //.
  suff : existsb (String.eqb x) nodes = true by rewrite E.
  by apply/existsb_exists; exists x; split=> //; apply/String.eqb_eq.
move/register_err: R => R; split=> // x [N H].
by case: R H => [->|[-> _]] [[p]|] //; case=> E; move: N; rewrite -E.
Qed.
Print Assumptions C111_register_node.

(** Over any history of registration requests the set has no duplicates and no
    empty name, and every name comes from an address of one of the requests. *)
Theorem C111_histories up (bodies : list json) :
  let nodes := fold_left (fun ns v => fst (register_nodes up ns v)) bodies [] in
  NoDup nodes /\ ~ In ""%string nodes /\
  forall y, In y nodes ->
    exists d l a, In (JObj d) bodies /\ iterate (dict_get d "nodes"%string) = Ok l /\
      In a l /\ stands_for up a y.
Proof.
have [N M] := requests_inv up bodies (NoDup_nil _); split=> //.
have K : forall y, In y (fold_left (fun ns v => fst (register_nodes up ns v)) bodies []) ->
  exists d l a, In (JObj d) bodies /\ iterate (dict_get d "nodes"%string) = Ok l /\
      In a l /\ stands_for up a y.
  move=> y /M [[]|[v [d [l [a [Iv [Ev [El [Ia Na]]]]]]]]].
  by subst v; exists d, l, a; split=> //; split=> //; split=> //; apply/stands_forE.
split=> // /K [d [l [a [_ [_ [_ [E _]]]]]]]; exact: E.
Qed.
Print Assumptions C111_histories.

(** A request with an array of addresses is answered with status 201 exactly
    when every address stands for a name, and then all of them are registered
    and [total_nodes] is the resulting set.  Otherwise it raises at the first
    bad address, but the addresses before it stay registered. *)
Theorem C111_array up nodes d l nodes' r :
  dict_get d "nodes"%string = JArr l ->
  register_nodes up nodes (JObj d) = (nodes', r) ->
  match r with
  | Ok (code, total) =>
      code = 201 /\ total = Some nodes' /\
      (forall a, In a l -> exists x, stands_for up a x) /\
      (forall y, In y nodes' <-> In y nodes \/ exists a, In a l /\ stands_for up a y)
  | Err _ =>
      exists before a after, l = before ++ a :: after /\
        (forall x, ~ stands_for up a x) /\
        (forall b, In b before -> exists x, stands_for up b x) /\
        (forall y, In y nodes' <-> In y nodes \/ exists b, In b before /\ stands_for up b y)
  end.
Proof.
move=> /(register_array up nodes) ->.
case E: (register_loop up nodes l) => [n' [u|e]] [<- <-]; case: (loop_spec E) => dn [rest [El [D [M [_ R]]]]].
  rewrite R app_nil_r in El; subst dn; split=> //; split=> //; split.
    by move=> a /D [x Hx]; exists x; apply/stands_forE.
  by move=> y; rewrite M; split=> -[I|[a [Ia Na]]]; try (by left); right; exists a; split=> //;
     apply/stands_forE.
case: R => a [rest' [Er Ha]]; exists dn, a, rest'; split; first by rewrite El Er.
split.
  move=> x [Nx Hx]; case: Ha Hx => [->|[-> _]] [[p]|] //; case=> Ex; move: Nx; by rewrite -Ex.
split.
  by move=> b /D [x Hx]; exists x; apply/stands_forE.
by move=> y; rewrite M; split=> -[I|[b [Ib Nb]]]; try (by left); right; exists b; split=> //;
   apply/stands_forE.
Qed.
Print Assumptions C111_array.

(** So a failed request is not without effect. *)
Theorem C111_failed_request_unchanged_refuted :
  exists nodes v nodes' e,
    register_nodes toy_parse nodes v = (nodes', Err e) /\ nodes' <> nodes.
Proof.
exists [], (JObj [("nodes"%string, JArr [JStr ":h:1"%string; JStr ""%string])]).
by exists ["h:1"%string], ValueError.
Qed.
Print Assumptions C111_failed_request_unchanged_refuted.

(** A single address instead of an array is taken apart: its characters become
    the nodes, if each of them is a path on its own. *)
Theorem C111_single_address up nodes d s :
  dict_get d "nodes"%string = JStr s ->
  (forall c, In c (characters s) -> up (JStr c) = Ok (""%string, c)) ->
  exists nodes',
    register_nodes up nodes (JObj d) = (nodes', Ok (201, Some nodes')) /\
    forall y, In y nodes' <->
      In y nodes \/ exists i c, String.get i s = Some c /\ y = String.String c ""%string.
Proof.
move=> /(register_string up nodes) -> H.
have C : forall t y, In y (characters t) <-> exists i c, String.get i t = Some c /\ y = String.String c ""%string.
  elim=> [|c t IH] y /=; first by split=> // -[i [c []]]; case: i.
  split.
    case=> [<-|/IH [i [c' [G ->]]]]; [by exists 0%nat, c|by exists (S i), c'].
  case=> -[|i] [c' [G ->]]; first by left; case: G => ->.
  by right; apply/IH; exists i, c'.
have NE : forall c, In c (characters s) -> c <> ""%string.
  by move=> c /C [i [x [_ ->]]].
case E: (register_loop up nodes _) => [n' r]; case: (loop_spec E) => dn [rest [El [D [M [_ R]]]]].
case: r R E => [u|e] R E; last first.
  case: R => a [rest' [Er Ha]].
  have : In a (map JStr (characters s)) by rewrite El Er in_app_iff; right; left.
  move=> /in_map_iff [c [Ea Ic]]; subst a; move: Ha; rewrite (H _ Ic) => -[//|[[Ec] _]].
  by case: (NE _ Ic).
exists n'; split=> //; rewrite R app_nil_r in El.
move=> y; rewrite M; split=> -[I|]; try (by left).
  case=> a [Ia Na]; right; apply/C; move: Ia; rewrite -El => /in_map_iff [c [Ea Ic]]; subst a.
  case: Na => [[Ny [p]]|[_]]; rewrite (H _ Ic) => -[E1]; last by rewrite -E1.
  by rewrite -E1 in Ny.
move=> /C Iy; right; exists (JStr y); split; first by rewrite -El; apply: in_map.
by right; split; [apply: NE|apply: H].
Qed.
Print Assumptions C111_single_address.

(** Bodies that are no objects, and fields that are no arrays. *)
Theorem C111_other_bodies up nodes v :
  (forall d, v <> JObj d) -> register_nodes up nodes v = (nodes, Err AttributeError).
Proof. by case: v => // d H; case: (H d). Qed.
Print Assumptions C111_other_bodies.

Theorem C111_status_400 up nodes v nodes' t :
  register_nodes up nodes v = (nodes', Ok (400, t)) <->
  nodes' = nodes /\ t = None /\
  exists d, v = JObj d /\ dict_get d "nodes"%string = JNull.
Proof.
split; last by case=> -> [-> [d [-> H]]]; rewrite /register_nodes H.
rewrite /register_nodes; case: v => // d.
case D: (dict_get _ _) => [|b|z|s|l|o] //=.
- by case=> <- <-; do !split=> //; exists d.
- by case: (register_loop _ _ _) => [n' [u|e]].
- by case: (register_loop _ _ _) => [n' [u|e]].
- by case: (register_loop _ _ _) => [n' [u|e]].
Qed.
Print Assumptions C111_status_400.

(** A number or a truth value is not iterable; of an object the keys are registered. *)
Theorem C111_other_values up nodes d :
  (forall b z, dict_get d "nodes"%string = JBool b \/ dict_get d "nodes"%string = JNum z ->
     register_nodes up nodes (JObj d) = (nodes, Err TypeError)) /\
  (forall o, dict_get d "nodes"%string = JObj o ->
     register_nodes up nodes (JObj d) =
     register_nodes up nodes (JObj [("nodes"%string, JArr (map (fun kv => JStr (fst kv)) o))])).
Proof.
by split=> [b z [] E|o E]; rewrite /register_nodes E.
Qed.
Print Assumptions C111_other_values.

Example C111_example :
  let body v := JObj [("x"%string, JNum 1); ("nodes"%string, v)] in
  register_nodes toy_parse ["a"%string] (body (JArr [JStr ":b"%string; JStr "a"%string; JStr "b"%string]))
  = (["a"; "b"]%string, Ok (201, Some ["a"; "b"]%string)) /\
  register_nodes toy_parse [] (body (JArr [JStr "a"%string; JStr ""%string; JStr "b"%string]))
  = (["a"%string], Err ValueError) /\
  register_nodes toy_parse [] (body (JStr "abba"%string))
  = (["a"; "b"]%string, Ok (201, Some ["a"; "b"]%string)) /\
  register_nodes toy_parse [] (body JNull) = ([], Ok (400, None)) /\
  register_nodes toy_parse [] (body (JObj [("k"%string, JStr "v"%string)]))
  = (["k"%string], Ok (201, Some ["k"%string])) /\
  register_nodes toy_parse [] (body (JNum 5)) = ([], Err TypeError).
Proof. by vm_compute. Qed.

(** C112.  A network of servers: after every history of requests every chain is
    valid, and no request makes a chain shorter. *)
Section Network.
Variable up : json -> result (String.string * String.string).
Variable sha : String.string -> String.string.
Variable enc : block -> String.string.
Variable enum : nat -> list String.string -> list String.string.
(** The order in which a set is enumerated is arbitrary. *)
Hypothesis enumP : forall k l x, In x (enum k l) <-> In x l.

Theorem C112_chains_valid names net0 qs name n :
  net_init sha enc names = Ok net0 ->
  find_node (net_run up sha enc enum net0 qs) name = Some n ->
  valid_chain sha enc (chain (node_state n)) = Ok true.
Proof.
move=> /init_valid V; exact: (@run_valid up sha enc enum enumP qs net0 V).
Qed.

Theorem C112_lengths_grow names net0 qs1 qs2 name n :
  net_init sha enc names = Ok net0 ->
  find_node (net_run up sha enc enum net0 qs1) name = Some n ->
  exists n', find_node (net_run up sha enc enum net0 (qs1 ++ qs2)) name = Some n' /\
    (length (chain (node_state n)) <= length (chain (node_state n')))%nat.
Proof.
move=> /init_valid V F.
have V1 := @run_valid up sha enc enum enumP qs1 net0 V.
rewrite /net_run fold_left_app; exact: (run_length up enumP qs2 V1 F).
Qed.

(** What conflict resolution does, whatever the order of the neighbours: it
    fails exactly if a registered name cannot be reached; otherwise the server
    ends with a chain at least as long as those of all its neighbours, which is
    its own unless some neighbour had a longer one. *)
Theorem C112_consensus net k n :
  (forall x m, find_node net x = Some m ->
     valid_chain sha enc (chain (node_state m)) = Ok true) ->
  match consensus sha enc enum net k n with
  | Ok (n', replaced) =>
      (forall x, In x (node_peers n) -> exists m, find_node net x = Some m /\
         (length (chain (node_state m)) <= length (chain (node_state n')))%nat) /\
      node_peers n' = node_peers n /\
      current_transactions (node_state n') = current_transactions (node_state n) /\
      if replaced then
        (length (chain (node_state n)) < length (chain (node_state n')))%nat /\
        exists x m, In x (node_peers n) /\ find_node net x = Some m /\
          chain (node_state n') = chain (node_state m)
      else n' = n
  | Err e => e = GenericException /\ exists x, In x (node_peers n) /\ find_node net x = None
  end.
Proof.
move=> V; case C: (consensus sha enc enum net k n) => [[n' r]|e].
  case: (consensus_ok enumP V C) => P [T [A D]]; do !split=> //.
  by case: r D {C} => // -[x [m [Ix [Fx [L E]]]]]; split=> //; exists x, m.
exact: (consensus_err enumP V C).
Qed.

(** One name that cannot be reached, registered once, makes every later conflict
    resolution fail. *)
Theorem C112_unreachable_neighbour net k n x :
  (forall y m, find_node net y = Some m ->
     valid_chain sha enc (chain (node_state m)) = Ok true) ->
  In x (node_peers n) -> find_node net x = None ->
  consensus sha enc enum net k n = Err GenericException.
Proof.
move=> V I F; case C: (consensus sha enc enum net k n) => [[n' r]|e].
  by case: (consensus_ok enumP V C) => _ [_ [/(_ x I) [m [Fm _]] _]]; rewrite F in Fm.
by case: (consensus_err enumP V C) => ->.
Qed.

(** One round of conflict resolution, in any order, makes all chains of a
    completely registered network equally long, namely as long as the longest. *)
Theorem C112_round net (rs : list (String.string * nat)) x m :
  (forall y n, find_node net y = Some n ->
     valid_chain sha enc (chain (node_state n)) = Ok true) ->
  (forall name n, find_node net name = Some n ->
     (forall y, In y (node_peers n) -> find_node net y <> None) /\
     forall y, find_node net y <> None -> y <> name -> In y (node_peers n)) ->
  find_node net x = Some m ->
  (forall name n, find_node net name = Some n ->
     (length (chain (node_state n)) <= length (chain (node_state m)))%nat) ->
  forall name n,
    find_node net name = Some n -> (exists k, In (name, k) rs) ->
    exists n', find_node (net_run up sha enc enum net
                 (map (fun q => (fst q, NetResolve (snd q))) rs)) name = Some n' /\
      length (chain (node_state n')) = length (chain (node_state m)).
Proof. move=> V P Fx Max name n F I; exact: (round_reaches up enumP V P Fx eq_refl Max F I). Qed.

(** But equal length is all that is reached: once all chains are equally long no
    request but mining changes any chain, so servers that disagree keep
    disagreeing. *)
Theorem C112_fork_persists net qs L name n :
  (forall y n, find_node net y = Some n ->
     valid_chain sha enc (chain (node_state n)) = Ok true) ->
  Forall (fun q : String.string * net_request => forall fuel now, snd q <> NetMine fuel now) qs ->
  (forall y n, find_node net y = Some n -> length (chain (node_state n)) = L) ->
  find_node net name = Some n ->
  exists n', find_node (net_run up sha enc enum net qs) name = Some n' /\
    chain (node_state n') = chain (node_state n).
Proof. move=> V NM H F; exact: (run_equal up enumP V NM H F). Qed.

(** In particular servers started at different times never agree without mining. *)
Theorem C112_agreement_refuted a b t1 t2 qs :
  a <> b -> t1 <> t2 ->
  Forall (fun q : String.string * net_request => forall fuel now, snd q <> NetMine fuel now) qs ->
  exists net0 n1 n2,
    net_init sha enc [(a, t1); (b, t2)] = Ok net0 /\
    find_node (net_run up sha enc enum net0 qs) a = Some n1 /\
    find_node (net_run up sha enc enum net0 qs) b = Some n2 /\
    chain (node_state n1) <> chain (node_state n2).
Proof.
move=> Nab Nt NM.
set g := fun t => Block 1 t [] 100 "1"%string.
set net0 : network := [(a, Node (State [] [g t1]) []); (b, Node (State [] [g t2]) [])].
have I0 : net_init sha enc [(a, t1); (b, t2)] = Ok net0 by [].
have V := init_valid I0.
have Fa : find_node net0 a = Some (Node (State [] [g t1]) []) by rewrite /= String.eqb_refl.
have Fb : find_node net0 b = Some (Node (State [] [g t2]) []).
  rewrite /=; case: (String.eqb_spec a b) => [//|_]; by rewrite String.eqb_refl.
have H : forall y n, find_node net0 y = Some n -> length (chain (node_state n)) = 1%nat.
  move=> y n /=; case: String.eqb => [[<-] //|]; by case: String.eqb => // -[<-].
case: (run_equal up enumP V NM H Fa) => n1 [F1 E1].
case: (run_equal up enumP V NM H Fb) => n2 [F2 E2].
by exists net0, n1, n2; do !split=> //; rewrite E1 E2 /= => -[E]; case: Nt.
Qed.
End Network.
Print Assumptions C112_chains_valid.
Print Assumptions C112_lengths_grow.
Print Assumptions C112_consensus.
Print Assumptions C112_unreachable_neighbour.
Print Assumptions C112_round.
Print Assumptions C112_fork_persists.
Print Assumptions C112_agreement_refuted.

(** Two servers register each other; one mines, the other adopts its chain; a
    dead neighbour then blocks the resolution. *)
Definition net_sha (s : String.string) : String.string :=
  if Nat.eqb (Nat.modulo (String.length s) 3) 1 then String.append "0000"%string s
  else String.append "1"%string s.
Definition net_enc (b : block) : String.string :=
  String.append (str_int (index b)) (str_int (timestamp b)).
Definition net_body (s : String.string) : json :=
  JObj [("nodes"%string, JArr [JStr s])].

Example C112_example :
  let run qs := rmap (fun net => map (fun kn => (fst kn, map timestamp (chain (node_state (snd kn))))) net)
    (let* net0 := net_init net_sha net_enc [("a"%string, 10); ("b"%string, 20)] in
     Ok (net_run toy_parse net_sha net_enc (fun _ l => rev l) net0 qs)) in
  let setup := [("a", NetRegister (net_body ":b")); ("b", NetRegister (net_body ":a"))]%string in
  run (setup ++ [("a", NetResolve 0); ("b", NetResolve 0)]%string)
  = Ok [("a", [10]); ("b", [20])]%string /\
  run (setup ++ [("a", NetMine 200 30); ("b", NetResolve 0); ("a", NetResolve 0)]%string)
  = Ok [("a", [10; 30]); ("b", [10; 30])]%string /\
  run (setup ++ [("b", NetRegister (net_body "x")); ("a", NetMine 200 30); ("b", NetResolve 0)]%string)
  = Ok [("a", [10; 30]); ("b", [20])]%string.
Proof. by vm_compute. Qed.
