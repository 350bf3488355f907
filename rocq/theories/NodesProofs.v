(** Proofs about the model of node registration and of networks of nodes. *)
From Coq Require Import Bool ZArith List Lia.
From Coq Require Import ssreflect ssrbool.
From Coq.Strings Require String.
From Verif Require Import Base BaseProofs BlockchainModel BlockchainProofs NodesModel.
Import String.StringSyntax.
Import ListNotations.
Local Open Scope Z_scope.
Local Set SsrOldRewriteGoalsOrder.
Local Set Bullet Behavior "None".
Local Set Implicit Arguments.
Local Unset Strict Implicit.

Lemma str_truthP s : str_truth s = true <-> s <> ""%string.
Proof. by case: s => [|c s]; split. Qed.

Lemma set_add_in nodes x y : In y (set_add nodes x) <-> In y nodes \/ y = x.
Proof.
rewrite /set_add; case E: (existsb _ _).
  split; [by left|case=> // ->].
  by move/existsb_exists: E => [z [Hz /String.eqb_eq ->]].
by rewrite in_app_iff /=; split; case; auto; case; auto.
Qed.

Lemma set_add_nodup nodes x : NoDup nodes -> NoDup (set_add nodes x).
Proof.
move=> H; rewrite /set_add; case E: (existsb _ _) => //.
have N : ~ In x nodes.
  move=> I; have : existsb (String.eqb x) nodes = true.
    by apply/existsb_exists; exists x; split=> //; apply/String.eqb_eq.
  by rewrite E.
elim: nodes H N {E} => [|y l IH] H N /=; first by constructor.
inversion_clear H as [|? ? N1 H1]; constructor; last by apply: IH => // I; apply: N; right.
rewrite in_app_iff; case=> [//|[E|[]]]; apply: N; by left.
Qed.

Section Register.
Variable up : json -> result (String.string * String.string).

(** The name an address stands for. *)
Definition names_ (a : json) (x : String.string) : Prop :=
  x <> ""%string /\ (exists p, up a = Ok (x, p)) \/
  x <> ""%string /\ up a = Ok (""%string, x).

Lemma register_ok nodes a nodes' :
  register_node up nodes a = Ok nodes' <-> exists x, names_ a x /\ nodes' = set_add nodes x.
Proof.
rewrite /register_node /names_; case: (up a) => [[n p]|e] /=; last first.
  by split=> // -[x [[[_ [? //]]|[_ //]] _]].
split.
  case: n => [|c n] /=.
    case: p => [|d p] //= -[<-]; exists (String.String d p); split=> //; by right; split.
  by case=> <-; exists (String.String c n); split=> //; left; split=> //; exists p.
case=> x [[[N [q [E1 E2]]]|[N [E1 E2]]] ->]; subst.
  by move/str_truthP: N => ->.
by move/str_truthP: N => ->.
Qed.

Lemma register_err nodes a e :
  register_node up nodes a = Err e <->
  up a = Err e \/ (up a = Ok (""%string, ""%string) /\ e = ValueError).
Proof.
rewrite /register_node; case: (up a) => [[n p]|e'] /=; last first.
  by split=> [[->]|[[->]|[]]] //; left.
case: n => [|c n] /=; last by split=> // -[|[]].
case: p => [|d p] /=; last by split=> // -[|[]].
by split=> [[<-]|[//|[_ ->]]//]; right.
Qed.

Lemma loop_spec l : forall nodes nodes' r,
  register_loop up nodes l = (nodes', r) ->
  exists done rest, l = done ++ rest /\
    (forall a, In a done -> exists x, names_ a x) /\
    (forall y, In y nodes' <-> In y nodes \/ exists a, In a done /\ names_ a y) /\
    (NoDup nodes -> NoDup nodes') /\
    match r with
    | Ok _ => rest = []
    | Err e => exists a rest', rest = a :: rest' /\
        (up a = Err e \/ (up a = Ok (""%string, ""%string) /\ e = ValueError))
    end.
Proof.
elim: l => [|a l IH] nodes nodes' r /=.
  case=> <- <-; exists [], []; do !split=> //; try by left.
  by case=> // -[x []].
case R: (register_node up nodes a) => [n1|e].
  move=> /IH [dn [rest [-> [D [M [ND Hr]]]]]].
  move/register_ok: (R) => [x [Nx E1]].
  exists (a :: dn), rest; do !split=> //.
  - by move=> b /= [<-|/D //]; exists x.
  - move=> /M [|[b [Ib Nb]]]; last by right; exists b; split=> //; right.
    rewrite E1 => /set_add_in [|->]; [by left|right; exists a; split=> //; by left].
  - case=> [I|[b [/= [Eb|Ib] Nb]]]; apply/M; [left|left|right; by exists b].
      by rewrite E1; apply/set_add_in; left.
    rewrite E1; apply/set_add_in; right; subst b.
    move: Nb Nx; rewrite /names_ => -[[N1 [p1 P1]]|[N1 P1]] [[N2 [p2 P2]]|[N2 P2]].
    + by move: P2; rewrite P1 => -[].
    + by move: P2; rewrite P1 => -[].
    + by move: P2; rewrite P1 => -[E _]; rewrite -E in N2.
    + by move: P2; rewrite P1 => -[].
  - by move=> H; apply: ND; rewrite E1; apply: set_add_nodup.
case=> <- <-; exists [], (a :: l); do !split=> //.
- by left.
- by case=> // -[x []].
- by exists a, l; split=> //; move/register_err: R.
Qed.

Lemma register_nodes_nodup nodes v :
  NoDup nodes -> NoDup (fst (register_nodes up nodes v)).
Proof.
move=> H; rewrite /register_nodes; case: v => //= d.
case: (dict_get _ _) => [|b|z|s|l|o] //=.
- by case E: (register_loop _ _ _) => [n' [u|e]]; case: (loop_spec E) => ? [? [_ [_ [_ [K _]]]]]; apply: K.
- by case E: (register_loop _ _ _) => [n' [u|e]]; case: (loop_spec E) => ? [? [_ [_ [_ [K _]]]]]; apply: K.
- by case E: (register_loop _ _ _) => [n' [u|e]]; case: (loop_spec E) => ? [? [_ [_ [_ [K _]]]]]; apply: K.
Qed.

Lemma register_nodes_from nodes v y :
  In y (fst (register_nodes up nodes v)) ->
  In y nodes \/
  exists d l a, v = JObj d /\ iterate (dict_get d "nodes"%string) = Ok l /\ In a l /\ names_ a y.
Proof.
rewrite /register_nodes; case: v => [|b|z|s|l|d] /=; try by left.
case D: (dict_get _ _) => [|b|z|s|l|o] /=; try by left.
- case E: (register_loop _ _ _) => [n' r].
  have -> : fst (match r with Ok _ => (n', Ok (201, Some n')) | Err e => (n', Err e) end) = n' by case: r {E}.
  case: (loop_spec E) => dn [rest [El [_ [M _]]]] /M [|[a [I N]]]; first by left.
  right; exists d, (dn ++ rest), a; rewrite D /= El; do !split=> //.
  by rewrite in_app_iff; left.
- case E: (register_loop _ _ _) => [n' r].
  have -> : fst (match r with Ok _ => (n', Ok (201, Some n')) | Err e => (n', Err e) end) = n' by case: r {E}.
  case: (loop_spec E) => dn [rest [El [_ [M _]]]] /M [|[a [I N]]]; first by left.
  right; exists d, (dn ++ rest), a; rewrite D /= El; do !split=> //.
  by rewrite in_app_iff; left.
- case E: (register_loop _ _ _) => [n' r].
  have -> : fst (match r with Ok _ => (n', Ok (201, Some n')) | Err e => (n', Err e) end) = n' by case: r {E}.
  case: (loop_spec E) => dn [rest [El [_ [M _]]]] /M [|[a [I N]]]; first by left.
  right; exists d, (dn ++ rest), a; rewrite D /= El; do !split=> //.
  by rewrite in_app_iff; left.
Qed.

Lemma requests_inv vs : forall nodes,
  NoDup nodes ->
  let nodes' := fold_left (fun ns v => fst (register_nodes up ns v)) vs nodes in
  NoDup nodes' /\
  forall y, In y nodes' -> In y nodes \/
    exists v d l a, In v vs /\ v = JObj d /\ iterate (dict_get d "nodes"%string) = Ok l /\
      In a l /\ names_ a y.
Proof.
elim: vs => [|v vs IH] nodes H /=; first by split=> // y; left.
case: (IH _ (register_nodes_nodup v H)) => N1 M1; split=> // y /M1 [I|[w [d [l [a [Iw K]]]]]].
  case: (register_nodes_from I) => [|[d [l [a [E K]]]]]; first by left.
  by right; exists v, d, l, a; split=> //; left.
by right; exists w, d, l, a; split=> //; right.
Qed.

(** A body with an array. *)
Lemma register_array nodes d l :
  dict_get d "nodes"%string = JArr l ->
  register_nodes up nodes (JObj d) =
  match register_loop up nodes l with
  | (n', Ok _) => (n', Ok (201, Some n'))
  | (n', Err e) => (n', Err e)
  end.
Proof. by rewrite /register_nodes => ->. Qed.

Lemma register_string nodes d s :
  dict_get d "nodes"%string = JStr s ->
  register_nodes up nodes (JObj d) =
  match register_loop up nodes (map JStr (characters s)) with
  | (n', Ok _) => (n', Ok (201, Some n'))
  | (n', Err e) => (n', Err e)
  end.
Proof. by rewrite /register_nodes => ->. Qed.
End Register.

Lemma names_inj up a x y : names_ up a x -> names_ up a y -> x = y.
Proof.
case=> [[N1 [p P1]]|[N1 P1]] [[N2 [q P2]]|[N2 P2]]; move: P2; rewrite P1; case.
- by [].
- by move=> E _; rewrite -E in N2 *; case: N1.
- by move=> E _; rewrite -E in N2.
- by [].
Qed.

(** ** Networks *)
Lemma find_set_same net name n m :
  find_node net name = Some m -> find_node (set_node net name n) name = Some n.
Proof.
elim: net => [|[k x] net IH] //=; case E: (String.eqb k name) => /=; first by rewrite E.
by rewrite E.
Qed.

Lemma find_set_other net name n other :
  other <> name -> find_node (set_node net name n) other = find_node net other.
Proof.
move=> N; elim: net => [|[k x] net IH] //=; case: (String.eqb_spec k name) => [E|E] /=.
  by case: (String.eqb_spec k other) => // E2; case: N; rewrite -E2.
by rewrite IH.
Qed.

Section Net.
Variable up : json -> result (String.string * String.string).
Variable sha : String.string -> String.string.
Variable enc : block -> String.string.
Variable enum : nat -> list String.string -> list String.string.
Local Notation net_serve := (net_serve up sha enc enum).
Local Notation net_run := (net_run up sha enc enum).
Local Notation consensus := (consensus sha enc enum).
Local Notation len n := (length (chain (node_state n))).

Definition net_valid (net : network) : Prop :=
  forall name n, find_node net name = Some n -> valid_chain sha enc (chain (node_state n)) = Ok true.

(** The loop of [consensus] on a list of neighbours. *)
Lemma consensus_fold net l :
  net_valid net ->
  forall m nc,
  match foldM (fun st name => let* a := fetch net name in resolve_step sha enc st a) l (m, nc) with
  | Ok (m', nc') =>
      (forall x, In x l -> exists n, find_node net x = Some n /\ Z.of_nat (len n) <= m') /\
      m <= m' /\
      ((m' = m /\ nc' = nc) \/
       exists x n, In x l /\ find_node net x = Some n /\ m < m' /\ m' = Z.of_nat (len n) /\
         nc' = Some (chain (node_state n)))
  | Err e => e = GenericException /\ exists x, In x l /\ find_node net x = None
  end.
Proof.
move=> V; elim: l => [|x l IH] m nc; first by split=> //; split; [lia|left].
rewrite foldM_cons /fetch; case F: (find_node net x) => [n|] /=; last first.
  by split=> //; exists x; split=> //; left.
have Vn := V _ _ F; rewrite /resolve_step /= Vn /=.
case G: (Z.of_nat (len n) >? m) => /=.
  move: (IH (Z.of_nat (len n)) (Some (chain (node_state n)))).
  rewrite /fetch; case: (foldM _ _ _) => [[m' nc']|e]; last first.
    by case=> -> [y [Iy Fy]]; split=> //; exists y; split=> //; right.
  case=> A [L B]; split; [|split; [lia|]].
    move=> y [<-|/A //]; by exists n.
  right; case: B => [[-> ->]|[y [k [Iy [Fy [Lm [Em ->]]]]]]].
    exists x, n; do !split=> //; [by left|lia].
  subst m'; exists y, k; do !split=> //; [by right|lia].
move: (IH m nc); rewrite /fetch; case: (foldM _ _ _) => [[m' nc']|e]; last first.
  by case=> -> [y [Iy Fy]]; split=> //; exists y; split=> //; right.
case=> A [L B]; split; [|split; [lia|]].
  move=> y [<-|/A //]; exists n; split=> //; lia.
case: B => [B|[y [k [Iy K]]]]; [by left|right; exists y, k; split=> //; by right].
Qed.

Hypothesis enumP : forall k l x, In x (enum k l) <-> In x l.

Lemma consensus_ok net k n n' r :
  net_valid net -> consensus net k n = Ok (n', r) ->
  node_peers n' = node_peers n /\
  current_transactions (node_state n') = current_transactions (node_state n) /\
  (forall x, In x (node_peers n) -> exists m, find_node net x = Some m /\ (len m <= len n')%nat) /\
  (if r then exists x m, In x (node_peers n) /\ find_node net x = Some m /\
       (len n < len n')%nat /\ chain (node_state n') = chain (node_state m)
   else n' = n).
Proof.
move=> V; rewrite /NodesModel.consensus.
move: (consensus_fold (enum k (node_peers n)) V (Z.of_nat (len n)) None).
case: (foldM _ _ _) => [[m' nc']|e] //= [A [L B]].
case: B => [[Em ->]|[x [y [Ix [Fx [Lm [Em ->]]]]]]].
  case=> <- <-; split=> //; split=> //; split=> // x Hx; case: (A x); first by apply/enumP.
  by move=> y [Fy Ly]; exists y; split=> //; lia.
have NE : chain (node_state y) <> [].
  by have := V _ _ Fx; case: (chain (node_state y)).
have -> : match chain (node_state y) with
         | [] => Ok (n, false)
         | _ :: _ => Ok (Node (State (current_transactions (node_state n)) (chain (node_state y)))
                              (node_peers n), true)
         end = Ok (Node (State (current_transactions (node_state n)) (chain (node_state y)))
                        (node_peers n), true) by case: (chain (node_state y)) NE.
move=> [<- <-] /=.
split=> //; split=> //; split.
  move=> z Hz; case: (A z); first by apply/enumP.
  move=> w [Fw Lw]; exists w; split=> //; lia.
exists x, y; do !split=> //; first by move/enumP: Ix.
lia.
Qed.

Lemma consensus_err net k n e :
  net_valid net -> consensus net k n = Err e ->
  e = GenericException /\ exists x, In x (node_peers n) /\ find_node net x = None.
Proof.
move=> V; rewrite /NodesModel.consensus.
move: (consensus_fold (enum k (node_peers n)) V (Z.of_nat (len n)) None).
case: (foldM _ _ _) => [[m' nc']|e'] /=; first by case: nc' => [[|]|].
by case=> -> [x [Ix Fx]] [<-]; split=> //; exists x; split=> //; move/enumP: Ix.
Qed.

(** What a request does to the chains. *)
Lemma serve_cases net q name n :
  net_valid net -> find_node net name = Some n ->
  exists n', find_node (net_serve net q) name = Some n' /\
    (chain (node_state n') = chain (node_state n) \/
     (name = fst q /\ (exists fuel now, snd q = NetMine fuel now) /\
      exists b, chain (node_state n') = chain (node_state n) ++ [b] /\
      valid_chain sha enc (chain (node_state n')) = Ok true) \/
     (name = fst q /\ (exists k, snd q = NetResolve k) /\ (len n < len n')%nat /\
      exists x m, find_node net x = Some m /\ chain (node_state n') = chain (node_state m))).
Proof.
move=> V F; case: q => target req; rewrite /NodesModel.net_serve.
case Ft: (find_node net target) => [t|]; last by exists n; split=> //; left.
case: (String.string_dec name target) => [E|NE]; last first.
  have K m : find_node (set_node net target m) name = Some n by rewrite find_set_other.
  exists n; split; last by left.
  case: req => [u|fuel now|v|k].
  - by case: new_transaction => [[s _]|e] //.
  - by case: mine => [[s _]|e] //.
  - by [].
  - by case: NodesModel.consensus => [[s _]|e] //.
subst target; move: Ft; rewrite F => -[Et]; subst t.
have NEc : chain (node_state n) <> [] by have := V _ _ F; case: chain.
have K m : find_node (set_node net name m) name = Some m by exact: find_set_same F.
case: req => [u|fuel now|v|k].
- case T: new_transaction => [[s i]|e]; last by exists n; split=> //; left.
  exists (Node s (node_peers n)); split=> //; left => /=.
  move: T; rewrite /new_transaction; case: (last_block _) => [b|] //= [<- _] //.
- case M: mine => [[s b]|e]; last by exists n; split=> //; left.
  exists (Node s (node_peers n)); split=> //; right; left => /=.
  split=> //; split; first by exists fuel, now.
  case: (node_state n) NEc M (V _ _ F) => t0 c /= /snoc_case [c0 [a ->]] M Vc.
  case: (mine_snoc M) => Eb [-> Vb] /=; exists b; split=> //.
  case/valid_chain_spec: Vc => N Lk; apply/valid_chain_spec; split; first by case: c0 {M N Lk Eb}.
  apply: linked_snoc => //; by rewrite Eb.
- by exists (Node (node_state n) (fst (register_nodes up (node_peers n) v))); split=> //; left.
- case C: (NodesModel.consensus _ _ _ _ _ _) => [[n' r]|e]; last by exists n; split=> //; left.
  exists n'; split=> //; case: (consensus_ok V C) => _ [_ [_]]; case: r {C} => [|->]; last by left.
  case=> x [m [Ix [Fx [L E]]]]; right; right; split=> //; split; first by exists k.
  by split=> //; exists x, m.
Qed.

Lemma serve_none net q name :
  find_node net name = None -> find_node (net_serve net q) name = None.
Proof.
move=> F; case: q => target req; rewrite /NodesModel.net_serve.
case Ft: (find_node net target) => [t|] //.
have NE : name <> target by move=> E; move: F; rewrite E Ft.
case: req => [u|fuel now|v|k].
- by case: new_transaction => [[s _]|e] //; rewrite find_set_other.
- by case: mine => [[s _]|e] //; rewrite find_set_other.
- by rewrite find_set_other.
- by case: NodesModel.consensus => [[s _]|e] //; rewrite find_set_other.
Qed.

Lemma serve_valid net q : net_valid net -> net_valid (net_serve net q).
Proof.
move=> V name n' F'.
case F: (find_node net name) => [n|]; last by rewrite serve_none in F'.
case: (serve_cases q V F) => n1 [F1 H]; move: F'; rewrite F1 => -[E]; subst n1.
case: H => [->|[[_ [_ [b [_ Vb]]]]|[_ [_ [_ [x [m [Fx ->]]]]]]]] //; first exact: V F.
exact: V Fx.
Qed.

Lemma run_valid qs : forall net, net_valid net -> net_valid (net_run net qs).
Proof. by elim: qs => [|q qs IH] net V //=; apply: IH; apply: serve_valid. Qed.

Lemma init_valid names net : net_init sha enc names = Ok net -> net_valid net.
Proof.
elim: names net => [|[k t] names IH] net; first by case=> <-.
rewrite /net_init [mapM _ (_ :: _)]/= -/(net_init sha enc names).
case E: (net_init sha enc names) IH => [l|] //= IH [<-] name n /=.
case: (String.eqb k name) => [[<-] //|]; exact: (IH l).
Qed.

Lemma serve_length net q name n :
  net_valid net -> find_node net name = Some n ->
  exists n', find_node (net_serve net q) name = Some n' /\ (len n <= len n')%nat.
Proof.
move=> V F; case: (serve_cases q V F) => n' [F' H]; exists n'; split=> //.
case: H => [->|[[_ [_ [b [-> _]]]]|[_ [_ [L _]]]]] //; last by lia.
by rewrite app_length; lia.
Qed.

Lemma run_length qs : forall net name n,
  net_valid net -> find_node net name = Some n ->
  exists n', find_node (net_run net qs) name = Some n' /\ (len n <= len n')%nat.
Proof.
elim: qs => [|q qs IH] net name n V F /=; first by exists n.
case: (serve_length q V F) => n1 [F1 L1].
case: (IH _ _ _ (serve_valid (q := q) V) F1) => n2 [F2 L2]; exists n2; split=> //; lia.
Qed.

(** Without mining no chain gets longer than the longest one. *)
Definition no_mine (q : String.string * net_request) : Prop :=
  forall fuel now, snd q <> NetMine fuel now.

Lemma serve_bound net q B :
  net_valid net -> no_mine q ->
  (forall name n, find_node net name = Some n -> (len n <= B)%nat) ->
  forall name n, find_node (net_serve net q) name = Some n -> (len n <= B)%nat.
Proof.
move=> V NM H name n' F'.
case F: (find_node net name) => [n|]; last by rewrite serve_none in F'.
case: (serve_cases q V F) => n1 [F1 K]; move: F'; rewrite F1 => -[E]; subst n1.
case: K => [->|[[_ [[fuel [now E]] _]]|[_ [_ [_ [x [m [Fx ->]]]]]]]]; first exact: H F.
  by case: (NM fuel now).
exact: H Fx.
Qed.

Lemma run_bound qs : forall net B,
  net_valid net -> Forall no_mine qs ->
  (forall name n, find_node net name = Some n -> (len n <= B)%nat) ->
  forall name n, find_node (net_run net qs) name = Some n -> (len n <= B)%nat.
Proof.
elim: qs => [|q qs IH] net B V F H //=; inversion_clear F.
by apply: IH => //; [apply: serve_valid|apply: serve_bound].
Qed.

(** When all chains are equally long, nothing changes without mining. *)
Lemma serve_equal net q L :
  net_valid net -> no_mine q ->
  (forall name n, find_node net name = Some n -> len n = L) ->
  forall name n, find_node net name = Some n ->
  exists n', find_node (net_serve net q) name = Some n' /\
    chain (node_state n') = chain (node_state n).
Proof.
move=> V NM H name n F; case: (serve_cases q V F) => n1 [F1 K]; exists n1; split=> //.
case: K => [//|[[_ [[fuel [now E]] _]]|[_ [_ [Lt [x [m [Fx E]]]]]]]].
  by case: (NM fuel now).
by move: Lt; rewrite E (H _ _ F) (H _ _ Fx); lia.
Qed.

Lemma run_equal qs : forall net L,
  net_valid net -> Forall no_mine qs ->
  (forall name n, find_node net name = Some n -> len n = L) ->
  forall name n, find_node net name = Some n ->
  exists n', find_node (net_run net qs) name = Some n' /\
    chain (node_state n') = chain (node_state n).
Proof.
elim: qs => [|q qs IH] net L V NM H name n F /=; first by exists n.
inversion_clear NM as [|? ? N1 N2].
case: (serve_equal V N1 H F) => n1 [F1 E1].
have H1 : forall x m, find_node (net_serve net q) x = Some m -> len m = L.
  move=> x m' Fm'; case Fx: (find_node net x) => [m|]; last by rewrite serve_none in Fm'.
  case: (serve_equal V N1 H Fx) => m2 [F2 E2]; move: Fm'; rewrite F2 => -[<-].
  by rewrite E2; apply: H Fx.
case: (IH _ L (serve_valid (q := q) V) N2 H1 _ _ F1) => n2 [F2 E2].
by exists n2; split=> //; rewrite E2.
Qed.

(** Resolving keeps the set of neighbours. *)
Lemma resolve_peers net target k name n :
  net_valid net -> find_node net name = Some n ->
  exists n', find_node (net_serve net (target, NetResolve k)) name = Some n' /\
    node_peers n' = node_peers n.
Proof.
move=> V F; rewrite /NodesModel.net_serve.
case Ft: (find_node net target) => [t|]; last by exists n.
case C: (NodesModel.consensus _ _ _ _ _ _) => [[t' r]|e]; last by exists n.
case: (String.string_dec name target) => [E|NE]; last by exists n; rewrite find_set_other.
subst target; rewrite F in Ft; case: Ft => Et; subst t.
by exists t'; rewrite (find_set_same _ F); split=> //; case: (consensus_ok V C).
Qed.

(** A server that knows a longest chain has a longest chain after resolving. *)
Lemma resolve_reaches net name k n B x m :
  net_valid net -> find_node net name = Some n ->
  (forall y, In y (node_peers n) -> find_node net y <> None) ->
  In x (node_peers n) \/ x = name -> find_node net x = Some m -> len m = B ->
  exists n', find_node (net_serve net (name, NetResolve k)) name = Some n' /\ (B <= len n')%nat.
Proof.
move=> V F R Hx Fx Lm; rewrite /NodesModel.net_serve F.
case C: (NodesModel.consensus _ _ _ _ _ _) => [[t' r]|e]; last first.
  by case: (consensus_err V C) => _ [y [Iy Fy]]; case: (R y Iy).
exists t'; rewrite (find_set_same _ F); split=> //.
case: (consensus_ok V C) => _ [_ [A D]]; case: Hx => [Ix|Ex].
  by case: (A x Ix) => m' [Fm' L']; move: Fx; rewrite Fm' => -[Em]; rewrite -Lm -Em.
subst x; rewrite F in Fx; case: Fx => Em; subst m.
by case: r D {C} => [[y [m' [_ [_ [L _]]]]]|->]; lia.
Qed.

(** One round of conflict resolution on a completely registered network. *)
Lemma round_reaches rs : forall net B x m,
  net_valid net ->
  (forall name n, find_node net name = Some n ->
     (forall y, In y (node_peers n) -> find_node net y <> None) /\
     forall y, find_node net y <> None -> y <> name -> In y (node_peers n)) ->
  find_node net x = Some m -> len m = B ->
  (forall name n, find_node net name = Some n -> (len n <= B)%nat) ->
  forall name n,
    find_node net name = Some n -> (exists k, In (name, k) rs) ->
    exists n', find_node (net_run net (map (fun q => (fst q, NetResolve (snd q))) rs)) name = Some n'
      /\ len n' = B.
Proof.
elim: rs => [|[t j] rs IH] net B x m V P Fx Lm Max name n F [k Ik]; first by case: Ik.
rewrite [map _ _]/=.
have NM : no_mine (t, NetResolve j) by [].
set net1 := net_serve net (t, NetResolve j).
have V1 : net_valid net1 by apply: serve_valid.
have Max1 : forall y z, find_node net1 y = Some z -> (len z <= B)%nat.
  by apply: serve_bound => //.
have P1 : forall y z, find_node net1 y = Some z ->
     (forall w, In w (node_peers z) -> find_node net1 w <> None) /\
     forall w, find_node net1 w <> None -> w <> y -> In w (node_peers z).
  move=> y z Fz; case Fy: (find_node net y) => [z0|]; last by rewrite /net1 serve_none in Fz.
  case: (resolve_peers t j V Fy) => z1 []; rewrite -/net1 Fz => -[Ez] Ep; subst z1; rewrite Ep.
  case: (P _ _ Fy) => Pa Pb; split=> w.
    move=> /Pa; case Fw: (find_node net w) => [w0|] // _.
    by case: (resolve_peers t j V Fw) => w1 [-> _].
  case Fw: (find_node net w) => [w0|]; first by move=> _; apply: Pb; rewrite Fw.
  by rewrite /net1 serve_none.
case: (serve_length (t, NetResolve j) V Fx) => m1 [Fm1 Lm1].
have Lm1' : len m1 = B by have := Max1 _ _ Fm1; lia.
case: (serve_length (t, NetResolve j) V F) => n1 [Fn1 _].
case: Ik => [[Et Ej]|Ik]; last first.
  by apply: (IH net1 B x m1 V1 P1 Fm1 Lm1' Max1 name n1 Fn1); exists k.
subst t j.
have [n2 [Fn2 Ln2]] : exists n', find_node net1 name = Some n' /\ (B <= len n')%nat.
  apply: (resolve_reaches (x := x) (m := m) k V F) => //; first by case: (P _ _ F).
  case: (String.string_dec x name) => [->|NE]; [by right|left].
  by case: (P _ _ F) => _ Pb; apply: Pb => //; rewrite Fx.
case: (run_length (map (fun q => (fst q, NetResolve (snd q))) rs) V1 Fn2) => n3 [Fn3 Ln3].
exists n3; split=> //.
suff : (len n3 <= B)%nat by lia.
apply: (run_bound (qs := map (fun q => (fst q, NetResolve (snd q))) rs) V1 _ Max1 Fn3).
by apply/Forall_forall => q /in_map_iff [q' [<- _]].
Qed.

(** Neighbours of every server. *)
Lemma serve_nodup net q :
  (forall name n, find_node net name = Some n -> NoDup (node_peers n)) ->
  net_valid net ->
  forall name n, find_node (net_serve net q) name = Some n -> NoDup (node_peers n).
Proof.
move=> H V name n'; case: q => target req; rewrite /NodesModel.net_serve.
case Ft: (find_node net target) => [t|]; last exact: H.
have K m : NoDup (node_peers m) ->
    find_node (set_node net target m) name = Some n' -> NoDup (node_peers n').
  move=> Hm; case: (String.string_dec name target) => [E|NE].
    by subst target; rewrite (find_set_same _ Ft) => -[<-].
  by rewrite find_set_other //; apply: H.
have Ht := H _ _ Ft.
case: req => [u|fuel now|v|k].
- by case: new_transaction => [[s _]|e]; [apply: K|apply: H].
- by case: mine => [[s _]|e]; [apply: K|apply: H].
- by apply: K => /=; apply: register_nodes_nodup.
- case C: (NodesModel.consensus _ _ _ _ _ _) => [[t' r]|e]; last exact: H.
  by apply: K; case: (consensus_ok V C) => ->.
Qed.
End Net.
