(** Property C118: the classes that the memoized factories return, over histories of calls.

    [irr] and [gen] are an arbitrary irreducibility test and generator of moduli (with a
    random state of any type); a history is a list of calls, each a list of positional
    arguments and a list of keywords with their values. *)
From Coq Require Import Bool ZArith List String Lia.
From Coq Require Import ssreflect ssrbool.
From Verif Require ModpField IrredModel FiniteFieldModel.
From Verif Require Import Base UtilsModel UtilsProofs FactoryModel FactoryProofs.
Import ListNotations.
Local Open Scope Z_scope.
Local Set SsrOldRewriteGoalsOrder.

(** A modulus passed by position raises TypeError in every history (its hash does not
    exist), and nothing is cached. *)
Theorem C118_positional_modulus : forall (St : Type) irr (gen : Z -> Z -> St -> result (list Z) * St)
    pre s0 rs st (p m : arg) (g : list Z),
  hash_run (ff_fun irr gen) pre ([], s0) = (rs, st) ->
  hash_run (ff_fun irr gen) (pre ++ [([p; m; APoly g], [])]) ([], s0) = (rs ++ [Err TypeError], st).
Proof.
move=> St irr gen pre s0 rs st p m g E; apply: hash_unhashable => //.
by rewrite /key /= !andbF.
Qed.
Print Assumptions C118_positional_modulus.

(** A modulus passed by keyword is looked at once for each p and m: after a call
    FiniteField(p, m, polynomialModulus=x) that returned a class, the same call with any
    other value - another modulus, a reducible one, None - returns that class; nothing is
    computed. *)
Theorem C118_keyword_modulus : forall (St : Type) irr (gen : Z -> Z -> St -> result (list Z) * St)
    pre mid s0 rs st (p m x y : arg) c,
  hash_run (ff_fun irr gen) (pre ++ ([p; m], [(AStr "polynomialModulus", x)]) :: mid) ([], s0) = (rs, st) ->
  nth_error rs (List.length pre) = Some (Ok c) ->
  hash_run (ff_fun irr gen) ((pre ++ ([p; m], [(AStr "polynomialModulus", x)]) :: mid) ++
      [([p; m], [(AStr "polynomialModulus", y)])]) ([], s0) = (rs ++ [Ok c], st).
Proof. by move=> St irr gen pre mid s0 rs st p m x y c E N; apply: hash_history E N _. Qed.
Print Assumptions C118_keyword_modulus.

(** p and m passed by keyword are not looked at either: after FiniteField(p=p, m=m)
    returned, FiniteField(p=q, m=n) is the same class for all q and n. *)
Theorem C118_keyword_parameters : forall (St : Type) irr (gen : Z -> Z -> St -> result (list Z) * St)
    pre mid s0 rs st (p m q n : arg) c,
  let call p m := ([], [(AStr "p", p); (AStr "m", m)]) : list arg * list (arg * arg) in
  hash_run (ff_fun irr gen) (pre ++ call p m :: mid) ([], s0) = (rs, st) ->
  nth_error rs (List.length pre) = Some (Ok c) ->
  hash_run (ff_fun irr gen) ((pre ++ call p m :: mid) ++ [call q n]) ([], s0) = (rs ++ [Ok c], st).
Proof. by move=> St irr gen pre mid s0 rs st p m q n c call E N; apply: hash_history E N _. Qed.
Print Assumptions C118_keyword_parameters.

(** The first such call does what the definition says: without an earlier successful call
    with the same p, m and one keyword (or the string polynomialModulus as third argument),
    it returns the class with this modulus, or ValueError if the modulus is reducible; for
    m = 1 the modulus is checked and then ignored. *)
Theorem C118_first_modulus : forall (St : Type) irr (gen : Z -> Z -> St -> result (list Z) * St)
    pre s0 rs c s (p m : Z) (g : list Z),
  hash_run (ff_fun irr gen) pre ([], s0) = (rs, (c, s)) ->
  (forall i b kb, nth_error pre i = Some (b, kb) ->
     b ++ map fst kb = [AInt p; AInt m; AStr "polynomialModulus"] ->
     forall r, nth_error rs i <> Some (Ok r)) ->
  exists c', hash_run (ff_fun irr gen) (pre ++ [([AInt p; AInt m], [(AStr "polynomialModulus", APoly g)])]) ([], s0) =
    (rs ++ [match irr p g with
            | Ok true => Ok (if m =? 1 then ClassZp p else ClassFq p m g)
            | Ok false => Err ValueError
            | Err e => Err e
            end], (c', s)).
Proof.
move=> St irr gen pre s0 rs c s p m g E H.
have [//|i b kb r N K|c' Ec] := hash_fresh (f := ff_fun irr gen) (a := [AInt p; AInt m])
  (ka := [(AStr "polynomialModulus", APoly g)]) E; first exact: H N K r.
by exists c'; rewrite Ec /ff_fun /=; case: (irr p g) => [[]|].
Qed.
Print Assumptions C118_first_modulus.

(** FiniteField(p, m): the first call generates a modulus, and every later one, whatever
    happens in between, returns the class of the first. *)
Theorem C118_default_modulus : forall (St : Type) irr (gen : Z -> Z -> St -> result (list Z) * St)
    pre s0 rs c s (p m : Z),
  m <> 1 -> hash_run (ff_fun irr gen) pre ([], s0) = (rs, (c, s)) ->
  (forall i b kb, nth_error pre i = Some (b, kb) -> b ++ map fst kb = [AInt p; AInt m] ->
     forall r, nth_error rs i <> Some (Ok r)) ->
  (exists c', hash_run (ff_fun irr gen) (pre ++ [([AInt p; AInt m], [])]) ([], s0) =
     (rs ++ [rmap (ClassFq p m) (fst (gen p m s))], (c', snd (gen p m s)))) /\
  (forall g, fst (gen p m s) = Ok g -> forall mid rs2 st2,
     hash_run (ff_fun irr gen) (pre ++ ([AInt p; AInt m], []) :: mid) ([], s0) = (rs2, st2) ->
     hash_run (ff_fun irr gen) ((pre ++ ([AInt p; AInt m], []) :: mid) ++ [([AInt p; AInt m], [])]) ([], s0) =
       (rs2 ++ [Ok (ClassFq p m g)], st2)).
Proof.
move=> St irr gen pre s0 rs c s p m Nm E H.
have F : ff_fun irr gen [AInt p; AInt m] [] s = (rmap (ClassFq p m) (fst (gen p m s)), snd (gen p m s)).
  by rewrite /ff_fun /= (proj2 (Z.eqb_neq _ _) Nm); case: (gen p m s).
have [//|i b kb r N K|c' Ec] := hash_fresh (f := ff_fun irr gen) (a := [AInt p; AInt m]) (ka := []) E.
  exact: H N K r.
rewrite F /= in Ec; split; first by exists c'.
move=> g Eg mid rs2 st2 E2; apply: hash_history (E2) _ (eq_refl _).
move: E2; rewrite (_ : pre ++ ([AInt p; AInt m], []) :: mid = (pre ++ [([AInt p; AInt m], [])]) ++ mid); last first.
  by rewrite -app_assoc.
rewrite hash_run_app Ec Eg /=; case: (hash_run _ mid _) => rs3 st3 [<- _].
have L : List.length pre = List.length rs.
  have X : forall cs st, List.length (fst (hash_run (ff_fun irr gen) cs st)) = List.length cs.
    elim=> [//|[a k] cs IH] st /=; case: (hash_memoized _ a k st) => r st1.
    by have := IH st1; case: (hash_run _ cs st1) => rs' st' /= ->.
  by have := X pre ([], s0); rewrite E => <-.
by rewrite nth_error_app1 ?nth_error_app2 ?app_length /= ?L ?Nat.sub_diag //; lia.
Qed.
Print Assumptions C118_default_modulus.

(** IntegersModP: IntegersModP(p=p) followed by IntegersModP(p=q) is Z/p for all q; by
    position the modulus is the key. *)
Theorem C118_integers : forall pre mid rs st (p q : Z),
  (hash_run imp_fun (pre ++ ([], [(AStr "p", AInt p)]) :: mid) ([], tt) = (rs, st) ->
   nth_error rs (List.length pre) = Some (Ok (ClassZp p)) ->
   hash_run imp_fun ((pre ++ ([], [(AStr "p", AInt p)]) :: mid) ++ [([], [(AStr "p", AInt q)])]) ([], tt) =
     (rs ++ [Ok (ClassZp p)], st)) /\
  (hash_run imp_fun pre ([], tt) = (rs, st) ->
   exists st', hash_run imp_fun (pre ++ [([AInt q], [])]) ([], tt) = (rs ++ [Ok (ClassZp q)], st')).
Proof.
move=> pre mid rs st p q; split; first by move=> E N; apply: hash_history E N _.
have I : forall cs c, (forall z r, cache_get arg_eqb c [AInt z] = Some r -> r = ClassZp z) ->
    forall z r, cache_get arg_eqb (fst (snd (hash_run imp_fun cs (c, tt)))) [AInt z] = Some r -> r = ClassZp z.
  elim=> [//|[a k] cs IH] c Hc z r /=.
  have : forall c1 r1, hash_memoized imp_fun a k (c, tt) = (r1, (c1, tt)) ->
      forall z r, cache_get arg_eqb c1 [AInt z] = Some r -> r = ClassZp z.
    move=> c1 r1; rewrite /hash_memoized /memoized; case: ifP => _; last by case=> _ <-.
    case G: cache_get => [r2|]; first by case=> _ <-.
    rewrite /imp_fun; case Ef: (let* _ := _ in _) => [r2|e]; last by case=> _ <-.
    case=> _ <- z' r' /=; case T: tuple_eqb; last exact: Hc.
    move/tuple_eq: T => T [<-]; move: T Ef; clear; case: a => [|a0 a].
      by case: k => [|[k0 v] k] //= [-> _]; rewrite /bind_args /=.
    by case: a => [|a1 a] //; case: k => [|k0 k] // [->]; rewrite /bind_args /= => -[].
  case: (hash_memoized _ _ _ _) => r1 [c1 []] /(_ c1 r1 (eq_refl _)) Hc1.
  by have := IH c1 Hc1 z r; case: (hash_run _ cs _) => rs2 st2.
move=> E; rewrite hash_run_app E /= /hash_memoized /=.
have Iq := I pre [] (fun z r => ltac:(by [])) q; rewrite E in Iq.
case: st E Iq => c [] E /= Iq; rewrite /memoized /=.
by case G: cache_get => [r|]; [have -> := Iq _ G|]; eexists.
Qed.
Print Assumptions C118_integers.

(** The irreducibility test of the library over Z/P, and the link with the model of the
    undecorated factory in FiniteFieldModel. *)
Definition irr_mod (P : ModpField.primeZ) (p : Z) (g : list Z) : result bool :=
  @IrredModel.is_irreducible (ModpField.modp_fieldType P) (map (ModpField.in_modp P) g) p.

Theorem C118_body : forall (P : ModpField.primeZ) (St : Type) (gen : Z -> Z -> St -> result (list Z) * St) m g s generated,
  ff_body (irr_mod P) gen (AInt (ModpField.pz P)) (AInt m) (APoly g) s =
  (rmap (fun c => match c with
                  | FiniteFieldModel.CZp => ClassZp (ModpField.pz P)
                  | FiniteFieldModel.CFq _ => ClassFq (ModpField.pz P) m g
                  end)
     (@FiniteFieldModel.finite_field (ModpField.modp_fieldType P) (ModpField.pz P) m
        (Some (map (ModpField.in_modp P) g)) generated), s).
Proof.
move=> P St gen m g s generated; rewrite /ff_body /FiniteFieldModel.finite_field /irr_mod.
by case: IrredModel.is_irreducible => [[]|e] //=; case: (m =? 1).
Qed.
Print Assumptions C118_body.

(** "Must provide an irreducible polynomial as modulus": refuted for the second call. *)
Theorem C118_irreducible_modulus_refuted :
  ~ (forall (calls : list (list arg * list (arg * arg))) i p m g,
       nth_error calls i = Some ([AInt p; AInt m], [(AStr "polynomialModulus", APoly g)]) ->
       irr_mod ModpField.P2 p g = Ok false ->
       nth_error (fst (hash_run (ff_fun (irr_mod ModpField.P2) (fun _ _ (s : unit) => (Err Diverges, s))) calls ([], tt))) i
       = Some (Err ValueError)).
Proof.
move=> /(_ [([AInt 2; AInt 2], [(AStr "polynomialModulus", APoly [1; 1; 1])]);
            ([AInt 2; AInt 2], [(AStr "polynomialModulus", APoly [1; 0; 1])])] 1%nat 2 2 [1; 0; 1] (eq_refl _)).
by vm_compute => /(_ (eq_refl _)).
Qed.
Print Assumptions C118_irreducible_modulus_refuted.

(** Calls that do not match the parameters raise TypeError in every history and leave the
    cache and the random state alone: an argument too many, a keyword that is no parameter,
    a keyword for a parameter that is already given, p or m missing. *)
Theorem C118_wrong_calls : forall (St : Type) irr (gen : Z -> Z -> St -> result (list Z) * St)
    pre s0 rs st a k,
  hash_run (ff_fun irr gen) pre ([], s0) = (rs, st) ->
  (forall i b kb r, nth_error pre i = Some (b, kb) -> b ++ map fst kb = a ++ map fst k ->
     nth_error rs i <> Some (Ok r)) ->
  (3 < List.length a)%nat \/
  (exists key v, In (key, v) k /\
     (~ In key [AStr "p"; AStr "m"; AStr "polynomialModulus"] \/
      exists i, (i < List.length a)%nat /\ nth_error [AStr "p"; AStr "m"; AStr "polynomialModulus"] i = Some key)) \/
  (List.length a + List.length k < 2)%nat ->
  hash_run (ff_fun irr gen) (pre ++ [(a, k)]) ([], s0) = (rs ++ [Err TypeError], st).
Proof.
move=> St irr gen pre s0 rs [c s] a k E H W.
have F : forall s', ff_fun irr gen a k s' = (Err TypeError, s').
  move=> s'; rewrite /ff_fun /bind_args; case: W => [L|[[key [v [I K]]]|L]].
  - by rewrite (proj2 (Nat.ltb_lt _ _)).
  - case: Nat.ltb_spec => // La.
    suff -> : forallb (fun kv => existsb (arg_eqb (fst kv))
        (skipn (List.length a) (map AStr ["p"; "m"; "polynomialModulus"]%string))) k = false by [].
    apply/negbTE/negP => /forallb_forall /(_ _ I) /existsb_exists [x [Ix /arg_eqb_eq /= Ex]].
    subst x; case: K => [N|[i [Hi Ei]]].
      apply: N; rewrite -[X in In _ X](firstn_skipn (List.length a)); apply/in_app_iff; by right.
    move: Ix Hi Ei; case: (List.length a) => [|[|[|n]]] /= Ix Hi; try lia.
    + case: i Hi => [|i] Hi; [|lia]; case=> Ek; subst key; by case: Ix => [|[]].
    + case: i Hi => [|[|i]] Hi; [| |lia]; case=> Ek; subst key; by case: Ix.
    + by case: (n) Ix.
  - case: a k L {E H} => [|x [|y a]] [|[k1 v1] [|kv k]] //= L; try lia.
    case: (_ && _) => //; case Ep: (arg_eqb k1 (AStr "p")); rewrite /= Ep //.
    by move/arg_eqb_eq: Ep => ->.
case Hk: (forallb hashable (key a k)); last by exact: hash_unhashable E Hk.
have [//||c' Ec] := hash_fresh (f := ff_fun irr gen) (a := a) (ka := k) E.
  by move=> i b kb r N K; apply: H N K.
rewrite F /= in Ec; move: Ec; rewrite hash_run_app E /= /hash_memoized -/(key a k) Hk /memoized.
case: cache_get => [r|]; last by rewrite F.
by case=> /app_inv_head.
Qed.
Print Assumptions C118_wrong_calls.

(** The same for IntegersModP; a modulus that is no int does not have a name. *)
Theorem C118_integers_wrong_calls : forall pre rs st a k,
  hash_run imp_fun pre ([], tt) = (rs, st) ->
  (forall i b kb r, nth_error pre i = Some (b, kb) -> b ++ map fst kb = a ++ map fst k ->
     nth_error rs i <> Some (Ok r)) ->
  (1 < List.length a)%nat \/ (a = [] /\ k = []) \/
  (exists key v, In (key, v) k /\ (key <> AStr "p" \/ a <> [])) \/
  (exists x, a = [x] /\ forall z, x <> AInt z) ->
  hash_run imp_fun (pre ++ [(a, k)]) ([], tt) = (rs ++ [Err TypeError], st).
Proof.
move=> pre rs [c s] a k E H W.
have F : forall s', imp_fun a k s' = (Err TypeError, s').
  move=> s'; rewrite /imp_fun /bind_args; case: W => [L|[[-> ->] //|[[key [v [I K]]]|[x [-> N]]]]].
  - by rewrite (proj2 (Nat.ltb_lt _ _)).
  - case: Nat.ltb_spec => // La.
    suff -> : forallb (fun kv => existsb (arg_eqb (fst kv))
        (skipn (List.length a) (map AStr ["p"%string]))) k = false by [].
    apply/negbTE/negP => /forallb_forall /(_ _ I) /existsb_exists [x [Ix /arg_eqb_eq /= Ex]].
    subst x; case: a K Ix {La E H I} => [|y [|z a]] /= K; last by [].
      by case=> // Ek; case: K => [[]|[]].
    by [].
  - rewrite /=; case: (forallb _ k) => //=.
    by case: x N => [z|t||l] // /(_ z) [].
case Hk: (forallb hashable (key a k)); last by exact: hash_unhashable E Hk.
have [//||c' Ec] := hash_fresh (f := imp_fun) (a := a) (ka := k) E.
  by move=> i b kb r N K; apply: H N K.
rewrite F /= in Ec; move: Ec; rewrite hash_run_app E /= /hash_memoized -/(key a k) Hk /memoized.
case: cache_get => [r|]; last by rewrite F.
by case=> /app_inv_head.
Qed.
Print Assumptions C118_integers_wrong_calls.

(** FiniteField(p, 1) is IntegersModP(p), without drawing a modulus. *)
Theorem C118_degree_one : forall (St : Type) irr (gen : Z -> Z -> St -> result (list Z) * St)
    pre s0 rs c s (p : Z),
  hash_run (ff_fun irr gen) pre ([], s0) = (rs, (c, s)) ->
  (forall i b kb, nth_error pre i = Some (b, kb) -> b ++ map fst kb = [AInt p; AInt 1] ->
     forall r, nth_error rs i <> Some (Ok r)) ->
  exists c', hash_run (ff_fun irr gen) (pre ++ [([AInt p; AInt 1], [])]) ([], s0) =
    (rs ++ [Ok (ClassZp p)], (c', s)).
Proof.
move=> St irr gen pre s0 rs c s p E H.
have [//|i b kb r N K|c' Ec] := hash_fresh (f := ff_fun irr gen) (a := [AInt p; AInt 1]) (ka := []) E.
  exact: H N K r.
by exists c'; rewrite Ec.
Qed.
Print Assumptions C118_degree_one.

(** X^2+1 is rejected when it comes first; after X^2+X+1 it is accepted and means X^2+X+1;
    X^3+X+1 by position is a TypeError; Z/7 asked for as Z/11. *)
Example C118_example :
  let kw g := ([AInt 2; AInt 2], [(AStr "polynomialModulus", APoly g)]) in
  fst (hash_run (ff_fun (irr_mod ModpField.P2) (fun _ _ n => (Ok [n; 1; 1], n + 1)))
         [kw [1; 0; 1]; kw [1; 1; 1]; kw [1; 0; 1]; ([AInt 2; AInt 3; APoly [1; 1; 0; 1]], []);
          ([AInt 2; AInt 2], []); ([AInt 2; AInt 2], []); ([AInt 2], [])] ([], 5)) =
    [Err ValueError; Ok (ClassFq 2 2 [1; 1; 1]); Ok (ClassFq 2 2 [1; 1; 1]); Err TypeError;
     Ok (ClassFq 2 2 [5; 1; 1]); Ok (ClassFq 2 2 [5; 1; 1]); Err TypeError] /\
  fst (hash_run imp_fun [([], [(AStr "p", AInt 7)]); ([], [(AStr "p", AInt 11)]); ([AInt 11], []);
         ([AInt 11; AInt 2], []); ([], []); ([ANone], [])] ([], tt)) =
    [Ok (ClassZp 7); Ok (ClassZp 7); Ok (ClassZp 11); Err TypeError; Err TypeError; Err TypeError] /\
  fst (hash_run (ff_fun (irr_mod ModpField.P2) (fun _ _ n => (Ok [n; 1; 1], n + 1)))
         [([AInt 5; AInt 1], []); ([AInt 5; AInt 2], [(AStr "m", AInt 3)]);
          ([AInt 5; AInt 2; ANone; ANone], []); ([AInt 5; AInt 2], [(AStr "modulus", ANone)])] ([], 5)) =
    [Ok (ClassZp 5); Err TypeError; Err TypeError; Err TypeError].
Proof. by vm_compute. Qed.
