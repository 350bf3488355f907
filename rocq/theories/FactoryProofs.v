(** Proofs about the memoized class factories. *)
From Coq Require Import Bool ZArith List String Lia.
From Coq Require Import ssreflect ssrbool.
From Verif Require Import Base UtilsModel UtilsProofs FactoryModel.
Import ListNotations.
Local Open Scope Z_scope.
Local Set SsrOldRewriteGoalsOrder.
Local Set Implicit Arguments.
Local Unset Strict Implicit.

Lemma zlist_eqb_eq a b : zlist_eqb a b = true <-> a = b.
Proof.
elim: a b => [|x a IH] [|y b] //=; split=> //.
- by case/andP => /Z.eqb_eq -> /IH ->.
- by case=> -> E; rewrite Z.eqb_refl; apply/IH.
Qed.

Lemma arg_eqb_eq a b : arg_eqb a b = true <-> a = b.
Proof.
case: a b => [x|s||c] [y|t||d] //=; try by split.
- by rewrite Z.eqb_eq; split=> [->|[->]].
- by rewrite String.eqb_eq; split=> [->|[->]].
- by rewrite zlist_eqb_eq; split=> [->|[->]].
Qed.

Lemma arg_refl a : arg_eqb a a = true. Proof. exact/arg_eqb_eq. Qed.
Lemma arg_sym a b : arg_eqb a b = arg_eqb b a.
Proof. by apply/idP/idP => /arg_eqb_eq ->; apply: arg_refl. Qed.
Lemma arg_trans a b c : arg_eqb a b = true -> arg_eqb b c = true -> arg_eqb a c = true.
Proof. by move=> /arg_eqb_eq -> /arg_eqb_eq ->; apply: arg_refl. Qed.

Lemma tuple_eq (a b : list arg) : tuple_eqb arg_eqb a b = true <-> a = b.
Proof.
elim: a b => [|x a IH] [|y b] //=; split=> //.
- by case/andP => /arg_eqb_eq -> /IH ->.
- by case=> -> E; rewrite arg_refl; apply/IH.
Qed.

Section Memo.
Context {R St : Type}.
Variable f : list arg -> list (arg * arg) -> St -> result R * St.

Definition key (a : list arg) (k : list (arg * arg)) : list arg := a ++ map fst k.
Definition fh a k (s : St) := if forallb hashable (key a k) then f a k s else (Err TypeError, s).

Definition good (c : list (list arg * R)) := forall k r, In (k, r) c -> forallb hashable k = true.

Lemma good_get c k : good c -> forallb hashable k = false -> cache_get arg_eqb c k = None.
Proof.
elim: c => [//|[k' r] c IH] G Hk /=; case E: tuple_eqb; last first.
  by apply: IH Hk => k2 r2 H; apply: (G _ r2); right.
by move/tuple_eq: E => E; have := G k' r (or_introl (eq_refl _)); rewrite E Hk.
Qed.

Lemma hash_runE calls c s : good c -> hash_run f calls (c, s) = run_calls arg_eqb fh calls (c, s).
Proof.
elim: calls c s => [//|[a k] cs IH] c s G /=; rewrite /hash_memoized /memoized /fh -/(key a k).
case Hk: (forallb hashable (key a k)); last by rewrite (good_get G Hk) IH.
case E: cache_get => [r|]; first by rewrite IH.
case: (f a k s) => -[r|e] s'; rewrite IH // => k' r' [[<- _] //|]; exact: G.
Qed.

Lemma good_nil : good []. Proof. by []. Qed.

Lemma hash_run_app cs ds st : hash_run f (cs ++ ds) st =
  let '(rs, st1) := hash_run f cs st in let '(rs2, st2) := hash_run f ds st1 in (rs ++ rs2, st2).
Proof.
elim: cs st => [|[a k] cs IH] st; first by rewrite /=; case: (hash_run f ds st).
rewrite /=; case: (hash_memoized f a k st) => r st1; rewrite IH.
by case: (hash_run f cs st1) => rs st2; case: (hash_run f ds st2).
Qed.

Lemma hash_history pre mid a b ka kb s0 rs st r :
  hash_run f (pre ++ (a, ka) :: mid) ([], s0) = (rs, st) ->
  nth_error rs (List.length pre) = Some (Ok r) -> key a ka = key b kb ->
  hash_run f ((pre ++ (a, ka) :: mid) ++ [(b, kb)]) ([], s0) = (rs ++ [Ok r], st).
Proof.
rewrite !(hash_runE _ _ good_nil) => E N K.
by apply: (memo_history arg_eqb arg_refl arg_sym arg_trans fh _ _ _ _ _ _ _ _ _ _ E N); apply/tuple_eq.
Qed.

Lemma hash_fresh pre a ka s0 rs c s :
  hash_run f pre ([], s0) = (rs, (c, s)) -> forallb hashable (key a ka) = true ->
  (forall i b kb r, nth_error pre i = Some (b, kb) -> key b kb = key a ka ->
     nth_error rs i <> Some (Ok r)) ->
  exists c', hash_run f (pre ++ [(a, ka)]) ([], s0) = (rs ++ [fst (f a ka s)], (c', snd (f a ka s))).
Proof.
rewrite !(hash_runE _ _ good_nil) => E Hk H.
have -> : f a ka s = fh a ka s by rewrite /fh Hk.
apply: (memo_fresh arg_eqb fh pre a ka s0 rs c s E) => i b kb r N /tuple_eq.
exact: H.
Qed.

Lemma hash_unhashable pre a ka s0 rs st :
  hash_run f pre ([], s0) = (rs, st) -> forallb hashable (key a ka) = false ->
  hash_run f (pre ++ [(a, ka)]) ([], s0) = (rs ++ [Err TypeError], st).
Proof. by move=> E Hk; rewrite hash_run_app E /= /hash_memoized -/(key a ka) Hk. Qed.
End Memo.
