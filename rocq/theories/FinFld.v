(** Finite-field facts that MathComp keeps in [finfield] (not imported, to keep
    the complex numbers out of the dependency closure). *)
From Verif Require Import Prelude.
Import GRing.Theory.
Local Open Scope ring_scope.

Section FinFld.
Variable F : finFieldType.

Lemma card_gt1 : (1 < #|F|)%N.
Proof.
rewrite -cardsT (cardsD1 0) (cardsD1 1) !inE oner_eq0 /=; by [].
Qed.

Lemma fermat (x : F) : x != 0 -> x ^+ (#|F|.-1) = 1.
Proof.
move=> Hx; pose P := \prod_(y : F | y != 0) y.
have HP : P != 0 by apply/prodf_neq0.
apply: (mulIf HP); rewrite mul1r {2}/P.
rewrite (reindex_inj (mulfI Hx)) /=.
rewrite (eq_bigl (fun y : F => y != 0)); last by move=> y; rewrite mulf_eq0 (negbTE Hx).
rewrite big_split /= prodr_const; congr (_ ^+ _ * _).
by rewrite -[in LHS]cardsT (cardsD1 0) inE add1n; apply: eq_card => y; rewrite !inE andbT.
Qed.

Lemma expf_card (x : F) : x ^+ #|F| = x.
Proof.
have [->|Hx] := eqVneq x 0; first by rewrite expr0n; move: card_gt1; case: #|F|.
by rewrite -(ltn_predK card_gt1) exprS fermat ?mulr1.
Qed.
End FinFld.
