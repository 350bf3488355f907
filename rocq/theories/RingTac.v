(** The standard [ring] tactic on MathComp fields: a section over a field [F]
    declares [Add Ring] with [field_ring_theory F] (in the three syntactic forms
    the carrier can take) and calls [fring]. *)
From Coq Require Export Ring.
From Verif Require Import Prelude.
Import GRing.Theory.
Local Open Scope ring_scope.

Lemma field_ring_theory (F : fieldType) :
  @ring_theory F 0 1 (@GRing.add F) (@GRing.mul F) (fun x y => x - y) (@GRing.opp F) eq.
Proof.
split; [exact: add0r|exact: addrC|exact: addrA|exact: mul1r|exact: mulrC|exact: mulrA|
        exact: mulrDl|by []|exact: subrr].
Qed.

Definition field_ring_theory_r (F : fieldType) :
  @ring_theory (GRing.Ring.sort F) 0 1 (@GRing.add F) (@GRing.mul F) (fun x y => x - y)
               (@GRing.opp F) eq := field_ring_theory F.
Definition field_ring_theory_z (F : fieldType) :
  @ring_theory (GRing.Zmodule.sort F) 0 1 (@GRing.add F) (@GRing.mul F) (fun x y => x - y)
               (@GRing.opp F) eq := field_ring_theory F.

Ltac fring :=
  repeat match goal with
  | |- context [GRing.Ring.zmodType (GRing.Field.ringType ?F)] =>
      change (GRing.Ring.zmodType (GRing.Field.ringType F)) with (GRing.Field.zmodType F)
  | |- context [GRing.ComRing.ringType (GRing.Field.comRingType ?F)] =>
      change (GRing.ComRing.ringType (GRing.Field.comRingType F)) with (GRing.Field.ringType F)
  | |- context [GRing.ComRing.zmodType (GRing.Field.comRingType ?F)] =>
      change (GRing.ComRing.zmodType (GRing.Field.comRingType F)) with (GRing.Field.zmodType F)
  | |- context [GRing.UnitRing.ringType (GRing.Field.unitRingType ?F)] =>
      change (GRing.UnitRing.ringType (GRing.Field.unitRingType F)) with (GRing.Field.ringType F)
  | |- context [GRing.UnitRing.zmodType (GRing.Field.unitRingType ?F)] =>
      change (GRing.UnitRing.zmodType (GRing.Field.unitRingType F)) with (GRing.Field.zmodType F)
  | |- context [GRing.IntegralDomain.ringType (GRing.Field.idomainType ?F)] =>
      change (GRing.IntegralDomain.ringType (GRing.Field.idomainType F)) with (GRing.Field.ringType F)
  | |- context [GRing.IntegralDomain.zmodType (GRing.Field.idomainType ?F)] =>
      change (GRing.IntegralDomain.zmodType (GRing.Field.idomainType F)) with (GRing.Field.zmodType F)
  end;
  match goal with |- @eq _ ?a ?b => let T := type of a in change (@eq T a b) end; ring.
