(** Scope set-up shared by the MathComp-based files: [%N] is nat, [%Z] is
    Coq's Z (MathComp's [int] gets [%int]). *)
From Coq Require Export ZArith.
From mathcomp Require Export all_ssreflect all_algebra.
From Verif Require Export Base.
Delimit Scope int_scope with int.
Delimit Scope N_scope with binN.
Delimit Scope Z_scope with Z.
Delimit Scope nat_scope with N.
