(** Independent specification for lengths that are spanned by two numbers.  Nothing in
    this file refers to the model of the code. *)
From Coq Require Import Reals ZArith List.
From Verif Require Import Spec.
Open Scope R_scope.

(** All lengths are integral combinations of the same two numbers. *)
Definition rank_two (e : exch) : Prop :=
  exists b1 b2 : R, forall a, In a (e_top e) -> exists p q : Z, e_len e a = IZR p * b1 + IZR q * b2.
