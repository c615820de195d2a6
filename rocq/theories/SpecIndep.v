(** Lengths without relations between them (for the claims about Boshernitzan's criteria and
    irreducible permutations).  Nothing in this file refers to the model of the code. *)
From Coq Require Import Reals ZArith List.
From Verif Require Import Spec.
Open Scope R_scope.

(** The only integer combination of the lengths that vanishes is the trivial one. *)
Definition independent (e : exch) : Prop :=
  forall k : lab -> Z, total (fun a => IZR (k a) * e_len e a) (e_top e) = 0 ->
    forall a, In a (e_top e) -> k a = 0%Z.
