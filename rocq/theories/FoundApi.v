(** When a decomposition has found everything. *)
From Coq Require Import List.
From Verif Require Import Base LenT FM Subspace Lengths IET Decomp Spec Api DecApi.

Section FoundApi.
Context {T : Type} {O : LenOps T} {W : LenLaws T}.

(** Each component has a single interval or no saddle connections. *)
Definition exhausted (d : decomp T) : Prop :=
  forall c x, component d c x -> length (i_top (dc_iet x)) = 1 \/ ~ has_saddle_connection (comp_exch d x).

End FoundApi.
