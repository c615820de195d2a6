(** When a decomposition, or a family of IETs, tells what is periodic from what is not. *)
From Coq Require Import List.
From Verif Require Import Base LenT FM Subspace Lengths IET Decomp Spec Api DecApi.

Section CanonApi.
Context {T : Type} {O : LenOps T} {W : LenLaws T}.

(** The exchanges of the components. *)
Definition exchanges (d : decomp T) : list exch := map (comp_exch d) (d_comps d).

End CanonApi.

(** Each of the exchanges has a single interval or no periodic points. *)
Definition resolved (E : list exch) : Prop :=
  forall e, In e E -> length (e_top e) = 1 \/ ~ has_periodic_point e.
