(** What the target of decompose() may do. *)
From Coq Require Import List ZArith Reals.
From Verif Require Import Base QcTac LenT FM Subspace Lengths IET Decomp Spec Api DecApi Callback.
Open Scope nat_scope.

Section CallApi.
Context {T : Type} {O : LenOps T} {W : LenLaws T} {A : Type}.

(** Some steps lead from [d] to [d']. *)
Inductive later : decomp T -> decomp T -> Prop :=
| later_now d : later d d
| later_step d fuel limit c st d1 d2 : (limit <= INT_MAX)%Z -> c < length (d_comps d) ->
    decomposition_step fuel limit c d = Ok (st, d1) -> later d1 d2 -> later d d2.

(** The target can be called for every component of every decomposition of the IET [i]: it
    returns, throws or runs forever, and if it does something to the decomposition, then it makes
    steps. *)
Definition well_behaved (i : iet T) (s : slen T) (f : callback T A) : Prop :=
  forall a tr d c, decomposition i s tr d -> c < length (d_comps d) ->
  f a d c = OutOfFuel \/ exists a' d' r, f a d c = Ok (a', d', r) /\ later d d'.

(** The target returns or throws, and leaves the decomposition alone. *)
Definition passive (i : iet T) (s : slen T) (f : callback T A) : Prop :=
  forall a tr d c, decomposition i s tr d -> c < length (d_comps d) -> exists a' r, f a d c = Ok (a', d, r).

(** The component number [c] is known to be a cylinder or to have no periodic trajectory. *)
Definition decided (d : decomp T) (c : nat) : Prop :=
  exists x, component d c x /\ (dc_cylinder x = Some true \/ dc_wpt x = Some true).

End CallApi.
