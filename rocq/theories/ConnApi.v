(** Going from one component to another with the public interface.  This is a program that uses
    the library, not a part of it. *)
From Verif Require Import Base QcTac LenT FM Subspace Lengths IET Decomp.
Import ListNotations.
Open Scope nat_scope.

Section ConnApi.
Context {T : Type} {O : LenOps T}.

(** A connection is on the perimeter of the component [c], and the same connection in the opposite
    direction is on the perimeter of [c'] ([Component::perimeter()], [Connection::operator-]). *)
Definition beside (d : decomp T) (c c' : nat) : Prop :=
  exists p p' k, comp_perimeter d c = Ok p /\ comp_perimeter d c' = Ok p' /\ In (SConn k) p /\ In (SConn (conn_neg k)) p'.

End ConnApi.
