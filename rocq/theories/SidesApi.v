(** The two sides of a cylinder with the public interface.  This is a program that uses the
    library, not a part of it. *)
From Verif Require Import Base LenT FM Subspace Lengths IET Decomp DecApi.
Import ListNotations.
Open Scope nat_scope.

Section SidesApi.
Context {T : Type} {O : LenOps T}.

(** The component [c] is a cylinder, i.e., it has a single interval.  [right] are the connections
    that one meets walking counterclockwise from its half edge at the bottom to the one on the top:
    the ones behind the half edge at the bottom and the ones before the half edge on the top
    ([HalfEdge::cross()]).  [left] are the ones on the way back. *)
Definition cylinder_sides (d : decomp T) (c : nat) (right left : list connection) : Prop :=
  exists x l lb rb rt lt, component d c x /\ i_top (dc_iet x) = [l] /\
    he_cross d (mkhe c l false) = Ok (map SConn lb ++ SEdge (mkhe c l false) :: map SConn rb) /\
    he_cross d (mkhe c l true) = Ok (map SConn rt ++ SEdge (mkhe c l true) :: map SConn lt) /\
    right = rb ++ rt /\ left = lt ++ lb.

End SidesApi.
