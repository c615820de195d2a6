(** Orbits that come close to every point (for the claims about induction that does not
    end).  Nothing in this file refers to the model of the code. *)
From Coq Require Import Reals.
From Verif Require Import Spec.
Open Scope R_scope.

(** The orbit of [x] visits every open interval. *)
Definition dense_orbit (e : exch) (x : R) : Prop :=
  forall u v, 0 <= u < v -> v <= total (e_len e) (e_top e) -> exists n z, iter (maps e) n x z /\ u < z < v.

(** Every orbit does. *)
Definition minimal (e : exch) : Prop := forall x, 0 <= x < total (e_len e) (e_top e) -> dense_orbit e x.
