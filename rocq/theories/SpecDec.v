(** What it means that exchanges are pieces of another one (for the claims about
    decompositions). *)
From Coq Require Import Reals List.
From Verif Require Import Spec.
Import ListNotations.
Open Scope R_scope.

Definition size (e : exch) : R := total (e_len e) (e_top e).

(** [e], moved to the interval from [o] on, is the first return map of [e0] to that interval. *)
Definition piece (e0 e : exch) (o : R) : Prop :=
  0 <= o /\ o + size e <= size e0 /\
  forall y z, 0 <= y < size e ->
    (maps e y z <-> first_return (maps e0) (fun u => o <= u < o + size e) (y + o) (z + o)).

(** Exchanges with the positions of their intervals. *)
Definition apart (p q : exch * R) : Prop := snd p + size (fst p) <= snd q \/ snd q + size (fst q) <= snd p.

(** The exchanges are first return maps of [e0] to disjoint intervals that every orbit meets. *)
Definition tiles (e0 : exch) (P : list (exch * R)) : Prop :=
  (forall e o, In (e, o) P -> piece e0 e o) /\ ForallOrdPairs apart P /\
  (forall x, 0 <= x < size e0 -> exists n z e o, iter (maps e0) n x z /\ In (e, o) P /\ o <= z < o + size e).
