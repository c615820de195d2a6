(** What it means that a column of a tower ends at the right end of an interval (for the claims about
    the points next to the sides of cylinders).  Nothing in this file refers to the model of the code. *)
From Coq Require Import Reals List.
From Verif Require Import Spec SpecDec SpecTower.
Open Scope R_scope.

(** A floor of the column [a] is an interval whose right end is the one of the top interval [c]
    of the exchange. *)
Definition floor_ends (e0 : exch) (t : tower) (a c : lab) : Prop :=
  In c (e_top e0) /\ exists k lo hi, hi = left_end (e_len e0) (e_top e0) c + e_len e0 c /\ lo < hi /\
    forall x, on_floor e0 t a k x <-> lo <= x < hi.
