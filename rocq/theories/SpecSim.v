(** Independent specification of self-similar exchanges.  Nothing in this file refers to
    the model of the code. *)
From Coq Require Import Reals List.
From Verif Require Import Spec.
Open Scope R_scope.

(** One round of Zorich induction that meets no saddle connection: elementary steps on
    the top as long as possible, then elementary steps on the bottom as long as possible;
    each time the first intervals end up with different lengths. *)
Definition round (e e' : exch) : Prop :=
  exists e1 e2,
    rauzy_run e e1 /\ rauzy_stuck e1 /\ ~ first_equal e1 /\
    rauzy_run (flip e1) e2 /\ rauzy_stuck e2 /\ ~ first_equal e2 /\
    same_exch (flip e2) e'.

(** [e'] is a copy of [e] up to the names of the labels (renamed by [rho]) and the scale. *)
Definition renamed (rho : nat -> nat) (c : R) (e e' : exch) : Prop :=
  e_top e' = map rho (e_top e) /\ e_bot e' = map rho (e_bot e) /\
  forall a, In a (e_top e) -> e_len e' (rho a) = c * e_len e a.

(** After [n] rounds [p] more rounds lead to a copy. *)
Definition self_similar (e : exch) (n p : nat) : Prop :=
  exists e1 e2 rho c, iter round n e e1 /\ iter round p e1 e2 /\ renamed rho c e1 e2.
