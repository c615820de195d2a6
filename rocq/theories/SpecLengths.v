(** Specification vocabulary for lengths. *)
From Coq Require Import Reals List Arith.
From Verif Require Import Spec.
Import ListNotations.
Open Scope nat_scope.

(** The sum of the first [n] terms of the periodic sequence of labels [st, st, st, ...]. *)
Definition cycled (f : nat -> R) (st : list nat) (n : nat) : R :=
  total f (map (fun j => nth (j mod length st) st 0) (seq 0 n)).
