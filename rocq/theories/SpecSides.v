(** Cyclic lists (for the claims about the sides of cylinders).  Nothing in this file refers to
    the model of the code. *)
From Coq Require Import List.
Import ListNotations.

Section Cyclic.
Context {A : Type}.

(** In the cyclic list [l] the element [y] comes right behind [x]. *)
Definition cyclically (l : list A) (x y : A) : Prop :=
  (exists u v, l = u ++ x :: y :: v) \/ (exists u, l = y :: u /\ last l y = x).

(** The same cyclic list, starting from another element. *)
Definition rotation (l l' : list A) : Prop := exists u v, l = u ++ v /\ l' = v ++ u.

End Cyclic.
