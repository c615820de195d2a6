(** How long a saddle connection is (for the claims about the periods of cylinders).  Nothing in this
    file refers to the model of the code. *)
From Coq Require Import Reals List.
From Verif Require Import Spec.
Import ListNotations.
Open Scope R_scope.

(** The orbit of the right end of [b] on the bottom first meets a discontinuity after [n] steps, in the
    right end of [t] on the top ([direct_connection] in [Spec]). *)
Definition connection_time (e : exch) (b t : lab) (n : nat) : Prop :=
  exists x y, right_end (e_len e) (e_bot e) b x /\ right_end (e_len e) (e_top e) t y /\
    x < total (e_len e) (e_bot e) /\ y < total (e_len e) (e_top e) /\
    iter (fun u v => ~ singular e u /\ maps e u v) n x y.

(** The connections take [ns] steps and there is one more step at the end of each of them. *)
Definition steps_of (ns : list nat) : nat := fold_right (fun n m => S n + m)%nat 0%nat ns.
