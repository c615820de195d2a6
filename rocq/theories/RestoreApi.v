(** What it means that two IETs cannot be told apart by a program. *)
From Coq Require Import List.
From Verif Require Import Base QcTac LenT FM Subspace Lengths IET Spec Api RatioApi.
Import ListNotations.
Open Scope nat_scope.

Section Restore.
Context {T : Type}.

(** Two runs of a program observe the same: the answers, the rows of all IETs in the end and
    all lengths. *)
Definition same_run (r r' : list answer * list (iet T) * slen T) : Prop :=
  fst (fst r) = fst (fst r') /\ map rows (snd (fst r)) = map rows (snd (fst r')) /\ snd r = snd r'.

(** Some call of [induce] answered WITHOUT_PERIODIC_TRAJECTORY_AUTO_SIMILAR. *)
Definition reports_similar (r : res (list answer * list (iet T) * slen T)) : Prop :=
  exists a pool t c, r = Ok (a, pool, t) /\ In (ans_induce WITHOUT_PERIODIC_TRAJECTORY_AUTO_SIMILAR c) a.
End Restore.
