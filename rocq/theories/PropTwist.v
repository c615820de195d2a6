(** Property C24, the negative part.  [has_periodic_point] is specified in [Spec]. *)
From Coq Require Import Reals QArith Qcanon.
From Verif Require Import Base LenT FM Subspace Lengths IET LenInst Sqrt3 Spec Api.
From Verif Require Import ClaimsTwist.
Open Scope nat_scope.


(** ** C24: An AUTO_SIMILAR verdict implies the absence of periodic trajectories. *)

(** False.  The similarity tracker compares the lengths label by label but the permutations
    position by position.  [C24_partial] says that the verdict is right if the labels are in
    the same positions.  Here they are not, and there is even a periodic trajectory.  The
    IET has eight intervals with lengths in Q(sqrt 3) and has been obtained by calls of
    [induce], [zorichInduction] and [swap]. *)
Theorem C24_refuted : exists (i : iet k3) (s : slen k3) st j t,
  obtainable i s /\ induce sample_lens 9 1 i s = Ok (st, j, t) /\
  is_result st = WITHOUT_PERIODIC_TRAJECTORY_AUTO_SIMILAR /\ has_periodic_point (exch_of i s).
Proof. exact claim_C24_refuted. Qed.
Print Assumptions C24_refuted.
