(** C65: the order in which the components of a decomposition are processed does not matter. *)
From Coq Require Import Reals Permutation.
From Verif Require Import Base QcTac LenT FM Subspace Lengths IET Decomp LenInst Sqrt2 Fixtures DecFixtures Spec Api DecApi OrderApi.
From Verif Require Import ClaimsOrder.
Open Scope nat_scope.
(** Steps on two different components commute: if one can step on [a] and then on [b], with
    any limits, then one can step on [b] first and on [a] afterwards; the steps answer the same
    and lead to the same state, up to the order in which the components are listed. *)
Theorem C65_commute : forall (T : Type) (O : LenOps T) (W : LenLaws T) (i : iet T) (s : slen T) tr d a b fuel fuel' limit limit' sa d1 sb d12,
  decomposition i s tr d -> (limit <= INT_MAX)%Z -> (limit' <= INT_MAX)%Z ->
  a < length (d_comps d) -> b < length (d_comps d) -> a <> b ->
  decomposition_step fuel limit a d = Ok (sa, d1) -> decomposition_step fuel' limit' b d1 = Ok (sb, d12) ->
  exists sb' d2 sa' d21,
    decomposition_step fuel' limit' b d = Ok (sb', d2) /\ decomposition_step fuel limit a d2 = Ok (sa', d21) /\
    same_answer sa sa' /\ same_answer sb sb' /\ same_up_to_numbering d12 d21.
Proof. exact claim_C65_commute. Qed.
Print Assumptions C65_commute.
Example C65_commute_example : exists tr d sa d1 sb d12, decomposition m_iet m_lens tr d /\ 0 < length (d_comps d) /\ 1 < length (d_comps d) /\
  decomposition_step 100 (-1) 0 d = Ok (sa, d1) /\ decomposition_step 100 (-1) 1 d1 = Ok (sb, d12) /\
  dst_result sa = D_WITHOUT_PERIODIC_TRAJECTORY_BOSHERNITZAN /\ dst_result sb = D_NON_SEPARATING_CONNECTION.
Proof.
  exact two_steps_use.
Qed.
(** If the components of a decomposition are processed in any two orders (each step on some
    component that does not satisfy the target yet) until all satisfy the target, then the
    same number of steps was made, they answered the same up to their order, and the final states are the
    same up to the order in which the components are listed. *)
Theorem C65_schedule : forall (T : Type) (O : LenOps T) (W : LenLaws T) (i : iet T) (s : slen T) tr d target limit tr1 d1 tr2 d2,
  decomposition i s tr d -> (limit <= INT_MAX)%Z ->
  schedule target limit d tr1 d1 -> finished target d1 ->
  schedule target limit d tr2 d2 -> finished target d2 ->
  same_answers tr1 tr2 /\ same_up_to_numbering d1 d2.
Proof. exact claim_C65_schedule. Qed.
Print Assumptions C65_schedule.
Example C65_schedule_example : exists tr d tr1 d1 tr2 d2, decomposition m_iet m_lens tr d /\ length (d_comps d) = 2 /\
  schedule default_target (-1) d tr1 d1 /\ finished default_target d1 /\
  schedule default_target (-1) d tr2 d2 /\ finished default_target d2 /\
  map dst_result tr1 = [D_WITHOUT_PERIODIC_TRAJECTORY_BOSHERNITZAN; D_NON_SEPARATING_CONNECTION; D_CYLINDER] /\
  map dst_result tr2 = [D_NON_SEPARATING_CONNECTION; D_CYLINDER; D_WITHOUT_PERIODIC_TRAJECTORY_BOSHERNITZAN].
Proof.
  exact two_ways_use.
Qed.
(** decompose() succeeds exactly if some order of steps brings all components to the target
    without hitting the limit, and it ends in the same state as all such orders. *)
Theorem C65_decompose : forall (T : Type) (O : LenOps T) (W : LenLaws T) (i : iet T) (s : slen T) tr d target limit,
  decomposition i s tr d -> (limit <= INT_MAX)%Z ->
  (forall rounds fuel d', decompose rounds fuel target limit d = Ok (true, d') ->
     exists tr', schedule target limit d tr' d' /\ finished target d' /\
       forall st, In st tr' -> dst_result st <> D_LIMIT_REACHED) /\
  (forall tr' e, schedule target limit d tr' e -> finished target e ->
     (forall st, In st tr' -> dst_result st <> D_LIMIT_REACHED) ->
     exists rounds fuel d', decompose rounds fuel target limit d = Ok (true, d') /\ same_up_to_numbering d' e).
Proof. exact claim_C65_decompose. Qed.
Print Assumptions C65_decompose.
Example C65_decompose_example : exists tr d tr1 d1 tr2 d2, decomposition m_iet m_lens tr d /\ length (d_comps d) = 2 /\
  schedule default_target (-1) d tr1 d1 /\ finished default_target d1 /\
  schedule default_target (-1) d tr2 d2 /\ finished default_target d2 /\
  map dst_result tr1 = [D_WITHOUT_PERIODIC_TRAJECTORY_BOSHERNITZAN; D_NON_SEPARATING_CONNECTION; D_CYLINDER] /\
  map dst_result tr2 = [D_NON_SEPARATING_CONNECTION; D_CYLINDER; D_WITHOUT_PERIODIC_TRAJECTORY_BOSHERNITZAN].
Proof.
  exact two_ways_use.
Qed.
