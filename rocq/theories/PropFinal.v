(** Property C95: the positive answers of Boshernitzan's criteria are final.

    [family] is specified in [FinalApi], [not_last] in [Spec], [has_saddle_connection] and
    [has_periodic_point] in [Spec]. *)
From Coq Require Import Reals Permutation QArith Qcanon List ZArith.
From Verif Require Import Base LenT FM Subspace Lengths IET LenInst Sqrt2 Cubic Decomp Spec Api DecApi FinalApi Fixtures DecFixtures.
From Verif Require Import ClaimsIndep ClaimsFinal.
Open Scope nat_scope.

(** ** C95: A positive answer of Boshernitzan's criteria is final. *)

(** Once boshernitzanNoPeriodicTrajectory has said that there is no periodic trajectory, it
    says so about everything that becomes of this IET, whatever is called. *)
Theorem C95_periodic : forall (T : Type) (O : LenOps T) (W : LenLaws T) (i : iet T) (s : slen T) k l t j,
  obtainable i s -> bosh_no_periodic i s = Ok (true, k) -> family i s l t -> In j l ->
  exists k', bosh_no_periodic j t = Ok (true, k').
Proof. exact claim_C95_periodic. Qed.
Print Assumptions C95_periodic.

(** Once boshernitzanNoSaddleConnection() has said that there is no saddle connection,
    nothing is ever split off, no interval is ever lost, and it keeps saying so. *)
Theorem C95_saddle : forall (T : Type) (O : LenOps T) (W : LenLaws T) (i : iet T) (s : slen T) l t,
  obtainable i s -> bosh_no_saddle i s = Ok true -> family i s l t ->
  exists j, l = [j] /\ length (i_top j) = length (i_top i) /\ bosh_no_saddle j t = Ok true.
Proof. exact claim_C95_saddle. Qed.
Print Assumptions C95_saddle.

(** The same for a single pair of separatrices: what has been said about the pair [(t, b)]
    is said again after any call, as long as the two labels still have a right neighbour in
    their rows.  (After a swap, the pair is [(b, t)].) *)
Theorem C95_pair : forall (T : Type) (O : LenOps T) (W : LenLaws T) (i : iet T) (s : slen T) o i' extra s' j t b,
  obtainable i s -> op_legal o -> o <> op_swap -> run_op o i s = Ok (i', extra, s') -> In j (i' :: extra) ->
  not_last (i_top j) t -> not_last (i_bottom j) b ->
  bosh_no_saddle2 i s t b = Ok true -> bosh_no_saddle2 j s' t b = Ok true.
Proof. exact claim_C95_pair. Qed.
Print Assumptions C95_pair.
Theorem C95_swap : forall (T : Type) (O : LenOps T) (W : LenLaws T) (i : iet T) (s : slen T) t b,
  obtainable i s -> not_last (i_top i) t -> not_last (i_bottom i) b ->
  bosh_no_saddle2 (iet_swap i) s b t = bosh_no_saddle2 i s t b.
Proof. exact claim_C95_swap. Qed.
Print Assumptions C95_swap.

(** Once there is no periodic trajectory, an induction either finds a connection or refers
    to the criterion; it never reaches its limit, finds no cylinder and no self-similarity. *)
Theorem C95_induce : forall (T : Type) (O : LenOps T) (W : LenLaws T) (i : iet T) (s : slen T) k fuel limit st j t,
  obtainable i s -> bosh_no_periodic i s = Ok (true, k) -> (- INT_MAX - 1 <= limit <= INT_MAX)%Z ->
  induce sample_lens fuel limit i s = Ok (st, j, t) ->
  is_result st = SEPARATING_CONNECTION \/ is_result st = NON_SEPARATING_CONNECTION \/
  is_result st = WITHOUT_PERIODIC_TRAJECTORY_BOSHERNITZAN /\ limit <> (-1)%Z.
Proof. exact claim_C95_induce. Qed.
Print Assumptions C95_induce.

(** The same for the steps of a decomposition: none reaches its limit, no cylinder appears,
    and the criterion applies to all components at any time. *)
Theorem C95_steps : forall (T : Type) (O : LenOps T) (W : LenLaws T) (i : iet T) (s : slen T) k tr d,
  bosh_no_periodic i s = Ok (true, k) -> decomposition i s tr d ->
  (forall st, In st tr -> dst_result st = D_SEPARATING_CONNECTION \/ dst_result st = D_NON_SEPARATING_CONNECTION \/
     dst_result st = D_WITHOUT_PERIODIC_TRAJECTORY_BOSHERNITZAN) /\
  (forall x, In x (d_comps d) -> dc_cylinder x <> Some true /\ exists k', bosh_no_periodic (dc_iet x) (d_len d) = Ok (true, k')).
Proof. exact claim_C95_steps. Qed.
Print Assumptions C95_steps.

(** So decompose succeeds with any limit, also without one, and every component is without
    periodic trajectories in the end. *)
Theorem C95_decompose : forall (T : Type) (O : LenOps T) (W : LenLaws T) (i : iet T) (s : slen T) k d rounds fuel limit,
  obtainable i s -> bosh_no_periodic i s = Ok (true, k) -> dec_make i s = Ok d ->
  (limit <= INT_MAX)%Z -> length (i_top i) < rounds -> length (i_top i) < fuel -> (limit < Z.of_nat fuel)%Z ->
  exists d', decompose rounds fuel default_target limit d = Ok (true, d') /\
    forall x, In x (d_comps d') -> dc_wpt x = Some true /\ dc_cylinder x <> Some true.
Proof. exact claim_C95_decompose. Qed.
Print Assumptions C95_decompose.

(** Whatever the target is: a decomposition that ends has met it. *)
Theorem C95_targets : forall (T : Type) (O : LenOps T) (W : LenLaws T) (i : iet T) (s : slen T) k d rounds fuel limit target ok d',
  obtainable i s -> bosh_no_periodic i s = Ok (true, k) -> dec_make i s = Ok d ->
  (limit <= INT_MAX)%Z -> length (i_top i) < fuel ->
  decompose rounds fuel target limit d = Ok (ok, d') -> ok = true.
Proof. exact claim_C95_targets. Qed.
Print Assumptions C95_targets.

(** Two rotations side by side, with lengths in Q(sqrt 2): there are saddle connections, the
    decomposition has two components, and both are without periodic trajectories. *)
Example C95_example :
  obtainable fn_iet fn_lens /\
  match bosh_no_periodic fn_iet fn_lens with Ok (r, _) => r | _ => false end = true /\
  match run_op (op_induce 3 0) fn_iet fn_lens with Ok (_, l, _) => length l =? 1 | _ => false end = true /\
  match dec_make fn_iet fn_lens with
  | Ok d => match decompose 5 5 default_target (-1) d with Ok (ok, d') => ok && (length (d_comps d') =? 2) | _ => false end
  | _ => false end = true.
Proof.
  split; [exact fn_obtainable|]. repeat split; vm_compute; reflexivity.
Qed.
Example C95_saddle_example :
  obtainable in_iet in_lens /\ bosh_no_saddle in_iet in_lens = Ok true /\
  not_last (i_top in_iet) 0 /\ not_last (i_bottom in_iet) 2 /\ bosh_no_saddle2 in_iet in_lens 0 2 = Ok true.
Proof.
  split; [exact in_obtainable|]. split; [vm_compute; reflexivity|]. split; [exists [], 1, [2]; reflexivity|].
  split; [exists [], 1, [0]; reflexivity|]. vm_compute. reflexivity.
Qed.
(** Negative answers are not final: here the part that is split off has no periodic
    trajectory, the whole has. *)
Example C95_negative_example :
  obtainable ng_iet fn_lens /\
  match bosh_no_periodic ng_iet fn_lens with Ok (r, _) => r | _ => true end = false /\
  match run_op op_reduce ng_iet fn_lens with
  | Ok (_, [j], t) => match bosh_no_periodic j t with Ok (r, _) => r | _ => false end
  | _ => false end = true.
Proof.
  split; [exact ng_obtainable|]. split; vm_compute; reflexivity.
Qed.
