(** Properties C43 and C48: machine integers do not overflow. *)
From Coq Require Import Reals Permutation.
From Verif Require Import Base QcTac LenT FM Subspace Lengths IET LenInst Api Spec MachineInt Fixtures Decomp DecApi.
From Verif Require Import ClaimsMachine.
Open Scope nat_scope.

(** ** C43: Machine integer lengths do not overflow. *)

(** If the total length of the IET fits into the type then every call behaves as with
    unbounded integers; in particular there is no overflow, which would be [UB].  All IETs
    after the call satisfy the assumption again. *)
Theorem C43_exact : forall lo hi (i : iet Z) (s : slen Z) o, (lo <= 0)%Z ->
  obtainable i s -> op_legal o -> (total (lamR s) (i_top i) <= IZR hi)%R ->
  mrun_op lo hi o i s = run_op o i s /\
  forall i' extra s', mrun_op lo hi o i s = Ok (i', extra, s') ->
    forall j, In j (i' :: extra) -> (total (lamR s') (i_top j) <= IZR hi)%R.
Proof. exact claim_C43_exact. Qed.
Print Assumptions C43_exact.

(** The results of the calls themselves. *)
Theorem C43_results : forall lo hi (i : iet Z) (s : slen Z) fuel limit, (lo <= 0)%Z ->
  obtainable i s -> (total (lamR s) (i_top i) <= IZR hi)%R ->
  zorich (machine_lens lo hi) i s = zorich sample_lens i s /\
  induce (machine_lens lo hi) fuel limit i s = induce sample_lens fuel limit i s.
Proof. exact claim_C43_results. Qed.
Print Assumptions C43_results.

(** It does not suffice that all the lengths fit. *)
Theorem C43_overflow : exists (i : iet Z) (s : slen Z), obtainable i s /\ Forall (fun x => 0 < x <= INT_MAX)%Z (sl_lens s) /\
  zorich (machine_lens (- INT_MAX - 1) INT_MAX) i s = UB /\ exists r, zorich sample_lens i s = Ok r.
Proof. exact claim_C43_overflow. Qed.
Print Assumptions C43_overflow.

Example C43_example : obtainable z_iet z_lens /\ (total (lamR z_lens) (i_top z_iet) <= IZR INT_MAX)%R /\
  mrun_op (- INT_MAX - 1) INT_MAX (op_induce 100 (-1)) z_iet z_lens = run_op (op_induce 100 (-1)) z_iet z_lens.
Proof. split; [exact z_obtainable|]. split; [|vm_compute; reflexivity]. cbn [z_iet z_lens i_top total]. unfold lamR. cbn. apply Rminus_le. rewrite <- !plus_IZR. rewrite <- minus_IZR. apply IZR_le. vm_compute. discriminate. Qed.

(** ** C48: the counter of an unlimited decomposition step. *)

(** It does overflow: consecutive Fibonacci numbers are lengths of two intervals that need
    so many rounds that [2 * (limit + 1)] leaves the range of [int].  (More fuel does not
    help: the outcome is not [OutOfFuel].) *)
Theorem C48_refuted : exists (i : iet Z) (s : slen Z) d f, decomposition i s [] d /\
  forall fuel, f <= fuel -> decomposition_step fuel (-1) 0 d = UB.
Proof. exact claim_C48_refuted. Qed.
Print Assumptions C48_refuted.
