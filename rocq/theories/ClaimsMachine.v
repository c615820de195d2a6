(** Proofs of the properties in [PropMachine]. *)
From Coq Require Import Reals Lra Permutation.
From Verif Require Import Base QcTac LenT FM Subspace Lengths IET LenInst Api Spec MachineInt.
From Verif Require Import ZorichProof InduceProof World MachineProof Fixtures.
From Verif Require Import Decomp DecApi Overflow.
Open Scope nat_scope.

Lemma claim_C43_exact : forall lo hi (i : iet Z) (s : slen Z) o, (lo <= 0)%Z ->
  obtainable i s -> op_legal o -> (total (lamR s) (i_top i) <= IZR hi)%R ->
  mrun_op lo hi o i s = run_op o i s /\
  forall i' extra s', mrun_op lo hi o i s = Ok (i', extra, s') ->
    forall j, In j (i' :: extra) -> (total (lamR s') (i_top j) <= IZR hi)%R.
Proof.
  intros lo hi i s o Hlo Hg%obtainable_good Hl B. pose proof Hg as (H & C & _).
  assert (E : mrun_op lo hi o i s = run_op o i s).
  { destruct o; cbn [mrun_op run_op]; try reflexivity; [rewrite (zorich_eq lo hi Hlo i s H B); reflexivity|].
    rewrite (induce_eq lo hi Hlo fuel limit i s H C B). reflexivity. }
  split; [exact E|]. intros i' extra s' E' j Hj. rewrite E in E'. pose proof (op_ltot o i s i' extra s' Hg Hl E' j Hj) as Q. unfold ltot in Q. lra.
Qed.

Lemma claim_C43_results : forall lo hi (i : iet Z) (s : slen Z) fuel limit, (lo <= 0)%Z ->
  obtainable i s -> (total (lamR s) (i_top i) <= IZR hi)%R ->
  zorich (machine_lens lo hi) i s = zorich sample_lens i s /\
  induce (machine_lens lo hi) fuel limit i s = induce sample_lens fuel limit i s.
Proof.
  intros lo hi i s fuel limit Hlo Hg%obtainable_good B. pose proof Hg as (H & C & _). split.
  - exact (zorich_eq lo hi Hlo i s H B).
  - exact (induce_eq lo hi Hlo fuel limit i s H C B).
Qed.

Lemma claim_C43_overflow : exists (i : iet Z) (s : slen Z), obtainable i s /\ Forall (fun x => 0 < x <= INT_MAX)%Z (sl_lens s) /\
  zorich (machine_lens (- INT_MAX - 1) INT_MAX) i s = UB /\ exists r, zorich sample_lens i s = Ok r.
Proof.
  exists (fresh [0; 1; 2] [1; 2; 0]), (mkslen [] [INT_MAX; INT_MAX - 1; INT_MAX - 1]%Z).
  split; [apply fresh_obtainable; vm_compute; reflexivity|]. split; [repeat constructor; vm_compute; congruence|]. split; [vm_compute; reflexivity|].
  eexists. vm_compute. reflexivity.
Qed.

Lemma claim_C48_refuted : exists (i : iet Z) (s : slen Z) d f, decomposition i s [] d /\
  forall fuel, f <= fuel -> decomposition_step fuel (-1) 0 d = UB.
Proof.
  set (n := Z.to_nat 68719476737). assert (Hn : (68719476736 < Z.of_nat n)%Z) by (unfold n; rewrite Z2Nat.id; lia).
  destruct (fib_overflow n Hn) as (d & D & H). exists fib_iet, (fib_lens n), d, (Z.to_nat (INT_MAX + 1)).
  split; [exact D|]. intros fuel Hf. apply H. assert (0 <= INT_MAX)%Z by discriminate. lia.
Qed.

