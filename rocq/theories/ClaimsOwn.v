(** Proofs of the properties in [PropOwn]. *)
From Coq Require Import List Arith.
From Verif Require Import Base Own OwnApi OwnProof.
Import ListNotations.
Lemma claim_C83_safe : forall os : list op,
  (exists m, exec_all os start = Ok m) \/ exec_all os start = Throw.
Proof.
  intros os. apply run_safe. apply start_good.
Qed.

Lemma claim_C83_calls : forall (m : memory) (o : op),
  reached m -> (compiles o m <-> exists m', exec o m = Ok m').
Proof.
  intros m o H. apply reached_good in H. split.
  - intros Hc. destruct (exec_ok o m H Hc) as (m' & E & _). eauto.
  - intros [m' E]. destruct (exec_cases o m H) as [(? & _ & _ & Hc)|[Et _]]; [exact Hc|congruence].
Qed.

Lemma claim_C83_alive : forall (m : memory) (i : nat), reached m -> (alive m i <-> held m i).
Proof.
  intros m i H. apply reached_good in H. split; [apply alive_held|apply held_alive]; exact H.
Qed.

Lemma claim_C83_freed : forall (m : memory) (i : nat), reached m -> vars m = [] -> ~ alive m i.
Proof.
  intros m i H Hv Ha. apply (none_held m i Hv). apply alive_held; [apply reached_good; exact H|exact Ha].
Qed.

