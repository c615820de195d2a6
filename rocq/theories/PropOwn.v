(** Handles never dangle, and memory is freed as soon as nobody can reach it. *)
From Coq Require Import List Arith.
From Verif Require Import Base Own OwnApi ClaimsOwn.
Import ListNotations.
(** ** C83: Components and half edges keep everything they need alive; nothing leaks. *)

(** Whatever a program does and in whatever order it destroys its variables, no call accesses an
    object that has been destroyed; in particular the [weak_ptr] from the lengths of a
    decomposition to the decomposition is never expired when induction needs it.  [Throw] stands
    for programs that do not compile. *)
Theorem C83_safe : forall os : list op,
  (exists m, exec_all os start = Ok m) \/ exec_all os start = Throw.
Proof. exact claim_C83_safe. Qed.
Print Assumptions C83_safe.

(** A call that compiles succeeds, and only those do. *)
Theorem C83_calls : forall (m : memory) (o : op),
  reached m -> (compiles o m <-> exists m', exec o m = Ok m').
Proof. exact claim_C83_calls. Qed.
Print Assumptions C83_calls.

(** At every point the objects that exist are exactly those that some variable leads to. *)
Theorem C83_alive : forall (m : memory) (i : nat), reached m -> (alive m i <-> held m i).
Proof. exact claim_C83_alive. Qed.
Print Assumptions C83_alive.

(** Once the last variable is gone, so is every object. *)
Theorem C83_freed : forall (m : memory) (i : nat), reached m -> vars m = [] -> ~ alive m i.
Proof. exact claim_C83_freed. Qed.
Print Assumptions C83_freed.

(** A component, and a half edge of the component split off, outlive the variables for the
    decomposition, the IET and the lengths; an IET made from the component outlives all. *)
Example C83_example :
  let os := [MakeLengths; MakeIet 0; Decompose 1; Components 2 0; Destroy 0; Destroy 0; Step 1 true;
             Components 0 1; Edge 2; Destroy 0; Destroy 0; Destroy 0; Visit 0; ComponentOf 0; Step 1 true; IetOf 1] in
  (exists m, exec_all os start = Ok m /\ List.length (vars m) = 3 /\ forall i, i < 4 -> alive m i) /\
  (exists m, exec_all (os ++ [Destroy 0; Destroy 0]) start = Ok m /\ alive m 3 /\ ~ alive m 0 /\ ~ alive m 1 /\ ~ alive m 2) /\
  (exists m, exec_all (os ++ [Destroy 0; Destroy 0; Destroy 0]) start = Ok m /\ vars m = []).
Proof.
  cbv zeta. split; [|split].
  - eexists. split; [vm_compute; reflexivity|]. split; [reflexivity|]. unfold alive. cbn [heap_of].
    intros i Hi. do 4 (destruct i as [|i]; [eexists; reflexivity|]). exfalso. do 4 apply Nat.succ_lt_mono in Hi. inversion Hi.
  - eexists. split; [vm_compute; reflexivity|]. unfold alive. cbn [heap_of nth_error].
    split; [eexists; reflexivity|]. split; [|split]; intros [c H]; discriminate.
  - eexists. split; vm_compute; reflexivity.
Qed.
