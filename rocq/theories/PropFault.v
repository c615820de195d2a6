(** Property C91: exceptions thrown by the lengths.

    [f_call o k i s] ([Fault]): the call [o] on the IET [i] with lengths [s] if the first [k] calls of members of
    the lengths succeed and the next one throws.  [Raised i' s']: an exception is thrown to the user, the IET is now [i'] and its
    lengths are [s'].  [Did a k' i' s']: the call returns [a].  [call] ([RatioApi]) is the same without exceptions.
    [rauzy_path], [left_of], [flip], [invariant_prefix]: see [Spec]. *)
From Coq Require Import Reals Permutation.
From Verif Require Import Base LenT FM Subspace Lengths IET LenInst Sqrt2 Spec Api RatioApi Fault Fixtures.
From Verif Require Import ClaimsFault.
Open Scope nat_scope.
(** ** C91: After an exception of the lengths, the IET can be used as before. *)

(** A call makes some number [n] of calls of members.  If one of these throws, then the exception gets
    to the user; otherwise the call does what it always does. *)
Theorem C91_calls : forall (T : Type) (O : LenOps T) (o : op) (i : iet T) (s : slen T), exists n, forall k,
  (k < n -> exists i' s', f_call o k i s = Raised i' s') /\
  (n <= k ->
    match call o i s with
    | Ok (a, i', extra, s') => f_call o k i s = Did (a, extra) (k - n) i' s'
    | Throw => exists i' s', f_call o k i s = Raised i' s'
    | AssertFail => f_call o k i s = Fails F_assert
    | UB => f_call o k i s = Fails F_undefined
    | OutOfFuel => f_call o k i s = Fails F_fuel
    end).
Proof. exact claim_C91_calls. Qed.
Print Assumptions C91_calls.

(** Missing: that the IET can be used as it is; see the theorems below.  It can be repaired: the stack holds the first labels of the bottom row; when these
    have been popped, a new IET can be constructed from the rows and the lengths, and all that is said about
    IETs holds for it.  Up to [swap] it is an exchange that is reached from the original one by elementary
    induction steps, or the first part of one that has been split.  Other lengths have not been changed. *)
Theorem C91_partial : forall (T : Type) (O : LenOps T) (W : LenLaws T) (o : op) (k : nat) (i : iet T) (s : slen T) i' s',
  obtainable i s -> op_legal o -> f_call o k i s = Raised i' s' ->
  (exists p q, i_bottom i' = p ++ q /\ sl_stack s' = p) /\
  (exists j, iet_make (sl_clear s') (i_top i') (i_bottom i') = Ok j /\ obtainable j (sl_clear s')) /\
  (forall l, ~ In l (i_top i) -> lamR s' l = lamR s l) /\
  exists e, rauzy_path (exch_of i s) e /\
    if Bool.eqb (i_swap i') (i_swap i)
    then exch_of i' s' = e \/ exists n, invariant_prefix e n /\ exch_of i' s' = left_of e n
    else exch_of i' s' = flip e.
Proof. exact claim_C91_partial. Qed.
Print Assumptions C91_partial.

(** All calls but the two inductions are safe: after an exception the lengths are as before, and the IET is as if the call had not been
    made, apart from the cache of the SAF invariant; in the case of [reduce] it is as if the call had been made, but the second part is lost. *)
Theorem C91_safe : forall (T : Type) (O : LenOps T) (W : LenLaws T) (o : op) (k : nat) (i : iet T) (s : slen T) i' s',
  obtainable i s -> f_call o k i s = Raised i' s' ->
  match o with
  | op_zorich | op_induce _ _ => True
  | op_reduce => s' = s /\ obtainable i' s /\ exists r, reduce i s = Ok (Some r, i')
  | _ => s' = s /\ obtainable i' s /\ (i' = i \/ exists v, saf_invariant i s = Ok (v, i'))
  end.
Proof. exact claim_C91_safe. Qed.
Print Assumptions C91_safe.

(** [zorichInduction] has either done all of its work, and all is well, or none, but then there are labels left on the stack
    (or it has not begun). *)
Theorem C91_zorich : forall (T : Type) (O : LenOps T) (W : LenLaws T) (k : nat) (i : iet T) (s : slen T) i' s',
  obtainable i s -> f_call op_zorich k i s = Raised i' s' ->
  (obtainable i' s' /\ exists found, zorich sample_lens i s = Ok (found, i', s')) \/
  (i' = i /\ sl_lens s' = sl_lens s /\ exists q, i_bottom i = sl_stack s' ++ q).
Proof. exact claim_C91_zorich. Qed.
Print Assumptions C91_zorich.

(** Not as it is: the labels that are left on the stack can make the next call fail. *)
Theorem C91_stack_refuted : exists (i : iet Z) (s : slen Z) (k : nat) i' s',
  obtainable i s /\ f_call op_zorich k i s = Raised i' s' /\ forall k', 10 <= k' -> f_call op_zorich k' i' s' = Fails F_assert.
Proof. exact claim_C91_stack_refuted. Qed.
Print Assumptions C91_stack_refuted.

(** If the lengths cannot be copied when the tracker for self-similarity is started, then the next [induce]
    reads beyond the end of a vector. *)
Theorem C91_tracker_refuted : exists (i : iet q2) (s : slen q2) (k : nat) i' s',
  obtainable i s /\ f_call (op_induce 10 5) k i s = Raised i' s' /\ sl_stack s' = [] /\
  forall k', 10 <= k' -> f_call (op_induce 10 5) k' i' s' = Fails F_undefined.
Proof. exact claim_C91_tracker_refuted. Qed.
Print Assumptions C91_tracker_refuted.

(** If an exception is thrown right after the tracker has been started, then the next [induce] compares the
    IET with itself and says that it has no periodic trajectory, although it does. *)
Theorem C91_verdict_refuted : exists (i : iet q2) (s : slen q2) (k : nat) i' s',
  obtainable i s /\ f_call (op_induce 10 5) k i s = Raised i' s' /\ sl_stack s' = [] /\ has_periodic_point (exch_of i' s') /\
  forall k', 10 <= k' -> exists k'' i'' s'',
    f_call (op_induce 10 5) k' i' s' = Did (ans_induce WITHOUT_PERIODIC_TRAJECTORY_AUTO_SIMILAR None, []) k'' i'' s''.
Proof. exact claim_C91_verdict_refuted. Qed.
Print Assumptions C91_verdict_refuted.

Example C91_safe_example : obtainable r_iet r_lens /\
  match f_call op_reduce 0 r_iet r_lens with Raised i s => s = r_lens /\ i_top i = [0; 1] | _ => False end.
Proof.
  split; [exact r_obtainable|]. vm_compute. split; reflexivity.
Qed.

Example C91_zorich_example : obtainable z_iet z_lens /\
  match f_call op_zorich 6 z_iet z_lens with Raised i s => i_bottom i = [2; 1; 3; 0] /\ sl_lens s = [3; 5; 3; 4]%Z | _ => False end.
Proof.
  split; [exact z_obtainable|]. vm_compute. split; reflexivity.
Qed.

(** The seventh call of a member is the second pop(): one label is left on the stack. *)
Example C91_example : obtainable z_iet z_lens /\ op_legal (op_induce 10 5) /\
  match f_call (op_induce 10 5) 6 z_iet z_lens with
  | Raised i s => i_top i = [0; 1; 2; 3] /\ i_bottom i = [3; 2; 1; 0] /\ sl_stack s = [3] /\ sl_lens s = sl_lens z_lens
  | _ => False
  end.
Proof.
  split; [exact z_obtainable|]. split; [split; vm_compute; discriminate|]. vm_compute. auto.
Qed.
