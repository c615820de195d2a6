(** Endless sequences of steps on a decomposition with injected connections. *)
From Coq Require Import Reals Permutation Lia.
From Verif Require Import Base QcTac LenT FM Subspace Lengths IET Decomp Spec Api DecApi InjApi.
From Verif Require Import DecompInv DecompRef DecompStep DecompAll DecompBudget Fuel InjRel InjHist ClaimsInject.
Open Scope nat_scope.

Section InjEndless.
Context {T : Type} {O : LenOps T} {W : LenLaws T}.
Context (i : iet T) (s : slen T) (J : list injection) (fuel choice : nat -> nat) (limit : nat -> Z).

Definition big (n : nat) : nat := Nat.max (fuel n) (S (length (i_top i))).

(** The same steps without the injections. *)
Fixpoint plain (d0 : decomp T) (n : nat) : decomp T :=
  match n with
  | 0 => d0
  | S n => match decomposition_step (big n) (limit n) (choice n) (plain d0 n) with Ok (_, d') => d' | _ => plain d0 n end
  end.

Lemma plain_run (D : nat -> decomp T) (st : nat -> dstep) tr :
  injected_decomposition i s J tr (D 0) ->
  (forall n, (limit n <= INT_MAX)%Z /\ choice n < length (d_comps (D n)) /\
     decomposition_step (fuel n) (limit n) (choice n) (D n) = Ok (st n, D (S n))) ->
  exists tr0 d0 (st0 : nat -> dstep), decomposition i s tr0 d0 /\
    forall n, d_len (plain d0 n) = d_len (D n) /\ d_comps (plain d0 n) = d_comps (D n) /\
      decomposition_step (big n) (limit n) (choice n) (plain d0 n) = Ok (st0 n, plain d0 (S n)) /\ same_step J (st0 n) (st n).
Proof.
  intros H R. destruct (injected_history i s J tr (D 0) H) as (tr0 & d0 & Hh & LK & _).
  assert (A : forall n, exists tr0, decomposition i s tr0 (plain d0 n) /\ link i s J (plain d0 n) (D n)).
  { induction n as [|n (tn & Hn & Ln)]; [exists tr0; split; [exact Hh | exact LK]|].
    destruct (R n) as (R1 & R2 & R3). assert (Ec : d_comps (plain d0 n) = d_comps (D n)) by apply Ln. rewrite <- Ec in R2.
    pose proof (link_step i s J _ _ tn (big n) (limit n) (choice n) Hn Ln R1 R2 ltac:(rewrite (history_keys _ _ _ _ Hn); unfold big; lia)) as Q.
    destruct (decomposition_step_more (fuel n) (big n) (limit n) (choice n) (D n) ltac:(unfold big; lia)) as [X|X]; [rewrite R3 in X; discriminate|].
    rewrite <- X, R3 in Q. cbn [plain].
    destruct (decomposition_step (big n) (limit n) (choice n) (plain d0 n)) as [[st0 d1]| | | |] eqn:E0; try contradiction.
    cbn in Q. destruct Q as (_ & Q2 & _). exists (tn ++ [st0]). split; [eapply dh_step; eassumption | exact Q2]. }
  exists tr0, d0, (fun n => match decomposition_step (big n) (limit n) (choice n) (plain d0 n) with Ok (x, _) => x | _ => st n end).
  split; [exact Hh|]. intros n. destruct (A n) as (tn & Hn & Ln). split; [apply Ln|]. split; [apply Ln|].
  destruct (R n) as (R1 & R2 & R3). assert (Ec : d_comps (plain d0 n) = d_comps (D n)) by apply Ln. rewrite <- Ec in R2.
  pose proof (link_step i s J _ _ tn (big n) (limit n) (choice n) Hn Ln R1 R2 ltac:(rewrite (history_keys _ _ _ _ Hn); unfold big; lia)) as Q.
  destruct (decomposition_step_more (fuel n) (big n) (limit n) (choice n) (D n) ltac:(unfold big; lia)) as [X|X]; [rewrite R3 in X; discriminate|].
  rewrite <- X, R3 in Q. cbn [plain].
  destruct (decomposition_step (big n) (limit n) (choice n) (plain d0 n)) as [[st0 d1]| | | |] eqn:E0; try contradiction.
  cbn in Q. split; [reflexivity | apply Q].
Qed.

End InjEndless.
