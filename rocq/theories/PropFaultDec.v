(** Property C92: exceptions thrown by the lengths while a decomposition is computed.

    [fd_step fuel limit c k d] and [fd_decompose rounds fuel target limit k d] ([FaultDec]): a step on component [c], and [decompose], if the
    first [k] calls of members of the lengths succeed and the next one throws.  [D_raised d']: an exception is thrown to the
    user, and [d'] is in the decomposition now.  [D_did a k' d']: the call returns [a].
    [decomposition_step] and [decompose] ([Decomp]) are the same without exceptions. *)
From Coq Require Import Reals Permutation.
From Verif Require Import Base LenT FM Subspace Lengths IET LenInst Sqrt2 Spec Api RatioApi Decomp DecApi Fault FaultDec Fixtures DecFixtures.
From Verif Require Import ClaimsFaultDec.
Open Scope nat_scope.
(** ** C92: After an exception of the lengths, a decomposition can be continued. *)

(** A step makes some number [n] of calls of members.  If one of these throws, then the exception gets to the user;
    otherwise the step does what it always does. *)
Theorem C92_step : forall (T : Type) (O : LenOps T) (fuel : nat) (limit : Z) (c : nat) (d : decomp T), exists n, forall k,
  (k < n -> exists d', fd_step fuel limit c k d = D_raised d') /\
  (n <= k ->
    match decomposition_step fuel limit c d with
    | Ok (st, d') => fd_step fuel limit c k d = D_did st (k - n) d'
    | Throw => exists d', fd_step fuel limit c k d = D_raised d'
    | AssertFail => fd_step fuel limit c k d = D_fails F_assert
    | UB => fd_step fuel limit c k d = D_fails F_undefined
    | OutOfFuel => fd_step fuel limit c k d = D_fails F_fuel
    end).
Proof. exact claim_C92_step. Qed.
Print Assumptions C92_step.

(** The same holds for [decompose], whatever the target. *)
Theorem C92_decompose : forall (T : Type) (O : LenOps T) (rounds fuel : nat) (target : cview T -> bool) (limit : Z) (d : decomp T), exists n, forall k,
  (k < n -> exists d', fd_decompose rounds fuel target limit k d = D_raised d') /\
  (n <= k ->
    match decompose rounds fuel target limit d with
    | Ok (b, d') => fd_decompose rounds fuel target limit k d = D_did b (k - n) d'
    | Throw => exists d', fd_decompose rounds fuel target limit k d = D_raised d'
    | AssertFail => fd_decompose rounds fuel target limit k d = D_fails F_assert
    | UB => fd_decompose rounds fuel target limit k d = D_fails F_undefined
    | OutOfFuel => fd_decompose rounds fuel target limit k d = D_fails F_fuel
    end).
Proof. exact claim_C92_decompose. Qed.
Print Assumptions C92_decompose.

(** Missing: that the decomposition can be used as it is; see the theorems below.  What can be said about what a step leaves behind: the other components
    and their lengths and connections are as they were.  The component itself keeps its flags; up to [swap] it is an exchange that is
    reached by elementary induction steps, or the first part of one that has been split.  No connection is lost.
    From the rows and the lengths of each component, a new IET can be constructed, and all that is said about IETs holds for it. *)
Theorem C92_partial : forall (T : Type) (O : LenOps T) (W : LenLaws T) (i : iet T) (s : slen T) (tr : list dstep) (d : decomp T) (fuel : nat) (limit : Z) (c : nat) (x : dcomp T) (k : nat) (d' : decomp T),
  decomposition i s tr d -> component d c x -> (limit <= INT_MAX)%Z -> length (d_keys d) < fuel ->
  fd_step fuel limit c k d = D_raised d' ->
  exists i',
    component d' c (iet_set x i') /\ length (d_comps d') = length (d_comps d) /\
    (forall c', c' <> c -> nth_error (d_comps d') c' = nth_error (d_comps d) c') /\
    (forall l, ~ In l (i_top (dc_iet x)) -> lamR (d_len d') l = lamR (d_len d) l /\ d_conns d' l = d_conns d l) /\
    (forall l, topRight (d_conns d' l) = topRight (d_conns d l) /\ bottomRight (d_conns d' l) = bottomRight (d_conns d l)) /\
    Permutation (flat_map (fun l => topLeft (d_conns d' l) ++ bottomLeft (d_conns d' l)) (i_top i))
                (flat_map (fun l => topLeft (d_conns d l) ++ bottomLeft (d_conns d l)) (i_top i)) /\
    (exists p q p' q', i_bottom i' = p ++ q /\ i_bottom i' = p' ++ q' /\ sl_stack (d_len d') = p /\ d_stack d' = p') /\
    (exists e, rauzy_path (comp_exch d x) e /\
      if i_swap i' then exch_of i' (d_len d') = flip e
      else exch_of i' (d_len d') = e \/ exists n, invariant_prefix e n /\ exch_of i' (d_len d') = left_of e n) /\
    (forall y, In y (d_comps d') -> exists j, iet_make (sl_clear (d_len d')) (i_top (dc_iet y)) (i_bottom (dc_iet y)) = Ok j /\ obtainable j (sl_clear (d_len d'))).
Proof. exact claim_C92_partial. Qed.
Print Assumptions C92_partial.

(** An exception that is thrown during [decompose] is thrown during one of the steps that it makes. *)
Theorem C92_where : forall (T : Type) (O : LenOps T) (W : LenLaws T) (i : iet T) (s : slen T) (tr : list dstep) (d : decomp T) (rounds fuel : nat) (target : cview T -> bool) (limit : Z) (k : nat) (d' : decomp T),
  decomposition i s tr d -> (limit <= INT_MAX)%Z -> length (d_keys d) < fuel ->
  fd_decompose rounds fuel target limit k d = D_raised d' ->
  exists tr' d1 c x k1, decomposition i s (tr ++ tr') d1 /\ component d1 c x /\ fd_step fuel limit c k1 d1 = D_raised d'.
Proof. exact claim_C92_where. Qed.
Print Assumptions C92_where.

(** Not as it is: an exception can leave labels on the stack, and then the next call fails. *)
Theorem C92_stack_refuted : exists (i : iet Z) (s : slen Z) (d : decomp Z) (k : nat) (d' : decomp Z),
  decomposition i s [] d /\ fd_decompose 20 100 default_target (-1) k d = D_raised d' /\
  forall k', 40 <= k' -> fd_decompose 20 100 default_target (-1) k' d' = D_fails F_assert.
Proof. exact claim_C92_stack_refuted. Qed.
Print Assumptions C92_stack_refuted.

(** If the IET for the second part of a component that has been split cannot be constructed, then that part is lost: [decompose] says
    that it is done, but there is one cylinder where there should be two. *)
Theorem C92_lost_refuted : exists (i : iet Z) (s : slen Z) (d : decomp Z) (k : nat) (d' : decomp Z),
  decomposition i s [] d /\ fd_decompose 20 100 default_target (-1) k d = D_raised d' /\
  (exists d1, decompose 20 100 default_target (-1) d = Ok (true, d1) /\ map (fun x => i_top (dc_iet x)) (d_comps d1) = [[1]; [3]]) /\
  forall k', 40 <= k' -> exists k'' d1, fd_decompose 20 100 default_target (-1) k' d' = D_did true k'' d1 /\ map (fun x => i_top (dc_iet x)) (d_comps d1) = [[1]].
Proof. exact claim_C92_lost_refuted. Qed.
Print Assumptions C92_lost_refuted.

(** And the labels on the stack can make the next call of [decompose] subtract the wrong lengths, in a component that had nothing to do with the exception: no assertion
    fails, [decompose] says that it is done, but the first cylinder has circumference 2 and not 10. *)
Theorem C92_wrong_refuted : exists (i : iet Z) (s : slen Z) (d : decomp Z) (k : nat) (d' : decomp Z),
  decomposition i s [] d /\ fd_decompose 20 100 default_target (-1) k d = D_raised d' /\
  (exists d1 x, decompose 20 100 default_target (-1) d = Ok (true, d1) /\
     component d1 0 x /\ i_top (dc_iet x) = [1] /\ dc_cylinder x = Some true /\ nth_error (sl_lens (d_len d1)) 1 = Some 10%Z) /\
  forall k', 40 <= k' -> exists k'' d1 x, fd_decompose 20 100 default_target (-1) k' d' = D_did true k'' d1 /\
     component d1 0 x /\ i_top (dc_iet x) = [1] /\ dc_cylinder x = Some true /\ nth_error (sl_lens (d_len d1)) 1 = Some 2%Z.
Proof. exact claim_C92_wrong_refuted. Qed.
Print Assumptions C92_wrong_refuted.

Example C92_example : exists d, decomposition z_iet z_lens [] d /\
  match fd_step 100 (-1) 0 6 d with
  | D_raised d' => map (fun x => i_bottom (dc_iet x)) (d_comps d') = [[3; 2; 1; 0]] /\ d_stack d' = [3] /\ sl_stack (d_len d') = [3; 2] /\ sl_lens (d_len d') = sl_lens z_lens
  | _ => False
  end.
Proof.
  destruct (dec_make z_iet z_lens) as [d| | | |] eqn:E; try (vm_compute in E; discriminate). exists d. split; [exact (dh_new _ _ d z_obtainable E)|].
  vm_compute in E. injection E as <-. vm_compute. auto.
Qed.
