(** Properties C87 and C88: decompose() with an arbitrary function as its target.

    [decompose_with rounds fuel f limit a d] ([Callback]): decompose(f, limit) is called for the
    decomposition [d] when [a] is the state of the function [f]; it returns true ([Accept]) or false
    ([Reject]) or passes on an exception ([Raise]).  [comp_decompose_with] is the same for a single
    component.  [well_behaved], [passive], [later], [decided]: see [CallApi].
    [decomposition i s tr d] ([DecApi]): [d] is any state that a program can reach with a
    decomposition of the IET [i] with lengths [s]. *)
From Coq Require Import Reals Permutation.
From Verif Require Import Base LenT FM Subspace Lengths IET LenInst Sqrt2 Decomp Spec SpecDec Api DecApi Callback CallApi Fixtures DecFixtures.
From Verif Require Import ClaimsCall.
Open Scope nat_scope.
(** ** C87: decompose() is safe for every target. *)

(** A target that only looks at the component. *)
Theorem C87_looking : forall (T : Type) (O : LenOps T) (A : Type) rounds fuel target limit (a : A) (d : decomp T),
  decompose_with rounds fuel (looking target) limit a d =
    ('(ok, d') <- decompose rounds fuel target limit d ;; Ok (a, d', if ok then Accept else Reject)).
Proof. exact claim_C87_looking. Qed.
Print Assumptions C87_looking.

(** Whatever the target does, and even if it throws: the decomposition is left in a state that can also be
    reached with steps alone, so that all properties of decompositions hold for it; and no
    assertion fails in decompose(). *)
Theorem C87_history : forall (T : Type) (O : LenOps T) (W : LenLaws T) (A : Type) (i : iet T) (s : slen T) (f : callback T A) tr d rounds fuel limit a,
  decomposition i s tr d -> (limit <= INT_MAX)%Z -> well_behaved i s f ->
  (forall a' d' r, decompose_with rounds fuel f limit a d = Ok (a', d', r) -> exists tr', decomposition i s (tr ++ tr') d') /\
  (forall c a' d' r, c < length (d_comps d) -> comp_decompose_with rounds fuel f limit c a d = Ok (a', d', r) ->
     exists tr', decomposition i s (tr ++ tr') d') /\
  (decompose_with rounds fuel f limit a d = UB -> limit = (-1)%Z) /\
  decompose_with rounds fuel f limit a d <> AssertFail /\ decompose_with rounds fuel f limit a d <> Throw.
Proof. exact claim_C87_history. Qed.
Print Assumptions C87_history.

(** If decompose() returns true, then the target said yes to every component of the decomposition, as it
    looks now.  It returns false only if a limit was given, and an exception is one of the target. *)
Theorem C87_reply : forall (T : Type) (O : LenOps T) (W : LenLaws T) (A : Type) (i : iet T) (s : slen T) (f : callback T A) tr d rounds fuel limit a a' d' r,
  decomposition i s tr d -> (limit <= INT_MAX)%Z -> passive i s f ->
  decompose_with rounds fuel f limit a d = Ok (a', d', r) ->
  match r with
  | Accept => forall c, c < length (d_comps d') ->
      exists a0 a1 d0, f a0 d0 c = Ok (a1, d0, Accept) /\ comp_view d0 c = comp_view d' c
  | Reject => limit <> (-1)%Z
  | Raise => exists a0 d0 c, f a0 d0 c = Ok (a', d', Raise)
  end.
Proof. exact claim_C87_reply. Qed.
Print Assumptions C87_reply.

(** The target counts its calls and gives up at the fourth, with an exception; then it is asked
    again and never gives up. *)
Example C87_example : exists tr d, decomposition m_iet m_lens tr d /\
  let f (n : nat) d c := v <- comp_view d c ;; Ok (S n, d, if n =? 3 then Raise else if default_target v then Accept else Reject) in
  passive m_iet m_lens f /\
  match decompose_with 9 99 f (-1) 0 d with
  | Ok (n, d1, Raise) => n = 4 /\ length (d_comps d1) = 2 /\
      match decompose_with 9 99 f (-1) n d1 with
      | Ok (n, d2, Accept) => n = 8
      | _ => False
      end
  | _ => False
  end.
Proof.
  apply (after_history _ _ []); [exact m_obtainable|]. split; [|vm_compute; repeat split].
  intros a tr d c H Hc. destruct (at_component d c Hc) as (x & Hx). destruct (view_here _ _ _ _ _ _ H Hx) as (v & E). rewrite E. cbn [bind]. eauto.
Qed.

(** ** C88: With a limit, decompose() returns unless the target insists. *)

(** The target may have a state and throw, but it does not reject a component that is known
    to be a cylinder or to have no periodic trajectory. *)
Theorem C88_returns : forall (T : Type) (O : LenOps T) (W : LenLaws T) (A : Type) (i : iet T) (s : slen T) (f : callback T A) tr d rounds fuel limit a,
  decomposition i s tr d -> passive i s f ->
  (forall a tr d c, decomposition i s tr d -> decided d c -> exists a' r, f a d c = Ok (a', d, r) /\ r <> Reject) ->
  (limit <= INT_MAX)%Z -> limit <> (-1)%Z ->
  length (i_top i) < rounds -> length (i_top i) < fuel -> (limit < Z.of_nat fuel)%Z ->
  exists a' d' r, decompose_with rounds fuel f limit a d = Ok (a', d', r).
Proof. exact claim_C88_returns. Qed.
Print Assumptions C88_returns.

(** If the target rejects a cylinder, then decompose() never returns, whatever the limit: it runs out of
    any bounds. *)
Theorem C88_insists : forall (T : Type) (O : LenOps T) (W : LenLaws T) (i : iet T) (s : slen T) target tr d c x v rounds fuel limit,
  decomposition i s tr d -> (limit <= INT_MAX)%Z -> component d c x -> dc_cylinder x = Some true ->
  comp_view d c = Ok v -> target v = false ->
  comp_decompose rounds fuel target limit c d = OutOfFuel /\
  (c = 0 -> decompose rounds fuel target limit d = OutOfFuel).
Proof. exact claim_C88_insists. Qed.
Print Assumptions C88_insists.

(** A target that waits for components without periodic trajectories, and a decomposition in which
    component 0 is a cylinder. *)
Example C88_example : exists tr d, decomposition z_iet z_lens tr d /\
  exists x v, component d 0 x /\ dc_cylinder x = Some true /\ comp_view d 0 = Ok v /\
    (fun v => match cv_wpt v with Some true => true | _ => false end) v = false.
Proof.
  apply (after_history _ _ [0; 0; 0]); [exact z_obtainable|]. vm_compute. do 2 eexists. repeat split.
Qed.
