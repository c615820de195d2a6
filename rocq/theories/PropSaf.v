(** Properties C11-C17 and C51: the SAF invariant and Boshernitzan's criteria.

    [saf_vector], [displacement], [connectable] are the independent specification
    ([SpecLin]); [coordinate s k a] is the [k]-th rational coordinate of the length of [a]. *)
From Coq Require Import Reals Permutation QArith Qcanon.
From Verif Require Import Base LenT FM Subspace Lengths IET LenInst Sqrt2 Spec SpecLin Api Fixtures.
From Verif Require Import ClaimsSaf.
Open Scope nat_scope.

(** ** C11: The SAF invariant is invariant under induction. *)

Theorem C11_saf_invariant : forall (T : Type) (O : LenOps T) (W : LenLaws T) (i : iet T) (s : slen T) j t,
  obtainable i s -> inducing i s 0 j t ->
  exists v i' j', saf_invariant i s = Ok (v, i') /\ saf_invariant j t = Ok (v, j').
Proof. exact claim_C11_saf_invariant. Qed.
Print Assumptions C11_saf_invariant.

Example C11_example : obtainable w_iet w_lens /\
  (exists j t, inducing w_iet w_lens 0 j t /\ i_bottom j <> i_bottom w_iet) /\
  match saf_invariant w_iet w_lens with Ok (v, _) => negb (vis0 v) | _ => false end = true.
Proof.
  split; [exact w_obtainable|]. split; [|vm_compute; reflexivity].
  destruct (induce sample_lens 9 3 w_iet w_lens) as [[[st j] t]| | | |] eqn:E; try (vm_compute in E; discriminate).
  assert (Q : match induce sample_lens 9 3 w_iet w_lens with
              | Ok (st, j, _) => match is_additional st with None => i_bottom j | Some _ => [] end <> i_bottom w_iet /\
                                 match is_additional st with None => true | Some _ => false end = true
              | _ => False end) by (vm_compute; split; [discriminate | reflexivity]).
  rewrite E in Q. exists j, t. destruct (is_additional st) eqn:Ea; [destruct Q; discriminate|]. split; [|apply Q].
  eapply ind_induce; [apply ind_start | | exact E | exact Ea]. discriminate.
Qed.

(** ** C12: The SAF invariant is always the one of the current state; sign; additivity. *)

(** Whatever happened before (in particular to the cache), the reported value is
    [sum length(a) wedge displacement(a)] of the current state. *)
Theorem C12_value : forall (T : Type) (O : LenOps T) (W : LenLaws T) (i : iet T) (s : slen T),
  obtainable i s ->
  exists i', saf_invariant i s = Ok (saf_vector (l_deg T) (coordinate s) (i_top i) (i_bottom i), i').
Proof. exact claim_C12_value. Qed.
Print Assumptions C12_value.

Theorem C12_swap : forall (T : Type) (O : LenOps T) (W : LenLaws T) (i : iet T) (s : slen T) v i',
  obtainable i s -> saf_invariant i s = Ok (v, i') ->
  exists i'', saf_invariant (iet_swap i) s = Ok (map Qcopp v, i'').
Proof. exact claim_C12_swap. Qed.
Print Assumptions C12_swap.

Theorem C12_reduce : forall (T : Type) (O : LenOps T) (W : LenLaws T) (i : iet T) (s : slen T) v i' l r,
  obtainable i s -> saf_invariant i s = Ok (v, i') -> reduce i s = Ok (Some r, l) ->
  exists vl l' vr r', saf_invariant l s = Ok (vl, l') /\ saf_invariant r s = Ok (vr, r') /\
    length vl = length v /\ length vr = length v /\ forall k, nth k v 0%Qc = (nth k vl 0 + nth k vr 0)%Qc.
Proof. exact claim_C12_reduce. Qed.
Print Assumptions C12_reduce.

Example C12_example :
  let s := mkslen [] [q2_of 1 0; q2_of 0 1; q2_of 4 (-1); q2_of 2 0] in
  let i := fresh [0; 1; 2; 3] [1; 0; 3; 2] in
  obtainable i s /\
  match saf_invariant i s, reduce i s with
  | Ok (v, _), Ok (Some _, _) => negb (vis0 v)
  | _, _ => false
  end = true.
Proof. split; [apply fresh_obtainable; vm_compute; reflexivity|]. vm_compute. reflexivity. Qed.

(** ** C13: The SAF invariant vanishes for commensurable lengths. *)

Theorem C13_commensurable : forall (T : Type) (O : LenOps T) (W : LenLaws T) (i : iet T) (s : slen T) v i',
  obtainable i s -> saf_invariant i s = Ok (v, i') ->
  (commensurable (lamR s) (i_top i) -> Forall (fun q => q = 0%Qc) v) /\
  (l_deg T = 1 -> v = []).
Proof. exact claim_C13_commensurable. Qed.
Print Assumptions C13_commensurable.

(** Three commensurable lengths sqrt 2, 2 sqrt 2, 3 sqrt 2. *)
Example C13_example :
  let s := mkslen [] [q2_of 0 1; q2_of 0 2; q2_of 0 3] in
  obtainable (fresh [0; 1; 2] [2; 1; 0]) s /\ commensurable (lamR s) [0; 1; 2].
Proof.
  split; [apply fresh_obtainable; vm_compute; reflexivity|].
  assert (V : forall n : nat, val (q2_of 0 (Z.of_nat n)) = (INR n * sqrt 2)%R).
  { intros n. change (val (q2_of 0 (Z.of_nat n))) with (Qc2R (zq 0) + Qc2R (zq (Z.of_nat n)) * sqrt 2)%R.
    rewrite !Qc2R_zq, INR_IZR_INZ. ring. }
  assert (L : forall a, In a [0; 1; 2] -> lamR (mkslen [] [q2_of 0 1; q2_of 0 2; q2_of 0 3]) a = (INR (S a) * sqrt 2)%R).
  { intros a [<-|[<-|[<-|[]]]]; [exact (V 1) | exact (V 2) | exact (V 3)]. }
  intros a b Ha Hb. exists (S b), (S a). split; [lia|]. split; [lia|]. rewrite !L by assumption. ring.
Qed.

(** ** C14: boshernitzanNoPeriodicTrajectory is sound. *)

Theorem C14_no_periodic_trajectory : forall (T : Type) (O : LenOps T) (W : LenLaws T) (i : iet T) (s : slen T) i',
  obtainable i s -> bosh_no_periodic i s = Ok (true, i') -> ~ has_periodic_point (exch_of i s).
Proof. exact claim_C14_no_periodic_trajectory. Qed.
Print Assumptions C14_no_periodic_trajectory.

(** It always answers, and says yes exactly if no combination of displacements with
    non-negative multiplicities, not all zero, cancels. *)
Theorem C14_decides : forall (T : Type) (O : LenOps T) (W : LenLaws T) (i : iet T) (s : slen T),
  obtainable i s ->
  exists r i', bosh_no_periodic i s = Ok (r, i') /\ (r = true <-> ~ balanced (exch_of i s)).
Proof. exact claim_C14_decides. Qed.
Print Assumptions C14_decides.

Example C14_example : obtainable w_iet w_lens /\
  match bosh_no_periodic w_iet w_lens with Ok (r, _) => r | _ => false end = true.
Proof. split; [exact w_obtainable|]. vm_compute. reflexivity. Qed.

(** ** C15: boshernitzanNoSaddleConnection(top, bottom) is sound. *)

Theorem C15_no_saddle_connection : forall (T : Type) (O : LenOps T) (W : LenLaws T) (i : iet T) (s : slen T) t b,
  obtainable i s -> bosh_no_saddle2 i s t b = Ok true -> ~ saddle_connection (exch_of i s) b t.
Proof. exact claim_C15_no_saddle_connection. Qed.
Print Assumptions C15_no_saddle_connection.

(** For labels that are not last it always answers and decides [connectable]. *)
Theorem C15_decides : forall (T : Type) (O : LenOps T) (W : LenLaws T) (i : iet T) (s : slen T) t b,
  obtainable i s -> not_last (i_top i) t -> not_last (i_bottom i) b ->
  exists r, bosh_no_saddle2 i s t b = Ok r /\ (r = true <-> ~ connectable (exch_of i s) b t).
Proof. exact claim_C15_decides. Qed.
Print Assumptions C15_decides.

(** Lengths 1 and sqrt 2 with a flip of two intervals. *)
Example C15_example :
  let s := mkslen [] [q2_of 1 0; q2_of 0 1; q2_of 0 3] in
  obtainable (fresh [0; 1; 2] [2; 1; 0]) s /\
  bosh_no_saddle2 (fresh [0; 1; 2] [2; 1; 0]) s 0 1 = Ok true /\
  not_last [0; 1; 2] 0 /\ not_last [2; 1; 0] 1.
Proof.
  split; [apply fresh_obtainable; vm_compute; reflexivity|]. split; [vm_compute; reflexivity|].
  split; [exists [], 1, [2] | exists [2], 0, []]; reflexivity.
Qed.

(** ** C16: boshernitzanNoSaddleConnection() covers every pair; end points are rejected. *)

Theorem C16_no_saddle_connection_at_all : forall (T : Type) (O : LenOps T) (W : LenLaws T) (i : iet T) (s : slen T),
  obtainable i s -> bosh_no_saddle i s = Ok true -> ~ has_saddle_connection (exch_of i s).
Proof. exact claim_C16_no_saddle_connection_at_all. Qed.
Print Assumptions C16_no_saddle_connection_at_all.

Theorem C16_conjunction : forall (T : Type) (O : LenOps T) (W : LenLaws T) (i : iet T) (s : slen T),
  obtainable i s -> 2 <= length (i_top i) ->
  exists r, bosh_no_saddle i s = Ok r /\
    (r = true <-> forall t b, not_last (i_top i) t -> not_last (i_bottom i) b -> bosh_no_saddle2 i s t b = Ok true).
Proof. exact claim_C16_conjunction. Qed.
Print Assumptions C16_conjunction.

Theorem C16_rejects_end_points : forall (T : Type) (O : LenOps T) (W : LenLaws T) (i : iet T) (s : slen T) t b,
  obtainable i s -> In t (i_top i) -> In b (i_bottom i) -> ~ (not_last (i_top i) t /\ not_last (i_bottom i) b) ->
  bosh_no_saddle2 i s t b = Throw.
Proof. exact claim_C16_rejects_end_points. Qed.
Print Assumptions C16_rejects_end_points.

(** Two intervals of lengths 1 and sqrt 2 have no saddle connection. *)
Example C16_example :
  let s := mkslen [] [q2_of 1 0; q2_of 0 1] in
  let i := fresh [0; 1] [1; 0] in
  obtainable i s /\ bosh_no_saddle i s = Ok true /\
  bosh_no_saddle2 i s 1 0 = Throw.
Proof. split; [apply fresh_obtainable; vm_compute; reflexivity|]. vm_compute. split; reflexivity. Qed.

(** ** C17: Skipping the linear program for SAF = 0 never changes the answer. *)

(** The program that would be solved otherwise has a solution. *)
Theorem C17_shortcut : forall (T : Type) (O : LenOps T) (W : LenLaws T) (i : iet T) (s : slen T) v i',
  obtainable i s -> saf_invariant i s = Ok (v, i') ->
  (Forall (fun q => q = 0%Qc) v \/ length (i_top i) = 1) ->
  exists eqs r, bosh_equations i s = Ok eqs /\ ras_equations eqs (vzero (length eqs)) = Ok r /\ nznn r = Ok true.
Proof. exact claim_C17_shortcut. Qed.
Print Assumptions C17_shortcut.

Example C17_example : obtainable z_iet z_lens /\ exists i', saf_invariant z_iet z_lens = Ok ([], i').
Proof. split; [exact z_obtainable|]. eexists. vm_compute. reflexivity. Qed.

(** ** C51: Boshernitzan's equations and values are the displacements. *)

Theorem C51_equations : forall (T : Type) (O : LenOps T) (W : LenLaws T) (i : iet T) (s : slen T),
  obtainable i s ->
  let column a := map (fun k => displacement (coordinate s k) (i_top i) (i_bottom i) a) (seq 0 (l_deg T)) in
  bosh_equations i s = Ok (map (fun k => map (fun a => nth k (column a) 0%Qc) (i_top i)) (seq 0 (l_deg T))) /\
  (forall a, lin (column a) (basis T) = shift (exch_of i s) a).
Proof. exact claim_C51_equations. Qed.
Print Assumptions C51_equations.

(** The values are the coordinates of the length that leads from the right end [x] of
    [b] on the bottom to the right end [y] of [t] on the top. *)
Theorem C51_values : forall (T : Type) (O : LenOps T) (W : LenLaws T) (i : iet T) (s : slen T) t b,
  obtainable i s -> not_last (i_top i) t -> not_last (i_bottom i) b ->
  exists rho x y, bosh_values i s t b = Ok (l_coef rho) /\ val rho = (y - x)%R /\
    right_end (lamR s) (i_bottom i) b x /\ right_end (lamR s) (i_top i) t y.
Proof. exact claim_C51_values. Qed.
Print Assumptions C51_values.

Example C51_example : obtainable w_iet w_lens /\ not_last (i_top w_iet) 1 /\ not_last (i_bottom w_iet) 2.
Proof. split; [exact w_obtainable|]. split; [exists [0], 2, [] | exists [], 1, [0]]; reflexivity. Qed.
