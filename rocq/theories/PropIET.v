(** Properties C01-C10 and C37: construction, Zorich induction, [swap], [reduce] and
    the independence of IETs that share their lengths.

    Vocabulary: [history l s] - a program has constructed the IETs [l] and called
    operations on them in any order, their shared lengths are now [s]; [obtainable i s] -
    [i] occurs in such a history ([Api]).  [exch_of i s] is the exchange of real
    intervals that [i] denotes; [maps], [rauzy_run], [first_return], ... are the
    independent specification ([Spec]). *)
From Coq Require Import Reals Permutation.
From Verif Require Import Base LenT Lengths IET LenInst Sqrt2 Spec Api Fixtures.
From Verif Require Import ClaimsIET.
Open Scope nat_scope.

(** ** C01: Every reachable IET is well formed and no call fails unexpectedly. *)

Theorem C01_well_formed : forall (T : Type) (O : LenOps T) (W : LenLaws T) (l : list (iet T)) (s : slen T),
  history l s -> forall i, In i l -> valid_input s (i_top i) (i_bottom i).
Proof. exact claim_C01_well_formed. Qed.
Print Assumptions C01_well_formed.

(** A legal call either fails in one of the documented ways or yields IETs that are well
    formed again and use no label twice and no new label. *)
Theorem C01_calls_succeed : forall (T : Type) (O : LenOps T) (W : LenLaws T) (l : list (iet T)) (s : slen T) i o,
  history l s -> In i l -> op_legal o ->
  failure o i (run_op o i s) \/
  exists i' extra s', run_op o i s = Ok (i', extra, s') /\
    (forall j, In j (i' :: extra) -> valid_input s' (i_top j) (i_bottom j)) /\
    NoDup (used (i' :: extra)) /\ incl (used (i' :: extra)) (i_top i) /\
    length (i_top i') <= length (i_top i).
Proof. exact claim_C01_calls_succeed. Qed.
Print Assumptions C01_calls_succeed.

Example C01_example : history [z_iet] z_lens /\
  exists i' extra s', run_op (op_induce 10 5) z_iet z_lens = Ok (i', extra, s') /\ i_top i' <> i_top z_iet.
Proof.
  split; [apply fresh_history; vm_compute; reflexivity|]. vm_compute. do 3 eexists. split; [reflexivity | discriminate].
Qed.

(** ** C02: zorichInduction is the maximal run of elementary induction steps. *)

Theorem C02_maximal_run : forall (T : Type) (O : LenOps T) (W : LenLaws T) (i : iet T) (s : slen T),
  obtainable i s ->
  exists found i' s', zorich sample_lens i s = Ok (found, i', s') /\
    rauzy_run (exch_of i s) (exch_of i' s') /\ rauzy_stuck (exch_of i' s') /\
    (forall e, rauzy_run (exch_of i s) e -> rauzy_stuck e -> same_exch e (exch_of i' s')).
Proof. exact claim_C02_maximal_run. Qed.
Print Assumptions C02_maximal_run.

(** It stops exactly when the first top interval is not longer than the first bottom one. *)
Theorem C02_stops : forall (T : Type) (O : LenOps T) (W : LenLaws T) (i : iet T) (s : slen T) found i' s' a b,
  obtainable i s -> zorich sample_lens i s = Ok (found, i', s') ->
  hd_error (i_top i') = Some a -> hd_error (i_bottom i') = Some b -> (lamR s' a <= lamR s' b)%R.
Proof. exact claim_C02_stops. Qed.
Print Assumptions C02_stops.

(** 7 > 4 and 7 - 4 = 3: one step, then equal lengths. *)
Example C02_example : obtainable z_iet z_lens /\
  exists i' s', zorich sample_lens z_iet z_lens = Ok (true, i', s') /\ i_bottom i' = [2; 1; 3; 0] /\ sl_lens s' = [3; 5; 3; 4]%Z.
Proof. split; [exact z_obtainable|]. vm_compute. do 2 eexists. repeat split. Qed.

(** A quotient of 10^6 in the accelerated branch. *)
Example C02_example_accelerated : obtainable (fresh [0; 1; 2] [1; 2; 0]) (mkslen [] [7000005; 3; 4]%Z) /\
  exists i' s', zorich sample_lens (fresh [0; 1; 2] [1; 2; 0]) (mkslen [] [7000005; 3; 4]%Z) = Ok (false, i', s') /\
    i_bottom i' = [2; 1; 0] /\ sl_lens s' = [2; 3; 4]%Z.
Proof. split; [apply fresh_obtainable; vm_compute; reflexivity|]. vm_compute. do 2 eexists. repeat split. Qed.

(** ** C03: Zorich induction never hits an error path and leaves the stack empty. *)

Theorem C03_no_error : forall (T : Type) (O : LenOps T) (W : LenLaws T) (i : iet T) (s : slen T),
  obtainable i s ->
  sl_stack s = [] /\
  exists found i' s', zorich sample_lens i s = Ok (found, i', s') /\ sl_stack s' = [] /\
    (forall c, In c (i_top i') -> exists x, nth_error (sl_lens s') c = Some x /\ (0 < val x)%R).
Proof. exact claim_C03_no_error. Qed.
Print Assumptions C03_no_error.

Example C03_example : obtainable w_iet w_lens /\
  match zorich sample_lens w_iet w_lens with Ok (f, _, s') => negb f && (length (sl_stack s') =? 0) | _ => false end = true.
Proof. split; [exact w_obtainable|]. vm_compute. reflexivity. Qed.

(** ** C04: Zorich induction changes only what it must. *)

(** Only the length of the first top label [a] changes, and it does not grow; [top] stays;
    the bottom labels in front of [a] are rotated; nothing else moves. *)
Theorem C04_frame : forall (T : Type) (O : LenOps T) (W : LenLaws T) (i : iet T) (s : slen T) found i' s',
  obtainable i s -> zorich sample_lens i s = Ok (found, i', s') ->
  exists a X U V Y,
    i_top i = a :: X /\ i_top i' = a :: X /\ i_swap i' = i_swap i /\
    i_bottom i = U ++ V ++ a :: Y /\ i_bottom i' = V ++ U ++ a :: Y /\
    length (sl_lens s') = length (sl_lens s) /\
    (forall c, c <> a -> nth_error (sl_lens s') c = nth_error (sl_lens s) c) /\
    (lamR s' a <= lamR s a)%R.
Proof. exact claim_C04_frame. Qed.
Print Assumptions C04_frame.

(** If the first top interval is not longer than the first bottom one, nothing happens. *)
Theorem C04_noop : forall (T : Type) (O : LenOps T) (W : LenLaws T) (i : iet T) (s : slen T) a b,
  obtainable i s -> hd_error (i_top i) = Some a -> hd_error (i_bottom i) = Some b -> (lamR s a <= lamR s b)%R ->
  exists found, zorich sample_lens i s = Ok (found, i, s).
Proof. exact claim_C04_noop. Qed.
Print Assumptions C04_noop.

(** An iteration of both directions that finds no connection shrinks the interval. *)
Theorem C04_progress : forall (T : Type) (O : LenOps T) (W : LenLaws T) (i : iet T) (s : slen T) i1 s1 i2 s2,
  obtainable i s -> zorich sample_lens i s = Ok (false, i1, s1) ->
  zorich sample_lens (iet_swap i1) s1 = Ok (false, i2, s2) ->
  (total (lamR s2) (i_bottom i2) < total (lamR s) (i_top i))%R.
Proof. exact claim_C04_progress. Qed.
Print Assumptions C04_progress.

Example C04_example : obtainable (fresh [0; 1; 2] [1; 2; 0]) (mkslen [] [2; 3; 4]%Z) /\
  zorich sample_lens (fresh [0; 1; 2] [1; 2; 0]) (mkslen [] [2; 3; 4]%Z) =
    Ok (false, fresh [0; 1; 2] [1; 2; 0], mkslen [] [2; 3; 4]%Z).
Proof. split; [apply fresh_obtainable; vm_compute; reflexivity|]. vm_compute. reflexivity. Qed.

Example C04_example_progress : obtainable w_iet w_lens /\
  match zorich sample_lens w_iet w_lens with
  | Ok (f1, i1, s1) => match zorich sample_lens (iet_swap i1) s1 with Ok (f2, _, _) => negb f1 && negb f2 | _ => false end
  | _ => false end = true.
Proof. split; [exact w_obtainable|]. vm_compute. reflexivity. Qed.

(** ** C05: Zorich induction computes a first return map. *)

(** [induced e e']: with [d] the difference of the total lengths, [e'] moves [y] to [z]
    iff [y + d] first returns to the points [>= d] at [z + d] under [e]. *)
Theorem C05_first_return : forall (T : Type) (O : LenOps T) (W : LenLaws T) (i : iet T) (s : slen T) found i' s',
  obtainable i s -> zorich sample_lens i s = Ok (found, i', s') -> induced (exch_of i s) (exch_of i' s').
Proof. exact claim_C05_first_return. Qed.
Print Assumptions C05_first_return.

(** The same for sequences of zorichInduction, swap and induce without splitting; after
    an odd number of swaps for the inverse. *)
Theorem C05_sequences : forall (T : Type) (O : LenOps T) (W : LenLaws T) (i : iet T) (s : slen T) n j t,
  obtainable i s -> inducing i s n j t ->
  induced (exch_of i s) (if Nat.even n then exch_of j t else flip (exch_of j t)).
Proof. exact claim_C05_sequences. Qed.
Print Assumptions C05_sequences.

Example C05_example : obtainable w_iet w_lens /\
  exists j t, inducing w_iet w_lens 1 j t /\ i_top j <> i_top w_iet.
Proof.
  split; [exact w_obtainable|].
  destruct (zorich sample_lens w_iet w_lens) as [[[f i'] s']| | | |] eqn:E; try (vm_compute in E; discriminate).
  exists (iet_swap i'), s'. split.
  - apply ind_swap. eapply ind_zorich; [apply ind_start | exact E].
  - assert (Q : match zorich sample_lens w_iet w_lens with Ok (_, i', _) => i_top (iet_swap i') | _ => [] end <> i_top w_iet)
      by (vm_compute; discriminate).
    rewrite E in Q. exact Q.
Qed.

(** ** C06: Induction neither creates nor destroys periodic trajectories. *)

Theorem C06_periodic_preserved : forall (T : Type) (O : LenOps T) (W : LenLaws T) (i : iet T) (s : slen T) n j t,
  obtainable i s -> inducing i s n j t ->
  (has_periodic_point (exch_of i s) <-> has_periodic_point (exch_of j t)).
Proof. exact claim_C06_periodic_preserved. Qed.
Print Assumptions C06_periodic_preserved.

(** Every periodic orbit meets the interval of the induced IET, in a periodic point. *)
Theorem C06_orbits_meet : forall (T : Type) (O : LenOps T) (W : LenLaws T) (i : iet T) (s : slen T) n j t,
  obtainable i s -> inducing i s n j t ->
  let d := (total (lamR s) (i_top i) - total (lamR t) (i_top j))%R in
  (0 <= d)%R /\
  (forall x, periodic (maps (exch_of i s)) x ->
     exists m z, (0 <= z)%R /\ iter (maps (exch_of i s)) m x (z + d)%R /\ periodic (maps (exch_of j t)) z) /\
  (forall z, periodic (maps (exch_of j t)) z -> periodic (maps (exch_of i s)) (z + d)%R).
Proof. exact claim_C06_orbits_meet. Qed.
Print Assumptions C06_orbits_meet.

(** If induce splits the IET, the periodic points of both parts account for it. *)
Theorem C06_split : forall (T : Type) (O : LenOps T) (W : LenLaws T) (i : iet T) (s : slen T) fuel limit st i' s' r,
  obtainable i s -> (limit <= INT_MAX)%Z -> induce sample_lens fuel limit i s = Ok (st, i', s') -> is_additional st = Some r ->
  (has_periodic_point (exch_of i s) <-> has_periodic_point (exch_of i' s') \/ has_periodic_point (exch_of r s')).
Proof. exact claim_C06_split. Qed.
Print Assumptions C06_split.

Example C06_example : obtainable r_iet r_lens /\
  exists st i' s' r, induce sample_lens 9 5 r_iet r_lens = Ok (st, i', s') /\ is_additional st = Some r /\ i_top r = [2; 3].
Proof. split; [exact r_obtainable|]. vm_compute. do 4 eexists. repeat split. Qed.

(** ** C07: The return value of zorichInduction signals a genuine connection. *)

Theorem C07_return_value : forall (T : Type) (O : LenOps T) (W : LenLaws T) (i : iet T) (s : slen T) found i' s' a b,
  obtainable i s -> zorich sample_lens i s = Ok (found, i', s') ->
  hd_error (i_top i') = Some a -> hd_error (i_bottom i') = Some b ->
  (found = true <-> lamR s' a = lamR s' b) /\
  (found = true -> length (i_top i) <> 1 -> saddle_connection (exch_of i s) b a).
Proof. exact claim_C07_return_value. Qed.
Print Assumptions C07_return_value.

Example C07_example : obtainable z_iet z_lens /\
  exists i' s', zorich sample_lens z_iet z_lens = Ok (true, i', s') /\ hd_error (i_top i') = Some 0 /\ hd_error (i_bottom i') = Some 2.
Proof. split; [exact z_obtainable|]. vm_compute. do 2 eexists. repeat split. Qed.

(** ** C08: reduce splits off exactly the first invariant prefix. *)

Theorem C08_reduce : forall (T : Type) (O : LenOps T) (W : LenLaws T) (i : iet T) (s : slen T),
  obtainable i s ->
  (exists k l r,
     invariant_prefix (exch_of i s) k /\ (forall j, invariant_prefix (exch_of i s) j -> k <= j) /\
     reduce i s = Ok (Some r, l) /\
     i_top l = firstn k (i_top i) /\ i_bottom l = firstn k (i_bottom i) /\ i_swap l = i_swap i /\
     i_top r = skipn k (i_top i) /\ i_bottom r = skipn k (i_bottom i) /\ i_swap r = false) \/
  (~ reducible (exch_of i s) /\ reduce i s = Ok (None, i)).
Proof. exact claim_C08_reduce. Qed.
Print Assumptions C08_reduce.

Example C08_example : obtainable r_iet r_lens /\
  exists l r, reduce r_iet r_lens = Ok (Some r, l) /\ i_top l = [0; 1] /\ i_bottom r = [3; 2].
Proof. split; [exact r_obtainable|]. vm_compute. do 2 eexists. repeat split. Qed.

(** ** C09: reduce is a dynamical decomposition. *)

Theorem C09_reduce_dynamics : forall (T : Type) (O : LenOps T) (W : LenLaws T) (i : iet T) (s : slen T) l r,
  obtainable i s -> reduce i s = Ok (Some r, l) ->
  let d := total (lamR s) (i_top l) in
  (forall y z, maps (exch_of i s) y z -> ((y < d)%R <-> (z < d)%R)) /\
  (forall y z, maps (exch_of l s) y z <-> maps (exch_of i s) y z /\ (y < d)%R) /\
  (forall y z, (0 <= y)%R -> (maps (exch_of r s) y z <-> maps (exch_of i s) (y + d)%R (z + d)%R)).
Proof. exact claim_C09_reduce_dynamics. Qed.
Print Assumptions C09_reduce_dynamics.

Example C09_example : obtainable r_iet r_lens /\ exists l r, reduce r_iet r_lens = Ok (Some r, l).
Proof. split; [exact r_obtainable|]. vm_compute. do 2 eexists. reflexivity. Qed.

(** ** C10: swap is an involution that inverts the map. *)

Theorem C10_swap_inverts : forall (T : Type) (O : LenOps T) (W : LenLaws T) (i : iet T) (s : slen T),
  obtainable i s ->
  i_top (iet_swap i) = i_bottom i /\ i_bottom (iet_swap i) = i_top i /\ i_swap (iet_swap i) = negb (i_swap i) /\
  (forall y z, maps (exch_of (iet_swap i) s) y z <-> maps (exch_of i s) z y) /\
  iet_swap (iet_swap i) = i /\
  i_saf (iet_swap i) = i_saf i /\ i_trk (iet_swap i) = i_trk i.
Proof. exact claim_C10_swap_inverts. Qed.
Print Assumptions C10_swap_inverts.

Theorem C10_swapped_parity : forall (T : Type) (O : LenOps T) (W : LenLaws T) (i : iet T) (s : slen T) n j t,
  obtainable i s -> inducing i s n j t -> i_swap j = xorb (i_swap i) (Nat.odd n).
Proof. exact claim_C10_swapped_parity. Qed.
Print Assumptions C10_swapped_parity.

Example C10_example : obtainable w_iet w_lens /\ exists j t, inducing w_iet w_lens 1 j t /\ i_swap j = true.
Proof. split; [exact w_obtainable|]. exists (iet_swap w_iet), w_lens. split; [apply ind_swap, ind_start | reflexivity]. Qed.

(** ** C37: IETs that share their lengths evolve independently. *)

(** Whatever happens to other IETs on the same lengths - in particular to the other
    part after a split - the map of [j] and the lengths of its labels stay the same. *)
Theorem C37_independent : forall (T : Type) (O : LenOps T) (W : LenLaws T) (l : list (iet T)) (s : slen T) j l' s',
  history l s -> elsewhere j l s l' s' ->
  In j l' /\
  (forall c, In c (i_top j) -> nth_error (sl_lens s') c = nth_error (sl_lens s) c) /\
  (forall y z, maps (exch_of j s') y z <-> maps (exch_of j s) y z) /\
  exists v j1 j2, saf_invariant j s = Ok (v, j1) /\ saf_invariant j s' = Ok (v, j2).
Proof. exact claim_C37_independent. Qed.
Print Assumptions C37_independent.

(** Split, then induce on the left part: the right part is not affected. *)
Example C37_example : exists l r i' s',
  history [l; r] r_lens /\ elsewhere r [l; r] r_lens [i'; r] s' /\ i_top r = [2; 3] /\ sl_lens s' <> sl_lens r_lens.
Proof.
  destruct (run_op op_reduce r_iet r_lens) as [[[l ex] s0]| | | |] eqn:E; try (vm_compute in E; discriminate).
  vm_compute in E. injection E as <- <- <-.
  eexists; eexists; eexists; eexists. split; [|split; [|split]].
  - change ([?a; ?b]) with ([] ++ a :: [b] ++ []).
    eapply (h_op [] r_iet [] r_lens op_reduce); [apply fresh_history; vm_compute; reflexivity | exact I | vm_compute; reflexivity].
  - eapply (else_op _ [] _ [_] _ (op_induce 9 5)); [left; reflexivity | split; vm_compute; discriminate | vm_compute; reflexivity|].
    apply else_done. right. left. reflexivity.
  - reflexivity.
  - vm_compute. discriminate.
Qed.
