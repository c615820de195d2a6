(** Properties C75, C76, C77 and C78: what it means that induction goes on, and what it
    means that it stops because of self-similarity.

    [minimal] (every orbit comes close to every point) is specified in [SpecDense],
    [has_saddle_connection], [has_periodic_point] in [Spec], [self_similar] in [SpecSim];
    [quiet] is a way of calling the library ([DenseApi]). *)
From Coq Require Import Reals Permutation QArith Qcanon.
From Verif Require Import Base LenT FM Subspace Lengths IET LenInst Sqrt2 Decomp Spec SpecSim SpecDense Api DecApi InjApi RankApi DenseApi Fixtures KeaneFixtures.
From Verif Require Import ClaimsKeane.
Open Scope nat_scope.

(** ** C75: Induction finds a connection if there is one. *)

(** If there is a saddle connection, a periodic trajectory or just an orbit that is not
    dense, then however often and with whatever limits [induce] is called on the same IET,
    it answers LIMIT_REACHED or WITHOUT_PERIODIC_TRAJECTORY_BOSHERNITZAN only until the
    limits sum up to some number [N]. *)
Theorem C75_calls : forall (T : Type) (O : LenOps T) (W : LenLaws T) (i : iet T) (s : slen T),
  obtainable i s ->
  has_saddle_connection (exch_of i s) \/ has_periodic_point (exch_of i s) \/ ~ minimal (exch_of i s) ->
  exists N, forall ls, quiet ls i s -> (zsuml ls < N)%Z.
Proof. exact claim_C75_calls. Qed.
Print Assumptions C75_calls.

(** In particular a single call with a limit of at least [N] finds a cylinder or a
    connection, unless it claims self-similarity. *)
Theorem C75_call : forall (T : Type) (O : LenOps T) (W : LenLaws T) (i : iet T) (s : slen T),
  obtainable i s ->
  has_saddle_connection (exch_of i s) \/ has_periodic_point (exch_of i s) \/ ~ minimal (exch_of i s) ->
  exists N, forall limit fuel, (N <= limit <= INT_MAX)%Z -> (limit < Z.of_nat fuel)%Z ->
    exists st j t, induce sample_lens fuel limit i s = Ok (st, j, t) /\
      (is_result st = CYLINDER \/ is_result st = SEPARATING_CONNECTION \/ is_result st = NON_SEPARATING_CONNECTION \/
       is_result st = WITHOUT_PERIODIC_TRAJECTORY_AUTO_SIMILAR).
Proof. exact claim_C75_call. Qed.
Print Assumptions C75_call.

(** With integer lengths there are saddle connections; here the first is found in the fifth
    round. *)
Example C75_example : obtainable k_iet k_lens /\ has_saddle_connection (exch_of k_iet k_lens) /\ quiet [3; 1]%Z k_iet k_lens /\
  match induce sample_lens 9 5 k_iet k_lens with
  | Ok (st, _, _) => is_result st = NON_SEPARATING_CONNECTION
  | _ => False
  end.
Proof.
  split; [exact k_obtainable|]. split; [exact k_saddle|]. split.
  - apply (quiet_run_ok 20). vm_compute. reflexivity.
  - vm_compute. reflexivity.
Qed.

(** ** C76: Decomposing breaks everything up into cylinders and components with dense orbits. *)

(** An endless sequence of steps on the components of a decomposition, in any order, with
    any positive limits: only finitely many of them find a connection, and after those every
    component on which the steps keep answering LIMIT_REACHED or
    WITHOUT_PERIODIC_TRAJECTORY_BOSHERNITZAN has dense orbits only and no saddle
    connections.  (The other components are eventually only called cylinders or
    self-similar.) *)
Theorem C76_history : forall (T : Type) (O : LenOps T) (W : LenLaws T) (i : iet T) (s : slen T) tr
    (D : nat -> decomp T) (fuel choice : nat -> nat) (limit : nat -> Z) (st : nat -> dstep),
  decomposition i s tr (D 0) ->
  (forall n, (1 <= limit n <= INT_MAX)%Z /\ choice n < length (d_comps (D n)) /\
     decomposition_step (fuel n) (limit n) (choice n) (D n) = Ok (st n, D (S n))) ->
  exists N,
    (forall n, N <= n -> dst_result (st n) <> D_SEPARATING_CONNECTION /\ dst_result (st n) <> D_NON_SEPARATING_CONNECTION) /\
    forall n c x, N <= n -> component (D n) c x ->
      (forall m, exists k, m <= k /\ choice k = c /\
         (dst_result (st k) = D_LIMIT_REACHED \/ dst_result (st k) = D_WITHOUT_PERIODIC_TRAJECTORY_BOSHERNITZAN)) ->
      minimal (comp_exch (D n) x) /\ ~ has_saddle_connection (comp_exch (D n) x).
Proof. exact claim_C76_history. Qed.
Print Assumptions C76_history.

(** The same if connections have been injected before. *)
Theorem C76_injected : forall (T : Type) (O : LenOps T) (W : LenLaws T) (i : iet T) (s : slen T) J tr
    (D : nat -> decomp T) (fuel choice : nat -> nat) (limit : nat -> Z) (st : nat -> dstep),
  injected_decomposition i s J tr (D 0) ->
  (forall n, (1 <= limit n <= INT_MAX)%Z /\ choice n < length (d_comps (D n)) /\
     decomposition_step (fuel n) (limit n) (choice n) (D n) = Ok (st n, D (S n))) ->
  exists N,
    (forall n, N <= n -> dst_result (st n) <> D_SEPARATING_CONNECTION /\ dst_result (st n) <> D_NON_SEPARATING_CONNECTION) /\
    forall n c x, N <= n -> component (D n) c x ->
      (forall m, exists k, m <= k /\ choice k = c /\
         (dst_result (st k) = D_LIMIT_REACHED \/ dst_result (st k) = D_WITHOUT_PERIODIC_TRAJECTORY_BOSHERNITZAN)) ->
      minimal (comp_exch (D n) x) /\ ~ has_saddle_connection (comp_exch (D n) x).
Proof. exact claim_C76_injected. Qed.
Print Assumptions C76_injected.

(** A rotation with lengths 1 and sqrt 2: the steps go on forever without a connection. *)
Example C76_example : exists (D : nat -> decomp q2) st,
  decomposition rot_iet rot_lens [] (D 0) /\
  (forall n, (1 <= 1 <= INT_MAX)%Z /\ 0 < length (d_comps (D n)) /\ decomposition_step 3 1 0 (D n) = Ok (st n, D (S n))) /\
  forall m, exists k, m <= k /\
    (dst_result (st k) = D_LIMIT_REACHED \/ dst_result (st k) = D_WITHOUT_PERIODIC_TRAJECTORY_BOSHERNITZAN).
Proof.
  exists (fun n => Nat.iter n rot_next rot_dec), (fun n => rot_step (Nat.iter n rot_next rot_dec)). split.
  - apply dh_new; [exact rot_obtainable | vm_compute; reflexivity].
  - split.
    + intros n. split; [split; vm_compute; discriminate|]. split; [apply rot_runs | apply (rot_runs n)].
    + intros m. exists m. split; [apply le_n | apply (rot_runs m)].
Qed.

(** ** C77: A self-similar IET has dense orbits only and no saddle connection. *)

(** What is self-similar in the sense of [SpecSim] has dense orbits only and no saddle
    connection; so the verdict that C59 promises is right about that, too. *)
Theorem C77_genuine : forall (T : Type) (O : LenOps T) (W : LenLaws T) (i : iet T) (s : slen T) n p,
  obtainable i s -> 0 < p -> self_similar (exch_of i s) n p ->
  minimal (exch_of i s) /\ ~ has_saddle_connection (exch_of i s).
Proof. exact claim_C77_genuine. Qed.
Print Assumptions C77_genuine.

(** When [induce] says that an IET is self-similar and the labels are in the order in which
    they were when it took its snapshot, then the IET has dense orbits only and no saddle
    connection.

    Full statement: the same without the hypothesis on the labels.  It is false, see
    [C77_refuted]. *)
Theorem C77_partial : forall (T : Type) (O : LenOps T) (W : LenLaws T) (i : iet T) (s : slen T) fuel limit st j t,
  obtainable i s -> (limit <= INT_MAX)%Z -> induce sample_lens fuel limit i s = Ok (st, j, t) ->
  is_result st = WITHOUT_PERIODIC_TRAJECTORY_AUTO_SIMILAR ->
  tk_top (i_trk j) = i_top j ->
  (minimal (exch_of i s) /\ ~ has_saddle_connection (exch_of i s)) /\
  (minimal (exch_of j t) /\ ~ has_saddle_connection (exch_of j t)).
Proof. exact claim_C77_partial. Qed.
Print Assumptions C77_partial.

(** The IET of Arnoux and Yoccoz. *)
Example C77_example : obtainable ay_iet ay_lens /\ self_similar (exch_of ay_iet ay_lens) 8 7 /\
  match induce sample_lens 60 (-1) ay_iet ay_lens with
  | Ok (st, j, _) => is_result st = WITHOUT_PERIODIC_TRAJECTORY_AUTO_SIMILAR /\ tk_top (i_trk j) = i_top j
  | _ => False
  end.
Proof.
  split; [exact ay_obtainable|]. split.
  - destruct claim_ay_similar as (e1 & e2 & c & A & B & C). exists e1, e2, (fun a => a), c. auto.
  - vm_compute. split; reflexivity.
Qed.

(** Without that hypothesis it is false: the lengths are compared label by label, the
    permutations position by position.  (After [tw_calls], calls of [induce],
    [zorichInduction] and [swap], on the IET [tw_iet].) *)
Theorem C77_refuted : exists (i : iet q2) (s : slen q2) st j t,
  obtainable i s /\ induce sample_lens 9 1 i s = Ok (st, j, t) /\
  is_result st = WITHOUT_PERIODIC_TRAJECTORY_AUTO_SIMILAR /\ has_saddle_connection (exch_of i s).
Proof. exact claim_C77_refuted. Qed.
Print Assumptions C77_refuted.

(** ** C78: The SAF invariant decides between the two criteria. *)

(** [induce] never claims self-similarity unless the SAF invariant of the IET vanishes, and
    never refers to Boshernitzan's criterion if it does. *)
Theorem C78_verdicts : forall (T : Type) (O : LenOps T) (W : LenLaws T) (i : iet T) (s : slen T) v i' fuel limit st j t,
  obtainable i s -> saf_invariant i s = Ok (v, i') -> (limit <= INT_MAX)%Z ->
  induce sample_lens fuel limit i s = Ok (st, j, t) ->
  (is_result st = WITHOUT_PERIODIC_TRAJECTORY_AUTO_SIMILAR -> Forall (fun q => q = 0%Qc) v) /\
  (is_result st = WITHOUT_PERIODIC_TRAJECTORY_BOSHERNITZAN -> ~ Forall (fun q => q = 0%Qc) v).
Proof. exact claim_C78_verdicts. Qed.
Print Assumptions C78_verdicts.

Example C78_example : obtainable ay_iet ay_lens /\ obtainable rot_iet rot_lens /\
  match induce sample_lens 60 (-1) ay_iet ay_lens, induce sample_lens 9 1 rot_iet rot_lens with
  | Ok (st, _, _), Ok (st', _, _) =>
    is_result st = WITHOUT_PERIODIC_TRAJECTORY_AUTO_SIMILAR /\ is_result st' = WITHOUT_PERIODIC_TRAJECTORY_BOSHERNITZAN
  | _, _ => False
  end.
Proof. split; [exact ay_obtainable|]. split; [exact rot_obtainable|]. vm_compute. split; reflexivity. Qed.
