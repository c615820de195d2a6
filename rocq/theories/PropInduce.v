(** Properties C22-C26, C53 and C59: induction.

    [rauzy_path], [invariant_prefix], [merge_step], [balanced], [self_similar] ... are the
    independent specification ([Spec], [SpecSim]).  [induce sample_lens fuel limit i s] is the call
    [induce(limit)]; [fuel] bounds the rounds of the loop in the model, running out of it
    is not a result. *)
From Coq Require Import Reals Permutation QArith Qcanon Factorial.
From Verif Require Import Base LenT FM Subspace Lengths IET LenInst Sqrt2 Cubic Spec SpecLin SpecSim Api Fixtures.
From Verif Require Import Detect ClaimsInduce.
Open Scope nat_scope.

(** ** C22: induce classifies its outcome correctly. *)

(** [e] is the exchange reached by induction from the one of [i]. *)
Theorem C22_classification : forall (T : Type) (O : LenOps T) (W : LenLaws T) (i : iet T) (s : slen T) fuel limit st j t,
  obtainable i s -> (limit <= INT_MAX)%Z -> induce sample_lens fuel limit i s = Ok (st, j, t) ->
  (is_result st = CYLINDER <-> length (i_top i) = 1) /\
  (length (i_top i) = 1 -> j = i /\ t = s /\ is_connection st = None /\ is_additional st = None) /\
  (length (i_top i) <> 1 ->
   exists e, rauzy_path (exch_of i s) e /\ (forall c, e_len e c = lamR t c) /\
     match is_result st with
     | CYLINDER => False
     | SEPARATING_CONNECTION =>
       reducible e /\
       exists k r b a, invariant_prefix e k /\ (forall k', invariant_prefix e k' -> k <= k') /\
         same_exch (exch_of j t) (left_of e k) /\
         is_additional st = Some r /\ same_exch (exch_of r t) (right_of e k) /\ i_swap r = false /\
         is_connection st = Some (b, a) /\ last_label (i_bottom j) b /\ last_label (i_top j) a
     | NON_SEPARATING_CONNECTION =>
       ~ reducible e /\ first_equal e /\ merge_step e (exch_of j t) /\ is_additional st = None /\
       exists a b X Y, e_top e = a :: X /\ e_bot e = b :: Y /\ is_connection st = Some (b, a)
     | LIMIT_REACHED =>
       ~ reducible e /\ ~ first_equal e /\ balanced e /\ same_exch e (exch_of j t) /\
       is_connection st = None /\ is_additional st = None
     | WITHOUT_PERIODIC_TRAJECTORY_BOSHERNITZAN =>
       ~ reducible e /\ ~ first_equal e /\ ~ balanced e /\ same_exch e (exch_of j t) /\
       is_connection st = None /\ is_additional st = None
     | WITHOUT_PERIODIC_TRAJECTORY_AUTO_SIMILAR =>
       same_exch e (exch_of j t) /\ is_connection st = None /\ is_additional st = None
     end /\
     i_swap j = i_swap i).
Proof. exact claim_C22_classification. Qed.
Print Assumptions C22_classification.

(** Every one of the outcomes other than [AUTO_SIMILAR] occurs. *)
Definition result {T} {O : LenOps T} fuel limit (i : iet T) (s : slen T) : option iresult :=
  match induce sample_lens fuel limit i s with Ok (st, _, _) => Some (is_result st) | _ => None end.

Example C22_example :
  obtainable z_iet z_lens /\ obtainable r_iet r_lens /\ obtainable w_iet w_lens /\
  result 0 0%Z r_iet r_lens = Some SEPARATING_CONNECTION /\
  result 30 (-1)%Z z_iet z_lens = Some NON_SEPARATING_CONNECTION /\
  result 9 3%Z w_iet w_lens = Some WITHOUT_PERIODIC_TRAJECTORY_BOSHERNITZAN /\
  result 9 0%Z z_iet z_lens = Some LIMIT_REACHED /\
  result 9 (-1)%Z (fresh [0] [0]) z_lens = Some CYLINDER.
Proof.
  split; [exact z_obtainable|]. split; [exact r_obtainable|]. split; [exact w_obtainable|]. vm_compute. repeat split.
Qed.

(** ** C23: induce never trips its internal check; its verdict concerns the caller's IET. *)

Theorem C23_no_assertion : forall (T : Type) (O : LenOps T) (W : LenLaws T) (i : iet T) (s : slen T) fuel limit,
  obtainable i s -> (limit <= INT_MAX)%Z ->
  induce sample_lens fuel limit i s <> AssertFail /\ induce sample_lens fuel limit i s <> Throw.
Proof. exact claim_C23_no_assertion. Qed.
Print Assumptions C23_no_assertion.

Theorem C23_boshernitzan_verdict : forall (T : Type) (O : LenOps T) (W : LenLaws T) (i : iet T) (s : slen T) fuel limit st j t,
  obtainable i s -> (limit <= INT_MAX)%Z -> induce sample_lens fuel limit i s = Ok (st, j, t) ->
  is_result st = WITHOUT_PERIODIC_TRAJECTORY_BOSHERNITZAN ->
  ~ has_periodic_point (exch_of i s) /\ ~ has_periodic_point (exch_of j t).
Proof. exact claim_C23_boshernitzan_verdict. Qed.
Print Assumptions C23_boshernitzan_verdict.

(** More generally, whatever induce answers, it neither creates nor destroys periodic
    points: the IET had one iff one of the resulting IETs has one. *)
Theorem C23_periodic_points : forall (T : Type) (O : LenOps T) (W : LenLaws T) (i : iet T) (s : slen T) fuel limit st j t,
  obtainable i s -> (limit <= INT_MAX)%Z -> induce sample_lens fuel limit i s = Ok (st, j, t) ->
  (has_periodic_point (exch_of i s) <->
   has_periodic_point (exch_of j t) \/ exists r, is_additional st = Some r /\ has_periodic_point (exch_of r t)).
Proof. exact claim_C23_periodic_points. Qed.
Print Assumptions C23_periodic_points.

Example C23_example : obtainable w_iet w_lens /\
  match induce sample_lens 9 3 w_iet w_lens with
  | Ok (st, j, _) => is_result st = WITHOUT_PERIODIC_TRAJECTORY_BOSHERNITZAN /\ i_bottom j <> i_bottom w_iet
  | _ => False
  end.
Proof. split; [exact w_obtainable|]. vm_compute. split; [reflexivity | discriminate]. Qed.

(** ** C24: An AUTO_SIMILAR verdict implies the absence of periodic trajectories. *)

(** Full statement: without the hypothesis on the labels.  Proved: if the top row of the
    IET lists the labels in the same order as when the similarity tracker was started
    (the tracker compares lengths label by label, so only then similarity of the lengths
    means similarity of the exchanges).  In general it is false, see [C24_refuted] in
    [PropTwist]. *)
Theorem C24_partial : forall (T : Type) (O : LenOps T) (W : LenLaws T) (i : iet T) (s : slen T) fuel limit st j t,
  obtainable i s -> (limit <= INT_MAX)%Z -> induce sample_lens fuel limit i s = Ok (st, j, t) ->
  is_result st = WITHOUT_PERIODIC_TRAJECTORY_AUTO_SIMILAR ->
  tk_top (i_trk j) = i_top j ->
  ~ has_periodic_point (exch_of i s) /\ ~ has_periodic_point (exch_of j t).
Proof. exact claim_C24_partial. Qed.
Print Assumptions C24_partial.

(** The IET of Arnoux and Yoccoz. *)
Example C24_example : obtainable ay_iet ay_lens /\
  match induce sample_lens 60 (-1) ay_iet ay_lens with
  | Ok (st, j, _) => is_result st = WITHOUT_PERIODIC_TRAJECTORY_AUTO_SIMILAR /\ tk_top (i_trk j) = i_top j
  | _ => False
  end.
Proof. split; [exact ay_obtainable|]. vm_compute. split; reflexivity. Qed.

(** ** C25: Unlimited induction terminates for commensurable lengths. *)

Theorem C25_terminates : forall (T : Type) (O : LenOps T) (W : LenLaws T) (i : iet T) (s : slen T) u m fuel,
  obtainable i s -> (0 < u)%R -> integral u (exch_of i s) ->
  total (lamR s) (i_top i) = (IZR m * u)%R -> (m <= INT_MAX)%Z -> (m <= Z.of_nat fuel)%Z ->
  exists st j t, induce sample_lens fuel (-1) i s = Ok (st, j, t) /\
    (is_result st = CYLINDER \/ is_result st = SEPARATING_CONNECTION \/ is_result st = NON_SEPARATING_CONNECTION).
Proof. exact claim_C25_terminates. Qed.
Print Assumptions C25_terminates.

Example C25_example : obtainable z_iet z_lens /\ integral 1 (exch_of z_iet z_lens) /\
  total (lamR z_lens) (i_top z_iet) = (IZR 19 * 1)%R.
Proof.
  split; [exact z_obtainable|]. split.
  - intros a [<-|[<-|[<-|[<-|[]]]]]; eexists; cbn; rewrite Rmult_1_r; reflexivity.
  - cbn. ring.
Qed.

(** ** C26: The limit is a budget and can be split. *)

(** More than [limit] rounds are never needed. *)
Theorem C26_budget : forall (T : Type) (O : LenOps T) (W : LenLaws T) (i : iet T) (s : slen T) fuel limit,
  obtainable i s -> (limit <= INT_MAX)%Z -> limit <> (-1)%Z -> (Z.max 0 limit < Z.of_nat fuel)%Z ->
  exists st j t, induce sample_lens fuel limit i s = Ok (st, j, t).
Proof. exact claim_C26_budget. Qed.
Print Assumptions C26_budget.

(** If [induce(m)] reaches its limit, then [induce(n)] continues as [induce(m + n)] would
    have: the outcome, the IET (with its caches) and the lengths are the same. *)
Theorem C26_split : forall (T : Type) (O : LenOps T) (W : LenLaws T) (i : iet T) (s : slen T) fuel m n st i1 s1,
  obtainable i s -> (0 <= m)%Z -> (0 <= n)%Z -> (m + n <= INT_MAX)%Z -> (m + n < Z.of_nat fuel)%Z ->
  induce sample_lens fuel m i s = Ok (st, i1, s1) -> is_result st = LIMIT_REACHED ->
  induce sample_lens fuel (m + n) i s = induce sample_lens fuel n i1 s1.
Proof. exact claim_C26_split. Qed.
Print Assumptions C26_split.

(** Lengths for which the limit is reached after one round and the next round succeeds. *)
Example C26_example :
  let s := mkslen [] [31%Z; 44%Z; 17%Z] in
  let i := fresh [0; 1; 2] [2; 1; 0] in
  obtainable i s /\
  match induce sample_lens 9 1 i s with Ok (st, i1, s1) => is_result st = LIMIT_REACHED /\ i_bottom i1 <> i_bottom i | _ => False end.
Proof. split; [apply fresh_obtainable; vm_compute; reflexivity|]. vm_compute. split; [reflexivity | discriminate]. Qed.

(** ** C53: Reported connections are genuine saddle connections. *)

Theorem C53_genuine : forall (T : Type) (O : LenOps T) (W : LenLaws T) (i : iet T) (s : slen T) fuel limit st j t b a,
  obtainable i s -> (limit <= INT_MAX)%Z -> induce sample_lens fuel limit i s = Ok (st, j, t) ->
  is_connection st = Some (b, a) -> saddle_connection (exch_of i s) b a.
Proof. exact claim_C53_genuine. Qed.
Print Assumptions C53_genuine.

Example C53_example : obtainable z_iet z_lens /\
  match induce sample_lens 30 (-1) z_iet z_lens with Ok (st, _, _) => is_connection st <> None | _ => False end.
Proof. split; [exact z_obtainable|]. vm_compute. discriminate. Qed.

(** ** C59: A self-similar IET is recognized. *)

(** If Zorich induction meets no saddle connection and leads to a copy of an earlier stage,
    up to scale and names of the labels, then [induce] on the freshly constructed IET says
    so, within a number of rounds that depends only on when this happens; the verdict is
    correct.  (The limit -1 is that of an unlimited [induce].) *)
Theorem C59_recognized : forall (T : Type) (O : LenOps T) (W : LenLaws T) (i : iet T) (s : slen T) top bottom v i' n p fuel limit,
  obtainable i s -> iet_make s top bottom = Ok i ->
  saf_invariant i s = Ok (v, i') -> Forall (fun q => q = 0%Qc) v ->
  0 < p -> self_similar (exch_of i s) n p ->
  let rounds := 4 * (n + fact (length top) * p) in
  (Z.of_nat rounds <= INT_MAX)%Z -> (limit = -1 \/ Z.of_nat rounds <= limit)%Z -> rounds <= fuel ->
  ~ has_periodic_point (exch_of i s) /\
  exists st j t, induce sample_lens fuel limit i s = Ok (st, j, t) /\ is_result st = WITHOUT_PERIODIC_TRAJECTORY_AUTO_SIMILAR.
Proof. exact claim_C59_recognized. Qed.
Print Assumptions C59_recognized.

(** The bound without the factorial, if the labels are the same as well. *)
Theorem C59_same_labels : forall (T : Type) (O : LenOps T) (W : LenLaws T) (i : iet T) (s : slen T) top bottom v i' n p e1 e2 c fuel limit,
  obtainable i s -> iet_make s top bottom = Ok i ->
  saf_invariant i s = Ok (v, i') -> Forall (fun q => q = 0%Qc) v ->
  0 < p -> iter round n (exch_of i s) e1 -> iter round p e1 e2 -> renamed (fun a => a) c e1 e2 ->
  let rounds := 4 * (n + p) in
  (Z.of_nat rounds <= INT_MAX)%Z -> (limit = -1 \/ Z.of_nat rounds <= limit)%Z -> rounds <= fuel ->
  ~ has_periodic_point (exch_of i s) /\
  exists st j t, induce sample_lens fuel limit i s = Ok (st, j, t) /\ is_result st = WITHOUT_PERIODIC_TRAJECTORY_AUTO_SIMILAR.
Proof. exact claim_C59_same_labels. Qed.
Print Assumptions C59_same_labels.

(** The IET of Arnoux and Yoccoz: after 8 rounds, each 7 rounds scale it down. *)
Example C59_example :
  obtainable ay_iet ay_lens /\ iet_make ay_lens [0; 1; 2; 3; 4; 5; 6] [1; 4; 3; 6; 5; 2; 0] = Ok ay_iet /\
  match saf_invariant ay_iet ay_lens with Ok (v, _) => v = [0%Qc; 0%Qc; 0%Qc] | _ => False end /\
  (exists e1 e2 c, iter round 8 (exch_of ay_iet ay_lens) e1 /\ iter round 7 e1 e2 /\ renamed (fun a => a) c e1 e2) /\
  match induce sample_lens 60 60 ay_iet ay_lens with
  | Ok (st, j, _) => is_result st = WITHOUT_PERIODIC_TRAJECTORY_AUTO_SIMILAR /\ tk_top (i_trk j) = i_top j
  | _ => False
  end.
Proof.
  split; [exact ay_obtainable|]. split; [vm_compute; reflexivity|]. split; [vm_compute; reflexivity|].
  split; [|vm_compute; split; reflexivity].
  destruct (run_rounds 8 ay_iet ay_lens) as [[j t]|] eqn:E1; [|exfalso; vm_compute in E1; discriminate].
  destruct (run_rounds 7 j t) as [[j' t']|] eqn:E2.
  - apply (self_similar_by ay_iet ay_lens 8 7 j t j' t' ay_obtainable E1 E2); vm_compute in E1; injection E1 as <- <-; vm_compute in E2; injection E2 as <- <-; vm_compute; reflexivity.
  - exfalso. vm_compute in E1. injection E1 as <- <-. vm_compute in E2. discriminate.
Qed.
