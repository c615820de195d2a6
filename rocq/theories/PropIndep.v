(** Property C84 (and more on C78): irreducible IETs whose lengths satisfy no rational
    relation.

    [independent] is specified in [SpecIndep], [minimal] in [SpecDense], [reducible],
    [has_saddle_connection], [has_periodic_point] in [Spec]. *)
From Coq Require Import Reals Permutation QArith Qcanon List ZArith.
From Verif Require Import Base LenT FM Subspace Lengths IET LenInst Sqrt2 Cubic Decomp Spec SpecLin SpecIndep SpecDense Api DecApi Fixtures DecFixtures.
From Verif Require Import ClaimsIndep.
Open Scope nat_scope.

(** ** C78: The SAF invariant decides between the two criteria. *)

(** The same for the steps of a decomposition: whatever the limit, a step only claims
    self-similarity if the SAF invariant of the component vanishes, and only refers to
    Boshernitzan's criterion if it does not. *)
Theorem C78_steps : forall (T : Type) (O : LenOps T) (W : LenLaws T) (i : iet T) (s : slen T) tr d fuel limit c x st d' v i',
  decomposition i s tr d -> (limit <= INT_MAX)%Z -> component d c x ->
  decomposition_step fuel limit c d = Ok (st, d') -> saf_invariant (dc_iet x) (d_len d) = Ok (v, i') ->
  (dst_result st = D_WITHOUT_PERIODIC_TRAJECTORY_AUTO_SIMILAR -> Forall (fun q => q = 0%Qc) v) /\
  (dst_result st = D_WITHOUT_PERIODIC_TRAJECTORY_BOSHERNITZAN -> ~ Forall (fun q => q = 0%Qc) v).
Proof. exact claim_C78_steps. Qed.
Print Assumptions C78_steps.

Example C78_steps_example :
  (exists tr d, decomposition ay_iet ay_lens tr d /\
     match decomposition_step 60 (-1) 0 d with Ok (st, _) => dst_result st = D_WITHOUT_PERIODIC_TRAJECTORY_AUTO_SIMILAR | _ => False end) /\
  (exists tr d, decomposition w_iet w_lens tr d /\
     match decomposition_step 60 (-1) 0 d with Ok (st, _) => dst_result st = D_WITHOUT_PERIODIC_TRAJECTORY_BOSHERNITZAN | _ => False end).
Proof.
  split; [apply (after_history _ _ []); [exact ay_obtainable|] | apply (after_history _ _ []); [exact w_obtainable|]]; vm_compute; reflexivity.
Qed.

(** ** C84: Boshernitzan's criteria always apply if the lengths are independent. *)

(** The criteria say yes, for all pairs of labels. *)
Theorem C84_criteria : forall (T : Type) (O : LenOps T) (W : LenLaws T) (i : iet T) (s : slen T),
  obtainable i s -> 2 <= length (i_top i) -> ~ reducible (exch_of i s) -> independent (exch_of i s) ->
  (exists i', bosh_no_periodic i s = Ok (true, i')) /\
  bosh_no_saddle i s = Ok true /\
  forall t b, not_last (i_top i) t -> not_last (i_bottom i) b -> bosh_no_saddle2 i s t b = Ok true.
Proof. exact claim_C84_criteria. Qed.
Print Assumptions C84_criteria.

(** What they say is true, and all orbits are dense (this is Keane's criterion). *)
Theorem C84_dynamics : forall (T : Type) (O : LenOps T) (W : LenLaws T) (i : iet T) (s : slen T),
  obtainable i s -> 2 <= length (i_top i) -> ~ reducible (exch_of i s) -> independent (exch_of i s) ->
  ~ has_periodic_point (exch_of i s) /\ ~ has_saddle_connection (exch_of i s) /\ minimal (exch_of i s).
Proof. exact claim_C84_dynamics. Qed.
Print Assumptions C84_dynamics.

(** A call of [induce] with a limit answers WITHOUT_PERIODIC_TRAJECTORY_BOSHERNITZAN, and the
    resulting IET is of the same kind. *)
Theorem C84_induce : forall (T : Type) (O : LenOps T) (W : LenLaws T) (i : iet T) (s : slen T) fuel limit,
  obtainable i s -> 2 <= length (i_top i) -> ~ reducible (exch_of i s) -> independent (exch_of i s) ->
  (0 <= limit <= INT_MAX)%Z -> (limit < Z.of_nat fuel)%Z ->
  exists st j t, induce sample_lens fuel limit i s = Ok (st, j, t) /\
    is_result st = WITHOUT_PERIODIC_TRAJECTORY_BOSHERNITZAN /\ is_connection st = None /\ is_additional st = None /\
    length (i_top j) = length (i_top i) /\ ~ reducible (exch_of j t) /\ independent (exch_of j t).
Proof. exact claim_C84_induce. Qed.
Print Assumptions C84_induce.

(** Without a limit it never returns: that criterion is then not asked, and there is nothing
    else to find. *)
Theorem C84_unlimited : forall (T : Type) (O : LenOps T) (W : LenLaws T) (i : iet T) (s : slen T) fuel,
  obtainable i s -> 2 <= length (i_top i) -> ~ reducible (exch_of i s) -> independent (exch_of i s) ->
  forall r, induce sample_lens fuel (-1) i s <> Ok r.
Proof. exact claim_C84_unlimited. Qed.
Print Assumptions C84_unlimited.

(** Whatever steps are made on a decomposition, it keeps its one component, which is of the
    same kind, no connections are found, and all steps answer
    WITHOUT_PERIODIC_TRAJECTORY_BOSHERNITZAN. *)
Theorem C84_steps : forall (T : Type) (O : LenOps T) (W : LenLaws T) (i : iet T) (s : slen T) tr d,
  2 <= length (i_top i) -> ~ reducible (exch_of i s) -> independent (exch_of i s) ->
  decomposition i s tr d ->
  (forall st, In st tr -> dst_result st = D_WITHOUT_PERIODIC_TRAJECTORY_BOSHERNITZAN /\ dst_connection st = None /\ dst_additional st = None) /\
  rights d = [] /\ lefts d = [] /\
  exists x, d_comps d = [x] /\ length (i_top (dc_iet x)) = length (i_top i) /\
    ~ reducible (comp_exch d x) /\ independent (comp_exch d x) /\
    (tr = [] \/ dc_cylinder x = Some false /\ dc_wpt x = Some true).
Proof. exact claim_C84_steps. Qed.
Print Assumptions C84_steps.

(** [decompose] with the default target succeeds after a single step, also without a limit. *)
Theorem C84_decompose : forall (T : Type) (O : LenOps T) (W : LenLaws T) (i : iet T) (s : slen T) d rounds fuel limit,
  obtainable i s -> 2 <= length (i_top i) -> ~ reducible (exch_of i s) -> independent (exch_of i s) ->
  dec_make i s = Ok d -> (limit <= INT_MAX)%Z -> 2 <= rounds -> length (i_top i) < fuel -> (limit < Z.of_nat fuel)%Z ->
  exists d' x, decompose rounds fuel default_target limit d = Ok (true, d') /\
    d_comps d' = [x] /\ dc_cylinder x = Some false /\ dc_wpt x = Some true.
Proof. exact claim_C84_decompose. Qed.
Print Assumptions C84_decompose.

Example C84_example : obtainable in_iet in_lens /\ 2 <= length (i_top in_iet) /\ ~ reducible (exch_of in_iet in_lens) /\
  independent (exch_of in_iet in_lens) /\
  match dec_make in_iet in_lens with Ok d => match decompose 2 5 default_target (-1) d with Ok (ok, _) => ok | _ => false end | _ => false end = true.
Proof.
  split; [exact in_obtainable|]. split; [apply le_S, le_n|]. split; [exact in_irreducible|]. split; [exact in_independent|]. vm_compute. reflexivity.
Qed.
