(** Properties C98 and C99: IETs and decompositions that use the same lengths object.

    A program of several parts ([ShareApi]) constructs an IET for each part, all with the same
    lengths object, and calls any members of these IETs, of the parts that are split off from
    them and of their decompositions, in any order. [run_together rs p s] runs all of [p],
    [run_alone r q s] only one part; [part_of k] selects what belongs to part [k]. *)
From Coq Require Import Reals Permutation List ZArith.
From Verif Require Import Base LenT FM Subspace Lengths IET LenInst Sqrt2 Decomp Spec Api DecApi RatioApi ShareApi Fixtures DecFixtures.
From Verif Require Import ClaimsShare.
Open Scope nat_scope.

(** ** C98: IETs with different labels can use the same lengths. *)

(** The answers of each part are the ones that it gets if the other parts are not run at all;
    in the end, its IETs and decompositions look the same and the lengths of its labels are the
    same. *)
Theorem C98_together : forall (T : Type) (O : LenOps T) (W : LenLaws T) (ls : list T) rs p answers things s,
  (forall r, In r rs -> valid_input (mkslen [] ls) (fst r) (snd r)) -> NoDup (concat (map fst rs)) ->
  Forall (fun x => task_legal (snd x)) p ->
  run_together rs p (mkslen [] ls) = Ok (answers, things, s) ->
  forall k r, nth_error rs k = Some r ->
  exists mine t these, run_alone r (part_of k p) (mkslen [] ls) = Ok (part_of k answers, mine, t) /\
    nth_error things k = Some these /\ Forall2 (looks_same t s) mine these /\
    forall c, In c (fst r) -> sl_at s c = sl_at t c.
Proof. exact claim_C98_together. Qed.
Print Assumptions C98_together.

(** If the program fails, then one of the parts fails in the same way on its own. *)
Theorem C98_failure : forall (T : Type) (O : LenOps T) (W : LenLaws T) (ls : list T) rs p,
  (forall r, In r rs -> valid_input (mkslen [] ls) (fst r) (snd r)) -> NoDup (concat (map fst rs)) ->
  Forall (fun x => task_legal (snd x)) p -> Forall (fun x => fst x < length rs) p ->
  match run_together rs p (mkslen [] ls) with
  | Ok _ => True
  | Throw => exists k r, nth_error rs k = Some r /\ run_alone r (part_of k p) (mkslen [] ls) = Throw
  | AssertFail => exists k r, nth_error rs k = Some r /\ run_alone r (part_of k p) (mkslen [] ls) = AssertFail
  | UB => exists k r, nth_error rs k = Some r /\ run_alone r (part_of k p) (mkslen [] ls) = UB
  | OutOfFuel => exists k r, nth_error rs k = Some r /\ run_alone r (part_of k p) (mkslen [] ls) = OutOfFuel
  end.
Proof. exact claim_C98_failure. Qed.
Print Assumptions C98_failure.

(** Two parts with labels 0, 1, 2 and 3, 4; the first is induced, then decomposed while the
    other one is induced. *)
Example C98_example : let ls := [5; 3; 4; 13; 8]%Z in
  let rs := [([0; 1; 2], [2; 1; 0]); ([4; 3], [3; 4])] in
  let p := [(0, t_op 0 op_zorich); (1, t_op 0 op_zorich); (0, t_make 0); (1, t_op 0 op_zorich); (0, t_call 0 (dc_step 50 50 0)); (1, t_op 0 op_swap); (1, t_op 0 op_zorich); (0, t_call 0 full)] in
  (forall r, In r rs -> valid_input (mkslen [] ls) (fst r) (snd r)) /\ NoDup (concat (map fst rs)) /\
  Forall (fun x => task_legal (snd x)) p /\
  exists answers things s, run_together rs p (mkslen [] ls) = Ok (answers, things, s) /\ sl_lens s <> ls /\
    part_of 0 answers <> [] /\ part_of 1 answers <> [].
Proof.
  cbv zeta. split; [|split; [|split]].
  - intros r [<-|[<-|[]]]; apply valid_inputb_ok; vm_compute; reflexivity.
  - cbn. repeat constructor; cbn; intuition discriminate.
  - repeat constructor; vm_compute; discriminate.
  - eexists _, _, _. split; [vm_compute; reflexivity|]. vm_compute. repeat split; discriminate.
Qed.

(** ** C99: Several decompositions of the same IET are independent. *)

(** This is false: two decompositions of one IET use the same lengths. The first one finds the
    two cylinders of widths 5 and 1; the second one then reports to have finished with two
    cylinders of width 1, and the widths of the cylinders of the first one have changed. *)
Theorem C99_refuted : exists (i : iet Z) (s : slen Z) d d1 d2,
  obtainable i s /\ dec_make i s = Ok d /\
  do_dcall full d = Ok (dans_decompose true, d1) /\
  do_dcall full (with_lengths d (d_len d1)) = Ok (dans_decompose true, d2) /\
  map (fun x => (dc_cylinder x, map (sl_at (d_len d1)) (i_top (dc_iet x)))) (d_comps d1) = [(Some true, [Ok 5]); (Some true, [Ok 1])]%Z /\
  map (fun x => (dc_cylinder x, map (sl_at (d_len d2)) (i_top (dc_iet x)))) (d_comps d2) = [(Some true, [Ok 1]); (Some true, [Ok 1])]%Z /\
  views (with_lengths d1 (d_len d2)) <> views d1.
Proof. exact claim_C99_refuted. Qed.
Print Assumptions C99_refuted.
