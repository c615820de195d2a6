(** Proofs of the properties in [PropShare]. *)
From Coq Require Import Reals Permutation List ZArith.
From Verif Require Import Base LenT FM Subspace Lengths IET LenInst Sqrt2 Decomp Spec Api DecApi RatioApi ShareApi Fixtures DecFixtures.
From Verif Require Import Share.
Open Scope nat_scope.

Definition is_cylinder (v : look) : bool := match lk_cylinder v with Some true => true | _ => false end.
Definition full : dcall := dc_decompose 50 50 is_cylinder 50.

Lemma claim_C98_together : forall (T : Type) (O : LenOps T) (W : LenLaws T) (ls : list T) rs p answers things s,
  (forall r, In r rs -> valid_input (mkslen [] ls) (fst r) (snd r)) -> NoDup (concat (map fst rs)) ->
  Forall (fun x => task_legal (snd x)) p ->
  run_together rs p (mkslen [] ls) = Ok (answers, things, s) ->
  forall k r, nth_error rs k = Some r ->
  exists mine t these, run_alone r (part_of k p) (mkslen [] ls) = Ok (part_of k answers, mine, t) /\
    nth_error things k = Some these /\ Forall2 (looks_same t s) mine these /\
    forall c, In c (fst r) -> sl_at s c = sl_at t c.
Proof.
  exact @run_together_alone.
Qed.

Lemma claim_C98_failure : forall (T : Type) (O : LenOps T) (W : LenLaws T) (ls : list T) rs p,
  (forall r, In r rs -> valid_input (mkslen [] ls) (fst r) (snd r)) -> NoDup (concat (map fst rs)) ->
  Forall (fun x => task_legal (snd x)) p -> Forall (fun x => fst x < length rs) p ->
  match run_together rs p (mkslen [] ls) with
  | Ok _ => True
  | Throw => exists k r, nth_error rs k = Some r /\ run_alone r (part_of k p) (mkslen [] ls) = Throw
  | AssertFail => exists k r, nth_error rs k = Some r /\ run_alone r (part_of k p) (mkslen [] ls) = AssertFail
  | UB => exists k r, nth_error rs k = Some r /\ run_alone r (part_of k p) (mkslen [] ls) = UB
  | OutOfFuel => exists k r, nth_error rs k = Some r /\ run_alone r (part_of k p) (mkslen [] ls) = OutOfFuel
  end.
Proof.
  intros T O W ls rs p V D Lg In_. pose proof (run_together_fails ls rs p V D Lg In_) as H.
  destruct (run_together rs p (mkslen [] ls)); [exact I|..]; destruct H as (k & r & E & B); exists k, r; (split; [exact E|]);
    destruct (run_alone r (part_of k p) (mkslen [] ls)); cbn in B; try contradiction; try reflexivity.
Qed.

Lemma claim_C99_refuted : exists (i : iet Z) (s : slen Z) d d1 d2,
  obtainable i s /\ dec_make i s = Ok d /\
  do_dcall full d = Ok (dans_decompose true, d1) /\
  do_dcall full (with_lengths d (d_len d1)) = Ok (dans_decompose true, d2) /\
  map (fun x => (dc_cylinder x, map (sl_at (d_len d1)) (i_top (dc_iet x)))) (d_comps d1) = [(Some true, [Ok 5]); (Some true, [Ok 1])]%Z /\
  map (fun x => (dc_cylinder x, map (sl_at (d_len d2)) (i_top (dc_iet x)))) (d_comps d2) = [(Some true, [Ok 1]); (Some true, [Ok 1])]%Z /\
  views (with_lengths d1 (d_len d2)) <> views d1.
Proof.
  exists z_iet, z_lens. destruct (dec_make z_iet z_lens) as [d| | | |] eqn:E; try (vm_compute in E; discriminate).
  vm_compute in E. injection E as <-. eexists _, _, _. split; [exact z_obtainable|]. split; [reflexivity|].
  split; [vm_compute; reflexivity|]. split; [vm_compute; reflexivity|]. split; [vm_compute; reflexivity|]. split; [vm_compute; reflexivity|].
  vm_compute. discriminate.
Qed.

