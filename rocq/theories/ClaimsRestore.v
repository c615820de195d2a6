(** Proofs of the properties in [PropRestore]. *)
From Coq Require Import Reals List ZArith Permutation Lia Lra String.
From Verif Require Import Base QcTac LenT FM Subspace Lengths IET Decomp Misc Spec Api RatioApi RestoreApi.
From Verif Require Import ZorichProof ReduceProof Saf InduceProof World Restore ClaimsMisc Fixtures LenInst Sqrt2 Cubic.
Import ListNotations.
Open Scope nat_scope.
Lemma loaded_rows (T : Type) (O : LenOps T) (W : LenLaws T) (i j : iet T) (s t : slen T) : obtainable i s ->
  load_iet (save_iet i (Some s)) = Ok (j, Some t) -> j = mkiet (i_top i) (i_bottom i) false None tracker_init /\ t = s.
Proof.
  intros H%obtainable_good. destruct H as (Hw & Hc & _). pose proof Hw as (N & P & Ne & Po & St).
  unfold load_iet, save_iet. cbn [String.eqb Ascii.eqb Bool.eqb andb]. rewrite !load_labels. cbn [bind load_ptr save_ptr load_lengths save_lengths String.eqb Ascii.eqb Bool.eqb andb].
  rewrite load_lens, load_labels. cbn [bind]. destruct s as [st ls]. cbn [sl_stack sl_lens] in *.
  rewrite (iet_make_ok (mkslen st ls) (i_top i) (i_bottom i) N P Ne Po). cbn [bind]. injection 1 as <- <-. auto.
Qed.

Lemma fresh_alike (T : Type) (O : LenOps T) (W : LenLaws T) (i : iet T) (s : slen T) : good i s -> good (mkiet (i_top i) (i_bottom i) false None tracker_init) s.
Proof. intros ((N & P & Ne & Po & St) & _). apply good_make; assumption. Qed.

Lemma loaded_example : exists (i : iet Z) (s : slen Z) j, obtainable i s /\ i_swap i = true /\ i_saf i <> None /\ load_iet (save_iet i (Some s)) = Ok (j, Some s) /\
  i_swap j = false /\ i_saf j = None /\ 2 <= i_size i /\ integral 1 (exch_of i s).
Proof.
  destruct (run_op op_zorich z_iet z_lens) as [[[i1 x1] s1]| | | |] eqn:E1; try (exfalso; vm_compute in E1; discriminate).
  pose proof (step_obtainable z_iet z_lens op_zorich i1 x1 s1 i1 z_obtainable I E1 (or_introl eq_refl)) as O1.
  pose proof (step_obtainable i1 s1 op_swap (iet_swap i1) [] s1 (iet_swap i1) O1 I eq_refl (or_introl eq_refl)) as O2.
  destruct (run_op op_saf (iet_swap i1) s1) as [[[i3 x3] s3]| | | |] eqn:E3; try (exfalso; vm_compute in E1; injection E1 as <- <- <-; vm_compute in E3; discriminate).
  pose proof (step_obtainable (iet_swap i1) s1 op_saf i3 x3 s3 i3 O2 I E3 (or_introl eq_refl)) as O3.
  exists i3, s3, (mkiet (i_top i3) (i_bottom i3) false None tracker_init). split; [exact O3|].
  vm_compute in E1. injection E1 as <- <- <-. vm_compute in E3. injection E3 as <- <- <-.
  split; [reflexivity|]. split; [discriminate|]. split; [vm_compute; reflexivity|]. split; [reflexivity|]. split; [reflexivity|].
  split; [cbn; lia|]. intros a Ha. cbn in Ha |- *. unfold lamR. cbn [sl_lens].
  repeat (destruct Ha as [<-|Ha]; [cbn [nth_error]; eexists; cbn [val ZLaws]; rewrite Rmult_1_r; reflexivity|]). destruct Ha.
Qed.
Lemma claim_C82_rows : forall (T : Type) (O : LenOps T) (W : LenLaws T) (i j : iet T) (s : slen T) (p : list (nat * op)),
  obtainable i s -> obtainable j s -> i_top i = i_top j -> i_bottom i = i_bottom j -> Forall (fun x => op_legal (snd x)) p ->
  (exists n, reports_similar (run (firstn n p) [i] s) \/ reports_similar (run (firstn n p) [j] s)) \/
  both same_run (run p [i] s) (run p [j] s).
Proof.
  intros T O W i j s p Hi%obtainable_good Hj%obtainable_good Et Eb Lp. apply run_alike; [exact Lp| |apply pool_one; exact Hi|apply pool_one; exact Hj].
  constructor; [split; assumption|constructor].
Qed.

Lemma claim_C82_loaded : forall (T : Type) (O : LenOps T) (W : LenLaws T) (i j : iet T) (s t : slen T) (p : list (nat * op)),
  obtainable i s -> load_iet (save_iet i (Some s)) = Ok (j, Some t) -> Forall (fun x => op_legal (snd x)) p ->
  (exists n, reports_similar (run (firstn n p) [i] s) \/ reports_similar (run (firstn n p) [j] t)) \/
  both same_run (run p [i] s) (run p [j] t).
Proof.
  intros T O W i j s t p H L Lp. destruct (loaded_rows T O W i j s t H L) as [-> ->]. apply obtainable_good in H.
  apply run_alike; [exact Lp| |apply pool_one; exact H|apply pool_one, fresh_alike; exact H]. constructor; [split; reflexivity|constructor].
Qed.

Lemma claim_C82_commensurable : forall (T : Type) (O : LenOps T) (W : LenLaws T) (i j : iet T) (s t : slen T) (u : R) (p : list (nat * op)),
  obtainable i s -> load_iet (save_iet i (Some s)) = Ok (j, Some t) -> (0 < u)%R -> integral u (exch_of i s) -> Forall (fun x => op_legal (snd x)) p ->
  both same_run (run p [i] s) (run p [j] t).
Proof.
  intros T O W i j s t u p H L Hu U Lp. destruct (loaded_rows T O W i j s t H L) as [-> ->]. apply obtainable_good in H.
  pose proof (fresh_alike T O W i s H) as Hj.
  destruct (run_alike p [i] [mkiet (i_top i) (i_bottom i) false None tracker_init] s Lp) as [(n & N)|B];
    [constructor; [split; reflexivity|constructor]|apply pool_one; exact H|apply pool_one; exact Hj| |exact B].
  exfalso.
  assert (Ln : Forall (fun x => op_legal (snd x)) (firstn n p)).
  { rewrite Forall_forall in *. intros x Hx. apply Lp. rewrite <- (firstn_skipn n). apply in_or_app. left. exact Hx. }
  destruct N as [N|N]; revert N.
  - apply (units_run u Hu); [exact Ln|apply pool_one; exact H|]. intros y [<-|[]]. exact U.
  - apply (units_run u Hu); [exact Ln|apply pool_one; exact Hj|]. intros y [<-|[]]. exact U.
Qed.

Lemma claim_C82_exception : exists (i j : iet q3) (s : slen q3) (p : list (nat * op)),
  obtainable i s /\ load_iet (save_iet i (Some s)) = Ok (j, Some s) /\ Forall (fun x => op_legal (snd x)) p /\
  reports_similar (run p [i] s) /\ ~ reports_similar (run p [j] s) /\ ~ both same_run (run p [i] s) (run p [j] s).
Proof.
  destruct (induce sample_lens 20 15 ay_iet ay_lens) as [[[st i] s]| | | |] eqn:E; try (exfalso; vm_compute in E; discriminate).
  exists i. destruct (load_iet (save_iet i (Some s))) as [[j [t|]]| | | |] eqn:L; try (exfalso; vm_compute in E; injection E as <- <- <-; vm_compute in L; discriminate).
  assert (Ob : obtainable i s).
  { apply (step_obtainable ay_iet ay_lens (op_induce 20 15) i (match is_additional st with Some x => [x] | None => [] end) s); [exact ay_obtainable|cbn; unfold INT_MAX; lia|cbn [run_op]; rewrite E; reflexivity|left; reflexivity]. }
  destruct (loaded_rows _ _ _ i j s t Ob L) as [-> ->].
  exists (mkiet (i_top i) (i_bottom i) false None tracker_init), s, [(0, op_induce 10 5)].
  split; [exact Ob|]. split; [exact L|]. split; [repeat constructor; cbn; unfold INT_MAX; lia|].
  assert (R : exists c x y, run [(0, op_induce 10 5)] [i] s = Ok ([ans_induce WITHOUT_PERIODIC_TRAJECTORY_AUTO_SIMILAR c], x, y)).
  { vm_compute in E. injection E as <- <- <-. vm_compute. eexists _, _, _. reflexivity. }
  assert (R' : exists c x y, run [(0, op_induce 10 5)] [mkiet (i_top i) (i_bottom i) false None tracker_init] s = Ok ([ans_induce LIMIT_REACHED c], x, y)).
  { vm_compute in E. injection E as <- <- <-. vm_compute. eexists _, _, _. reflexivity. }
  destruct R as (c & x & y & R), R' as (c' & x' & y' & R'). rewrite R, R'. split; [|split].
  - eexists _, _, _, c. split; [reflexivity|left; reflexivity].
  - intros (a & q & r & d & Ea & Ha). injection Ea as <- _ _. destruct Ha as [Ha|[]]. discriminate.
  - intros (A & _). cbn in A. discriminate.
Qed.

