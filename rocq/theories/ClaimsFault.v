(** Proofs of the theorems in [PropFault]. *)
From Coq Require Import Reals Permutation Lia Lra.
From Verif Require Import Base QcTac LenT FM Subspace Lengths IET LenInst Sqrt2 Spec Api RatioApi Fault Fixtures.
From Verif Require Import ZorichProof ReduceProof Saf InduceProof World FaultProof.
Open Scope nat_scope.
Lemma claim_C91_calls : forall (T : Type) (O : LenOps T) (o : op) (i : iet T) (s : slen T), exists n, forall k,
  (k < n -> exists i' s', f_call o k i s = Raised i' s') /\
  (n <= k ->
    match call o i s with
    | Ok (a, i', extra, s') => f_call o k i s = Did (a, extra) (k - n) i' s'
    | Throw => exists i' s', f_call o k i s = Raised i' s'
    | AssertFail => f_call o k i s = Fails F_assert
    | UB => f_call o k i s = Fails F_undefined
    | OutOfFuel => f_call o k i s = Fails F_fuel
    end).
Proof.
  intros T O o i s. destruct (at_call o i s) as (n & H). exists n. intro k. destruct (H k) as (A & B). split; [exact A|]. intro K. specialize (B K).
  destruct (call o i s) as [[[[a i'] extra] s']| | | |]; exact B.
Qed.

Lemma claim_C91_partial : forall (T : Type) (O : LenOps T) (W : LenLaws T) (o : op) (k : nat) (i : iet T) (s : slen T) i' s',
  obtainable i s -> op_legal o -> f_call o k i s = Raised i' s' ->
  (exists p q, i_bottom i' = p ++ q /\ sl_stack s' = p) /\
  (exists j, iet_make (sl_clear s') (i_top i') (i_bottom i') = Ok j /\ obtainable j (sl_clear s')) /\
  (forall l, ~ In l (i_top i) -> lamR s' l = lamR s l) /\
  exists e, rauzy_path (exch_of i s) e /\
    if Bool.eqb (i_swap i') (i_swap i)
    then exch_of i' s' = e \/ exists n, invariant_prefix e n /\ exch_of i' s' = left_of e n
    else exch_of i' s' = flip e.
Proof.
  intros T O W o k i s i' s' Ho Hl E. destruct (call_lb o k i s i' s' Hl (obtainable_good i s Ho) E) as (A & B & C & D).
  split; [exact A|]. split; [|split; [exact B|exact D]].
  assert (C' : valid_input (sl_clear s') (i_top i') (i_bottom i')) by exact C.
  exists (fresh (i_top i') (i_bottom i')). pose proof (fresh_made _ _ _ C') as M. split; [exact M|].
  exists [fresh (i_top i') (i_bottom i')]. split; [|left; reflexivity]. apply (h_new [] _ (i_top i') (i_bottom i')); [constructor|exact C'|intros ? _ []|exact M].
Qed.

Lemma bosh_left {T} {O : LenOps T} {W : LenLaws T} k (i : iet T) s i' s' : f_bosh_no_periodic sample_flens k i s = Raised i' s' -> s' = s /\ (i' = i \/ exists v, saf_invariant i s = Ok (v, i')).
Proof.
  unfold f_bosh_no_periodic. unfold fbind at 1. destruct (f_saf0 sample_flens k i s) as [z k1 i1 s1|i1 s1|e] eqn:Q; intro E; [|injection E as <- <-; destruct (saf0_raised sample_flens _ _ _ _ _ Q) as (-> & ->); auto|discriminate].
  assert (R : s1 = s /\ (i1 = i \/ exists v, saf_invariant i s = Ok (v, i1))).
  { unfold f_saf0, fbind in Q. destruct (f_saf sample_flens k i s) as [v k2 i2 s2| |] eqn:Z; try discriminate. injection Q as _ _ <- <-.
    pose proof (at_did _ _ _ _ _ _ _ _ _ (sat_saf i s) Z) as D. unfold saf_invariant. destruct (iet_saf i s) as [[w j]| | | |]; cbn [bind] in *; try discriminate.
    injection D as <- <- <-. split; [reflexivity|]. right. eexists. reflexivity. }
  destruct z; [discriminate|]. unfold fbind at 1, this in E. destruct (i_size i1 <=? 1); [discriminate|]. unfold fbind at 1, query, member in E. cbn [sample_flens fl_base] in E.
  destruct k1 as [|k1]; [injection E as <- <-; exact R|]. destruct (bosh_equations i1 s1) as [eqs| | | |]; cbn [bind] in E; try discriminate; [|injection E as <- <-; exact R].
  unfold fbind at 1, pure at 1 in E. destruct (ras_equations eqs (vzero (length eqs))); try discriminate; [|injection E as <- <-; exact R].
  unfold fbind, pure in E. destruct (nznn a); try discriminate. injection E as <- <-; exact R.
Qed.

Lemma reduce_left {T} {O : LenOps T} {W : LenLaws T} k (i : iet T) s i' s' : wf i s -> f_reduce sample_flens k i s = Raised i' s' -> s' = s /\ exists r, reduce i s = Ok (Some r, i').
Proof.
  intros H E. pose proof (reduce_ok i s H) as Q. unfold f_reduce, reduce in *. unfold fbind at 1, this in E. unfold fbind at 1, pure at 1 in E.
  destruct (red_loop (i_top i) (i_bottom i) [] 0 0) as [[t b]| | | |]; cbn [bind] in Q |- *; try discriminate; [|exfalso; destruct Q as [(n & _ & _ & Q)|(_ & Q)]; discriminate]. cbn [fst snd] in E.
  destruct t as [|x t]; [unfold pure, assert_ in E; destruct b; discriminate|]. unfold fbind at 1, pure at 1, assert_ at 1 in E. unfold assert_ in Q |- *.
  match type of E with context [if ?c then _ else _] => destruct c end; [|discriminate]. cbn beta iota in E. unfold fbind, put, query, member in E. cbn [sample_flens fl_base] in E.
  destruct (iet_make s (x :: t) b) as [j| | | |]; cbn [bind] in Q, E |- *; [destruct k; [|discriminate]; injection E as <- <-; split; [reflexivity|]; eexists; reflexivity|..].
  all: exfalso; destruct Q as [(n & _ & _ & Q)|(_ & Q)]; discriminate.
Qed.
Lemma claim_C91_safe : forall (T : Type) (O : LenOps T) (W : LenLaws T) (o : op) (k : nat) (i : iet T) (s : slen T) i' s',
  obtainable i s -> f_call o k i s = Raised i' s' ->
  match o with
  | op_zorich | op_induce _ _ => True
  | op_reduce => s' = s /\ obtainable i' s /\ exists r, reduce i s = Ok (Some r, i')
  | _ => s' = s /\ obtainable i' s /\ (i' = i \/ exists v, saf_invariant i s = Ok (v, i'))
  end.
Proof.
  intros T O W o k i s i' s' Ho E. pose proof (obtainable_good i s Ho) as G. pose proof G as (H & _).
  destruct o as [| | |fuel limit| | | |t b]; try exact I; cbn [f_call] in E; unfold fbind at 1 in E.
  - discriminate.
  - destruct (f_reduce sample_flens k i s) eqn:Q; try discriminate. injection E as <- <-. destruct (reduce_left _ _ _ _ _ H Q) as (-> & r & Er).
    split; [reflexivity|]. split; [|exists r; exact Er]. refine (step_obtainable i s op_reduce i0 [r] s i0 Ho I _ (or_introl eq_refl)). cbn [run_op]. rewrite Er. reflexivity.
  - unfold f_saf_invariant in E. unfold fbind at 1 in E. destruct (f_saf sample_flens k i s) eqn:Q; try discriminate. injection E as <- <-. destruct (saf_raised sample_flens _ _ _ _ _ Q) as (-> & ->). auto.
  - destruct (f_bosh_no_periodic sample_flens k i s) eqn:Q; try discriminate. injection E as <- <-. destruct (bosh_left _ _ _ _ _ Q) as (-> & A). split; [reflexivity|]. split; [|exact A].
    destruct A as [->|(v & Ev)]; [exact Ho|]. refine (step_obtainable i s op_saf i0 [] s i0 Ho I _ (or_introl eq_refl)). cbn [run_op]. rewrite Ev. reflexivity.
  - destruct (f_bosh_no_saddle sample_flens k i s) eqn:Q; try discriminate. injection E as <- <-. destruct (saddle_raised sample_flens _ _ _ _ _ Q) as (-> & ->). auto.
  - destruct (f_bosh_no_saddle2 sample_flens t b k i s) eqn:Q; try discriminate. injection E as <- <-. destruct (saddle2_raised sample_flens _ _ _ _ _ _ _ Q) as (-> & ->). auto.
Qed.

Lemma claim_C91_zorich : forall (T : Type) (O : LenOps T) (W : LenLaws T) (k : nat) (i : iet T) (s : slen T) i' s',
  obtainable i s -> f_call op_zorich k i s = Raised i' s' ->
  (obtainable i' s' /\ exists found, zorich sample_lens i s = Ok (found, i', s')) \/
  (i' = i /\ sl_lens s' = sl_lens s /\ exists q, i_bottom i = sl_stack s' ++ q).
Proof.
  intros T O W k i s i' s' Ho E. pose proof (obtainable_good i s Ho) as (H & _). cbn [f_call] in E; unfold fbind at 1 in E. destruct (f_zorich sample_flens k i s) eqn:Q; try discriminate.
  injection E as <- <-. destruct (zorich_raised _ _ _ _ _ H Q) as [(-> & p & q & Eb & ->)|(f & Ez)]; [right; eauto|left].
  split; [|exists f; exact Ez]. refine (step_obtainable i s op_zorich _ [] _ _ Ho I _ (or_introl eq_refl)). cbn [run_op]. rewrite Ez. reflexivity.
Qed.

Lemma claim_C91_stack_refuted : exists (i : iet Z) (s : slen Z) (k : nat) i' s',
  obtainable i s /\ f_call op_zorich k i s = Raised i' s' /\ forall k', 10 <= k' -> f_call op_zorich k' i' s' = Fails F_assert.
Proof.
  exists z_iet, z_lens, 3. eexists _, _. split; [exact z_obtainable|]. split; [vm_compute; reflexivity|].
  intros k' Hk. do 10 (destruct k' as [|k']; [lia|]). vm_compute. reflexivity.
Qed.

Lemma claim_C91_tracker_refuted : exists (i : iet q2) (s : slen q2) (k : nat) i' s',
  obtainable i s /\ f_call (op_induce 10 5) k i s = Raised i' s' /\ sl_stack s' = [] /\
  forall k', 10 <= k' -> f_call (op_induce 10 5) k' i' s' = Fails F_undefined.
Proof.
  exists (fresh [0; 1] [1; 0]), (mkslen [] [q2_of 0 1; q2_of 0 1]), 2. eexists _, _. split; [apply fresh_obtainable; vm_compute; reflexivity|]. split; [vm_compute; reflexivity|].
  split; [reflexivity|]. intros k' Hk. do 10 (destruct k' as [|k']; [lia|]). vm_compute. reflexivity.
Qed.

Lemma claim_C91_verdict_refuted : exists (i : iet q2) (s : slen q2) (k : nat) i' s',
  obtainable i s /\ f_call (op_induce 10 5) k i s = Raised i' s' /\ sl_stack s' = [] /\ has_periodic_point (exch_of i' s') /\
  forall k', 10 <= k' -> exists k'' i'' s'',
    f_call (op_induce 10 5) k' i' s' = Did (ans_induce WITHOUT_PERIODIC_TRAJECTORY_AUTO_SIMILAR None, []) k'' i'' s''.
Proof.
  exists (fresh [0; 1] [1; 0]), (mkslen [] [q2_of 0 1; q2_of 0 1]), 3. eexists _, _. split; [apply fresh_obtainable; vm_compute; reflexivity|]. split; [vm_compute; reflexivity|].
  split; [reflexivity|]. split.
  - assert (P : (0 < lamR (mkslen [] [q2_of 0 1; q2_of 0 1]) 0)%R /\ lamR (mkslen [] [q2_of 0 1; q2_of 0 1]) 1 = lamR (mkslen [] [q2_of 0 1; q2_of 0 1]) 0).
    { split; [|reflexivity]. unfold lamR. cbn [sl_lens nth_error]. apply is_pos_true. vm_compute. reflexivity. }
    match goal with |- has_periodic_point ?e => assert (Q : (0 < e_len e 0)%R /\ e_len e 1 = e_len e 0) by exact P; assert (Et : e_top e = [0; 1]) by reflexivity; assert (Eb : e_bot e = [1; 0]) by reflexivity; generalize dependent e end.
    intros e (P0 & P1) Et Eb. exists 0%R, 2. split; [lia|]. exists (e_len e 0). split; [|exists 0%R; split; [|reflexivity]].
    + exists 0, 0%R, (e_len e 0), (e_len e 0). rewrite Et, Eb. split; [exists [], [1]; cbn; auto|]. split; [exists [1], []; cbn; split; [reflexivity|]; lra|]. lra.
    + exists 1, (e_len e 0), 0%R, (e_len e 0). rewrite Et, Eb. split; [exists [0], []; cbn; split; [reflexivity|]; lra|]. split; [exists [], [0]; cbn; split; [reflexivity|]; lra|]. lra.
  - intros k' Hk. do 10 (destruct k' as [|k']; [lia|]). do 3 eexists. vm_compute. reflexivity.
Qed.

