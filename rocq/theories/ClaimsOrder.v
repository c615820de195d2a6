(** Proofs of the properties in PropOrder.v. *)
From Coq Require Import Reals Permutation Lia.
From Verif Require Import Base QcTac LenT FM Subspace Lengths IET Decomp LenInst Sqrt2 Fixtures DecFixtures Spec Api DecApi OrderApi.
From Verif Require Import DecompBudget OrderProof OrderRun.
Open Scope nat_scope.
(** Steps on the listed components, each of which must be pending. *)
Fixpoint plan {T} {O : LenOps T} (target : cview T -> bool) (cs : list nat) (d : decomp T) : res (list dstep * decomp T) :=
  match cs with
  | [] => Ok ([], d)
  | c :: cs' =>
    if c <? length (d_comps d) then
      v <- comp_view d c ;;
      if target v then UB else
      '(st, d) <- decomposition_step 100 (-1) c d ;; '(tr, d) <- plan target cs' d ;; Ok (st :: tr, d)
    else UB
  end.

Lemma plan_schedule {T} {O : LenOps T} (target : cview T -> bool) : forall cs d tr d', plan target cs d = Ok (tr, d') -> schedule target (-1) d tr d'.
Proof.
  induction cs as [|c cs IH]; intros d tr d' E; cbn [plan] in E.
  - injection E as <- <-. constructor.
  - destruct (Nat.ltb_spec c (length (d_comps d))); [|discriminate].
    apply bind_ok in E as (v & Ev & E). destruct (target v) eqn:Et; [discriminate|].
    apply bind_ok in E as ([st d1] & E1 & E). apply bind_ok in E as ([tr2 d2] & E2 & E). injection E as <- <-.
    apply sch_step with (c := c) (fuel := 100) (d1 := d1); auto. exists v. auto.
Qed.

Definition all_done {T} {O : LenOps T} (target : cview T -> bool) (d : decomp T) : bool :=
  forallb (fun c => match comp_view d c with Ok v => target v | _ => false end) (seq 0 (length (d_comps d))).

Lemma all_done_finished {T} {O : LenOps T} (target : cview T -> bool) (d : decomp T) : all_done target d = true -> finished target d.
Proof.
  intros H c Hc. unfold all_done in H. rewrite forallb_forall in H. specialize (H c). rewrite in_seq in H. specialize (H ltac:(lia)).
  destruct (comp_view d c) as [v| | | |]; try discriminate. eauto.
Qed.

(** The state with two pending components and two ways to go on. *)
Definition two_ways : option (decomp q2 * list dstep * (list dstep * decomp q2) * (list dstep * decomp q2)) :=
  match (d <- dec_make m_iet m_lens ;; play [0; 0] d) with
  | Ok (tr, d) =>
    match plan default_target [0; 1; 1] d, plan default_target [1; 1; 0] d with
    | Ok p, Ok q => Some (d, tr, p, q)
    | _, _ => None
    end
  | _ => None
  end.

Lemma two_ways_ok : match two_ways with
  | Some (d, _, (tr1, d1), (tr2, d2)) =>
    all_done default_target d1 && all_done default_target d2 &&
    match map dst_result tr1, map dst_result tr2 with
    | [D_WITHOUT_PERIODIC_TRAJECTORY_BOSHERNITZAN; D_NON_SEPARATING_CONNECTION; D_CYLINDER],
      [D_NON_SEPARATING_CONNECTION; D_CYLINDER; D_WITHOUT_PERIODIC_TRAJECTORY_BOSHERNITZAN] => true
    | _, _ => false
    end
  | None => false end = true.
Proof. vm_compute. reflexivity. Qed.

Lemma two_ways_use : exists tr d tr1 d1 tr2 d2, decomposition m_iet m_lens tr d /\ length (d_comps d) = 2 /\
  schedule default_target (-1) d tr1 d1 /\ finished default_target d1 /\
  schedule default_target (-1) d tr2 d2 /\ finished default_target d2 /\
  map dst_result tr1 = [D_WITHOUT_PERIODIC_TRAJECTORY_BOSHERNITZAN; D_NON_SEPARATING_CONNECTION; D_CYLINDER] /\
  map dst_result tr2 = [D_NON_SEPARATING_CONNECTION; D_CYLINDER; D_WITHOUT_PERIODIC_TRAJECTORY_BOSHERNITZAN].
Proof.
  assert (L : match (d <- dec_make m_iet m_lens ;; play [0; 0] d) with Ok (_, d) => length (d_comps d) =? 2 | _ => false end = true) by (vm_compute; reflexivity).
  pose proof two_ways_ok as H. unfold two_ways in H.
  destruct (dec_make m_iet m_lens) as [d0| | | |] eqn:E0; try discriminate. cbn [bind] in H, L.
  destruct (play [0; 0] d0) as [[tr d]| | | |] eqn:E; try discriminate.
  destruct (plan default_target [0; 1; 1] d) as [[tr1 d1]| | | |] eqn:E1; try discriminate.
  destruct (plan default_target [1; 1; 0] d) as [[tr2 d2]| | | |] eqn:E2; try discriminate.
  apply andb_prop in H as [H H3]. apply andb_prop in H as [H1 H2].
  exists tr, d, tr1, d1, tr2, d2. split; [exact (play_history m_iet m_lens [0; 0] [] d0 tr d (dh_new _ _ _ m_obtainable E0) E)|].
  split; [apply Nat.eqb_eq; exact L|].
  split; [exact (plan_schedule _ _ _ _ _ E1)|]. split; [apply all_done_finished; exact H1|].
  split; [exact (plan_schedule _ _ _ _ _ E2)|]. split; [apply all_done_finished; exact H2|].
  repeat match type of H3 with context [match ?l with _ => _ end] => destruct l; try discriminate end. auto.
Qed.

Lemma two_steps_use : exists tr d sa d1 sb d12, decomposition m_iet m_lens tr d /\ 0 < length (d_comps d) /\ 1 < length (d_comps d) /\
  decomposition_step 100 (-1) 0 d = Ok (sa, d1) /\ decomposition_step 100 (-1) 1 d1 = Ok (sb, d12) /\
  dst_result sa = D_WITHOUT_PERIODIC_TRAJECTORY_BOSHERNITZAN /\ dst_result sb = D_NON_SEPARATING_CONNECTION.
Proof.
  destruct (after_history m_iet m_lens [0; 0] (fun tr d =>
    match ('(sa, d1) <- decomposition_step 100 (-1) 0 d ;; '(sb, d12) <- decomposition_step 100 (-1) 1 d1 ;; Ok (dst_result sa, dst_result sb)) with
    | Ok (D_WITHOUT_PERIODIC_TRAJECTORY_BOSHERNITZAN, D_NON_SEPARATING_CONNECTION) => length (d_comps d) =? 2
    | _ => false end = true) m_obtainable) as (tr & d & H & E).
  { vm_compute. reflexivity. }
  destruct (decomposition_step 100 (-1) 0 d) as [[sa d1]| | | |] eqn:E1; try discriminate. cbn [bind] in E.
  destruct (decomposition_step 100 (-1) 1 d1) as [[sb d12]| | | |] eqn:E2; try discriminate. cbn [bind] in E.
  exists tr, d, sa, d1, sb, d12. destruct (dst_result sa) eqn:Ra, (dst_result sb) eqn:Rb; try discriminate. apply Nat.eqb_eq in E. rewrite E.
  repeat split; auto.
Qed.
Lemma claim_C65_commute : forall (T : Type) (O : LenOps T) (W : LenLaws T) (i : iet T) (s : slen T) tr d a b fuel fuel' limit limit' sa d1 sb d12,
  decomposition i s tr d -> (limit <= INT_MAX)%Z -> (limit' <= INT_MAX)%Z ->
  a < length (d_comps d) -> b < length (d_comps d) -> a <> b ->
  decomposition_step fuel limit a d = Ok (sa, d1) -> decomposition_step fuel' limit' b d1 = Ok (sb, d12) ->
  exists sb' d2 sa' d21,
    decomposition_step fuel' limit' b d = Ok (sb', d2) /\ decomposition_step fuel limit a d2 = Ok (sa', d21) /\
    same_answer sa sa' /\ same_answer sb sb' /\ same_up_to_numbering d12 d21.
Proof.
  intros T O W i s tr d a b fuel fuel' limit limit' sa d1 sb d12 H%history_ok HL HL' Ha Hb N E1 E2.
  destruct (step_commute _ d a b fuel fuel' limit limit' sa d1 sb d12 H HL HL' Ha Hb N E1 E2) as (sb' & d2 & sa' & d21 & Q1 & Q2 & Q3 & Q4 & Q5 & _).
  exists sb', d2, sa', d21. auto.
Qed.

Lemma claim_C65_schedule : forall (T : Type) (O : LenOps T) (W : LenLaws T) (i : iet T) (s : slen T) tr d target limit tr1 d1 tr2 d2,
  decomposition i s tr d -> (limit <= INT_MAX)%Z ->
  schedule target limit d tr1 d1 -> finished target d1 ->
  schedule target limit d tr2 d2 -> finished target d2 ->
  same_answers tr1 tr2 /\ same_up_to_numbering d1 d2.
Proof.
  intros T O W i s tr d target limit tr1 d1 tr2 d2 H%history_ok HL S1 F1 S2 F2.
  exact (confluent target limit _ HL d tr2 d2 S2 F2 H tr1 d1 S1 F1).
Qed.

Lemma claim_C65_decompose : forall (T : Type) (O : LenOps T) (W : LenLaws T) (i : iet T) (s : slen T) tr d target limit,
  decomposition i s tr d -> (limit <= INT_MAX)%Z ->
  (forall rounds fuel d', decompose rounds fuel target limit d = Ok (true, d') ->
     exists tr', schedule target limit d tr' d' /\ finished target d' /\
       forall st, In st tr' -> dst_result st <> D_LIMIT_REACHED) /\
  (forall tr' e, schedule target limit d tr' e -> finished target e ->
     (forall st, In st tr' -> dst_result st <> D_LIMIT_REACHED) ->
     exists rounds fuel d', decompose rounds fuel target limit d = Ok (true, d') /\ same_up_to_numbering d' e).
Proof.
  intros T O W i s tr d target limit H%history_ok HL. split.
  - intros rounds fuel d' E. destruct (decompose_schedule target limit _ HL rounds fuel d d' H E) as (tr' & S & U & F).
    exists tr'. split; [exact S|]. split; [exact F|]. unfold unlimited in U. rewrite Forall_forall in U. exact U.
  - intros tr' e S F U. apply (decompose_works target limit _ HL d tr' e S H F). unfold unlimited. apply Forall_forall. exact U.
Qed.

