(** Proofs of the properties in [PropKeane]. *)
From Coq Require Import Reals Lra Lia Permutation QArith Qcanon Classical.
From Verif Require Import Base QcTac LenT FM Subspace Lengths IET LenInst Sqrt2 Decomp Spec SpecDec SpecSim SpecDense Api DecApi RankApi DenseApi Fixtures KeaneFixtures.
From Verif Require Import ZorichProof Dyn Path Similar SelfSim Saf Bosh InduceProof InduceCons World Seq DecompInv DecompRef DecompStep DecompAll DecompBudget Detect ClaimsSaf ClaimsInduce ClaimsDecomp ClaimsRank.
From Verif Require Import InjApi InjEndless Saddle Endless RankEnd Rank RankDec Keane Ends EndsDec SimKeane.
Open Scope nat_scope.

Lemma claim_C75_calls : forall (T : Type) (O : LenOps T) (W : LenLaws T) (i : iet T) (s : slen T),
  obtainable i s ->
  has_saddle_connection (exch_of i s) \/ has_periodic_point (exch_of i s) \/ ~ minimal (exch_of i s) ->
  exists N, forall ls, quiet ls i s -> (zsuml ls < N)%Z.
Proof.
  intros T O W i s H%obtainable_good R. exact (quiet_bounded i s H R).
Qed.

Lemma claim_C75_call : forall (T : Type) (O : LenOps T) (W : LenLaws T) (i : iet T) (s : slen T),
  obtainable i s ->
  has_saddle_connection (exch_of i s) \/ has_periodic_point (exch_of i s) \/ ~ minimal (exch_of i s) ->
  exists N, forall limit fuel, (N <= limit <= INT_MAX)%Z -> (limit < Z.of_nat fuel)%Z ->
    exists st j t, induce sample_lens fuel limit i s = Ok (st, j, t) /\
      (is_result st = CYLINDER \/ is_result st = SEPARATING_CONNECTION \/ is_result st = NON_SEPARATING_CONNECTION \/
       is_result st = WITHOUT_PERIODIC_TRAJECTORY_AUTO_SIMILAR).
Proof.
  intros T O W i s H R. destruct (quiet_bounded i s (obtainable_good i s H) R) as (N & HN). exists (Z.max N 0).
  intros limit fuel HL HF. destruct (claim_C26_budget T O W i s fuel limit H ltac:(lia) ltac:(lia) ltac:(lia)) as (st & j & t & E).
  exists st, j, t. split; [exact E|].
  assert (Q : ~ (is_result st = LIMIT_REACHED \/ is_result st = WITHOUT_PERIODIC_TRAJECTORY_BOSHERNITZAN)).
  { intros Hr. assert (Q : quiet [limit] i s) by (econstructor; [lia | exact E | exact Hr | constructor]).
    specialize (HN _ Q). unfold zsuml in HN. simpl in HN. lia. }
  destruct (is_result st); tauto.
Qed.

Definition k_lens : slen Z := mkslen [] [30; 41; 73; 154]%Z.
Definition k_iet : iet Z := fresh [0; 1; 2; 3] [3; 2; 1; 0].
Lemma k_obtainable : obtainable k_iet k_lens.
Proof. apply fresh_obtainable. vm_compute. reflexivity. Qed.
Lemma k_saddle : has_saddle_connection (exch_of k_iet k_lens).
Proof.
  destruct (induce sample_lens 50 9 k_iet k_lens) as [[[st j] t]| | | |] eqn:E; try (vm_compute in E; discriminate).
  destruct (is_connection st) as [[b a]|] eqn:Ec.
  - exists b, a. assert (HL : (9 <= INT_MAX)%Z) by (vm_compute; discriminate).
    exact (claim_C53_genuine Z _ _ k_iet k_lens 50 9%Z st j t b a k_obtainable HL E Ec).
  - exfalso. vm_compute in E. injection E as <- _ _. discriminate.
Qed.
Lemma claim_C76_history : forall (T : Type) (O : LenOps T) (W : LenLaws T) (i : iet T) (s : slen T) tr
    (D : nat -> decomp T) (fuel choice : nat -> nat) (limit : nat -> Z) (st : nat -> dstep),
  decomposition i s tr (D 0) ->
  (forall n, (1 <= limit n <= INT_MAX)%Z /\ choice n < length (d_comps (D n)) /\
     decomposition_step (fuel n) (limit n) (choice n) (D n) = Ok (st n, D (S n))) ->
  exists N,
    (forall n, N <= n -> dst_result (st n) <> D_SEPARATING_CONNECTION /\ dst_result (st n) <> D_NON_SEPARATING_CONNECTION) /\
    forall n c x, N <= n -> component (D n) c x ->
      (forall m, exists k, m <= k /\ choice k = c /\
         (dst_result (st k) = D_LIMIT_REACHED \/ dst_result (st k) = D_WITHOUT_PERIODIC_TRAJECTORY_BOSHERNITZAN)) ->
      minimal (comp_exch (D n) x) /\ ~ has_saddle_connection (comp_exch (D n) x).
Proof.
  intros T O W i s tr D fuel choice limit st H Run.
  destruct (endless_steps (exch_of i s) D fuel choice limit st (history_ok _ _ _ _ H) Run) as (N & H1 & H2).
  exists N. split.
  - intros n Hn. pose proof (H1 n Hn) as Q. unfold connects in Q. tauto.
  - intros n c x Hn Hx Inf. exact (H2 n c x Hn Hx Inf).
Qed.

(** The decomposition of a rotation, step by step. *)
Definition rot_next (d : decomp q2) : decomp q2 :=
  match decomposition_step 3 1 0 d with Ok (_, d') => d' | _ => d end.
Definition rot_step (d : decomp q2) : dstep :=
  match decomposition_step 3 1 0 d with Ok (st, _) => st | _ => mkdstep D_KEANE None None None end.
Definition rot_dec : decomp q2 :=
  match dec_make rot_iet rot_lens with Ok d => d | _ => mkdecomp rot_lens [] [] (fun _ => no_conns) [] end.

Lemma rot_endless n : exists tr, decomposition rot_iet rot_lens tr (Nat.iter n rot_next rot_dec) /\
  steady (exch_of rot_iet rot_lens) (Nat.iter n rot_next rot_dec).
Proof.
  assert (Ns : ~ has_saddle_connection (exch_of rot_iet rot_lens)) by (apply claim_C16_no_saddle_connection_at_all; [exact rot_obtainable | vm_compute; reflexivity]).
  induction n as [|n (tr & H & S)].
  - exists []. assert (H : decomposition rot_iet rot_lens [] rot_dec) by (apply dh_new; [exact rot_obtainable | vm_compute; reflexivity]).
    split; [exact H|]. split; [exact (history_ok _ _ _ _ H)|]. exists (mkdcomp rot_iet None None None).
    split; [vm_compute; reflexivity|]. split; [discriminate | vm_compute; reflexivity].
  - simpl. set (d := Nat.iter n rot_next rot_dec) in *. destruct S as (Dk & x & Ex & S).
    assert (Hx : component d 0 x) by (unfold component; rewrite Ex; reflexivity).
    assert (HL : (1 <= INT_MAX)%Z) by (vm_compute; discriminate).
    destruct (claim_C48_terminates q2 _ _ rot_iet rot_lens tr d 0 x 3 1%Z H Hx HL ltac:(discriminate) ltac:(vm_compute; repeat constructor) ltac:(reflexivity)) as (st & d' & E).
    unfold rot_next. rewrite E. exists (tr ++ [st]). split.
    + eapply dh_step; [exact H | exact HL | rewrite Ex; repeat constructor | exact E].
    + eapply (steady_step _ d 3 1%Z st d' Ns); [split; [exact Dk | exists x; auto] | vm_compute; split; discriminate | exact E].
Qed.
Lemma rot_runs n : 0 < length (d_comps (Nat.iter n rot_next rot_dec)) /\
  decomposition_step 3 1 0 (Nat.iter n rot_next rot_dec) = Ok (rot_step (Nat.iter n rot_next rot_dec), Nat.iter (S n) rot_next rot_dec) /\
  open_ (rot_step (Nat.iter n rot_next rot_dec)).
Proof.
  assert (Ns : ~ has_saddle_connection (exch_of rot_iet rot_lens)) by (apply claim_C16_no_saddle_connection_at_all; [exact rot_obtainable | vm_compute; reflexivity]).
  destruct (rot_endless n) as (tr & H & (Dk & x & Ex & S)). change (Nat.iter (Datatypes.S n) rot_next rot_dec) with (rot_next (Nat.iter n rot_next rot_dec)). set (d := Nat.iter n rot_next rot_dec) in *.
  split; [rewrite Ex; repeat constructor|].
  assert (Hx : component d 0 x) by (unfold component; rewrite Ex; reflexivity).
  assert (HL : (1 <= INT_MAX)%Z) by (vm_compute; discriminate).
  destruct (claim_C48_terminates q2 _ _ rot_iet rot_lens tr d 0 x 3 1%Z H Hx HL ltac:(discriminate) ltac:(vm_compute; repeat constructor) ltac:(reflexivity)) as (st & d' & E).
  unfold rot_next, rot_step. rewrite E. split; [reflexivity|].
  eapply (steady_step _ d 3 1%Z st d' Ns); [split; [exact Dk | exists x; auto] | vm_compute; split; discriminate | exact E].
Qed.
Lemma claim_C76_injected : forall (T : Type) (O : LenOps T) (W : LenLaws T) (i : iet T) (s : slen T) J tr
    (D : nat -> decomp T) (fuel choice : nat -> nat) (limit : nat -> Z) (st : nat -> dstep),
  injected_decomposition i s J tr (D 0) ->
  (forall n, (1 <= limit n <= INT_MAX)%Z /\ choice n < length (d_comps (D n)) /\
     decomposition_step (fuel n) (limit n) (choice n) (D n) = Ok (st n, D (S n))) ->
  exists N,
    (forall n, N <= n -> dst_result (st n) <> D_SEPARATING_CONNECTION /\ dst_result (st n) <> D_NON_SEPARATING_CONNECTION) /\
    forall n c x, N <= n -> component (D n) c x ->
      (forall m, exists k, m <= k /\ choice k = c /\
         (dst_result (st k) = D_LIMIT_REACHED \/ dst_result (st k) = D_WITHOUT_PERIODIC_TRAJECTORY_BOSHERNITZAN)) ->
      minimal (comp_exch (D n) x) /\ ~ has_saddle_connection (comp_exch (D n) x).
Proof.
  intros T O W i s J tr D fuel choice limit st H R.
  destruct (plain_run i s J fuel choice limit D st tr H) as (tr0 & d0 & st0 & H0 & P).
  { intros n. destruct (R n) as (R1 & R2). split; [apply R1 | exact R2]. }
  destruct (claim_C76_history T O W i s tr0 (plain i fuel choice limit d0) (big i fuel) choice limit st0 H0) as (N & N1 & N2).
  { intros n. destruct (R n) as (R1 & R2 & _), (P n) as (_ & P2 & P3 & _). split; [exact R1|]. split; [rewrite P2; exact R2 | exact P3]. }
  assert (Er : forall n, dst_result (st n) = dst_result (st0 n)) by (intros n; apply (P n)).
  exists N. split.
  - intros n Hn. rewrite Er. apply N1, Hn.
  - intros n c x Hn Hx Hc. destruct (P n) as (P1 & P2 & _).
    unfold comp_exch in *. rewrite <- P1. apply (N2 n c x Hn).
    + unfold component in *. rewrite P2. exact Hx.
    + intros m. destruct (Hc m) as (k & K1 & K2 & K3). exists k. rewrite <- Er. auto.
Qed.

Lemma similar_state_minimal {T} {O : LenOps T} {W : LenLaws T} (i : iet T) (s : slen T) j t : wf i s -> reach i s j t -> wf j t ->
  similar_state j t -> tk_top (i_trk j) = i_top j ->
  (minimal (exch_of i s) /\ ~ has_saddle_connection (exch_of i s)) /\ (minimal (exch_of j t) /\ ~ has_saddle_connection (exch_of j t)).
Proof.
  intros Wi R H (e1 & c & P1 & Hc & Ht & Hp & Hpat & Hlen) E.
  pose proof H as (N & Pe & Ne & _). rewrite E in Ht.
  assert (Hb : e_bot e1 = i_bottom j).
  { rewrite Ht in Hpat. apply find_pos_map_inj with (top := i_top j); auto.
    - intros x Hx. destruct P1 as (_ & Pe1 & _). rewrite <- Ht, Pe1. exact Hx.
    - intros x Hx. rewrite Pe. exact Hx. }
  (* the induction of the current exchange repeats that of the snapshot *)
  assert (Sc : scaled c e1 (exch_of j t)).
  { split; [simpl; congruence|]. split; [simpl; congruence | exact Hlen]. }
  assert (Ne1 : e_top e1 <> []) by (rewrite Ht; exact Ne).
  assert (Q : exists e2, alike c e1 e2 /\ rauzy_path e1 e2 /\ (e2 = exch_of j t \/ e2 = flip (exch_of j t))).
  { destruct Hp as [Hp|Hp]; eexists; (split; [|split; [exact Hp|auto]]); [left | right; rewrite flip_flip]; exact Sc. }
  destruct Q as (e2 & Al & Pa & E2).
  pose proof (wf_proper _ _ H) as Pj. pose proof (wf_proper _ _ Wi) as Pi.
  destruct (path_after _ _ P1 Pa) as (m & Am).
  pose proof (on_and_on e1 e2 c P1 Ne1 Hc Al Pa) as On. pose proof (never_reducible e1 e2 c P1 Ne1 Hc Al Pa) as Nv.
  assert (Go : forall k, able (Nat.iter k rz (exch_of j t)) /\ ~ reducible (Nat.iter k rz (exch_of j t))).
  { intros k.
    assert (Sm : same_exch (Nat.iter (m + k) rz e1) (Nat.iter k rz e2)) by (rewrite iter_plus; apply iter_rz_same, Am).
    pose proof (able_same _ _ Sm (proj1 (On (m + k)%nat))) as Ab.
    assert (Nr : ~ reducible (Nat.iter k rz e2)) by (intros C; apply (Nv (m + k)%nat), (reducible_same _ _ (same_exch_sym _ _ Sm)), C).
    destruct E2 as [->| ->]; [auto|].
    assert (Ef : forall k e, Nat.iter k rz (flip e) = flip (Nat.iter k rz e)) by (clear; induction k as [|k IH]; intros e; simpl; [reflexivity | rewrite IH; apply rz_flip]).
    rewrite Ef in Ab, Nr. apply able_flip in Ab. rewrite flip_flip in Ab. split; [exact Ab|]. intros (q & Hq). apply Nr. exists q.
    destruct (on_and_on e1 _ c P1 Ne1 Hc Al Pa (m + k)%nat) as [_ Pm].
    assert (Pf : proper (flip (Nat.iter k rz (exch_of j t)))).
    { rewrite <- Ef. destruct Sm as (S1 & S2 & S3). destruct Pm as (M1 & M2 & M3). rewrite S1 in M1, M2, M3. rewrite S2 in M2.
      split; [exact M1|]. split; [exact M2|]. intros x Hx. rewrite <- S3. apply M3, Hx. }
    apply (invariant_flip (flip (Nat.iter k rz (exch_of j t)))); [exact Pf|]. rewrite flip_flip. exact Hq. }
  assert (Con : forall e, proper e -> rauzy_path e (exch_of j t) -> minimal e /\ ~ has_saddle_connection e).
  { intros e P Rp. destruct (path_after _ _ P Rp) as (n0 & A0).
    assert (No : ~ (has_saddle_connection e \/ has_periodic_point e \/ ~ minimal e)).
    { intros Q. destruct (keane_ends e P Q) as (K & HK). apply (proj2 (Go K)). apply (HK (n0 + K)%nat); [lia| |apply Go].
      apply (after_plus _ _ _ _ _ A0). split; [apply same_exch_refl | intros k _; apply Go]. }
    split; [apply NNPP|]; intros C; apply No; auto. }
  split; [exact (Con _ Pi (r_path _ _ _ _ R))|]. apply (Con _ Pj). apply path_refl, same_exch_refl.
Qed.

Lemma claim_ay_similar : exists e1 e2 c, iter round 8 (exch_of ay_iet ay_lens) e1 /\ iter round 7 e1 e2 /\ renamed (fun a => a) c e1 e2.
Proof.
  destruct (run_rounds 8 ay_iet ay_lens) as [[j t]|] eqn:E1; [|exfalso; vm_compute in E1; discriminate].
  destruct (run_rounds 7 j t) as [[j' t']|] eqn:E2.
  - apply (self_similar_by ay_iet ay_lens 8 7 j t j' t' ay_obtainable E1 E2); vm_compute in E1; injection E1 as <- <-; vm_compute in E2; injection E2 as <- <-; vm_compute; reflexivity.
  - exfalso. vm_compute in E1. injection E1 as <- <-. vm_compute in E2. discriminate.
Qed.

Lemma twisted : exists (i : iet q2) (s : slen q2) st j t,
  obtainable i s /\ induce sample_lens 9 1 i s = Ok (st, j, t) /\
  is_result st = WITHOUT_PERIODIC_TRAJECTORY_AUTO_SIMILAR /\ has_saddle_connection (exch_of i s).
Proof.
  destruct (chain tw_calls tw_iet tw_lens) as [[i s]|] eqn:E; [|exfalso; vm_compute in E; discriminate].
  assert (Hi : obtainable i s).
  { apply (chain_obtainable tw_calls) with (i := tw_iet) (s := tw_lens); [|exact tw_obtainable|exact E].
    unfold tw_calls. repeat constructor; vm_compute; discriminate. }
  assert (Hf : valid_inputb (sl_lens s) (i_top i) (i_bottom i) = true) by (vm_compute in E; injection E as <- <-; vm_compute; reflexivity).
  assert (Hs : s = mkslen [] (sl_lens s)) by (vm_compute in E; injection E as <- <-; reflexivity).
  pose proof (fresh_obtainable (sl_lens s) (i_top i) (i_bottom i) Hf) as Hj. rewrite <- Hs in Hj.
  destruct (induce sample_lens 9 1 i s) as [[[st j] t]| | | |] eqn:E1; try (exfalso; vm_compute in E; injection E as <- <-; vm_compute in E1; discriminate).
  exists i, s, st, j, t. split; [exact Hi|]. split; [exact E1|].
  split; [clear - E E1; vm_compute in E; injection E as <- <-; vm_compute in E1; injection E1 as <- _ _; reflexivity|].
  destruct (induce sample_lens 50 (-1) (fresh (i_top i) (i_bottom i)) s) as [[[st2 j2] t2]| | | |] eqn:E2; try (exfalso; clear - E E2; vm_compute in E; injection E as <- <-; vm_compute in E2; discriminate).
  assert (Hc : is_connection st2 = Some (2, 3)) by (clear - E E2; vm_compute in E; injection E as <- <-; vm_compute in E2; injection E2 as <- _ _; reflexivity).
  exists 2, 3. change (exch_of i s) with (exch_of (fresh (i_top i) (i_bottom i)) s).
  assert (HL : (-1 <= INT_MAX)%Z) by (vm_compute; discriminate).
  exact (claim_C53_genuine q2 _ _ (fresh (i_top i) (i_bottom i)) s 50 (-1)%Z st2 j2 t2 2 3 Hj HL E2 Hc).
Qed.
Lemma claim_C77_genuine : forall (T : Type) (O : LenOps T) (W : LenLaws T) (i : iet T) (s : slen T) n p,
  obtainable i s -> 0 < p -> self_similar (exch_of i s) n p ->
  minimal (exch_of i s) /\ ~ has_saddle_connection (exch_of i s).
Proof.
  intros T O W i s n p H%obtainable_good Hp (e1 & e2 & rho & c & R1 & R2 & M).
  pose proof (wf_proper _ _ (proj1 H)) as P. exact (self_similar_minimal _ n p e1 e2 rho c P (proj1 (proj2 (proj2 (proj1 H)))) Hp R1 R2 M).
Qed.

Lemma claim_C77_partial : forall (T : Type) (O : LenOps T) (W : LenLaws T) (i : iet T) (s : slen T) fuel limit st j t,
  obtainable i s -> (limit <= INT_MAX)%Z -> induce sample_lens fuel limit i s = Ok (st, j, t) ->
  is_result st = WITHOUT_PERIODIC_TRAJECTORY_AUTO_SIMILAR ->
  tk_top (i_trk j) = i_top j ->
  (minimal (exch_of i s) /\ ~ has_saddle_connection (exch_of i s)) /\
  (minimal (exch_of j t) /\ ~ has_saddle_connection (exch_of j t)).
Proof.
  intros T O W i s fuel limit st j t H HL E Hr Htop. destruct (induce_run fuel limit i s st j t H HL E) as (Wf & G & P).
  unfold induce_post in P. rewrite Hr in P. destruct P as (_ & R & Hs & _).
  exact (similar_state_minimal i s j t Wf R (proj1 G) Hs Htop).
Qed.

Lemma claim_C77_refuted : exists (i : iet q2) (s : slen q2) st j t,
  obtainable i s /\ induce sample_lens 9 1 i s = Ok (st, j, t) /\
  is_result st = WITHOUT_PERIODIC_TRAJECTORY_AUTO_SIMILAR /\ has_saddle_connection (exch_of i s).
Proof.
  exact twisted.
Qed.

Lemma claim_C78_verdicts : forall (T : Type) (O : LenOps T) (W : LenLaws T) (i : iet T) (s : slen T) v i' fuel limit st j t,
  obtainable i s -> saf_invariant i s = Ok (v, i') -> (limit <= INT_MAX)%Z ->
  induce sample_lens fuel limit i s = Ok (st, j, t) ->
  (is_result st = WITHOUT_PERIODIC_TRAJECTORY_AUTO_SIMILAR -> Forall (fun q => q = 0%Qc) v) /\
  (is_result st = WITHOUT_PERIODIC_TRAJECTORY_BOSHERNITZAN -> ~ Forall (fun q => q = 0%Qc) v).
Proof.
  intros T O W i s v i' fuel limit st j t H Es HL E. split.
  - intros Hr. pose proof (similar_saf fuel limit i s st j t (obtainable_good i s H) HL E Hr) as V.
    rewrite (saf_value i s v i' (obtainable_good i s H) Es). apply Forall_forall. intros q Hq. unfold vis0 in V.
    rewrite forallb_forall in V. specialize (V q Hq). apply Qc_eq_bool_correct in V. exact V.
  - intros Hr Hz. exact (ClaimsRank.claim_C60_saf T O W i s v i' fuel limit st j t H Es Hz HL E Hr).
Qed.

