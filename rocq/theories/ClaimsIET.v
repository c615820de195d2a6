(** Proofs of the properties in [PropIET]. *)
From Coq Require Import Reals Lra Permutation.
From Verif Require Import Base QcTac LenT FM Subspace Lengths IET Spec SpecLin Api.
From Verif Require Import ZorichProof Dyn Saddle ReduceProof SubspaceProof Saf Bosh Path Similar InduceProof InduceCons World Seq.
Open Scope nat_scope.

Lemma claim_C01_well_formed : forall (T : Type) (O : LenOps T) (W : LenLaws T) (l : list (iet T)) (s : slen T),
  history l s -> forall i, In i l -> valid_input s (i_top i) (i_bottom i).
Proof.
  intros T O W l s H i Hi. destruct (history_ok l s H) as (Hg & _). destruct (Hg i Hi) as ((N & P & Ne & Pos & _) & _).
  repeat split; assumption.
Qed.

Lemma claim_C01_calls_succeed : forall (T : Type) (O : LenOps T) (W : LenLaws T) (l : list (iet T)) (s : slen T) i o,
  history l s -> In i l -> op_legal o ->
  failure o i (run_op o i s) \/
  exists i' extra s', run_op o i s = Ok (i', extra, s') /\
    (forall j, In j (i' :: extra) -> valid_input s' (i_top j) (i_bottom j)) /\
    NoDup (used (i' :: extra)) /\ incl (used (i' :: extra)) (i_top i) /\
    length (i_top i') <= length (i_top i).
Proof.
  intros T O W l s i o H Hi Ho. destruct (history_ok l s H) as (Hg & _). pose proof (Hg i Hi) as G.
  destruct (op_ok o i s G Ho) as [F|(i' & ex & s' & E & Ef)]; [left; exact F|]. right.
  exists i', ex, s'. split; [exact E|]. split.
  { intros j Hj. destruct (ef_good _ _ _ _ _ Ef j Hj) as ((N & P & Ne & Pos & _) & _). repeat split; assumption. }
  split; [apply Ef|]. split; [apply Ef|].
  apply NoDup_incl_length; [apply (ef_good _ _ _ _ _ Ef i'); left; reflexivity|].
  intros c Hc. apply (ef_incl _ _ _ _ _ Ef). simpl. apply in_or_app. left. exact Hc.
Qed.

Lemma claim_C02_maximal_run : forall (T : Type) (O : LenOps T) (W : LenLaws T) (i : iet T) (s : slen T),
  obtainable i s ->
  exists found i' s', zorich sample_lens i s = Ok (found, i', s') /\
    rauzy_run (exch_of i s) (exch_of i' s') /\ rauzy_stuck (exch_of i' s') /\
    (forall e, rauzy_run (exch_of i s) e -> rauzy_stuck e -> same_exch e (exch_of i' s')).
Proof.
  intros T O W i s H%obtainable_good. pose proof (proj1 H) as Wf.
  destruct (zorich_ok i s Wf) as (f & b & s' & E & W' & R & St & _). exists f, (set_bottom i b), s'.
  split; [exact E|]. split; [exact R|]. split; [exact St|].
  intros e Re Se. exact (run_unique _ _ _ (wf_proper _ _ Wf) Re Se R St).
Qed.

Lemma claim_C02_stops : forall (T : Type) (O : LenOps T) (W : LenLaws T) (i : iet T) (s : slen T) found i' s' a b,
  obtainable i s -> zorich sample_lens i s = Ok (found, i', s') ->
  hd_error (i_top i') = Some a -> hd_error (i_bottom i') = Some b -> (lamR s' a <= lamR s' b)%R.
Proof.
  intros T O W i s found i' s' a b H%obtainable_good E Ha Hb. pose proof (proj1 H) as Wf.
  destruct (zorich_ok i s Wf) as (f & bb & s1 & E1 & W' & R & St & _). rewrite E in E1. injection E1 as -> -> ->.
  destruct (i_top (set_bottom i bb)) as [|x X] eqn:Et; [discriminate|]. injection Ha as ->.
  destruct (i_bottom (set_bottom i bb)) as [|y Y] eqn:Eb; [discriminate|]. injection Hb as ->.
  exact (stuck_heads (exch_of (set_bottom i bb) s1) a X b Y (wf_proper _ _ W') Et Eb St).
Qed.

Lemma claim_C03_no_error : forall (T : Type) (O : LenOps T) (W : LenLaws T) (i : iet T) (s : slen T),
  obtainable i s ->
  sl_stack s = [] /\
  exists found i' s', zorich sample_lens i s = Ok (found, i', s') /\ sl_stack s' = [] /\
    (forall c, In c (i_top i') -> exists x, nth_error (sl_lens s') c = Some x /\ (0 < val x)%R).
Proof.
  intros T O W i s H%obtainable_good. pose proof (proj1 H) as Wf. split; [apply Wf|].
  destruct (zorich_ok i s Wf) as (f & b & s' & E & W' & _). exists f, (set_bottom i b), s'.
  split; [exact E|]. split; [apply W'|]. apply W'.
Qed.

Lemma claim_C04_frame : forall (T : Type) (O : LenOps T) (W : LenLaws T) (i : iet T) (s : slen T) found i' s',
  obtainable i s -> zorich sample_lens i s = Ok (found, i', s') ->
  exists a X U V Y,
    i_top i = a :: X /\ i_top i' = a :: X /\ i_swap i' = i_swap i /\
    i_bottom i = U ++ V ++ a :: Y /\ i_bottom i' = V ++ U ++ a :: Y /\
    length (sl_lens s') = length (sl_lens s) /\
    (forall c, c <> a -> nth_error (sl_lens s') c = nth_error (sl_lens s) c) /\
    (lamR s' a <= lamR s a)%R.
Proof.
  intros T O W i s found i' s' H%obtainable_good E. pose proof (proj1 H) as Wf.
  destruct (zorich_ok i s Wf) as (f & b & s1 & E1 & W' & R & St & _ & Hl & Hf). rewrite E in E1. injection E1 as -> -> ->.
  destruct (i_top i) as [|a X] eqn:Et; [exfalso; apply Wf; exact Et|].
  destruct (run_rotation _ _ a X (wf_proper _ _ Wf) Et R) as (U & V & Y & F1 & F2).
  exists a, X, U, V, Y. split; [reflexivity|]. split; [exact Et|]. split; [reflexivity|]. split; [exact F1|]. split; [exact F2|].
  split; [exact Hl|]. split.
  - intros c Hc. apply Hf. unfold first_top. rewrite Et. simpl. congruence.
  - exact (proj1 (path_lengths _ _ (wf_proper _ _ Wf) (run_path _ _ R)) a).
Qed.

Lemma claim_C04_noop : forall (T : Type) (O : LenOps T) (W : LenLaws T) (i : iet T) (s : slen T) a b,
  obtainable i s -> hd_error (i_top i) = Some a -> hd_error (i_bottom i) = Some b -> (lamR s a <= lamR s b)%R ->
  exists found, zorich sample_lens i s = Ok (found, i, s).
Proof.
  intros T O W i s a b H%obtainable_good Ha Hb Hle. pose proof (proj1 H) as Wf.
  destruct (zorich_ok i s Wf) as (f & bb & s1 & E1 & W' & R & St & _ & Hl & Hf). exists f. rewrite E1.
  assert (S : same_exch (exch_of i s) (exch_of (set_bottom i bb) s1)).
  { remember (exch_of i s) as e eqn:Ee. destruct R as [e e' S|e e1 e' Hs R]; [exact S|]. exfalso.
    destruct Hs as (x & y & X & Y1 & Y2 & Et & Eb & Hlt & _). subst e. simpl in Et, Eb, Hlt.
    rewrite Et in Ha. rewrite Eb in Hb. injection Ha as ->. injection Hb as ->. lra. }
  destruct S as (S1 & S2 & S3). simpl in S2, S3.
  assert (bb = i_bottom i) as -> by (symmetry; exact S2).
  assert (s1 = s) as ->.
  { destruct Wf as (_ & _ & _ & Pos & St0). destruct W' as (_ & _ & _ & Pos' & St').
    destruct s as [st ls], s1 as [st1 ls1]. simpl in *. subst. f_equal. apply nth_error_ext. intros c.
    destruct (in_dec Nat.eq_dec c (i_top i)) as [Hc|Hc].
    - specialize (Pos c Hc). specialize (Pos' c Hc). destruct Pos as (x & Ex & _). destruct Pos' as (y & Ey & _).
      simpl in *. rewrite Ex, Ey. f_equal. apply val_inj. specialize (S3 c). unfold lamR in S3. simpl in S3.
      rewrite Ex, Ey in S3. symmetry. exact S3.
    - symmetry. symmetry. apply Hf. unfold first_top. intros G. apply Hc. destruct (i_top i); [discriminate|]. injection G as ->. left. reflexivity. }
  destruct i; reflexivity.
Qed.

Lemma claim_C04_progress : forall (T : Type) (O : LenOps T) (W : LenLaws T) (i : iet T) (s : slen T) i1 s1 i2 s2,
  obtainable i s -> zorich sample_lens i s = Ok (false, i1, s1) ->
  zorich sample_lens (iet_swap i1) s1 = Ok (false, i2, s2) ->
  (total (lamR s2) (i_bottom i2) < total (lamR s) (i_top i))%R.
Proof.
  intros T O W i s i1 s1 i2 s2 H%obtainable_good E1 E2. destruct H as (Wf & C & _).
  destruct (iteration_ok i s Wf C) as (f & i' & s' & E & _ & _ & _ & _ & Hd). unfold iteration in E.
  rewrite E1 in E. cbn [bind] in E. rewrite E2 in E. cbn [bind] in E. injection E as <- <- <-. apply Hd. reflexivity.
Qed.

Lemma claim_C05_first_return : forall (T : Type) (O : LenOps T) (W : LenLaws T) (i : iet T) (s : slen T) found i' s',
  obtainable i s -> zorich sample_lens i s = Ok (found, i', s') -> induced (exch_of i s) (exch_of i' s').
Proof.
  intros T O W i s found i' s' H%obtainable_good E.
  destruct (good_zorich i s H) as (f & i1 & s1 & E1 & G & R). rewrite E in E1. injection E1 as -> -> ->.
  apply reach_induced; [apply H | exact R].
Qed.

Lemma claim_C05_sequences : forall (T : Type) (O : LenOps T) (W : LenLaws T) (i : iet T) (s : slen T) n j t,
  obtainable i s -> inducing i s n j t ->
  induced (exch_of i s) (if Nat.even n then exch_of j t else flip (exch_of j t)).
Proof.
  intros T O W i s n j t H%obtainable_good I. pose proof (rel_induced _ _ _ _ _ (inducing_ok i s n j t H I)) as G.
  unfold par in G. destruct (Nat.even n); exact G.
Qed.

Lemma claim_C06_periodic_preserved : forall (T : Type) (O : LenOps T) (W : LenLaws T) (i : iet T) (s : slen T) n j t,
  obtainable i s -> inducing i s n j t ->
  (has_periodic_point (exch_of i s) <-> has_periodic_point (exch_of j t)).
Proof.
  intros T O W i s n j t H%obtainable_good I. pose proof (inducing_ok i s n j t H I) as R.
  pose proof (wf_proper _ _ (proj1 H)) as P1. pose proof (wf_proper _ _ (proj1 (rel_good _ _ _ _ _ R))) as P2.
  rewrite (induced_periodic _ _ P1 (par_proper n _ P2) (rel_induced _ _ _ _ _ R)).
  unfold par. destruct (Nat.even n); [reflexivity | apply flip_periodic].
Qed.

Lemma claim_C06_orbits_meet : forall (T : Type) (O : LenOps T) (W : LenLaws T) (i : iet T) (s : slen T) n j t,
  obtainable i s -> inducing i s n j t ->
  let d := (total (lamR s) (i_top i) - total (lamR t) (i_top j))%R in
  (0 <= d)%R /\
  (forall x, periodic (maps (exch_of i s)) x ->
     exists m z, (0 <= z)%R /\ iter (maps (exch_of i s)) m x (z + d)%R /\ periodic (maps (exch_of j t)) z) /\
  (forall z, periodic (maps (exch_of j t)) z -> periodic (maps (exch_of i s)) (z + d)%R).
Proof.
  intros T O W i s n j t H%obtainable_good I d. pose proof (inducing_ok i s n j t H I) as R.
  pose proof (wf_proper _ _ (proj1 H)) as P1. pose proof (wf_proper _ _ (proj1 (rel_good _ _ _ _ _ R))) as P2.
  pose proof (par_proper n _ P2) as P2'. pose proof (rel_induced _ _ _ _ _ R) as Ri.
  set (e := exch_of i s) in *. set (e' := par flip n (exch_of j t)) in *.
  assert (Hd : (total (e_len e) (e_top e) - total (e_len e') (e_top e') = d)%R).
  { unfold d, e, e', par. destruct (Nat.even n); simpl; [reflexivity|].
    pose proof (proper_total _ P2) as Q. simpl in Q. rewrite <- Q. reflexivity. }
  assert (Hp : forall z, periodic (maps e') z <-> periodic (maps (exch_of j t)) z).
  { intros z. unfold e', par. destruct (Nat.even n); [reflexivity|]. unfold periodic.
    split; intros (k & Hk & Hi); exists k; (split; [exact Hk|]); apply iter_flip; [exact Hi|exact Hi]. }
  pose proof (induced_periodic_point e e' P1 P2' Ri) as Q. cbv zeta in Q. rewrite Hd in Q.
  destruct Ri as (D0 & _ & D2). cbv zeta in D0, D2. rewrite Hd in D0, D2.
  split; [exact D0|]. split.
  - intros x Hx.
    assert (Dom : (0 <= x < total (e_len e) (e_top e))%R).
    { destruct Hx as ([|k] & Hk & Hi); [lia|]. destruct Hi as (y & Hy & _). exact (maps_dom e P1 _ _ Hy). }
    destruct (D2 x Dom) as (m & z & Hi & Hz). exists m, (z - d)%R. split; [lra|].
    replace (z - d + d)%R with z by lra. split; [exact Hi|]. apply Hp. apply Q; [lra|].
    replace (z - d + d)%R with z by lra. exact (iter_periodic _ (maps_fun e P1) _ _ _ Hx Hi).
  - intros z Hz. apply Q; [|apply Hp; exact Hz].
    destruct Hz as ([|k] & Hk & Hi); [lia|]. destruct Hi as (y & Hy & _). exact (proj1 (maps_dom _ P2 _ _ Hy)).
Qed.

Lemma claim_C06_split : forall (T : Type) (O : LenOps T) (W : LenLaws T) (i : iet T) (s : slen T) fuel limit st i' s' r,
  obtainable i s -> (limit <= INT_MAX)%Z -> induce sample_lens fuel limit i s = Ok (st, i', s') -> is_additional st = Some r ->
  (has_periodic_point (exch_of i s) <-> has_periodic_point (exch_of i' s') \/ has_periodic_point (exch_of r s')).
Proof.
  intros T O W i s fuel limit st i' s' r H%obtainable_good HL E Ea.
  destruct (induce_ok limit fuel i s HL H) as [[E1 _]|[[E1 _]|(st1 & j1 & t1 & E1 & G1 & P1)]];
      rewrite E in E1; try discriminate. injection E1 as <- <- <-.
  unfold induce_post in P1. destruct (is_result st) eqn:Er.
  - destruct P1 as (_ & _ & _ & _ & _ & _ & ->). discriminate.
  - destruct P1 as (_ & -> & _). discriminate.
  - destruct P1 as (i1 & k & b & tt & _ & R & Hk & _ & -> & _ & _ & -> & _). injection Ea as <-.
    rewrite (reach_periodic i s i1 s' (proj1 H) R). exact (cut_periodic i1 s' k (r_wf _ _ _ _ R) Hk).
  - destruct P1 as (i1 & a & b & _ & _ & _ & _ & _ & _ & _ & _ & _ & _ & ->). discriminate.
  - destruct P1 as (_ & _ & _ & _ & _ & _ & ->). discriminate.
  - destruct P1 as (_ & _ & _ & _ & ->). discriminate.
Qed.

Lemma claim_C07_return_value : forall (T : Type) (O : LenOps T) (W : LenLaws T) (i : iet T) (s : slen T) found i' s' a b,
  obtainable i s -> zorich sample_lens i s = Ok (found, i', s') ->
  hd_error (i_top i') = Some a -> hd_error (i_bottom i') = Some b ->
  (found = true <-> lamR s' a = lamR s' b) /\
  (found = true -> length (i_top i) <> 1 -> saddle_connection (exch_of i s) b a).
Proof.
  intros T O W i s found i' s' a b H%obtainable_good E Ha Hb. pose proof (proj1 H) as Wf.
  destruct (zorich_ok i s Wf) as (f & bb & s1 & E1 & W' & R & St & Hfd & _). rewrite E in E1. injection E1 as -> -> ->.
  assert (Q : f = true <-> lamR s1 a = lamR s1 b).
  { rewrite Hfd. unfold heads_equal. split.
    - intros (x & y & Hx & Hy & G). rewrite Ha in Hx. rewrite Hb in Hy. injection Hx as ->. injection Hy as ->. exact G.
    - intros G. exists a, b. auto. }
  split; [exact Q|]. intros Hf Hne. apply Q in Hf.
  apply (rauzy_run_saddle _ _ (wf_proper _ _ Wf) R).
  destruct (i_top (set_bottom i bb)) as [|x X] eqn:Et; [discriminate|]. injection Ha as ->.
  destruct (i_bottom (set_bottom i bb)) as [|y Y] eqn:Eb; [discriminate|]. injection Hb as ->.
  apply (merge_saddle (exch_of (set_bottom i bb) s1) a b X Y (wf_proper _ _ W') Et Eb Hf).
  intros ->. apply Hne. change (i_top i) with (i_top (set_bottom i bb)). rewrite Et. reflexivity.
Qed.

Lemma claim_C08_reduce : forall (T : Type) (O : LenOps T) (W : LenLaws T) (i : iet T) (s : slen T),
  obtainable i s ->
  (exists k l r,
     invariant_prefix (exch_of i s) k /\ (forall j, invariant_prefix (exch_of i s) j -> k <= j) /\
     reduce i s = Ok (Some r, l) /\
     i_top l = firstn k (i_top i) /\ i_bottom l = firstn k (i_bottom i) /\ i_swap l = i_swap i /\
     i_top r = skipn k (i_top i) /\ i_bottom r = skipn k (i_bottom i) /\ i_swap r = false) \/
  (~ reducible (exch_of i s) /\ reduce i s = Ok (None, i)).
Proof.
  intros T O W i s H%obtainable_good. destruct (reduce_ok i s (proj1 H)) as [(k & H1 & H2 & H3)|G]; [left|right; exact G].
  exists k, (left_part i k), (right_part i k). split; [exact H1|]. split; [exact H2|]. split; [exact H3|]. repeat split.
Qed.

Lemma claim_C09_reduce_dynamics : forall (T : Type) (O : LenOps T) (W : LenLaws T) (i : iet T) (s : slen T) l r,
  obtainable i s -> reduce i s = Ok (Some r, l) ->
  let d := total (lamR s) (i_top l) in
  (forall y z, maps (exch_of i s) y z -> ((y < d)%R <-> (z < d)%R)) /\
  (forall y z, maps (exch_of l s) y z <-> maps (exch_of i s) y z /\ (y < d)%R) /\
  (forall y z, (0 <= y)%R -> (maps (exch_of r s) y z <-> maps (exch_of i s) (y + d)%R (z + d)%R)).
Proof.
  intros T O W i s l r H%obtainable_good E. pose proof (proj1 H) as Wf. pose proof (wf_proper _ _ Wf) as P.
  destruct (reduce_ok i s Wf) as [(k & Hk & _ & E1)|[_ E1]]; rewrite E in E1; [|discriminate]. injection E1 as -> ->.
  destruct Hk as [Hk1 Hk2].
  assert (Et : e_top (exch_of i s) = firstn k (i_top i) ++ skipn k (i_top i)) by (symmetry; apply firstn_skipn).
  assert (Eb : e_bot (exch_of i s) = firstn k (i_bottom i) ++ skipn k (i_bottom i)) by (symmetry; apply firstn_skipn).
  pose proof (cut_left _ _ _ _ _ P Et Eb Hk2) as CL. pose proof (cut_right _ _ _ _ _ P Et Eb Hk2) as CR.
  pose proof (cut_proper _ _ _ _ _ P Et Eb Hk2) as [PL PR].
  intros d. change (total (e_len (exch_of i s)) (firstn k (i_top i))) with d in CL, CR. 
  change (mkexch (firstn k (i_top i)) (firstn k (i_bottom i)) (e_len (exch_of i s))) with (exch_of (left_part i k) s) in CL, PL.
  change (mkexch (skipn k (i_top i)) (skipn k (i_bottom i)) (e_len (exch_of i s))) with (exch_of (right_part i k) s) in CR, PR.
  split; [|split; [exact CL | exact CR]].
  intros y z M. split; intros L.
  - pose proof (proj2 (CL y z) (conj M L)) as ML. exact (proj2 (maps_ran _ PL _ _ ML)).
  - apply Rnot_le_lt. intros G.
    assert (HA : maps (exch_of (right_part i k) s) (y - d)%R (z - d)%R).
    { apply CR; [lra|]. replace (y - d + d)%R with y by lra. replace (z - d + d)%R with z by lra. exact M. }
    pose proof (proj1 (maps_ran _ PR _ _ HA)) as Q. lra.
Qed.

Lemma claim_C10_swap_inverts : forall (T : Type) (O : LenOps T) (W : LenLaws T) (i : iet T) (s : slen T),
  obtainable i s ->
  i_top (iet_swap i) = i_bottom i /\ i_bottom (iet_swap i) = i_top i /\ i_swap (iet_swap i) = negb (i_swap i) /\
  (forall y z, maps (exch_of (iet_swap i) s) y z <-> maps (exch_of i s) z y) /\
  iet_swap (iet_swap i) = i /\
  i_saf (iet_swap i) = i_saf i /\ i_trk (iet_swap i) = i_trk i.
Proof.
  intros T O W i s H. repeat (split; [reflexivity|]).
  split; [intros y z; apply (maps_flip (exch_of i s))|].
  split; [destruct i; unfold iet_swap; simpl; rewrite negb_involutive; reflexivity | split; reflexivity].
Qed.

Lemma claim_C10_swapped_parity : forall (T : Type) (O : LenOps T) (W : LenLaws T) (i : iet T) (s : slen T) n j t,
  obtainable i s -> inducing i s n j t -> i_swap j = xorb (i_swap i) (Nat.odd n).
Proof.
  intros T O W i s n j t H%obtainable_good I. apply (rel_swap _ _ _ _ _ (inducing_ok i s n j t H I)).
Qed.

Lemma claim_C37_independent : forall (T : Type) (O : LenOps T) (W : LenLaws T) (l : list (iet T)) (s : slen T) j l' s',
  history l s -> elsewhere j l s l' s' ->
  In j l' /\
  (forall c, In c (i_top j) -> nth_error (sl_lens s') c = nth_error (sl_lens s) c) /\
  (forall y z, maps (exch_of j s') y z <-> maps (exch_of j s) y z) /\
  exists v j1 j2, saf_invariant j s = Ok (v, j1) /\ saf_invariant j s' = Ok (v, j2).
Proof.
  intros T O W l s j l' s' H El. destruct (elsewhere_ok j l s l' s' H El) as (Hh & Hj & Hf).
  assert (Hj0 : In j l).
  { destruct El as [l s Hj'|l1 i l2 s o i' ex s1 l' s'' Hj' _ _ _]; [exact Hj'|].
    apply in_app_or in Hj'. apply in_or_app. simpl. tauto. }
  pose proof (proj1 (history_ok _ _ H) j Hj0) as G. pose proof (proj1 (history_ok _ _ Hh) j Hj) as G'.
  split; [exact Hj|]. split; [exact Hf|]. split; [apply maps_agree; [apply G | exact Hf]|].
  destruct G as (Wf & C & _). destruct G' as (Wf' & C' & _).
  destruct (saf_invariant_ok j s Wf C) as (v1 & E1 & _). destruct (saf_invariant_ok j s' Wf' C') as (v2 & E2 & _).
  assert (Q : saf_now j s' = saf_now j s).
  { unfold saf_now. apply saf_of_ext; [|apply Wf]. intros a Ha. unfold lamT. rewrite (Hf a Ha). reflexivity. }
  rewrite Q in E2. eexists; eexists; eexists. split; [exact E1 | exact E2].
Qed.

