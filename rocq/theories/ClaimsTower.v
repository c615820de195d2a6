(** Proofs of the properties in [PropTower]. *)
From Coq Require Import Reals Lra Lia Permutation.
From Verif Require Import Base QcTac LenT FM Subspace Lengths IET Decomp Spec SpecDec SpecTower SpecGroup Api DecApi.
From Verif Require Import ZorichProof InduceProof World Dyn DecompSim DecompInv DecompRef DecompStep DecompAll DecompBudget DecompDyn Tower LenGroup Fixtures LenInst InjApi ClaimsInject.
Open Scope nat_scope.

Lemma comps_proper {T} {O : LenOps T} {W : LenLaws T} (i : iet T) (s : slen T) tr d : decomposition i s tr d ->
  proper (exch_of i s) /\ forall x, In x (d_comps d) -> proper (comp_exch d x).
Proof.
  intros (d0 & Hi & E0 & S)%history_steps. destruct (made_ok i s d0 Hi E0) as (H0 & P0 & _).
  destruct (steps_ok _ _ _ _ H0 S) as (H1 & A & _). split.
  - apply wf_proper. apply obtainable_good in Hi. apply Hi.
  - intros x Hx. destruct (dk_good _ _ H1 x Hx) as [G _]. apply wf_proper, G.
Qed.

Lemma towers_proper {T} {O : LenOps T} {W : LenLaws T} (i : iet T) (s : slen T) tr d Ts t : decomposition i s tr d ->
  map tw_base Ts = map (comp_exch d) (d_comps d) -> In t Ts -> proper (tw_base t).
Proof.
  intros H E I. apply (in_map tw_base) in I. rewrite E in I. apply in_map_iff in I as (x & <- & Hx). apply (comps_proper i s tr d H), Hx.
Qed.

Lemma heights_example : forall tr d Ts, decomposition z_iet z_lens tr d ->
  map (fun x => i_top (dc_iet x)) (d_comps d) = [[1]; [3]] -> map (nth_error (sl_lens (d_len d))) [1; 3] = [Some 5; Some 1]%Z ->
  map tw_base Ts = map (comp_exch d) (d_comps d) -> towers (exch_of z_iet z_lens) Ts ->
  exists t t', Ts = [t; t'] /\ 5 * tw_height t 1 + tw_height t' 3 = 19.
Proof.
  intros tr d Ts H E1 E2 E3 HT. destruct (d_comps d) as [|x [|x' [|]]] eqn:Ed; try discriminate. cbn [map] in E1, E3.
  destruct Ts as [|t [|t' [|]]]; try discriminate. cbn [map] in E3. injection E3 as Et Et'. injection E1 as T1 T2. 
  assert (V1 : nth_error (sl_lens (d_len d)) 1 = Some 5%Z) by (injection E2; auto).
  assert (V2 : nth_error (sl_lens (d_len d)) 3 = Some 1%Z) by (injection E2; auto).
  exists t, t'. split; [reflexivity|]. destruct HT as (_ & _ & _ & A). cbn [areas fold_right] in A. unfold area in A.
  assert (Sz : size (exch_of z_iet z_lens) = 19%R) by (unfold size; cbn; lra). rewrite Sz in A. 
  rewrite Et, Et' in A. unfold comp_exch, exch_of in A. cbn [e_top e_len] in A. rewrite T1, T2 in A. cbn [total] in A.
  unfold lamR in A. rewrite V1, V2 in A.
  cbn in A.
  apply INR_eq. rewrite plus_INR, mult_INR. replace (INR 5) with 5%R by (cbn; lra). replace (INR 19) with 19%R by (cbn; lra). lra.
Qed.
Lemma claim_C73_towers : forall (T : Type) (O : LenOps T) (W : LenLaws T) (i : iet T) (s : slen T) tr d,
  decomposition i s tr d ->
  exists Ts, map tw_base Ts = map (comp_exch d) (d_comps d) /\ towers (exch_of i s) Ts.
Proof.
  intros T O W i s tr d (d0 & Hi & E0 & S)%history_steps. destruct (made_ok i s d0 Hi E0) as (H0 & P0 & _).
  destruct (steps_ok _ _ _ _ H0 S) as (H1 & A & _). destruct (dk_inv _ _ H0) as (D & C).
  assert (Pr : proper (exch_of i s)) by (apply wf_proper; apply obtainable_good in Hi; apply Hi).
  destruct (asteps_towers _ _ _ _ _ _ [mktower (exch_of i s) 0%R (fun _ => 1)] C A) as (P & EP & TP); [rewrite P0; reflexivity|apply towers_start, Pr|].
  exists P. split; [exact EP|exact TP].
Qed.

Lemma claim_C73_return : forall (T : Type) (O : LenOps T) (W : LenLaws T) (i : iet T) (s : slen T) tr d Ts t a y,
  decomposition i s tr d -> map tw_base Ts = map (comp_exch d) (d_comps d) -> towers (exch_of i s) Ts ->
  In t Ts -> in_base t a y ->
  exists z, maps (tw_base t) (y - tw_at t) (z - tw_at t) /\ iter (maps (exch_of i s)) (tw_height t a) y z /\
    forall k w, 1 <= k < tw_height t a -> iter (maps (exch_of i s)) k y w -> forall t' a', In t' Ts -> ~ in_base t' a' w.
Proof.
  intros T O W i s tr d Ts t a y H E HT I Hy. pose proof (towers_proper i s tr d Ts t H E I) as P.
  destruct (towers_return _ Ts HT t a y I P Hy) as (A & B & C). exists (y + shift (tw_base t) a)%R. split; [|split; [exact B|exact C]].
  replace (y + shift (tw_base t) a - tw_at t)%R with (y - tw_at t + shift (tw_base t) a)%R by lra. exact A.
Qed.

Lemma claim_C73_orbits : forall (T : Type) (O : LenOps T) (W : LenLaws T) (i : iet T) (s : slen T) tr d Ts t t' a k a' k' x x' n,
  decomposition i s tr d -> map tw_base Ts = map (comp_exch d) (d_comps d) -> towers (exch_of i s) Ts ->
  In t Ts -> In t' Ts -> on_floor (exch_of i s) t a k x -> iter (maps (exch_of i s)) n x x' -> on_floor (exch_of i s) t' a' k' x' ->
  t = t'.
Proof.
  intros T O W i s tr d Ts t t' a k a' k' x x' n H E HT I I' F Hi F'. destruct (comps_proper i s tr d H) as (P0 & _).
  pose proof (towers_proper i s tr d Ts t H E I) as P.
  assert (G : exists b j, on_floor (exch_of i s) t b j x').
  { clear F'. revert a k x F Hi. induction n as [|n IH]; intros a k x F Hi.
    - simpl in Hi. subst x'. eauto.
    - destruct Hi as (w & M & Hi). destruct (towers_stay _ Ts P0 HT t a k x w I P F M) as (b & j & F1). exact (IH b j w F1 Hi). }
  destruct G as (b & j & G). destruct HT as (_ & B & _).
  apply in_split in I as (X & Y & ES). rewrite ES in I'. apply in_app_or in I'. simpl in I'.
  rewrite ES in B. apply fop_app_cons in B as (_ & B2 & B3). rewrite Forall_forall in B2, B3. destruct I' as [I'|[I'|I']].
  - exfalso. exact (B2 _ I' _ _ _ _ _ F' G).
  - exact I'.
  - exfalso. exact (B3 _ I' _ _ _ _ _ G F').
Qed.

Lemma claim_C73_periods : forall (T : Type) (O : LenOps T) (W : LenLaws T) (i : iet T) (s : slen T) tr d Ts t a k x,
  decomposition i s tr d -> map tw_base Ts = map (comp_exch d) (d_comps d) -> towers (exch_of i s) Ts ->
  In t Ts -> e_top (tw_base t) = [a] -> on_floor (exch_of i s) t a k x ->
  iter (maps (exch_of i s)) (tw_height t a) x x /\
  forall n, 1 <= n < tw_height t a -> ~ iter (maps (exch_of i s)) n x x.
Proof.
  intros T O W i s tr d Ts t a k x H E HT I Et F. destruct (comps_proper i s tr d H) as (P0 & _).
  exact (towers_cylinder _ Ts P0 HT t a k x I (towers_proper i s tr d Ts t H E I) Et F).
Qed.

Lemma claim_C73_injected : forall (T : Type) (O : LenOps T) (W : LenLaws T) (i : iet T) (s : slen T) J tr d,
  injected_decomposition i s J tr d ->
  exists Ts, map tw_base Ts = map (comp_exch d) (d_comps d) /\ towers (exch_of i s) Ts.
Proof.
  intros T O W i s J tr d H. destruct (claim_C62_transparent T O W i s J tr d H) as (tr0 & d0 & (H0 & El & Ec & _) & _).
  unfold comp_exch. rewrite <- El, <- Ec. exact (claim_C73_towers T O W i s tr0 d0 H0).
Qed.

Lemma claim_C74_group : forall (T : Type) (O : LenOps T) (W : LenLaws T) (i : iet T) (s : slen T) tr d r,
  decomposition i s tr d ->
  generated (is_length (map (comp_exch d) (d_comps d))) r <-> generated (is_length [exch_of i s]) r.
Proof.
  intros T O W i s tr d r (d0 & Hi & E0 & S)%history_steps. destruct (made_ok i s d0 Hi E0) as (H0 & P0 & _).
  destruct (steps_ok _ _ _ _ H0 S) as (H1 & A & _). destruct (dk_inv _ _ H0) as (D & C).
  pose proof (asteps_equigen _ _ _ _ _ _ C A) as Q. rewrite P0 in Q. symmetry. apply equigen_group, Q.
Qed.

Lemma claim_C74_measures : forall (T : Type) (O : LenOps T) (W : LenLaws T) (i : iet T) (s : slen T) tr d u,
  decomposition i s tr d ->
  measured_by u (map (comp_exch d) (d_comps d)) <-> measured_by u [exch_of i s].
Proof.
  intros T O W i s tr d u (d0 & Hi & E0 & S)%history_steps. destruct (made_ok i s d0 Hi E0) as (H0 & P0 & _).
  destruct (steps_ok _ _ _ _ H0 S) as (H1 & A & _). destruct (dk_inv _ _ H0) as (D & C).
  pose proof (asteps_equigen _ _ _ _ _ _ C A) as Q. rewrite P0 in Q. symmetry. apply equigen_measured, Q.
Qed.

Lemma claim_C74_injected : forall (T : Type) (O : LenOps T) (W : LenLaws T) (i : iet T) (s : slen T) J tr d r,
  injected_decomposition i s J tr d ->
  generated (is_length (map (comp_exch d) (d_comps d))) r <-> generated (is_length [exch_of i s]) r.
Proof.
  intros T O W i s J tr d r H. destruct (claim_C62_transparent T O W i s J tr d H) as (tr0 & d0 & (H0 & El & Ec & _) & _).
  unfold comp_exch. rewrite <- El, <- Ec. exact (claim_C74_group T O W i s tr0 d0 r H0).
Qed.

