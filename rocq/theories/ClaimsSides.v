(** Proofs of the properties in [PropSides]. *)
From Coq Require Import Reals Lra Lia Permutation List ZArith.
From Verif Require Import Base QcTac LenT FM Subspace Lengths IET LenInst Sqrt2 Decomp Spec SpecDec SpecGlue SpecSides Api DecApi GlueApi FoundApi SidesApi Fixtures DecFixtures.
From Verif Require Import ZorichProof InduceProof World Dyn Saddle Direct DecompSim DecompInv DecompRef DecompStep DecompNav DecompCons PerimProof DecompAll DecompBudget.
From Verif Require Import Glue GlueDec GlueBnd GluePoly Sides ClaimsDecomp ClaimsGlue ClaimsFound.
Open Scope nat_scope.

Section Aux.
Context {T : Type} {O : LenOps T} {W : LenLaws T}.

Lemma split_edge lb rb lb' rb' (h : hedge) : map SConn lb ++ SEdge h :: map SConn rb = map SConn lb' ++ SEdge h :: map SConn rb' -> lb = lb' /\ rb = rb'.
Proof.
  revert lb'. induction lb as [|k lb IH]; intros [|k' lb'] E; cbn in E.
  - injection E as E. split; [reflexivity|]. revert rb' E. induction rb as [|r rb IHr]; intros [|r' rb'] E; try discriminate; [reflexivity|].
    cbn in E. injection E as -> E. f_equal. exact (IHr _ E).
  - discriminate.
  - discriminate.
  - injection E as -> E. destruct (IH _ E) as [-> ->]. auto.
Qed.

(** What the sides of a cylinder are. *)
Lemma sides_word (i : iet T) s tr d c x l : decomposition i s tr d -> component d c x -> i_top (dc_iet x) = [l] ->
  exists lb rb lt, In l (d_keys d) /\ he_cross d (mkhe c l false) = Ok (map SConn lb ++ SEdge (mkhe c l false) :: map SConn rb) /\
    he_cross d (mkhe c l true) = Ok (SEdge (mkhe c l true) :: map SConn lt) /\
    boundary d c = Ok (map cv lb ++ Edge l false :: map cv rb ++ Edge l true :: map cv lt) /\
    (forall k, In k rb <-> In k (right_conns (d_conns d l))) /\ (forall k, In k (lt ++ lb) <-> In k (left_conns (d_conns d l))) /\
    NoDup rb /\ NoDup (lt ++ lb).
Proof.
  intros H Hx One. pose proof (history_ok _ _ _ _ H) as Ok0. destruct (dk_inv _ _ Ok0) as (D & C). pose proof Hx as Hc. apply component_mid in Hc as (C1 & C2 & HD & <-).
  assert (Kl : In l (d_keys d)) by (apply (comp_keys _ d Ok0 C1 C2 x HD); rewrite One; left; reflexivity).
  assert (Bot : i_bottom (dc_iet x) = [l]).
  { pose proof (comp_perm _ d Ok0 C1 C2 x HD) as Pm. rewrite One in Pm. apply Permutation_length_1_inv in Pm. exact Pm. }
  pose proof (ci_topR _ _ _ _ C l) as Tr.
  exists (rev (bottomLeft (d_conns d l))), (bottomRight (d_conns d l)), (rev (topLeft (d_conns d l))).
  split; [exact Kl|]. split; [rewrite (he_cross_ok d _ l false Kl); unfold crossing, lft, rgt; rewrite map_rev; reflexivity|].
  split; [rewrite (he_cross_ok d _ l true Kl); unfold crossing, lft, rgt; rewrite Tr, map_rev; reflexivity|].
  split; [|split; [|split; [|split]]].
  - rewrite (boundary_word _ d Ok0 C1 C2 x HD). f_equal. unfold word. cbn [e_top e_bot exch_of]. rewrite One, Bot. cbn [flat_map rev app]. rewrite !app_nil_r.
    unfold bm. rewrite removelast_last. unfold tm. cbn [tl]. unfold bcross, tcross. rewrite Tr, !map_rev. cbn [map app]. rewrite <- app_assoc. reflexivity.
  - intros k. unfold right_conns. rewrite Tr. reflexivity.
  - intros k. unfold left_conns. rewrite !in_app_iff, <- !in_rev. reflexivity.
  - pose proof (conns_sources _ d Ok0) as N. rewrite map_app in N. apply NoDup_app_l in N as (_ & N & _). apply NoDup_map_inv in N.
    unfold rights in N. apply in_split in Kl as (K1 & K2 & Kl). rewrite Kl, flat_map_app in N. cbn [flat_map] in N.
    apply NoDup_app_l in N as (_ & N & _). apply NoDup_app_l in N as (N & _). apply NoDup_app_l in N as (_ & N & _). exact N.
  - pose proof (conns_sources _ d Ok0) as N. rewrite map_app in N. apply NoDup_app_l in N as (N & _). apply NoDup_map_inv in N.
    unfold lefts in N. apply in_split in Kl as (K1 & K2 & Kl). rewrite Kl, flat_map_app in N. cbn [flat_map] in N.
    apply NoDup_app_l in N as (_ & N & _). apply NoDup_app_l in N as (N & _).
    eapply Permutation_NoDup; [|exact N]. apply Permutation_app; apply Permutation_rev.
Qed.

Lemma sides_are (i : iet T) s tr d c right left : decomposition i s tr d -> cylinder_sides d c right left ->
  exists x l lb lt, component d c x /\ i_top (dc_iet x) = [l] /\ left = lt ++ lb /\
    boundary d c = Ok (map cv lb ++ Edge l false :: map cv right ++ Edge l true :: map cv lt) /\
    (forall k, In k right -> In k (rights d)) /\ (forall k, In k left -> In k (lefts d)) /\
    (forall k, In k right <-> In k (right_conns (d_conns d l))) /\ (forall k, In k left <-> In k (left_conns (d_conns d l))) /\
    NoDup right /\ NoDup left.
Proof.
  intros H (x & l & lb & rb & rt & lt & Hx & One & E1 & E2 & -> & ->).
  destruct (sides_word i s tr d c x l H Hx One) as (lb' & rb' & lt' & Kl & F1 & F2 & F3 & R & L & NR & NL).
  rewrite F1 in E1. injection E1 as E1. apply split_edge in E1 as [<- <-].
  assert (E2' : map SConn [] ++ SEdge (mkhe c l true) :: map SConn lt' = map SConn rt ++ SEdge (mkhe c l true) :: map SConn lt) by (rewrite F2 in E2; injection E2 as E2; exact E2).
  apply split_edge in E2' as [<- <-]. rewrite app_nil_r. exists x, l, lb', lt'. repeat (split; [first [assumption | reflexivity]|]).
  split; [|split; [|repeat (split; [assumption|]); assumption]].
  - intros k Hk. unfold rights. apply in_flat_map. exists l. split; [exact Kl|apply R, Hk].
  - intros k Hk. unfold lefts. apply in_flat_map. exists l. split; [exact Kl|apply L, Hk].
Qed.

Lemma mapM_in {A B} (g : A -> res B) l : forall r, mapM g l = Ok r -> forall a, In a l -> exists b, g a = Ok b /\ In b r.
Proof.
  induction l as [|x l IH]; intros r E a Ha; [destruct Ha|]. cbn in E. apply bind_ok in E as (y & Ey & E). apply bind_ok in E as (ys & Es & E). injection E as <-.
  destruct Ha as [<-|Ha]; [exists y; split; [exact Ey|left; reflexivity]|]. destruct (IH ys Es a Ha) as (b & Eb & Hb). exists b. split; [exact Eb|right; exact Hb].
Qed.

Lemma sides_turn (i : iet T) s tr d c right left : decomposition i s tr d -> cylinder_sides d c right left ->
  (forall k k', cyclically right k k' -> turn (fun b => mksep b PARALLEL) (fun t => mksep t ANTIPARALLEL) (i_top i) (i_bottom i) (cn_source k') (cn_target k)) /\
  (forall k k', cyclically left k k' -> turn (fun b => mksep b PARALLEL) (fun t => mksep t ANTIPARALLEL) (i_top i) (i_bottom i) (cn_source k') (cn_target k)).
Proof.
  intros H Hs. destruct (sides_are i s tr d c right left H Hs) as (x & l & lb & lt & Hx & One & El & Bd & _).
  destruct (claim_C85_sides T O W i s tr d H) as (Ws & EW & _).
  assert (Iw : In (map cv lb ++ Edge l false :: map cv right ++ Edge l true :: map cv lt) Ws).
  { unfold boundaries in EW. destruct (mapM_in _ _ _ EW c) as (w & Ew & Iw).
    - apply in_seq. split; [lia|]. apply nth_error_Some. unfold component in Hx. rewrite Hx. discriminate.
    - rewrite Bd in Ew. injection Ew as <-. exact Iw. }
  destruct (side_turn (linked Ws) l right left) as [S1 S2].
  - intros p q Hp. exists (map cv lb ++ Edge l false :: map cv right ++ Edge l true :: map cv lt). split; [exact Iw|].
    replace (map cv lb ++ Edge l false :: map cv right ++ Edge l true :: map cv lt) with ((map cv lb ++ Edge l false :: map cv right) ++ Edge l true :: map cv lt) by (rewrite <- app_assoc; reflexivity).
    apply cyc_rot. rewrite El, map_app in Hp. cbn [app] in Hp |- *. rewrite <- app_assoc in Hp. exact Hp.
  - assert (Q : forall k k', seesL (linked Ws) (cv k') (cn_target k) -> turn (fun b => mksep b PARALLEL) (fun t => mksep t ANTIPARALLEL) (i_top i) (i_bottom i) (cn_source k') (cn_target k)).
    { intros k k' Z. apply (claim_C85_rows T O W i s tr d Ws _ _ H EW). right. exists (cn_target k'). apply sees_linked. exact Z. }
    split; intros k k' Z; apply Q; [apply S1, Z|apply S2, Z].
Qed.

(** What comes behind a connection, among all saddle connections. *)
Definition behind (i : iet T) (s : slen T) (k k' : connection) : Prop :=
  turn (fun b => mksep b PARALLEL) (fun t => mksep t ANTIPARALLEL) (i_top i) (i_bottom i) (cn_source k') (cn_target k) /\
  exists b t, (k' = right_conn (b, t) \/ k' = left_conn (t, b)) /\ direct_connection (exch_of i s) b t.

Lemma behind_unique (i : iet T) s tr d p q q' : decomposition i s tr d -> behind i s p q -> behind i s p q' -> q = q'.
Proof.
  intros H (T1 & b & t & K & Q) (T2 & b' & t' & K' & Q'). destruct (rows_ok i s tr d H) as (N & P & Ne).
  destruct (dk_inv _ _ (history_ok _ _ _ _ H)) as (D & C). pose proof (ci_start _ _ _ _ C) as Pr.
  assert (I1 : forall a b, mksep a PARALLEL = mksep b PARALLEL -> a = b) by (intros a0 b0 Z; injection Z; auto).
  assert (I2 : forall a b, mksep a ANTIPARALLEL = mksep b ANTIPARALLEL -> a = b) by (intros a0 b0 Z; injection Z; auto).
  assert (I3 : forall a b, mksep a PARALLEL <> mksep b ANTIPARALLEL) by (intros a0 b0 Z; discriminate Z).
  pose proof (turn_injective _ _ I1 I2 I3 _ _ N P _ _ _ T1 T2) as E.
  destruct K as [-> | ->], K' as [-> | ->]; cbn in E; try discriminate; injection E as E; subst.
  - rewrite (direct_target _ _ _ _ Pr Q Q'). reflexivity.
  - rewrite (direct_source _ Pr _ _ _ Q Q'). reflexivity.
Qed.

Lemma cyclically_in {A} (l : list A) x y : cyclically l x y -> In y l.
Proof.
  intros [(u & v & ->)|(u & -> & _)]; [apply in_or_app; right; right; left; reflexivity|left; reflexivity].
Qed.

End Aux.

Lemma claim_C101_sides : forall (T : Type) (O : LenOps T) (W : LenLaws T) (i : iet T) (s : slen T) tr d c x,
  decomposition i s tr d -> component d c x -> length (i_top (dc_iet x)) = 1 ->
  exists right left p, cylinder_sides d c right left /\
    (forall right' left', cylinder_sides d c right' left' -> right' = right /\ left' = left) /\
    comp_perimeter d c = Ok p /\ length p = 2 + length right + length left /\
    forall k, In (SConn k) p <-> In k right \/ In k left.
Proof.
  intros T O W i s tr d c x H Hx One. destruct (i_top (dc_iet x)) as [|l [|? ?]] eqn:El; try discriminate.
  destruct (sides_word i s tr d c x l H Hx El) as (lb & rb & lt & Kl & F1 & F2 & F3 & R & L & NR & NL).
  destruct (claim_C85_boundary T O W i s tr d c x H Hx) as (w & p & q & E1 & E2 & E3). rewrite F3 in E1. injection E1 as <-.
  assert (Es : filter is_side (map cv lb ++ Edge l false :: map cv rb ++ Edge l true :: map cv lt) = map cv lb ++ Edge l false :: map cv rb ++ Edge l true :: map cv lt).
  { rewrite filter_app. cbn [filter is_side]. rewrite filter_app. cbn [filter is_side]. rewrite !filter_conns. reflexivity. }
  rewrite Es in E3. exists rb, (lt ++ lb), (p ++ q). split; [|split; [|split; [exact E2|split]]].
  - exists x, l, lb, rb, [], lt. rewrite app_nil_r. auto 6.
  - intros right' left' (x' & l' & lb' & rb' & rt' & lt' & Hx' & El' & G1 & G2 & -> & ->).
    unfold component in Hx, Hx'. rewrite Hx in Hx'. injection Hx' as <-. rewrite El in El'. injection El' as <-.
    rewrite F1 in G1. injection G1 as G1. apply split_edge in G1 as [<- <-].
    assert (G2' : map SConn [] ++ SEdge (mkhe c l true) :: map SConn lt = map SConn rt' ++ SEdge (mkhe c l true) :: map SConn lt') by (rewrite F2 in G2; injection G2 as G2; exact G2).
    apply split_edge in G2' as [<- <-]. rewrite app_nil_r. auto.
  - apply (f_equal (@length _)) in E3. rewrite map_length, app_length in E3. rewrite app_length. rewrite !app_length in *. cbn [length] in E3. rewrite !app_length in E3. cbn [length] in E3. rewrite !map_length in E3. lia.
  - intros k.
    assert (Q : In (SConn k) (p ++ q) <-> In (cv k) (map as_item (q ++ p))).
    { rewrite in_map_iff. split.
      - intros Z. exists (SConn k). split; [reflexivity|]. apply in_app_iff in Z. apply in_app_iff. tauto.
      - intros ([k'|e] & E & Z); [|discriminate E]. cbn in E. unfold cv in E. injection E as E1' E4. destruct k as [k1 k2], k' as [k1' k2']. cbn in E1', E4. subst.
        apply in_app_iff in Z. apply in_app_iff. tauto. }
    rewrite Q, <- E3.
    assert (M : forall ks, In (cv k) (map cv ks) <-> In k ks).
    { intros ks. split; [|apply in_map]. intros Z. apply in_map_iff in Z as (k' & E & Z). unfold cv in E. injection E as E1' E4. destruct k, k'. cbn in *. subst. exact Z. }
    rewrite !in_app_iff. cbn [In]. rewrite in_app_iff. cbn [In]. rewrite !M.
    assert (N1 : Edge l false <> cv k) by discriminate. assert (N2 : Edge l true <> cv k) by discriminate. tauto.
Qed.

Lemma claim_C101_walk : forall (T : Type) (O : LenOps T) (W : LenLaws T) (i : iet T) (s : slen T) tr d c right left,
  decomposition i s tr d -> cylinder_sides d c right left ->
  (forall k, In k right -> exists b t, k = mkconn (mksep b PARALLEL) (mksep t ANTIPARALLEL) /\ direct_connection (exch_of i s) b t) /\
  (forall k, In k left -> exists b t, k = mkconn (mksep t ANTIPARALLEL) (mksep b PARALLEL) /\ direct_connection (exch_of i s) b t) /\
  forall k k', cyclically right k k' \/ cyclically left k k' ->
    turn (fun b => mksep b PARALLEL) (fun t => mksep t ANTIPARALLEL) (i_top i) (i_bottom i) (cn_source k') (cn_target k).
Proof.
  intros T O W i s tr d c right left H Hs. pose proof (history_ok _ _ _ _ H) as Ok0.
  destruct (sides_are i s tr d c right left H Hs) as (x & l & lb & lt & _ & _ & _ & _ & R & L & _).
  destruct (sides_turn i s tr d c right left H Hs) as [S1 S2].
  split; [intros k Hk; apply (conns_right _ d Ok0), R, Hk|]. split; [|intros k k' [Z|Z]; [apply S1, Z|apply S2, Z]].
  intros k Hk. exact (conns_left _ d Ok0 k (L k Hk)).
Qed.

Lemma claim_C101_same : forall (T : Type) (O : LenOps T) (W : LenLaws T) (i : iet T) (s : slen T) tr d c right left tr' d' c' right' left',
  decomposition i s tr d -> decomposition i s tr' d' -> cylinder_sides d c right left -> cylinder_sides d' c' right' left' ->
  (forall k, In k right -> In k right' -> rotation right right') /\ (forall k, In k left -> In k left' -> rotation left left').
Proof.
  intros T O W i s tr d c right left tr' d' c' right' left' H H' Hs Hs'.
  destruct (claim_C101_walk T O W i s tr d c right left H Hs) as (R & L & S).
  destruct (claim_C101_walk T O W i s tr' d' c' right' left' H' Hs') as (R' & L' & S').
  destruct (sides_are i s tr d c right left H Hs) as (x & l & lb & lt & _ & _ & _ & _ & _ & _ & _ & _ & NR & NL).
  destruct (sides_are i s tr' d' c' right' left' H' Hs') as (x' & l' & lb' & lt' & _ & _ & _ & _ & _ & _ & _ & _ & NR' & NL').
  split; intros k Hk Hk'.
  - apply (same_cycle (behind i s) right right' k); auto.
    + intros p q q'. exact (behind_unique i s tr d p q q' H).
    + intros a b Z. split; [apply S; left; exact Z|]. destruct (R b (cyclically_in _ _ _ Z)) as (b0 & t0 & -> & Q). exists b0, t0. split; [left; reflexivity|exact Q].
    + intros a b Z. split; [apply S'; left; exact Z|]. destruct (R' b (cyclically_in _ _ _ Z)) as (b0 & t0 & -> & Q). exists b0, t0. split; [left; reflexivity|exact Q].
  - apply (same_cycle (behind i s) left left' k); auto.
    + intros p q q'. exact (behind_unique i s tr d p q q' H).
    + intros a b Z. split; [apply S; right; exact Z|]. destruct (L b (cyclically_in _ _ _ Z)) as (b0 & t0 & -> & Q). exists b0, t0. split; [right; reflexivity|exact Q].
    + intros a b Z. split; [apply S'; right; exact Z|]. destruct (L' b (cyclically_in _ _ _ Z)) as (b0 & t0 & -> & Q). exists b0, t0. split; [right; reflexivity|exact Q].
Qed.

Lemma claim_C101_all : forall (T : Type) (O : LenOps T) (W : LenLaws T) (i : iet T) (s : slen T) tr d c right left tr' d',
  decomposition i s tr d -> decomposition i s tr' d' -> cylinder_sides d c right left ->
  (forall c x, component d' c x -> length (i_top (dc_iet x)) = 1) ->
  (right <> [] -> exists c' right' left', cylinder_sides d' c' right' left' /\ rotation right right') /\
  (left <> [] -> exists c' right' left', cylinder_sides d' c' right' left' /\ rotation left left').
Proof.
  intros T O W i s tr d c right left tr' d' H H' Hs All.
  assert (Ex : exhausted d') by (intros c0 x0 Hx0; left; exact (All c0 x0 Hx0)).
  destruct (claim_C100_exact T O W i s tr' d' H' Ex) as (A1 & A2 & _).
  destruct (claim_C101_walk T O W i s tr d c right left H Hs) as (R & L & _). pose proof (history_ok _ _ _ _ H') as Ok0.
  assert (Find : forall k, In k (lefts d' ++ rights d') -> exists c' right' left', cylinder_sides d' c' right' left' /\
    (In k (rights d') -> In k right') /\ (In k (lefts d') -> In k left')).
  { intros k Hk. apply (live_conns _ d' Ok0) in Hk. apply in_flat_map in Hk as (l & Hl & Hk). apply in_live in Hl as (e & He & Hl).
    unfold pieces in He. apply in_map_iff in He as (x & <- & Hx). apply In_nth_error in Hx as (c' & Hx). cbn in Hl.
    destruct (claim_C101_sides T O W i s tr' d' c' x H' Hx (All c' x Hx)) as (right' & left' & _ & Hs' & _).
    exists c', right', left'. split; [exact Hs'|].
    destruct (sides_are i s tr' d' c' right' left' H' Hs') as (x' & l' & lb & lt & Hx' & One & _ & _ & R1 & L1 & R2 & L2 & _).
    unfold component in Hx'. rewrite Hx in Hx'. injection Hx' as <-. rewrite One in Hl. destruct Hl as [<-|[]].
    assert (No : In k (rights d') -> In k (lefts d') -> False).
    { intros Z1 Z2. destruct (conns_right _ d' Ok0 k Z1) as (b & t & -> & _). destruct (conns_left _ d' Ok0 _ Z2) as (b' & t' & Z & _). discriminate Z. }
    apply in_app_iff in Hk. destruct Hk as [Hk|Hk].
    - apply L2 in Hk. split; [intros Z; exfalso; exact (No Z (L1 k Hk))|intros _; exact Hk].
    - apply R2 in Hk. split; [intros _; exact Hk|intros Z; exfalso; exact (No (R1 k Hk) Z)]. }
  split; intros Ne.
  - destruct right as [|k right]; [congruence|]. destruct (R k (or_introl eq_refl)) as (b & t & Ek & Q). apply A1 in Q. rewrite <- Ek in Q.
    destruct (Find k) as (c' & right' & left' & Hs' & F & _); [apply in_or_app; right; exact Q|]. exists c', right', left'. split; [exact Hs'|].
    destruct (claim_C101_same T O W i s tr d c _ left tr' d' c' right' left' H H' Hs Hs') as [S _]. apply (S k); [left; reflexivity|apply F, Q].
  - destruct left as [|k left]; [congruence|]. destruct (L k (or_introl eq_refl)) as (b & t & Ek & Q). apply A2 in Q. rewrite <- Ek in Q.
    destruct (Find k) as (c' & right' & left' & Hs' & _ & F); [apply in_or_app; left; exact Q|]. exists c', right', left'. split; [exact Hs'|].
    destruct (claim_C101_same T O W i s tr d c right _ tr' d' c' right' left' H H' Hs Hs') as [_ S]. apply (S k); [left; reflexivity|apply F, Q].
Qed.

