(** [decompositionStep] on a decomposition with injected connections and on the same
    decomposition without them, side by side. *)
From Coq Require Import Reals Permutation Lia Lra.
From Verif Require Import Base QcTac Spec LenT FM Subspace Lengths IET Api ZorichProof ReduceProof Saf Dyn Path Direct InduceProof InduceCons.
From Verif Require Import Decomp DecompSim DecompInv DecompNav DecompRef DecompStep DecompCons DecApi InjApi Twin TwinDec InjRel.
Open Scope nat_scope.

Section Steps.
Context {T : Type} {O : LenOps T} {W : LenLaws T}.

(** * The end of a step, computed *)

Lemma sep_compute fuel c b t b' t' j (d : decomp T) x src tgt w :
  comp_at d c = Ok x -> i_swap (dc_iet x) = false ->
  hd_error (rev (i_bottom (dc_iet x))) = Some b -> hd_error (rev (i_top (dc_iet x))) = Some t ->
  i_swap j = false -> hd_error (i_bottom j) = Some b' -> hd_error (i_top j) = Some t' ->
  In b (d_keys d) -> In t (d_keys d) -> In b' (d_keys d) -> In t' (d_keys d) -> b <> b' ->
  c <> length (d_comps d) -> sp_orient src = PARALLEL ->
  walk_clockwise fuel d (mkhe c b false) (mkhe c t true) = Ok w ->
  skip_bottom b (bottomRight (d_conns d b)) = Ok src -> skip_top t (rev (topRight (d_conns d t))) = Ok tgt ->
  step_separating fuel c b t j d =
  Ok (mkdstep D_SEPARATING_CONNECTION (Some (mkconn src tgt)) (Some w) (Some (length (d_comps d))),
      set_conns (set_comps d (d_comps d ++ [mkdcomp j None None None])) (register b b' (mkconn src tgt) (d_conns d))).
Proof.
  intros Ca Sw Hb Ht Swj Hb' Ht' Kb Kt Kb' Kt' Nb Nc Hs Hw Hsrc Htgt.
  unfold step_separating. rewrite (bottom_contour_ok d c _ Ca Sw), (top_contour_ok d c _ Ca Sw). cbn [bind].
  rewrite <- !map_rev, !map_map. cbn [he_label]. rewrite !map_id.
  rewrite (hd_label_ok _ _ Hb), (hd_label_ok _ _ Ht). cbn [bind]. unfold he_neg. cbn [he_comp he_label he_top negb].
  rewrite Hw. cbn [bind].
  unfold sep_at_bottom, sep_at_top. rewrite !conns_at_ok by assumption. cbn [bind]. rewrite Hsrc, Htgt. cbn [bind].
  set (cn := mkconn src tgt). set (d2 := set_comps d (d_comps d ++ [mkdcomp j None None None])).
  assert (Lc : c < length (d_comps d)).
  { unfold comp_at in Ca. apply nth_error_Some. destruct (nth_error (d_comps d) c); [discriminate|discriminate]. }
  assert (Ca2 : comp_at d2 c = Ok x).
  { unfold comp_at, d2 in *. cbn [set_comps d_comps]. rewrite nth_error_app1 by exact Lc. exact Ca. }
  assert (Ca2' : comp_at d2 (length (d_comps d)) = Ok (mkdcomp j None None None)).
  { unfold comp_at, d2. cbn [set_comps d_comps]. rewrite nth_error_app2, Nat.sub_diag by lia. reflexivity. }
  unfold register_separating. unfold conn_parallel, sep_parallel. cbn [cn cn_source]. rewrite Hs. cbn [orient_eqb assert_].
  rewrite (proj2 (Nat.eqb_neq _ _) Nc). cbn [negb assert_]. rewrite Ca2, Ca2'. cbn [bind].
  rewrite (hd_label_ok _ _ Hb). cbn [bind]. rewrite (conns_at_ok d2 b Kb). cbn [bind dc_iet].
  rewrite (hd_label_ok _ _ Hb'). cbn [bind].
  match goal with |- context [conns_at ?dd b'] => rewrite (conns_at_ok dd b' Kb') end. cbn [bind].
  set (g := register b b' cn (d_conns d)).
  match goal with |- context [comp_right ?dd _] => change dd with (set_conns d2 g) end.
  assert (Ca3 : comp_at (set_conns d2 g) c = Ok x) by exact Ca2.
  assert (Ca3' : comp_at (set_conns d2 g) (length (d_comps d)) = Ok (mkdcomp j None None None)) by exact Ca2'.
  unfold comp_right. rewrite Ca3. cbn [bind]. rewrite Sw.
  rewrite (hd_label_ok _ _ Hb), (hd_label_ok _ _ Ht). cbn [bind].
  rewrite (conns_at_ok (set_conns d2 g) b Kb), (conns_at_ok (set_conns d2 g) t Kt). cbn [bind].
  change (d_conns (set_conns d2 g)) with g.
  destruct (register_right b b' cn (d_conns d) b Nb) as [_ Rb]. fold g in Rb. rewrite Nat.eqb_refl in Rb. rewrite Rb.
  rewrite map_length, !app_length. cbn [length].
  replace (length (bottomRight (d_conns d b)) + 1 + length (topRight (g t)) =? 0) with false by (symmetry; apply Nat.eqb_neq; lia).
  cbn [negb assert_].
  unfold comp_left. rewrite Ca3'. cbn [bind dc_iet]. rewrite Swj.
  rewrite (hd_label_ok _ _ Hb'), (hd_label_ok _ _ Ht'). cbn [bind].
  rewrite (conns_at_ok (set_conns d2 g) b' Kb'), (conns_at_ok (set_conns d2 g) t' Kt'). cbn [bind].
  change (d_conns (set_conns d2 g)) with g.
  assert (Lb : exists z, bottomLeft (g b') = z ++ [conn_neg cn]).
  { unfold g, register. rewrite upd_same. cbn [bottomLeft]. eexists. reflexivity. }
  destruct Lb as (z & Lb). rewrite Lb. rewrite rev_length, map_length, !app_length. cbn [length].
  replace (length z + 1 + length (topLeft (g t')) =? 0) with false by (symmetry; apply Nat.eqb_neq; lia).
  reflexivity.
Qed.

Lemma merge_compute c a b first p (d : decomp T) x src tgt :
  comp_at d c = Ok x -> i_swap (dc_iet x) = false ->
  hd_error (i_top (dc_iet x)) = Some first -> hd_error (i_bottom (dc_iet x)) = Some p ->
  In a (d_keys d) -> In b (d_keys d) -> In first (d_keys d) -> In p (d_keys d) -> b <> a -> first <> a ->
  skip_bottom b (bottomRight (d_conns d b)) = Ok src -> skip_top a (rev (topRight (d_conns d a))) = Ok tgt ->
  step_non_separating c b a d =
  Ok (mkdstep D_NON_SEPARATING_CONNECTION (Some (mkconn src tgt)) (Some (backwards (crossing d c a true ++ crossing d c b false))) None,
      set_conns d (merge_conns b a first (mkconn src tgt) (d_conns d))).
Proof.
  intros Ca Sw Hf Hp Ka Kb Kf Kp Nba Nfa Hsrc Htgt.
  unfold step_non_separating. rewrite (proj2 (Nat.eqb_neq _ _) Nba). cbn [negb assert_].
  rewrite (he_cross_ok d c a true Ka). cbn [bind]. unfold he_neg. cbn [he_comp he_label he_top negb].
  rewrite (he_cross_ok d c b false Kb). cbn [bind].
  unfold sep_at_bottom, sep_at_top. rewrite !conns_at_ok by assumption. cbn [bind]. rewrite Hsrc, Htgt. cbn [bind].
  set (cn := mkconn src tgt). rewrite Ca. cbn [bind]. rewrite (hd_label_ok _ _ Hf). cbn [bind].
  rewrite (proj2 (Nat.eqb_neq _ _) Nfa). cbn [negb assert_].
  rewrite (conns_at_ok d first Kf). cbn [bind].
  set (g := merge_conns b a first cn (d_conns d)).
  assert (Ca3 : comp_at (set_conns d g) c = Ok x) by exact Ca.
  unfold comp_left. rewrite Ca3. cbn [bind]. rewrite Sw. rewrite (hd_label_ok _ _ Hp), (hd_label_ok _ _ Hf). cbn [bind].
  rewrite (conns_at_ok (set_conns d g) p Kp), (conns_at_ok (set_conns d g) first Kf). cbn [bind].
  change (d_conns (set_conns d g)) with g.
  assert (Tf : exists z, topLeft (g first) = conn_neg cn :: z).
  { destruct (merge_conns_left b a first cn (d_conns d) first) as [Q _]; [congruence|exact Nfa|]. fold g in Q. rewrite Q.
    rewrite (proj2 (Nat.eqb_neq _ _) Nfa), Nat.eqb_refl. eauto. }
  destruct Tf as (z & Tf). rewrite Tf, rev_length, map_length, app_length. cbn [length].
  replace (length (bottomLeft (g p)) + Datatypes.S (length z) =? 0) with false by (symmetry; apply Nat.eqb_neq; lia).
  reflexivity.
Qed.

(** * Paths: the half edges do not depend on the connections *)

Lemma edges_app p q : edges_of (p ++ q) = edges_of p ++ edges_of q.
Proof. apply flat_map_app. Qed.
Lemma edges_conns l : edges_of (map SConn l) = [].
Proof. induction l; simpl; auto. Qed.
Lemma edges_rev p : edges_of (rev p) = rev (edges_of p).
Proof.
  induction p as [|a p IH]; [reflexivity|]. simpl. rewrite edges_app, IH. destruct a; simpl; rewrite ?app_nil_r; reflexivity.
Qed.
Lemma edges_backwards p : edges_of (backwards p) = rev (edges_of p).
Proof.
  unfold backwards. rewrite <- edges_rev. generalize (rev p). intro q. induction q as [|a q IH]; [reflexivity|].
  destruct a; simpl in *; congruence.
Qed.
Lemma edges_crossing (d : decomp T) c l top : edges_of (crossing d c l top) = [mkhe c l top].
Proof.
  unfold crossing. destruct top; rewrite !edges_app, ?edges_rev, !edges_conns; reflexivity.
Qed.
Lemma edges_flat {A} (g h : A -> list side) L : (forall x, edges_of (g x) = edges_of (h x)) -> edges_of (flat_map g L) = edges_of (flat_map h L).
Proof. intro H. induction L as [|a L IH]; [reflexivity|]. simpl. rewrite !edges_app, IH, H. reflexivity. Qed.

(** * The relation between the two decompositions *)

Lemma live_in (d : decomp T) l : In l (live (pieces d)) <-> exists y, In y (d_comps d) /\ In l (i_top (dc_iet y)).
Proof.
  unfold pieces. rewrite in_live. split.
  - intros (e & He & Hl). apply in_map_iff in He as (y & <- & Hy). eauto.
  - intros (y & Hy & Hl). exists (exch_of (dc_iet y) (d_len d)). split; [apply in_map_iff; eauto|exact Hl].
Qed.

Section Side.
Variable e0 : exch.
Variables TC BC : label -> list label.
Variables JL JR : list connection.

Let A (d : decomp T) := fun l => In l (live (pieces d)).
Let K (d : decomp T) := rel (e_top e0) TC BC JL JR (live (pieces d)).

Definition linked (d d2 : decomp T) : Prop := twins (A d) (K d) d d2.

Definition sames (st st' : dstep) : Prop :=
  dst_result st' = dst_result st /\
  dst_connection st' = option_map (farc TC BC) (dst_connection st) /\
  dst_additional st' = dst_additional st /\
  option_map edges_of (dst_equivalent st') = option_map edges_of (dst_equivalent st).

Lemma dk_inside d x : dec_ok e0 d -> In x (d_comps d) -> inside (A d) (dc_iet x).
Proof.
  intros H Hx. destruct (dk_good _ _ H x Hx) as [(( _ & Pm & _) & _) _].
  assert (Q : forall l, In l (i_top (dc_iet x)) -> A d l) by (intros l Hl; apply live_in; eauto).
  split; apply Forall_forall; intros l Hl; apply Q; [exact Hl|]. apply (Permutation_in _ (Permutation_sym Pm)), Hl.
Qed.

Lemma linked_make d d2 : dec_ok e0 d -> d_len d2 = d_len d -> d_stack d2 = d_stack d -> d_keys d2 = d_keys d ->
  d_comps d2 = d_comps d -> K d (d_conns d) (d_conns d2) -> linked d d2.
Proof.
  intros H E1 E2 E3 E4 HK. constructor; auto.
  - rewrite (dk_stack _ _ H). constructor.
  - intros x Hx. apply dk_inside; assumption.
Qed.

Lemma keys_nodup d : dec_ok e0 d -> NoDup (e_top e0).
Proof. intro H. destruct (dk_inv _ _ H) as (D & C). apply (ci_start _ _ _ _ C). Qed.

Lemma live_keys d : dec_ok e0 d -> incl (live (pieces d)) (e_top e0).
Proof. intros H l Hl. destruct (dk_inv _ _ H) as (D & C). eapply ci_keys; eassumption. Qed.

Lemma Kmove d : dec_ok e0 d -> forall top a b f f2, A d a -> A d b -> a <> b -> K d f f2 -> K d (conn_move top a b f) (conn_move top a b f2).
Proof.
  intros H top a b f f2 Ha Hb N HK. apply rel_move; auto.
  - eapply keys_nodup; eassumption.
  - apply live_keys, H.
Qed.

(** The connections stored to the right of half edges and the one that is reported. *)
Definition reports (d : decomp T) (st : dstep) (d' : decomp T) : Prop :=
  Permutation (rights d') ((match dst_connection st with Some k => [k] | None => [] end) ++ rights d).

Lemma creach_rights d C1 x C2 i1 (d1 : decomp T) : dec_ok e0 d -> d_comps d = C1 ++ x :: C2 -> d_keys d1 = d_keys d ->
  creach (dc_iet x) d i1 d1 -> rights d1 = rights d.
Proof.
  intros H E Ky [_ C]. unfold rights. rewrite Ky. apply flat_map_same. intros l _.
  assert (Hx : In x (d_comps d)) by (rewrite E; apply in_middle; auto).
  destruct (dk_good _ _ H x Hx) as [Gx _]. pose proof (cpath_moved _ _ _ _ (wf_proper _ _ (proj1 Gx)) C) as M.
  rewrite (mv_topR _ _ _ _ M), (mv_botR _ _ _ _ M). reflexivity.
Qed.

(** ** A separating connection *)

Lemma twin_separating fuel d C1 x C2 i1 k b t (d1 d12 : decomp T) : dec_ok e0 d -> d_comps d = C1 ++ x :: C2 ->
  d_stack d1 = [] -> d_keys d1 = d_keys d -> d_comps d1 = C1 ++ iet_set x (left_part i1 k) :: C2 ->
  creach (dc_iet x) d i1 d1 -> invariant_prefix (exch_of i1 (d_len d1)) k ->
  (forall j, invariant_prefix (exch_of i1 (d_len d1)) j -> k <= j) ->
  hd_error (rev (i_bottom (left_part i1 k))) = Some b -> hd_error (rev (i_top (left_part i1 k))) = Some t ->
  good (left_part i1 k) (d_len d1) -> good (right_part i1 k) (d_len d1) -> length (d_keys d) < fuel ->
  twins (A d) (K d) d1 d12 ->
  exists st d' st2 d2', step_separating fuel (length C1) b t (right_part i1 k) d1 = Ok (st, d') /\
    step_separating fuel (length C1) b t (right_part i1 k) d12 = Ok (st2, d2') /\ sames st st2 /\ linked d' d2' /\ reports d st d'.
Proof.
  intros H E St Ky Ec R Hk Hmin Hb Ht GL GR Hfuel TW.
  destruct (step_separating_ok e0 fuel d C1 x C2 i1 k b t d1 H E St Ky Ec R Hk Hmin Hb Ht GL GR Hfuel) as (st & d' & Es & _ & P).
  assert (Hx : In x (d_comps d)) by (rewrite E; apply in_middle; auto).
  destruct (dk_good _ _ H x Hx) as [Gx Sw]. pose proof Gx as (Wx & _).
  pose proof (asteps_reach e0 d C1 x C2 i1 d1 H E R) as As.
  destruct (dk_inv _ _ H) as (D0 & CI0). destruct (asteps_inv _ _ _ _ _ _ CI0 As) as (D & CI).
  set (Q1 := map (fun y => exch_of (dc_iet y) (d_len d1)) C1) in *.
  set (Q2 := map (fun y => exch_of (dc_iet y) (d_len d1)) C2) in *.
  set (e := exch_of i1 (d_len d1)) in *.
  assert (NB : skipn k (e_bot e) <> []).
  { destruct Hk as [Hk1 _]. intro C. apply (f_equal (@length _)) in C. rewrite skipn_length in C.
    pose proof (Permutation_length (proj1 (proj2 (r_wf _ _ _ _ (proj1 R))))) as PL. simpl in C, Hk1. lia. }
  assert (Hb' : exists b', hd_error (skipn k (e_bot e)) = Some b') by (destruct (skipn k (e_bot e)); [contradiction|simpl; eauto]).
  destruct Hb' as (b' & Hb').
  destruct (split_rows e0 Q1 e Q2 (d_conns d1) D k b t b' CI Hk Hb Ht Hb')
    as (PL & PR & T2 & N1 & N2 & B1 & T1 & LB & LT & Nb & Bl & Tl & B3 & T3 & B4 & F1 & F2).
  destruct (split_tail e0 Q1 e Q2 (d_conns d1) D k b t b' CI Hk Hb Ht Hb') as [Ebr _].
  assert (Il : incl (firstn k (e_top e)) (e_top e)) by (intros l Hl; rewrite <- (firstn_skipn k (e_top e)); apply in_or_app; auto).
  assert (Ir : incl (skipn k (e_top e)) (e_top e)) by (intros l Hl; rewrite <- (firstn_skipn k (e_top e)); apply in_or_app; auto).
  pose proof (reach_labels _ _ _ _ Wx (proj1 R)) as Px.
  assert (Ix : incl (e_top e) (i_top (dc_iet x))).
  { intros l Hl. apply (Permutation_in _ (Permutation_sym Px)). exact Hl. }
  assert (Kx : incl (i_top (dc_iet x)) (d_keys d1)).
  { intros l Hl. rewrite Ky. eapply dk_label; eassumption. }
  assert (Lx : forall l, In l (e_top e) -> A d l) by (intros l Hl; apply live_in; exists x; auto).
  assert (Lv : forall l, In l (live (Q1 ++ e :: Q2)) <-> A d l).
  { intro l. unfold A. rewrite live_in, in_live. split.
    - intros (y & Hy & Hl). apply in_middle in Hy as [->|Hy]; [exists x; auto|].
      unfold Q1, Q2 in Hy. rewrite <- map_app in Hy. apply in_map_iff in Hy as (z & <- & Hz). exists z.
      split; [rewrite E; apply in_middle; auto|exact Hl].
    - intros (y & Hy & Hl). rewrite E in Hy. apply in_middle in Hy as [->|Hy].
      + exists e. split; [apply in_middle; auto|]. exact (Permutation_in _ Px Hl).
      + exists (exch_of (dc_iet y) (d_len d1)). split; [|exact Hl]. apply in_middle. right. unfold Q1, Q2. rewrite <- map_app.
        apply (in_map (fun y => exch_of (dc_iet y) (d_len d1))). exact Hy. }
  assert (Hdead : Forall (fun a => ~ In a (live (pieces d))) (D b)).
  { apply Forall_forall. intros a Ha C. destruct (ci_parts _ _ _ _ CI) as (_ & I1 & _).
    apply (I1 b a); [apply Lv, Lx, Il, B3|exact Ha|]. apply Lv. exact C. }
  assert (Ca : comp_at d1 (length C1) = Ok (iet_set x (left_part i1 k))) by (eapply comp_at_mid; exact Ec).
  assert (Ca2 : comp_at d12 (length C1) = Ok (iet_set x (left_part i1 k))) by (rewrite <- (comp_at_twin d1 d12) by apply TW; exact Ca).
  assert (SwL : i_swap (left_part i1 k) = false) by (simpl; rewrite (r_swap _ _ _ _ (proj1 R)); exact Sw).
  pose proof GL as ((NDL & PmL & _) & _).
  assert (KL : incl (i_top (left_part i1 k)) (d_keys d1)) by (intros l Hl; apply Kx, Ix, Il; exact Hl).
  assert (KL2 : incl (i_top (left_part i1 k)) (d_keys d12)) by (rewrite <- (tw_keys _ _ _ _ TW); exact KL).
  assert (Hf : length (i_top (left_part i1 k)) < fuel).
  { assert (length (i_top (left_part i1 k)) <= length (d_keys d1)) by (apply NoDup_incl_length; assumption). rewrite Ky in *. lia. }
  assert (Hf' : exists t', hd_error (skipn k (e_top e)) = Some t' /\ In t' (e_top e)).
  { destruct (skipn k (e_top e)) as [|t' ?] eqn:Et; [contradiction|]. exists t'. split; [reflexivity|]. apply Ir. left. reflexivity. }
  destruct Hf' as (t' & Ht' & It').
  assert (Kb : In b (d_keys d1)) by (apply KL; exact B3). assert (Kt : In t (d_keys d1)) by (apply KL; exact T3).
  assert (Kb' : In b' (d_keys d1)) by (apply Kx, Ix, Ir; exact B4).
  assert (Kt' : In t' (d_keys d1)) by (apply Kx, Ix, It').
  assert (Nl : length C1 <> length (d_comps d1)).
  { rewrite Ec, app_length. simpl. lia. }
  pose proof (keys_nodup d H) as NDk. pose proof (live_keys d H) as Ik.
  pose proof (tw_conns _ _ _ _ TW) as HK.
  pose proof (walk_ok d1 (length C1) _ Ca SwL NDL PmL KL fuel b t Hb Ht Hf) as W1.
  pose proof (walk_ok d12 (length C1) _ Ca2 SwL NDL PmL KL2 fuel b t Hb Ht Hf) as W2.
  assert (S1 : skip_bottom b (bottomRight (d_conns d1 b)) = Ok (mksep (last (D b) b) PARALLEL)) by (rewrite Ebr; apply skip_links).
  assert (S2 : skip_top t (rev (topRight (d_conns d1 t))) = Ok (mksep t ANTIPARALLEL)) by (rewrite (ci_topR _ _ _ _ CI); reflexivity).
  pose proof (rel_skip_bottom _ _ _ _ _ _ _ _ b (D b) HK (Lx b (Il b B3)) Ebr Hdead) as S3.
  pose proof (rel_skip_top _ _ _ _ _ _ _ _ t HK (Lx t (Il t T3))) as S4.
  pose proof (sep_compute fuel (length C1) b t b' t' (right_part i1 k) d1 _ (mksep (last (D b) b) PARALLEL) _ _ Ca SwL Hb Ht eq_refl Hb' Ht' Kb Kt Kb' Kt' Nb Nl eq_refl W1 S1 S2) as Es1.
  rewrite (tw_keys _ _ _ _ TW) in Kb, Kt, Kb', Kt'. rewrite (tw_comps _ _ _ _ TW) in Nl.
  pose proof (sep_compute fuel (length C1) b t b' t' (right_part i1 k) d12 _ (far TC BC (mksep (last (D b) b) PARALLEL)) _ _ Ca2 SwL Hb Ht eq_refl Hb' Ht' Kb Kt Kb' Kt' Nb Nl eq_refl W2 S3 S4) as Es2.
  rewrite Es1 in Es.
  do 4 eexists. split; [exact Es1|].
  split; [exact Es2|]. injection Es as <- <-. split; [|split].
  - split; [reflexivity|]. split; [reflexivity|]. split; [cbn; rewrite (tw_comps _ _ _ _ TW); reflexivity|].
    cbn [dst_equivalent option_map]. f_equal. rewrite !edges_app. f_equal; apply edges_flat; intro l; rewrite !edges_backwards, !edges_crossing; reflexivity.
  - apply linked_make; cbn [set_conns set_comps d_len d_stack d_keys d_comps d_conns]; try (symmetry; apply TW).
    + apply (sp_ok _ _ _ _ _ _ _ P).
    + rewrite (tw_comps _ _ _ _ TW). reflexivity.
    + apply (rel_lv _ _ _ _ _ (live (pieces d))).
      * intro l. fold (A d l). rewrite <- Lv, live_in, in_live. cbn [set_conns set_comps d_comps]. rewrite Ec, <- app_assoc. cbn [app]. split.
        -- intros (y & Hy & Hl). apply in_middle in Hy as [->|Hy].
           ++ rewrite <- (firstn_skipn k (e_top e)) in Hl. apply in_app_or in Hl as [Hl|Hl].
              ** exists (iet_set x (left_part i1 k)). split; [apply in_middle; auto|exact Hl].
              ** exists (mkdcomp (right_part i1 k) None None None). split; [|exact Hl].
                 apply in_middle. right. apply in_or_app. right. apply in_or_app. right. left. reflexivity.
           ++ unfold Q1, Q2 in Hy. rewrite <- map_app in Hy. apply in_map_iff in Hy as (z & <- & Hz). exists z.
              split; [|exact Hl]. apply in_middle. right. apply in_app_or in Hz. apply in_or_app.
              destruct Hz; [left; assumption|right; apply in_or_app; left; assumption].
        -- intros (y & Hy & Hl). apply in_middle in Hy as [->|Hy]; [exists e; split; [apply in_middle; auto|apply Il; exact Hl]|].
           rewrite app_assoc in Hy. apply in_app_or in Hy as [Hy|[<-|[]]]; [|exists e; split; [apply in_middle; auto|apply Ir; exact Hl]].
           exists (exch_of (dc_iet y) (d_len d1)). split; [|exact Hl]. apply in_middle. right. unfold Q1, Q2. rewrite <- map_app.
           apply (in_map (fun y => exch_of (dc_iet y) (d_len d1))). exact Hy.
      * apply (rel_register (e_top e0) TC BC JL JR (live (pieces d)) NDk Ik (d_conns d1) (d_conns d12) b t (D b) HK); auto.
        -- apply (Lx b (Il b B3)).
        -- apply (Lx t (Il t T3)).
        -- apply (Lx b' (Ir b' B4)).
  - unfold reports. cbn [dst_connection]. rewrite <- (creach_rights d C1 x C2 i1 d1 H E Ky R). unfold rights. cbn [set_conns set_comps d_conns d_keys].
    rewrite <- (tw_keys _ _ _ _ TW) in Kb, Kb'.
    apply (occ_perm1 (d_keys d1) right_conns). intro z. apply register_rights; auto.
    rewrite Ky, (dk_keys _ _ H). exact NDk.
Qed.

(** ** A non-separating connection *)

Lemma twin_non_separating d C1 x C2 i1 i' a b (d1 d12 : decomp T) : dec_ok e0 d -> d_comps d = C1 ++ x :: C2 ->
  d_stack d1 = [] -> d_keys d1 = d_keys d -> d_comps d1 = C1 ++ iet_set x i' :: C2 ->
  creach (dc_iet x) d i1 d1 -> ~ reducible (exch_of i1 (d_len d1)) ->
  hd_error (i_top i1) = Some a -> hd_error (i_bottom i1) = Some b -> a <> b ->
  merge_step (exch_of i1 (d_len d1)) (exch_of i' (d_len d1)) -> i_swap i' = i_swap (dc_iet x) ->
  good i' (d_len d1) -> twins (A d) (K d) d1 d12 ->
  exists st d' st2 d2', step_non_separating (length C1) b a d1 = Ok (st, d') /\
    step_non_separating (length C1) b a d12 = Ok (st2, d2') /\ sames st st2 /\ linked d' d2' /\ reports d st d'.
Proof.
  intros H E St Ky Ec R Hk Ha Hb Nab HM Sw' G' TW.
  destruct (step_non_separating_ok e0 d C1 x C2 i1 i' a b d1 H E St Ky Ec R Hk Ha Hb Nab HM Sw' G') as (st & d' & Es & _ & P).
  assert (Hx : In x (d_comps d)) by (rewrite E; apply in_middle; auto).
  destruct (dk_good _ _ H x Hx) as [Gx Sw]. pose proof Gx as (Wx & _). rewrite Sw in Sw'.
  pose proof (asteps_reach e0 d C1 x C2 i1 d1 H E R) as As.
  destruct (dk_inv _ _ H) as (D0 & CI0). destruct (asteps_inv _ _ _ _ _ _ CI0 As) as (D & CI).
  set (Q1 := map (fun y => exch_of (dc_iet y) (d_len d1)) C1) in *.
  set (Q2 := map (fun y => exch_of (dc_iet y) (d_len d1)) C2) in *.
  set (e := exch_of i1 (d_len d1)) in *. set (e' := exch_of i' (d_len d1)) in *.
  change (i_top i1) with (e_top e) in Ha. change (i_bottom i1) with (e_bot e) in Hb.
  pose proof HM as (a' & b0 & X & Y1 & Y2 & Et & Eb & El & Et' & Eb' & El').
  rewrite Et in Ha. rewrite Eb in Hb. cbn [hd_error] in Ha, Hb. injection Ha as ->. injection Hb as ->.
  assert (Pr : proper e) by (apply (ci_proper _ _ _ _ CI); apply in_middle; auto).
  assert (HX : exists first, hd_error X = Some first).
  { destruct X as [|f X]; [|simpl; eauto]. exfalso.
    pose proof (Permutation_length (proj1 (proj2 Pr))) as PL. rewrite Et, Eb in PL. simpl in PL. rewrite app_length in PL. simpl in PL. lia. }
  destruct HX as (first & Hf).
  pose proof (reach_labels _ _ _ _ Wx (proj1 R)) as Px.
  assert (Ix : incl (e_top e) (i_top (dc_iet x))).
  { intros l Hl. apply (Permutation_in _ (Permutation_sym Px)). exact Hl. }
  assert (Kx : incl (i_top (dc_iet x)) (d_keys d1)).
  { intros l Hl. rewrite Ky. eapply dk_label; eassumption. }
  assert (Ke : incl (e_top e) (d_keys d1)) by (intros l Hl; apply Kx, Ix, Hl).
  assert (Ina : In a (e_top e)) by (rewrite Et; left; reflexivity).
  assert (Inb : In b (e_top e)) by (apply (Permutation_in _ (Permutation_sym (proj1 (proj2 Pr)))); rewrite Eb; left; reflexivity).
  assert (Inf : In first (e_top e)) by (rewrite Et; right; destruct X; [discriminate|]; injection Hf as ->; left; reflexivity).
  assert (NaX : ~ In a X) by (pose proof (proj1 Pr) as ND; rewrite Et in ND; apply NoDup_cons_iff in ND; apply ND).
  assert (Nfa : first <> a).
  { intros ->. apply NaX. destruct X; [discriminate|]. injection Hf as ->. left. reflexivity. }
  assert (Ca : comp_at d1 (length C1) = Ok (iet_set x i')) by (eapply comp_at_mid; exact Ec).
  assert (Ca2 : comp_at d12 (length C1) = Ok (iet_set x i')) by (rewrite <- (comp_at_twin d1 d12) by apply TW; exact Ca).
  assert (Ebr : bottomRight (d_conns d1 b) = links b (D b)) by (eapply merge_tail; eassumption).
  assert (Lx : forall l, In l (e_top e) -> A d l) by (intros l Hl; apply live_in; exists x; auto).
  assert (Lv : forall l, In l (live (Q1 ++ e :: Q2)) <-> A d l).
  { intro l. unfold A. rewrite live_in, in_live. split.
    - intros (y & Hy & Hl). apply in_middle in Hy as [->|Hy]; [exists x; auto|].
      unfold Q1, Q2 in Hy. rewrite <- map_app in Hy. apply in_map_iff in Hy as (z & <- & Hz). exists z.
      split; [rewrite E; apply in_middle; auto|exact Hl].
    - intros (y & Hy & Hl). rewrite E in Hy. apply in_middle in Hy as [->|Hy].
      + exists e. split; [apply in_middle; auto|]. exact (Permutation_in _ Px Hl).
      + exists (exch_of (dc_iet y) (d_len d1)). split; [|exact Hl]. apply in_middle. right. unfold Q1, Q2. rewrite <- map_app.
        apply (in_map (fun y => exch_of (dc_iet y) (d_len d1))). exact Hy. }
  destruct (ci_parts _ _ _ _ CI) as (NDl & I1 & _).
  assert (Hdead : Forall (fun z => ~ In z (live (pieces d))) (D b)).
  { apply Forall_forall. intros z Hz C. apply (I1 b z); [apply Lv, Lx, Inb|exact Hz|]. apply Lv. exact C. }
  pose proof (keys_nodup d H) as NDk. pose proof (live_keys d H) as Ik.
  pose proof (tw_conns _ _ _ _ TW) as HK.
  assert (S1 : skip_bottom b (bottomRight (d_conns d1 b)) = Ok (mksep (last (D b) b) PARALLEL)) by (rewrite Ebr; apply skip_links).
  assert (S2 : skip_top a (rev (topRight (d_conns d1 a))) = Ok (mksep a ANTIPARALLEL)) by (rewrite (ci_topR _ _ _ _ CI); reflexivity).
  pose proof (rel_skip_bottom _ _ _ _ _ _ _ _ b (D b) HK (Lx b Inb) Ebr Hdead) as S3.
  pose proof (rel_skip_top _ _ _ _ _ _ _ _ a HK (Lx a Ina)) as S4.
  assert (HB : exists p, hd_error (e_bot e') = Some p /\ In p (e_top e)).
  { rewrite Eb'. destruct Y1 as [|p Y1]; [exists b; split; [reflexivity|exact Inb]|]. exists p. split; [reflexivity|].
    apply (Permutation_in _ (Permutation_sym (proj1 (proj2 Pr)))). rewrite Eb. right. left. reflexivity. }
  destruct HB as (p & Hp & Inp).
  assert (Hf1 : hd_error (i_top (dc_iet (iet_set x i'))) = Some first) by (change (hd_error (e_top e') = Some first); rewrite Et'; exact Hf).
  assert (Ke2 : incl (e_top e) (d_keys d12)) by (rewrite <- (tw_keys _ _ _ _ TW); exact Ke).
  pose proof (merge_compute (length C1) a b first p d1 (iet_set x i') _ _ Ca Sw' Hf1 Hp (Ke a Ina) (Ke b Inb) (Ke first Inf) (Ke p Inp)
    (not_eq_sym Nab) Nfa S1 S2) as Es1.
  pose proof (merge_compute (length C1) a b first p d12 (iet_set x i') _ _ Ca2 Sw' Hf1 Hp (Ke2 a Ina) (Ke2 b Inb) (Ke2 first Inf) (Ke2 p Inp)
    (not_eq_sym Nab) Nfa S3 S4) as Es2.
  rewrite Es1 in Es. do 4 eexists. split; [exact Es1|]. split; [exact Es2|]. injection Es as <- <-. split; [|split].
  - split; [reflexivity|]. split; [reflexivity|]. split; [reflexivity|].
    cbn [dst_equivalent option_map]. f_equal. rewrite !edges_backwards, !edges_app, !edges_crossing. reflexivity.
  - apply linked_make; cbn [set_conns d_len d_stack d_keys d_comps d_conns]; try (symmetry; apply TW).
    + apply (sp_ok _ _ _ _ _ _ _ P).
    + apply (rel_merge (e_top e0) TC BC JL JR (live (pieces d)) NDk Ik (d_conns d1) (d_conns d12) b a (D b) HK); auto.
      * apply (Lx b Inb).
      * apply (Lx a Ina).
      * apply (Lx first Inf).
      * apply (ci_topR _ _ _ _ CI).
      * intro l. fold (A d l). rewrite <- Lv, live_in, in_live. cbn [set_conns d_comps]. rewrite Ec. split.
        -- intros (y & Hy & Hl). apply in_middle in Hy as [->|Hy].
           ++ change (In l (e_top e')) in Hl. rewrite Et' in Hl. split; [|intros ->; contradiction].
              exists e. split; [apply in_middle; auto|]. rewrite Et. right. exact Hl.
           ++ assert (Hy' : In (exch_of (dc_iet y) (d_len d1)) (Q1 ++ Q2)).
              { unfold Q1, Q2. rewrite <- map_app. apply (in_map (fun y => exch_of (dc_iet y) (d_len d1))). exact Hy. }
              split; [exists (exch_of (dc_iet y) (d_len d1)); split; [apply in_middle; auto|exact Hl]|].
              intros ->. exact (pieces_disjoint Q1 e Q2 _ a NDl Hy' Ina Hl).
        -- intros [(y & Hy & Hl) Nl]. apply in_middle in Hy as [->|Hy].
           ++ exists (iet_set x i'). split; [apply in_middle; auto|]. change (In l (e_top e')). rewrite Et'. rewrite Et in Hl.
              destruct Hl; [congruence|assumption].
           ++ unfold Q1, Q2 in Hy. rewrite <- map_app in Hy. apply in_map_iff in Hy as (z & <- & Hz). exists z.
              split; [apply in_middle; auto|exact Hl].
      * intros l c0 Hl E0 Hc. apply Lv in Hl. pose proof Hl as Hl'. apply in_live in Hl as (q & Hq & Hl).
        rewrite (ci_chain _ _ _ _ CI q l Hq Hl) in E0. apply links_inj in E0. subst c0.
        apply in_app_or in Hc as [Hc|Hc]; [apply (I1 l a Hl' Hc); apply Lv, Lx, Ina|].
        assert (Q : a = lst (e_top q)).
        { unfold tail_of in Hc. destruct (Nat.eqb l _); [|destruct Hc]. destruct (Nat.eqb _ _); [destruct Hc|]. destruct Hc as [<-|[]]. reflexivity. }
        assert (Iq : In a (e_top q)) by (rewrite Q; apply lst_in; apply (ci_proper _ _ _ _ CI q Hq)).
        assert (q = e) by (exact (ci_same_piece _ _ _ _ CI q e a Hq ltac:(apply in_middle; auto) Iq Ina)). subst q.
        rewrite Et in Q. unfold lst in Q. destruct X as [|f1 X']; [discriminate|].
        change (a = last (f1 :: X') 0) in Q. apply NaX. rewrite Q. apply last_in. discriminate.
  - unfold reports. cbn [dst_connection]. rewrite <- (creach_rights d C1 x C2 i1 d1 H E Ky R). unfold rights. cbn [set_conns d_conns d_keys].
    apply (occ_perm1 (d_keys d1) right_conns). intro z. apply merge_conns_occ; auto.
    rewrite Ky, (dk_keys _ _ H). exact NDk.
Qed.

(** ** The end of the call *)

Lemma linked_rows d d1 d12 : twins (A d) (K d) d1 d12 -> dec_ok e0 d1 ->
  (forall l, In l (live (pieces d)) <-> In l (live (pieces d1))) -> linked d1 d12.
Proof.
  intros TW H Hl. apply linked_make; try (symmetry; apply TW); auto.
  apply (rel_lv _ _ _ _ _ (live (pieces d))); [exact Hl|]. apply TW.
Qed.

Lemma live_same (d d' : decomp T) C1 x C2 y : d_comps d = C1 ++ x :: C2 -> d_comps d' = C1 ++ y :: C2 ->
  Permutation (i_top (dc_iet x)) (i_top (dc_iet y)) -> forall l, In l (live (pieces d)) <-> In l (live (pieces d')).
Proof.
  intros E E' Pm l. rewrite !live_in, E, E'. split; intros (z & Hz & Hl); apply in_middle in Hz as [->|Hz].
  - exists y. split; [apply in_middle; auto|]. exact (Permutation_in _ Pm Hl).
  - exists z. split; [apply in_middle; auto|exact Hl].
  - exists x. split; [apply in_middle; auto|]. exact (Permutation_in _ (Permutation_sym Pm) Hl).
  - exists z. split; [apply in_middle; auto|exact Hl].
Qed.

Lemma twin_finish fuel d C1 x C2 st i' (d1 d12 : decomp T) : dec_ok e0 d -> d_comps d = C1 ++ x :: C2 ->
  good i' (d_len d1) -> d_stack d1 = [] -> d_keys d1 = d_keys d -> d_comps d1 = C1 ++ iet_set x i' :: C2 ->
  (is_result st = CYLINDER -> i_size (dc_iet x) = 1 /\ i' = dc_iet x /\ d1 = d) ->
  (is_result st <> CYLINDER -> dinduce_post 1 (dc_iet x) d st i' d1) -> length (d_keys d) < fuel ->
  twins (A d) (K d) d1 d12 ->
  exists st' d' st2 d2', step_finish fuel st (length C1) d1 = Ok (st', d') /\
    step_finish fuel st (length C1) d12 = Ok (st2, d2') /\ sames st' st2 /\ linked d' d2' /\ reports d st' d'.
Proof.
  intros H E G St Ky Ec HC HN Hfuel TW.
  destruct (step_finish_ok e0 fuel d C1 x C2 st i' d1 H E G St Ky Ec HC HN Hfuel) as (st' & d' & Es & P & _).
  assert (Hx : In x (d_comps d)) by (rewrite E; apply in_middle; auto).
  destruct (dk_good _ _ H x Hx) as [Gx Sw].
  assert (Ec2 : d_comps d12 = C1 ++ iet_set x i' :: C2) by (rewrite <- (tw_comps _ _ _ _ TW); exact Ec).
  assert (Set_ : forall fl, Permutation (i_top (dc_iet x)) (i_top i') -> dec_ok e0 (set_comps d1 (C1 ++ fl :: C2)) -> dc_iet fl = i' ->
    linked (set_comps d1 (C1 ++ fl :: C2)) (set_comps d12 (C1 ++ fl :: C2))).
  { intros fl Pm Hd Ef. apply linked_make; cbn [set_comps d_len d_stack d_keys d_comps d_conns]; try (symmetry; apply TW); auto.
    apply (rel_lv _ _ _ _ _ (live (pieces d))); [|apply TW]. eapply live_same; [exact E|reflexivity|]. rewrite Ef. exact Pm. }
  unfold step_finish in *. rewrite (comp_at_mid d1 C1 (iet_set x i') C2 Ec) in *. rewrite (comp_at_mid d12 C1 (iet_set x i') C2 Ec2). cbn [bind] in *.
  assert (Pm : is_result st = LIMIT_REACHED \/ is_result st = WITHOUT_PERIODIC_TRAJECTORY_BOSHERNITZAN \/ is_result st = WITHOUT_PERIODIC_TRAJECTORY_AUTO_SIMILAR ->
    Permutation (i_top (dc_iet x)) (i_top i') /\ rights d1 = rights d).
  { intro Q. assert (R : creach (dc_iet x) d i' d1).
    { specialize (HN ltac:(intro C; rewrite C in Q; intuition discriminate)). unfold dinduce_post in HN.
      destruct Q as [Q|[Q|Q]]; rewrite Q in HN; apply HN. }
    split; [exact (reach_labels _ _ _ _ (proj1 Gx) (proj1 R))|]. exact (creach_rights d C1 x C2 i' d1 H E Ky R). }
  assert (Rp : forall r cs, rights d1 = rights d -> reports d (mkdstep r None None None) (set_comps d1 cs)).
  { intros r cs Q. unfold reports. cbn [dst_connection app]. change (rights (set_comps d1 cs)) with (rights d1). rewrite Q. reflexivity. }
  destruct (is_result st) eqn:Er;
    rewrite ?(comp_set_mid d1 C1 _ C2 _ Ec) in *; rewrite ?(comp_set_mid d12 C1 _ C2 _ Ec2); cbn [bind] in *.
  - injection Es as <- <-. do 4 eexists. split; [reflexivity|]. split; [reflexivity|]. split; [repeat split|].
    destruct (Pm (or_introl eq_refl)) as [Pm1 Pm2]. split; [|unfold reports; cbn; rewrite Pm2; reflexivity].
    apply (linked_rows d); [exact TW|apply (sp_ok _ _ _ _ _ _ _ P)|]. eapply live_same; [exact E|exact Ec|exact Pm1].
  - injection Es as <- <-. do 4 eexists. split; [reflexivity|]. split; [reflexivity|]. split; [repeat split|].
    destruct (HC eq_refl) as (_ & Q & Qd). split; [|apply Rp; rewrite Qd; reflexivity].
    apply Set_; [rewrite Q; reflexivity|apply (sp_ok _ _ _ _ _ _ _ P)|reflexivity].
  - specialize (HN ltac:(discriminate)). unfold dinduce_post in HN. rewrite Er in HN.
    destruct HN as (i1 & k & b & t & Hs & R & P1 & P2 & -> & Hb & Ht & -> & GR). cbn [is_connection is_additional] in *.
    exact (twin_separating fuel d C1 x C2 i1 k b t d1 d12 H E St Ky Ec R P1 P2 Hb Ht G GR Hfuel TW).
  - specialize (HN ltac:(discriminate)). unfold dinduce_post in HN. rewrite Er in HN.
    destruct HN as (i1 & a & b & Hs & R & P1 & Ha & Hb & Nab & HM & Et & Sw' & ->). cbn [is_connection] in *.
    exact (twin_non_separating d C1 x C2 i1 i' a b d1 d12 H E St Ky Ec R P1 Ha Hb Nab HM Sw' G TW).
  - injection Es as <- <-. do 4 eexists. split; [reflexivity|]. split; [reflexivity|]. split; [repeat split|].
    split; [|apply Rp, Pm; auto]. apply Set_; [apply Pm; auto|apply (sp_ok _ _ _ _ _ _ _ P)|reflexivity].
  - injection Es as <- <-. do 4 eexists. split; [reflexivity|]. split; [reflexivity|]. split; [repeat split|].
    split; [|apply Rp, Pm; auto]. apply Set_; [apply Pm; auto|apply (sp_ok _ _ _ _ _ _ _ P)|reflexivity].
Qed.

(** ** The whole call *)

Definition both (d : decomp T) (p p' : dstep * decomp T) : Prop :=
  sames (fst p) (fst p') /\ linked (snd p) (snd p') /\ reports d (fst p) (snd p).

Lemma twin_limited fuel d d2 C1 x C2 limit : dec_ok e0 d -> d_comps d = C1 ++ x :: C2 -> linked d d2 ->
  (limit <= INT_MAX)%Z -> (limit <> -1)%Z -> length (d_keys d) < fuel ->
  rres (both d) (step_limited fuel limit (length C1) d) (step_limited fuel limit (length C1) d2).
Proof.
  intros H E LK HM Hm Hf. unfold step_limited.
  pose proof (twin_step_start (A d) (K d) (length C1) d d2 LK) as TS.
  destruct (step_start_ok e0 d C1 x C2 H E) as (cost & v & Es & Ec & H0). rewrite Es in *.
  destruct (step_start (length C1) d2) as [[cost2 d02]| | | |]; try contradiction. destruct TS as [TS1 TW0]. cbn [fst snd] in TS1, TW0. subst cost2.
  cbn [bind]. set (d0 := set_comps d _) in *. set (x0 := iet_set x (set_saf (dc_iet x) (Some v))) in *.
  assert (E0 : d_comps d0 = C1 ++ x0 :: C2) by reflexivity.
  assert (Cc : cost = None \/ cost = Some 64%Z) by (destruct (vis0 _); auto).
  assert (Lv : forall l, In l (live (pieces d)) <-> In l (live (pieces d0))) by (eapply live_same; [exact E|exact E0|reflexivity]).
  pose proof (linked_rows d d0 d02 TW0 H0 Lv) as LK0.
  pose proof (twin_step_loop (A d0) (K d0) (Kmove d0 H0) fuel cost (length C1) fuel limit d0 d02 LK0) as TL.
  destruct (step_loop_ok e0 fuel cost Cc fuel d0 C1 x0 C2 limit H0 E0 HM Hm) as [[El Hl]|(st & i' & d1 & El & G1 & S1 & K1 & Ec1 & PC & PN & PL)].
  - rewrite El in *. destruct (step_loop fuel fuel cost limit (length C1) d02); try contradiction. exact I.
  - rewrite El in *. destruct (step_loop fuel fuel cost limit (length C1) d02) as [[st2 d12]| | | |]; try contradiction.
    destruct TL as [TL1 TW1]. cbn [fst snd] in TL1, TW1. subst st2. cbn [bind].
    destruct (twin_finish fuel d0 C1 x0 C2 st i' d1 d12 H0 E0 G1 S1 K1 Ec1 PC PN Hf TW1) as (st' & d' & st2 & d2' & F1 & F2 & F3 & F4 & F5).
    rewrite F1, F2. split; [exact F3|]. split; [exact F4|exact F5].
Qed.

Lemma twin_unlimited fuel cost : (cost = None \/ cost = Some 64%Z) ->
  forall rounds d d2 C1 x C2 limit, dec_ok e0 d -> d_comps d = C1 ++ x :: C2 -> linked d d2 -> length (d_keys d) < fuel ->
  (0 <= limit <= INT_MAX)%Z ->
  rres (both d) (step_unlimited rounds fuel cost limit (length C1) d) (step_unlimited rounds fuel cost limit (length C1) d2).
Proof.
  intro Hc. induction rounds as [|rounds IH]; intros d d2 C1 x C2 limit H E LK Hf Hl; [exact I|].
  cbn [step_unlimited].
  pose proof (twin_limited fuel d d2 C1 x C2 limit H E LK ltac:(lia) ltac:(lia) Hf) as TL.
  destruct (step_limited_ok e0 fuel d C1 x C2 limit H E) as [[El Hl']|(st & d1 & El & P & PL)]; try lia; auto.
  - rewrite El in *. destruct (step_limited fuel limit (length C1) d2); try contradiction. exact I.
  - rewrite El in *. destruct (step_limited fuel limit (length C1) d2) as [[st2 d12]| | | |]; try contradiction.
    destruct TL as (TL1 & TW1 & Rp). cbn [fst snd] in TL1, TW1, Rp. cbn [bind]. pose proof TL1 as (Er2 & _). rewrite Er2.
    destruct (dst_result st) eqn:Er; try (split; [exact TL1|split; assumption]).
    destruct (PL eq_refl) as (i1 & E1 & _).
    assert (Rd : Permutation (rights d1) (rights d)).
    { pose proof (sp_case _ _ _ _ _ _ _ P) as PC. unfold dstep_post in PC. rewrite Er in PC.
      destruct PC as (i2 & _ & _ & _ & _ & _ & _ & Q). unfold reports in Rp. rewrite Q in Rp. exact Rp. }
    assert (Go : forall r r', rres (both d1) r r' -> rres (both d) r r').
    { intros r r' Q. eapply rres_mono; [exact Q|]. intros p p' (Q1 & Q2 & Q3). split; [exact Q1|]. split; [exact Q2|].
      unfold reports in *. rewrite Q3, Rd. reflexivity. }
    assert (Hf1 : length (d_keys d1) < fuel) by (rewrite (dk_keys _ _ (sp_ok _ _ _ _ _ _ _ P)), <- (dk_keys _ _ H); exact Hf).
    destruct Hc as [-> | ->]; (destruct (Z.leb_spec (2 * (limit + 1)) INT_MAX); [|exact I]); apply Go;
      (eapply IH; [apply P|exact E1|exact TW1|exact Hf1|]); unfold INT_MAX in *; lia.
Qed.

Theorem twin_step fuel d d2 C1 x C2 limit : dec_ok e0 d -> d_comps d = C1 ++ x :: C2 -> linked d d2 ->
  (limit <= INT_MAX)%Z -> length (d_keys d) < fuel ->
  rres (both d) (decomposition_step fuel limit (length C1) d) (decomposition_step fuel limit (length C1) d2).
Proof.
  intros H E LK HM Hf. unfold decomposition_step. destruct (Z.eqb_spec limit (-1)) as [->|Hm]; [|exact (twin_limited fuel d d2 C1 x C2 limit H E LK HM Hm Hf)].
  pose proof (twin_step_start (A d) (K d) (length C1) d d2 LK) as TS.
  destruct (step_start_ok e0 d C1 x C2 H E) as (cost & v & Es & Ec & H0). rewrite Es in *.
  destruct (step_start (length C1) d2) as [[cost2 d02]| | | |]; try contradiction. destruct TS as [TS1 TW0]. cbn [fst snd] in TS1, TW0. subst cost2.
  cbn [bind]. set (d0 := set_comps d _) in *. set (x0 := iet_set x (set_saf (dc_iet x) (Some v))) in *.
  assert (E0 : d_comps d0 = C1 ++ x0 :: C2) by reflexivity.
  assert (Cc : cost = None \/ cost = Some 64%Z) by (destruct (vis0 _); auto).
  assert (Lv : forall l, In l (live (pieces d)) <-> In l (live (pieces d0))) by (eapply live_same; [exact E|exact E0|reflexivity]).
  pose proof (linked_rows d d0 d02 TW0 H0 Lv) as LK0.
  apply (twin_unlimited fuel cost Cc fuel d0 d02 C1 x0 C2 0%Z H0 E0 LK0 Hf). unfold INT_MAX. lia.
Qed.
End Side.
End Steps.
