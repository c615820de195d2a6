(** One call of [decompositionStep]: it never fails and what it does. *)
From Coq Require Import Reals Permutation Lia Lra.
From Verif Require Import Base QcTac LenT FM Subspace Lengths IET Api ZorichProof ReduceProof Saf InduceProof InduceCons World.
From Verif Require Import Spec Dyn Path Direct Decomp DecompSim DecompInv DecompRef DecompNav.
Open Scope nat_scope.

Section Step.
Context {T : Type} {O : LenOps T} {W : LenLaws T}.

Lemma hd_label_ok l a : hd_error l = Some a -> hd_label l = Ok a.
Proof. destruct l; [discriminate|]. intro H. injection H as ->. reflexivity. Qed.

Lemma hd_error_map {A B} (f : A -> B) l a : hd_error l = Some a -> hd_error (map f l) = Some (f a).
Proof. destruct l; [discriminate|]. intro H. injection H as ->. reflexivity. Qed.

(** The effect of a step on component [length C1], which was [x]. *)
Definition dstep_post (e0 : exch) (d : decomp T) C1 (x : dcomp T) C2 (st : dstep) (d' : decomp T) : Prop :=
  let i := dc_iet x in
  let s := d_len d in
  let s' := d_len d' in
  match dst_result st with
  | D_LIMIT_REACHED =>
    exists i', d_comps d' = C1 ++ iet_set x i' :: C2 /\ reach i s i' s' /\ i_size i <> 1 /\
      ~ reducible (exch_of i' s') /\ ~ heads_equal i' s' /\ balanced (exch_of i' s') /\
      st = mkdstep D_LIMIT_REACHED None None None
  | D_CYLINDER =>
    exists i', i_size i = 1 /\ d_comps d' = C1 ++ mkdcomp i' (Some true) (Some false) (Some false) :: C2 /\
    i_top i' = i_top i /\ i_bottom i' = i_bottom i /\ s' = s /\
    d_conns d' = d_conns d /\ st = mkdstep D_CYLINDER None None None
  | D_SEPARATING_CONNECTION =>
    exists i1 k b t walk, reach i s i1 s' /\ invariant_prefix (exch_of i1 s') k /\
      (forall j, invariant_prefix (exch_of i1 s') j -> k <= j) /\
      d_comps d' = C1 ++ iet_set x (left_part i1 k) :: C2 ++ [mkdcomp (right_part i1 k) None None None] /\
      direct_connection e0 b t /\
      st = mkdstep D_SEPARATING_CONNECTION (Some (right_conn (b, t))) (Some walk) (Some (length (d_comps d)))
  | D_NON_SEPARATING_CONNECTION =>
    exists i1 i' b t walk, reach i s i1 s' /\ merge_step (exch_of i1 s') (exch_of i' s') /\ ~ reducible (exch_of i1 s') /\
      d_comps d' = C1 ++ iet_set x i' :: C2 /\ direct_connection e0 b t /\
      st = mkdstep D_NON_SEPARATING_CONNECTION (Some (right_conn (b, t))) (Some walk) None
  | D_WITHOUT_PERIODIC_TRAJECTORY_BOSHERNITZAN =>
    exists i', d_comps d' = C1 ++ mkdcomp i' (Some false) (Some true) (dc_keane x) :: C2 /\ reach i s i' s' /\ i_size i <> 1 /\
      ~ reducible (exch_of i' s') /\ ~ heads_equal i' s' /\ ~ balanced (exch_of i' s') /\
      st = mkdstep D_WITHOUT_PERIODIC_TRAJECTORY_BOSHERNITZAN None None None
  | D_WITHOUT_PERIODIC_TRAJECTORY_AUTO_SIMILAR =>
    exists i', d_comps d' = C1 ++ mkdcomp i' (Some false) (Some true) (dc_keane x) :: C2 /\ reach i s i' s' /\ i_size i <> 1 /\
      similar_state i' s' /\ st = mkdstep D_WITHOUT_PERIODIC_TRAJECTORY_AUTO_SIMILAR None None None
  | D_KEANE => False
  end.

(** The path that is reported together with a connection, in terms of the decomposition [d'] after
    the step: for a separating connection, walking clockwise around the left component from
    its lower right corner one crosses the new connection and then the sides of the path; for
    a non-separating connection, the path runs back along the connections right of the new
    one at the bottom of [b], the bottom of [b], the connections left of it and the top of
    [t] that has been merged into [b]. *)
Definition walk_post (c : nat) (st : dstep) (d' : decomp T) : Prop :=
  match dst_result st with
  | D_SEPARATING_CONNECTION =>
    exists y k w, nth_error (d_comps d') c = Some y /\ dst_connection st = Some k /\ dst_equivalent st = Some w /\
      SConn (conn_neg k) :: w = flat_map (fun l => backwards (crossing d' c l false)) (rev (i_bottom (dc_iet y))) ++
                                flat_map (fun l => backwards (crossing d' c l true)) (i_top (dc_iet y))
  | D_NON_SEPARATING_CONNECTION =>
    exists y k w b t L1 L2 L3 R1 R2 D, nth_error (d_comps d') c = Some y /\ dst_connection st = Some k /\ dst_equivalent st = Some w /\
      In b (i_bottom (dc_iet y)) /\ ~ In t (i_top (dc_iet y)) /\ sp_label (cn_target k) = t /\ lft d' b false = L1 ++ L2 ++ L3 /\ rgt d' b false = R1 ++ k :: R2 /\
      R1 = links b D /\ sp_label (cn_source k) = last D b /\
      w = backwards ((SEdge (mkhe c t true) :: rev (map SConn L2)) ++ rev (map SConn L1) ++ [SEdge (mkhe c b false)] ++ map SConn R1)
  | _ => dst_equivalent st = None
  end.

Record step_post (e0 : exch) (d : decomp T) C1 (x : dcomp T) C2 (st : dstep) (d' : decomp T) : Prop := {
  sp_ok : dec_ok e0 d';
  sp_asteps : asteps (pieces d) (d_conns d) (pieces d') (d_conns d');
  sp_lens : forall l, ~ In l (i_top (dc_iet x)) -> nth_error (sl_lens (d_len d')) l = nth_error (sl_lens (d_len d)) l;
  sp_len : length (sl_lens (d_len d')) = length (sl_lens (d_len d));
  sp_conns : forall l, ~ In l (i_top (dc_iet x)) -> d_conns d' l = d_conns d l;
  sp_case : dstep_post e0 d C1 x C2 st d';
  sp_walk : walk_post (length C1) st d';
}.

Lemma creach_conns i d i1 (d1 : decomp T) l : wf i (d_len d) -> creach i d i1 d1 -> ~ In l (i_top i) -> d_conns d1 l = d_conns d l.
Proof. intros H [R C] Hl. apply (mv_out _ _ _ _ (cpath_moved _ _ _ _ (wf_proper _ _ H) C)). exact Hl. Qed.

(** A call of [induce] that changed nothing but the lengths and the order of the labels. *)
Lemma plain_ok e0 d C1 x C2 y i' (d' : decomp T) : dec_ok e0 d -> d_comps d = C1 ++ x :: C2 -> dc_iet y = i' ->
  dc_keane y <> Some true -> d_stack d' = [] -> d_keys d' = d_keys d -> d_comps d' = C1 ++ y :: C2 ->
  good i' (d_len d') -> creach (dc_iet x) d i' d' ->
  dec_ok e0 d' /\ asteps (pieces d) (d_conns d) (pieces d') (d_conns d').
Proof.
  intros H E Hy Hk St K E' G R.
  assert (Hx : In x (d_comps d)) by (rewrite E; apply in_middle; auto).
  destruct (dk_good _ _ H x Hx) as [Gx Sw].
  assert (A : asteps (pieces d) (d_conns d) (pieces d') (d_conns d')).
  { pose proof (asteps_reach e0 d C1 x C2 i' d' H E R) as A. unfold pieces at 2. rewrite E', map_app. cbn [map]. rewrite Hy. exact A. }
  split; [|exact A].
  apply (replace_ok e0 d C1 x C2 y [] d' H E); auto.
  - rewrite app_nil_r. exact E'.
  - apply G.
  - apply (r_len _ _ _ _ (proj1 R)).
  - apply (r_frame _ _ _ _ (proj1 R)).
  - intros z [<-|[]]. rewrite Hy. split; [exact G|]. split; [rewrite (r_swap _ _ _ _ (proj1 R)); exact Sw|exact Hk].
Qed.

(** ** Splitting *)

Lemma flat_map_ext_in {A B} (f g : A -> list B) l : (forall a, In a l -> f a = g a) -> flat_map f l = flat_map g l.
Proof. induction l as [|a l IH]; intro H; [reflexivity|]. cbn. rewrite (H a) by (left; reflexivity). rewrite IH; [reflexivity|]. intros. apply H. right. assumption. Qed.

Lemma nth_error_mid {A} (l1 : list A) x l2 : nth_error (l1 ++ x :: l2) (length l1) = Some x.
Proof. rewrite nth_error_app2, Nat.sub_diag by lia. reflexivity. Qed.

Lemma nodup_disj {A} (u v : list A) x : NoDup (u ++ v) -> In x u -> In x v -> False.
Proof.
  induction u as [|y u IH]; intros N Hu Hv; [destruct Hu|]. cbn in N. apply NoDup_cons_iff in N. destruct N as [N1 N2].
  destruct Hu as [->|Hu]; [apply N1, in_or_app; auto|]. exact (IH N2 Hu Hv).
Qed.

Lemma walk_register (d1 d' : decomp T) c b b' cn B0 Tp : d_conns d' = register b b' cn (d_conns d1) -> b <> b' ->
  hd_error (rev B0) = Some b -> NoDup (rev B0) -> ~ In b' (rev B0) -> ~ In b' Tp ->
  SConn (conn_neg cn) :: flat_map (fun l => backwards (crossing d1 c l false)) (rev B0) ++ flat_map (fun l => backwards (crossing d1 c l true)) Tp =
  flat_map (fun l => backwards (crossing d' c l false)) (rev B0) ++ flat_map (fun l => backwards (crossing d' c l true)) Tp.
Proof.
  intros Ed Nb Hb ND Ib It. destruct (rev B0) as [|b0 B]; [discriminate|]. injection Hb as ->.
  apply NoDup_cons_iff in ND. destruct ND as [Nin _]. cbn [flat_map].
  rewrite (flat_map_ext_in (fun l => backwards (crossing d' c l false)) (fun l => backwards (crossing d1 c l false)) B).
  2:{ intros l Hl. unfold crossing, lft, rgt. rewrite Ed. unfold register. rewrite !upd_other; [reflexivity| |]; intros ->; [exact (Nin Hl)|apply Ib; right; exact Hl]. }
  rewrite (flat_map_ext_in (fun l => backwards (crossing d' c l true)) (fun l => backwards (crossing d1 c l true)) Tp).
  2:{ intros l Hl. unfold crossing, lft, rgt. rewrite Ed. unfold register. rewrite upd_other by (intros ->; exact (It Hl)).
      destruct (Nat.eq_dec l b) as [->|N]; [rewrite upd_same; reflexivity|rewrite upd_other by exact N; reflexivity]. }
  assert (X : crossing d' c b false = crossing d1 c b false ++ [SConn cn]).
  { unfold crossing, lft, rgt. rewrite Ed. unfold register. rewrite upd_other by exact Nb. rewrite upd_same. cbn [bottomLeft bottomRight].
    rewrite map_app, <- !app_assoc. reflexivity. }
  rewrite X. replace (backwards (crossing d1 c b false ++ [SConn cn])) with (SConn (conn_neg cn) :: backwards (crossing d1 c b false)); [reflexivity|].
  unfold backwards. rewrite rev_app_distr. reflexivity.
Qed.

Lemma step_separating_ok e0 fuel d C1 x C2 i1 k b t (d1 : decomp T) : dec_ok e0 d -> d_comps d = C1 ++ x :: C2 ->
  d_stack d1 = [] -> d_keys d1 = d_keys d -> d_comps d1 = C1 ++ iet_set x (left_part i1 k) :: C2 ->
  creach (dc_iet x) d i1 d1 -> invariant_prefix (exch_of i1 (d_len d1)) k ->
  (forall j, invariant_prefix (exch_of i1 (d_len d1)) j -> k <= j) ->
  hd_error (rev (i_bottom (left_part i1 k))) = Some b -> hd_error (rev (i_top (left_part i1 k))) = Some t ->
  good (left_part i1 k) (d_len d1) -> good (right_part i1 k) (d_len d1) -> length (d_keys d) < fuel ->
  exists st d', step_separating fuel (length C1) b t (right_part i1 k) d1 = Ok (st, d') /\
    dst_result st = D_SEPARATING_CONNECTION /\ step_post e0 d C1 x C2 st d'.
Proof.
  intros H E St K Ec R Hk Hmin Hb Ht GL GR Hfuel.
  assert (Hx : In x (d_comps d)) by (rewrite E; apply in_middle; auto).
  destruct (dk_good _ _ H x Hx) as [Gx Sw]. pose proof Gx as (Wx & _).
  pose proof (asteps_reach e0 d C1 x C2 i1 d1 H E R) as A.
  destruct (dk_inv _ _ H) as (D0 & CI0). destruct (asteps_inv _ _ _ _ _ _ CI0 A) as (D & CI).
  set (Q1 := map (fun y => exch_of (dc_iet y) (d_len d1)) C1) in *.
  set (Q2 := map (fun y => exch_of (dc_iet y) (d_len d1)) C2) in *.
  set (e := exch_of i1 (d_len d1)) in *.
  change (i_bottom (left_part i1 k)) with (firstn k (e_bot e)) in Hb.
  change (i_top (left_part i1 k)) with (firstn k (e_top e)) in Ht.
  assert (NB : skipn k (e_bot e) <> []).
  { destruct Hk as [Hk1 _]. intro C. apply (f_equal (@length _)) in C. rewrite skipn_length in C.
    pose proof (Permutation_length (proj1 (proj2 (r_wf _ _ _ _ (proj1 R))))) as PL. simpl in C, Hk1. lia. }
  assert (Hb' : exists b', hd_error (skipn k (e_bot e)) = Some b') by (destruct (skipn k (e_bot e)); [contradiction|simpl; eauto]).
  destruct Hb' as (b' & Hb').
  destruct (split_rows e0 Q1 e Q2 (d_conns d1) D k b t b' CI Hk Hb Ht Hb')
    as (PL & PR & T2 & N1 & N2 & B1 & T1 & LB & LT & Nb & Bl & Tl & B3 & T3 & B4 & F1 & F2).
  destruct (split_tail e0 Q1 e Q2 (d_conns d1) D k b t b' CI Hk Hb Ht Hb') as [Ebr _].
  assert (Il : incl (firstn k (e_top e)) (e_top e)) by (intros l Hl; rewrite <- (firstn_skipn k (e_top e)); apply in_or_app; auto).
  assert (Ir : incl (skipn k (e_top e)) (e_top e)) by (intros l Hl; rewrite <- (firstn_skipn k (e_top e)); apply in_or_app; auto).
  assert (Ix : incl (e_top e) (i_top (dc_iet x))).
  { intros l Hl. apply (Permutation_in _ (Permutation_sym (reach_labels _ _ _ _ Wx (proj1 R)))). exact Hl. }
  assert (Kx : incl (i_top (dc_iet x)) (d_keys d1)).
  { intros l Hl. rewrite K. eapply dk_label; eassumption. }
  assert (Ca : comp_at d1 (length C1) = Ok (iet_set x (left_part i1 k))) by (eapply comp_at_mid; exact Ec).
  assert (SwL : i_swap (left_part i1 k) = false) by (simpl; rewrite (r_swap _ _ _ _ (proj1 R)); exact Sw).
  pose proof GL as ((NDL & PmL & _) & _).
  assert (KL : incl (i_top (left_part i1 k)) (d_keys d1)) by (intros l Hl; apply Kx, Ix, Il; exact Hl).
  unfold step_separating.
  rewrite (bottom_contour_ok d1 (length C1) _ Ca SwL), (top_contour_ok d1 (length C1) _ Ca SwL). cbn [bind].
  change (dc_iet (iet_set x (left_part i1 k))) with (left_part i1 k).
  change (i_bottom (left_part i1 k)) with (firstn k (e_bot e)). change (i_top (left_part i1 k)) with (firstn k (e_top e)).
  rewrite <- !map_rev, !map_map. cbn [he_label]. rewrite !map_id.
  rewrite (hd_label_ok _ _ Hb), (hd_label_ok _ _ Ht). cbn [bind]. unfold he_neg. cbn [he_comp he_label he_top negb].
  rewrite (walk_ok d1 (length C1) _ Ca SwL NDL PmL KL fuel b t Hb Ht).
  2:{ change (dc_iet (iet_set x (left_part i1 k))) with (left_part i1 k).
      assert (length (i_top (left_part i1 k)) <= length (d_keys d1)) by (apply NoDup_incl_length; assumption). rewrite K in *. lia. }
  cbn [bind].
  assert (Kb : In b (d_keys d1)) by (apply KL; exact B3). assert (Kt : In t (d_keys d1)) by (apply KL; exact T3).
  assert (Kb' : In b' (d_keys d1)) by (apply Kx, Ix, Ir; exact B4).
  unfold sep_at_bottom, sep_at_top. rewrite !conns_at_ok by assumption. cbn [bind].
  rewrite Ebr, skip_links, (ci_topR _ _ _ _ CI). cbn [rev skip_top bind].
  change (mkconn (mksep (last (D b) b) PARALLEL) (mksep t ANTIPARALLEL)) with (right_conn (last (D b) b, t)).
  set (cn := right_conn (last (D b) b, t)).
  set (d2 := set_comps d1 (d_comps d1 ++ [mkdcomp (right_part i1 k) None None None])).
  assert (E2 : d_comps d2 = C1 ++ iet_set x (left_part i1 k) :: C2 ++ [mkdcomp (right_part i1 k) None None None]).
  { unfold d2. cbn [set_comps d_comps]. rewrite Ec, <- app_assoc. reflexivity. }
  assert (Lr : length (d_comps d1) = length (d_comps d)) by (rewrite Ec, E, !app_length; reflexivity).
  assert (Ca2 : comp_at d2 (length C1) = Ok (iet_set x (left_part i1 k))) by (eapply comp_at_mid; exact E2).
  assert (Ca2' : comp_at d2 (length (d_comps d1)) = Ok (mkdcomp (right_part i1 k) None None None)).
  { unfold comp_at, d2. cbn [set_comps d_comps]. rewrite nth_error_app2, Nat.sub_diag by lia. reflexivity. }
  unfold register_separating. cbn [conn_parallel sep_parallel cn cn_source sp_orient orient_eqb right_conn fst].
  unfold cn at 1. cbn [conn_parallel sep_parallel cn_source right_conn sp_orient orient_eqb assert_].
  change (conn_parallel cn) with true. cbn [assert_].
  assert (Nl : Nat.eqb (length C1) (length (d_comps d1)) = false).
  { apply Nat.eqb_neq. rewrite Ec, app_length. simpl. lia. }
  rewrite Nl. cbn [negb assert_]. rewrite Ca2, Ca2'. cbn [bind].
  change (i_bottom (dc_iet (iet_set x (left_part i1 k)))) with (firstn k (e_bot e)).
  rewrite (hd_label_ok _ _ Hb). cbn [bind]. rewrite (conns_at_ok d2 b Kb). cbn [bind].
  change (i_bottom (dc_iet (mkdcomp (right_part i1 k) None None None))) with (skipn k (e_bot e)).
  rewrite (hd_label_ok _ _ Hb'). cbn [bind].
  match goal with |- context [conns_at ?dd b'] => rewrite (conns_at_ok dd b' Kb') end. cbn [bind].
  set (g := register b b' cn (d_conns d1)).
  match goal with |- context [comp_right ?dd _] => change dd with (set_conns d2 g) end.
  assert (Ca3 : comp_at (set_conns d2 g) (length C1) = Ok (iet_set x (left_part i1 k))) by exact Ca2.
  assert (Ca3' : comp_at (set_conns d2 g) (length (d_comps d1)) = Ok (mkdcomp (right_part i1 k) None None None)) by exact Ca2'.
  unfold comp_right. rewrite Ca3. cbn [bind]. change (dc_iet (iet_set x (left_part i1 k))) with (left_part i1 k). rewrite SwL.
  change (i_bottom (left_part i1 k)) with (firstn k (e_bot e)). change (i_top (left_part i1 k)) with (firstn k (e_top e)).
  rewrite (hd_label_ok _ _ Hb), (hd_label_ok _ _ Ht). cbn [bind].
  rewrite (conns_at_ok (set_conns d2 g) b Kb), (conns_at_ok (set_conns d2 g) t Kt). cbn [bind].
  change (d_conns (set_conns d2 g)) with g.
  destruct (register_right b b' cn (d_conns d1) b Nb) as [_ Rb]. fold g in Rb. rewrite Nat.eqb_refl in Rb. rewrite Rb.
  rewrite map_length, !app_length. cbn [length]. replace (length (bottomRight (d_conns d1 b)) + 1 + length (topRight (g t)) =? 0) with false by (symmetry; apply Nat.eqb_neq; lia).
  cbn [negb assert_].
  unfold comp_left. rewrite Ca3'. cbn [bind dc_iet]. change (i_swap (right_part i1 k)) with false. cbv iota.
  change (i_bottom (right_part i1 k)) with (skipn k (e_bot e)). change (i_top (right_part i1 k)) with (skipn k (e_top e)).
  rewrite (hd_label_ok _ _ Hb'). cbn [bind].
  assert (Hf' : exists t', hd_error (skipn k (e_top e)) = Some t' /\ In t' (d_keys d1)).
  { destruct (skipn k (e_top e)) as [|t' ?] eqn:Es; [contradiction|]. exists t'. split; [reflexivity|]. apply Kx, Ix, Ir. left. reflexivity. }
  destruct Hf' as (t' & Ht' & Kt'). rewrite (hd_label_ok _ _ Ht'). cbn [bind].
  rewrite (conns_at_ok (set_conns d2 g) b' Kb'), (conns_at_ok (set_conns d2 g) t' Kt'). cbn [bind].
  change (d_conns (set_conns d2 g)) with g.
  assert (Lb : exists z, bottomLeft (g b') = z ++ [conn_neg cn]).
  { unfold g, register. rewrite upd_same. cbn [bottomLeft]. eexists. reflexivity. }
  destruct Lb as (z & Lb). rewrite Lb. rewrite rev_length, map_length, !app_length. cbn [length].
  replace (length z + 1 + length (topLeft (g t')) =? 0) with false by (symmetry; apply Nat.eqb_neq; lia).
  cbn [negb assert_ bind].
  eexists; eexists. split; [reflexivity|]. split; [reflexivity|].
  assert (A2 : asteps (pieces d) (d_conns d) (pieces (set_conns d2 g)) (d_conns (set_conns d2 g))).
  { eapply asteps_trans; [exact A|]. apply asteps_one.
    assert (Ep : pieces (set_conns d2 g) = Q1 ++ left_of e k :: Q2 ++ [right_of e k]).
    { unfold pieces. change (d_comps (set_conns d2 g)) with (d_comps d2). rewrite E2, map_app. cbn [map]. rewrite map_app. reflexivity. }
    rewrite Ep. eapply (a_split Q1 e Q2 (d_conns d1) k b t b' (mksep (last (D b) b) PARALLEL) (mksep t ANTIPARALLEL)); auto.
    - rewrite Ebr. apply skip_links.
    - rewrite (ci_topR _ _ _ _ CI). reflexivity. }
  constructor.
  - apply (replace_ok e0 d C1 x C2 (iet_set x (left_part i1 k)) [mkdcomp (right_part i1 k) None None None] (set_conns d2 g) H E); auto.
    + apply GL.
    + apply (r_len _ _ _ _ (proj1 R)).
    + apply (r_frame _ _ _ _ (proj1 R)).
    + intros y [<-|[<-|[]]].
      * split; [exact GL|]. split; [exact SwL|]. apply (dk_keane _ _ H x Hx).
      * split; [exact GR|]. split; [reflexivity|]. discriminate.
  - exact A2.
  - apply (r_frame _ _ _ _ (proj1 R)).
  - apply (r_len _ _ _ _ (proj1 R)).
  - intros l Hl. change (d_conns (set_conns d2 g) l) with (g l). unfold g, register.
    rewrite !upd_other; [eapply creach_conns; eassumption| |]; intros ->; apply Hl, Ix; [apply Il, B3|apply Ir, B4].
  - unfold dstep_post. cbn [dst_result]. rewrite Lr. exists i1, k, (last (D b) b), t. eexists.
    split; [apply R|]. split; [exact Hk|]. split; [exact Hmin|]. split; [exact E2|]. split; [|reflexivity].
    apply (ci_lift _ _ _ _ CI e b t); [apply in_middle; auto|]. eapply prefix_direct; try eassumption. apply (ci_proper _ _ _ _ CI). apply in_middle. auto.
  - unfold walk_post. cbn [dst_result]. exists (iet_set x (left_part i1 k)). eexists; eexists.
    split; [change (d_comps (set_conns d2 g)) with (d_comps d2); rewrite E2; apply nth_error_mid|].
    split; [reflexivity|]. split; [reflexivity|].
    change (i_bottom (dc_iet (iet_set x (left_part i1 k)))) with (firstn k (e_bot e)).
    change (i_top (dc_iet (iet_set x (left_part i1 k)))) with (firstn k (e_top e)).
    apply (walk_register d1 (set_conns d2 g) (length C1) b b'); auto.
    + apply NoDup_rev. apply (Permutation_NoDup PmL NDL).
    + intro C. apply in_rev in C. apply (Permutation_in _ (Permutation_sym PmL)) in C.
      assert (ND : NoDup (e_top e)) by (apply (ci_proper _ _ _ _ CI); apply in_middle; auto).
      rewrite <- (firstn_skipn k (e_top e)) in ND. exact (nodup_disj _ _ _ ND C B4).
    + intro C. assert (ND : NoDup (e_top e)) by (apply (ci_proper _ _ _ _ CI); apply in_middle; auto).
      rewrite <- (firstn_skipn k (e_top e)) in ND. exact (nodup_disj _ _ _ ND C B4).
Qed.

(** ** Merging *)

Lemma step_non_separating_ok e0 d C1 x C2 i1 i' a b (d1 : decomp T) : dec_ok e0 d -> d_comps d = C1 ++ x :: C2 ->
  d_stack d1 = [] -> d_keys d1 = d_keys d -> d_comps d1 = C1 ++ iet_set x i' :: C2 ->
  creach (dc_iet x) d i1 d1 -> ~ reducible (exch_of i1 (d_len d1)) ->
  hd_error (i_top i1) = Some a -> hd_error (i_bottom i1) = Some b -> a <> b ->
  merge_step (exch_of i1 (d_len d1)) (exch_of i' (d_len d1)) -> i_swap i' = i_swap (dc_iet x) ->
  good i' (d_len d1) ->
  exists st d', step_non_separating (length C1) b a d1 = Ok (st, d') /\
    dst_result st = D_NON_SEPARATING_CONNECTION /\ step_post e0 d C1 x C2 st d'.
Proof.
  intros H E St K Ec R Hk Ha Hb Nab HM Sw' G'.
  assert (Hx : In x (d_comps d)) by (rewrite E; apply in_middle; auto).
  destruct (dk_good _ _ H x Hx) as [Gx Sw]. pose proof Gx as (Wx & _). rewrite Sw in Sw'.
  pose proof (asteps_reach e0 d C1 x C2 i1 d1 H E R) as A.
  destruct (dk_inv _ _ H) as (D0 & CI0). destruct (asteps_inv _ _ _ _ _ _ CI0 A) as (D & CI).
  set (Q1 := map (fun y => exch_of (dc_iet y) (d_len d1)) C1) in *.
  set (Q2 := map (fun y => exch_of (dc_iet y) (d_len d1)) C2) in *.
  set (e := exch_of i1 (d_len d1)) in *. set (e' := exch_of i' (d_len d1)) in *.
  change (i_top i1) with (e_top e) in Ha. change (i_bottom i1) with (e_bot e) in Hb.
  pose proof HM as (a' & b0 & X & Y1 & Y2 & Et & Eb & El & Et' & Eb' & El').
  rewrite Et in Ha. rewrite Eb in Hb. cbn [hd_error] in Ha, Hb. injection Ha as ->. injection Hb as ->.
  assert (Pr : proper e) by (apply (ci_proper _ _ _ _ CI); apply in_middle; auto).
  assert (HX : exists first, hd_error X = Some first).
  { destruct X as [|f X]; [|simpl; eauto]. exfalso.
    pose proof (Permutation_length (proj1 (proj2 Pr))) as PL. rewrite Et, Eb in PL. simpl in PL. rewrite app_length in PL. simpl in PL. lia. }
  destruct HX as (first & Hf).
  assert (Ix : incl (e_top e) (i_top (dc_iet x))).
  { intros l Hl. apply (Permutation_in _ (Permutation_sym (reach_labels _ _ _ _ Wx (proj1 R)))). exact Hl. }
  assert (Kx : incl (i_top (dc_iet x)) (d_keys d1)).
  { intros l Hl. rewrite K. eapply dk_label; eassumption. }
  assert (Ke : incl (e_top e) (d_keys d1)) by (intros l Hl; apply Kx, Ix, Hl).
  assert (Ina : In a (e_top e)) by (rewrite Et; left; reflexivity).
  assert (Inb : In b (e_top e)) by (apply (Permutation_in _ (Permutation_sym (proj1 (proj2 Pr)))); rewrite Eb; left; reflexivity).
  assert (Inf : In first (e_top e)) by (rewrite Et; right; destruct X; [discriminate|]; injection Hf as ->; left; reflexivity).
  assert (Nfa : first <> a).
  { pose proof (proj1 Pr) as ND. rewrite Et in ND. apply NoDup_cons_iff in ND. intros ->. apply (proj1 ND).
    destruct X; [discriminate|]. injection Hf as ->. left. reflexivity. }
  assert (Ca : comp_at d1 (length C1) = Ok (iet_set x i')) by (eapply comp_at_mid; exact Ec).
  unfold step_non_separating.
  replace (Nat.eqb b a) with false by (symmetry; apply Nat.eqb_neq; congruence). cbn [negb assert_].
  rewrite (he_cross_ok d1 (length C1) a true (Ke a Ina)). cbn [bind]. unfold he_neg. cbn [he_comp he_label he_top negb].
  rewrite (he_cross_ok d1 (length C1) b false (Ke b Inb)). cbn [bind].
  unfold sep_at_bottom, sep_at_top. rewrite !conns_at_ok by (apply Ke; assumption). cbn [bind].
  assert (Ebr : bottomRight (d_conns d1 b) = links b (D b)).
  { eapply merge_tail; eassumption. }
  rewrite Ebr, skip_links, (ci_topR _ _ _ _ CI). cbn [rev skip_top bind].
  change (mkconn (mksep (last (D b) b) PARALLEL) (mksep a ANTIPARALLEL)) with (right_conn (last (D b) b, a)).
  set (cn := right_conn (last (D b) b, a)).
  rewrite Ca. cbn [bind]. change (i_top (dc_iet (iet_set x i'))) with (e_top e'). rewrite Et', (hd_label_ok _ _ Hf). cbn [bind].
  replace (Nat.eqb first a) with false by (symmetry; apply Nat.eqb_neq; congruence). cbn [negb assert_].
  rewrite (conns_at_ok d1 first (Ke _ Inf)). cbn [bind].
  set (g := merge_conns b a first cn (d_conns d1)).
  assert (Ca3 : comp_at (set_conns d1 g) (length C1) = Ok (iet_set x i')) by exact Ca.
  unfold comp_left. rewrite Ca3. cbn [bind]. change (dc_iet (iet_set x i')) with i'. rewrite Sw'. cbv iota.
  change (i_bottom i') with (e_bot e'). change (i_top i') with (e_top e'). rewrite Et', (hd_label_ok _ _ Hf).
  assert (HB : exists p, hd_error (e_bot e') = Some p /\ In p (e_top e)).
  { rewrite Eb'. destruct Y1 as [|p Y1]; [exists b; split; [reflexivity|exact Inb]|]. exists p. split; [reflexivity|].
    apply (Permutation_in _ (Permutation_sym (proj1 (proj2 Pr)))). rewrite Eb. right. left. reflexivity. }
  destruct HB as (p & Hp & Inp). rewrite (hd_label_ok _ _ Hp). cbn [bind].
  rewrite (conns_at_ok (set_conns d1 g) p (Ke _ Inp)), (conns_at_ok (set_conns d1 g) first (Ke _ Inf)). cbn [bind].
  change (d_conns (set_conns d1 g)) with g.
  assert (Tf : exists z, topLeft (g first) = conn_neg cn :: z).
  { unfold g, merge_conns. rewrite (upd_other _ a) by exact Nfa.
    destruct (Nat.eq_dec first b) as [->|Nfb].
    - rewrite !upd_same. cbn [topLeft]. eexists. reflexivity.
    - rewrite (upd_other _ b) by exact Nfb. rewrite upd_same. cbn [topLeft]. eexists. reflexivity. }
  destruct Tf as (z & Tf). rewrite Tf, rev_length, map_length, app_length. cbn [length].
  replace (length (bottomLeft (g p)) + Datatypes.S (length z) =? 0) with false by (symmetry; apply Nat.eqb_neq; lia).
  cbn [negb assert_].
  eexists; eexists. split; [reflexivity|]. split; [reflexivity|].
  assert (A2 : asteps (pieces d) (d_conns d) (pieces (set_conns d1 g)) (d_conns (set_conns d1 g))).
  { eapply asteps_trans; [exact A|]. apply asteps_one.
    assert (Ep : pieces (set_conns d1 g) = Q1 ++ e' :: Q2).
    { unfold pieces. change (d_comps (set_conns d1 g)) with (d_comps d1). rewrite Ec, map_app. reflexivity. }
    rewrite Ep. eapply (a_merge Q1 e Q2 (d_conns d1) a b first e' (mksep (last (D b) b) PARALLEL) (mksep a ANTIPARALLEL)); auto.
    - rewrite Et. reflexivity.
    - rewrite Eb. reflexivity.
    - rewrite Et'. exact Hf.
    - rewrite Ebr. apply skip_links.
    - rewrite (ci_topR _ _ _ _ CI). reflexivity. }
  constructor.
  - apply (replace_ok e0 d C1 x C2 (iet_set x i') [] (set_conns d1 g) H E); auto.
    + rewrite app_nil_r. exact Ec.
    + apply G'.
    + apply (r_len _ _ _ _ (proj1 R)).
    + apply (r_frame _ _ _ _ (proj1 R)).
    + intros y [<-|[]]. split; [exact G'|]. split; [exact Sw'|]. apply (dk_keane _ _ H x Hx).
  - exact A2.
  - apply (r_frame _ _ _ _ (proj1 R)).
  - apply (r_len _ _ _ _ (proj1 R)).
  - intros l Hl. change (d_conns (set_conns d1 g) l) with (g l). unfold g.
    rewrite merge_conns_out; [eapply creach_conns; eassumption| | |]; intros ->; apply Hl, Ix; assumption.
  - unfold dstep_post. cbn [dst_result]. exists i1, i', (last (D b) b), a. eexists.
    split; [apply R|]. split; [exact HM|]. split; [exact Hk|]. split; [exact Ec|]. split; [|reflexivity].
    eapply merge_sep; try eassumption.
    + rewrite Ebr. apply skip_links.
    + rewrite (ci_topR _ _ _ _ CI). reflexivity.
  - unfold walk_post. cbn [dst_result]. exists (iet_set x i'). eexists; eexists. exists b, a.
    exists (bottomLeft (d_conns d1 b)), (topLeft (d_conns d1 a)), (bottomLeft (d_conns d1 a)), (links b (D b)), (bottomRight (d_conns d1 a)), (D b).
    split; [change (d_comps (set_conns d1 g)) with (d_comps d1); rewrite Ec; apply nth_error_mid|].
    split; [reflexivity|]. split; [reflexivity|].
    split; [change (In b (e_bot e')); rewrite Eb'; apply in_middle; auto|].
    split; [change (~ In a (e_top e')); rewrite Et'; pose proof (proj1 Pr) as ND; rewrite Et in ND; apply NoDup_cons_iff in ND; apply ND|].
    split; [reflexivity|].
    unfold lft, rgt. change (d_conns (set_conns d1 g)) with g.
    assert (Gb : bottomLeft (g b) = bottomLeft (d_conns d1 b) ++ topLeft (d_conns d1 a) ++ bottomLeft (d_conns d1 a) /\
                 bottomRight (g b) = (links b (D b) ++ [cn]) ++ bottomRight (d_conns d1 a)).
    { unfold g, merge_conns. rewrite (upd_other _ a) by congruence. rewrite upd_same. cbn [bottomLeft bottomRight].
      match goal with |- context [upd (upd (d_conns d1) b ?u) first ?v a] => replace (upd (upd (d_conns d1) b u) first v a) with (d_conns d1 a)
        by (rewrite !upd_other by congruence; reflexivity) end.
      rewrite (ci_topR _ _ _ _ CI a).
      destruct (Nat.eq_dec b first) as [<-|Nfb].
      - rewrite !upd_same. cbn [bottomLeft bottomRight]. rewrite Ebr. split; reflexivity.
      - rewrite (upd_other _ first) by exact Nfb. rewrite upd_same. cbn [bottomLeft bottomRight]. rewrite Ebr. split; reflexivity. }
    destruct Gb as [-> ->]. split; [reflexivity|]. split; [rewrite <- app_assoc; reflexivity|].
    split; [reflexivity|]. split; [reflexivity|].
    unfold crossing, lft, rgt. rewrite Ebr, (ci_topR _ _ _ _ CI). reflexivity.
Qed.

(** ** The end of the call *)

Lemma step_finish_ok e0 fuel d C1 x C2 st i' (d1 : decomp T) : dec_ok e0 d -> d_comps d = C1 ++ x :: C2 ->
  good i' (d_len d1) -> d_stack d1 = [] -> d_keys d1 = d_keys d -> d_comps d1 = C1 ++ iet_set x i' :: C2 ->
  (is_result st = CYLINDER -> i_size (dc_iet x) = 1 /\ i' = dc_iet x /\ d1 = d) ->
  (is_result st <> CYLINDER -> dinduce_post 1 (dc_iet x) d st i' d1) -> length (d_keys d) < fuel ->
  exists st' d', step_finish fuel st (length C1) d1 = Ok (st', d') /\ step_post e0 d C1 x C2 st' d' /\
    (dst_result st' = D_LIMIT_REACHED -> is_result st = LIMIT_REACHED /\ d' = d1).
Proof.
  intros H E G St K Ec HC HN Hfuel.
  assert (Hx : In x (d_comps d)) by (rewrite E; apply in_middle; auto).
  destruct (dk_good _ _ H x Hx) as [Gx Sw].
  unfold step_finish. rewrite (comp_at_mid d1 C1 (iet_set x i') C2 Ec). cbn [bind].
  destruct (is_result st) eqn:Er.
  - (* LIMIT_REACHED *)
    specialize (HN ltac:(discriminate)). unfold dinduce_post in HN. rewrite Er in HN. destruct HN as (Hs & R & P1 & P2 & P3 & _ & _).
    eexists; exists d1. split; [reflexivity|]. split; [|auto].
    destruct (plain_ok e0 d C1 x C2 (iet_set x i') i' d1 H E eq_refl (dk_keane _ _ H x Hx) St K Ec G R) as [Ok1 A].
    constructor; auto.
    + apply (r_frame _ _ _ _ (proj1 R)).
    + apply (r_len _ _ _ _ (proj1 R)).
    + intros l. exact (creach_conns _ _ _ _ l (proj1 Gx) R).
    + cbn. exists i'. exact (conj Ec (conj (proj1 R) (conj Hs (conj P1 (conj P2 (conj P3 eq_refl)))))).
    + reflexivity.
  - (* CYLINDER *)
    destruct (HC eq_refl) as (Hs & -> & ->).
    rewrite (comp_set_mid d C1 _ C2 _ E). cbn [bind].
    eexists; eexists. split; [reflexivity|]. split; [|discriminate].
    set (y := mkdcomp (dc_iet (iet_set x (dc_iet x))) (Some true) (Some false) (Some false)).
    set (d' := set_comps d (C1 ++ y :: C2)).
    destruct (plain_ok e0 d C1 x C2 y (dc_iet x) d' H E eq_refl) as [Ok1 A]; auto; try discriminate.
    { exact (creach_refl (dc_iet x) d (proj1 Gx) (proj1 (proj2 Gx))). }
    constructor; auto.
    + cbn. exists (dc_iet x). repeat split; auto.
    + reflexivity.
  - specialize (HN ltac:(discriminate)). unfold dinduce_post in HN. rewrite Er in HN.
    destruct HN as (i1 & k & b & t & Hs & R & P1 & P2 & -> & Hb & Ht & -> & GR). cbn [is_connection is_additional].
    destruct (step_separating_ok e0 fuel d C1 x C2 i1 k b t d1 H E St K Ec R P1 P2 Hb Ht G GR Hfuel) as (st' & d' & E1 & E2 & P).
    exists st', d'. split; [exact E1|]. split; [exact P|]. rewrite E2. discriminate.
  - specialize (HN ltac:(discriminate)). unfold dinduce_post in HN. rewrite Er in HN.
    destruct HN as (i1 & a & b & Hs & R & P1 & Ha & Hb & Nab & HM & Et & Sw' & ->). cbn [is_connection].
    destruct (step_non_separating_ok e0 d C1 x C2 i1 i' a b d1 H E St K Ec R P1 Ha Hb Nab HM Sw' G) as (st' & d' & E1 & E2 & P).
    exists st', d'. split; [exact E1|]. split; [exact P|]. rewrite E2. discriminate.
  - specialize (HN ltac:(discriminate)). unfold dinduce_post in HN. rewrite Er in HN. destruct HN as (Hs & R & P1 & P2 & P3 & _).
    rewrite (comp_set_mid d1 C1 _ C2 _ Ec). cbn [bind].
    eexists; eexists. split; [reflexivity|]. split; [|discriminate].
    set (y := mkdcomp (dc_iet (iet_set x i')) (Some false) (Some true) (dc_keane (iet_set x i'))).
    set (d' := set_comps d1 (C1 ++ y :: C2)).
    destruct (plain_ok e0 d C1 x C2 y i' d' H E eq_refl) as [Ok1 A]; auto.
    { apply (dk_keane _ _ H x Hx). }
    constructor; auto.
    + apply (r_frame _ _ _ _ (proj1 R)).
    + apply (r_len _ _ _ _ (proj1 R)).
    + intros l. exact (creach_conns _ _ _ _ l (proj1 Gx) R).
    + cbn. exists i'. exact (conj eq_refl (conj (proj1 R) (conj Hs (conj P1 (conj P2 (conj P3 eq_refl)))))).
    + reflexivity.
  - specialize (HN ltac:(discriminate)). unfold dinduce_post in HN. rewrite Er in HN. destruct HN as (Hs & R & P1 & _).
    rewrite (comp_set_mid d1 C1 _ C2 _ Ec). cbn [bind].
    eexists; eexists. split; [reflexivity|]. split; [|discriminate].
    set (y := mkdcomp (dc_iet (iet_set x i')) (Some false) (Some true) (dc_keane (iet_set x i'))).
    set (d' := set_comps d1 (C1 ++ y :: C2)).
    destruct (plain_ok e0 d C1 x C2 y i' d' H E eq_refl) as [Ok1 A]; auto.
    { apply (dk_keane _ _ H x Hx). }
    constructor; auto.
    + apply (r_frame _ _ _ _ (proj1 R)).
    + apply (r_len _ _ _ _ (proj1 R)).
    + intros l. exact (creach_conns _ _ _ _ l (proj1 Gx) R).
    + cbn. exists i'. exact (conj eq_refl (conj (proj1 R) (conj Hs (conj P1 eq_refl)))).
    + reflexivity.
Qed.

(** ** The whole call *)

Lemma pieces_mid (d : decomp T) C1 x C2 : d_comps d = C1 ++ x :: C2 ->
  pieces d = map (fun y => exch_of (dc_iet y) (d_len d)) C1 ++ exch_of (dc_iet x) (d_len d) ::
             map (fun y => exch_of (dc_iet y) (d_len d)) C2.
Proof. intro E. unfold pieces. rewrite E, map_app. reflexivity. Qed.

Lemma reach_saf_start i s v i' s' : reach (set_saf i v) s i' s' -> reach i s i' s'.
Proof. intros [A B C D E F]. constructor; assumption. Qed.

Lemma step_post_start e0 d C1 x C2 v st d' : d_comps d = C1 ++ x :: C2 ->
  step_post e0 (set_comps d (C1 ++ iet_set x (set_saf (dc_iet x) v) :: C2)) C1 (iet_set x (set_saf (dc_iet x) v)) C2 st d' ->
  step_post e0 d C1 x C2 st d'.
Proof.
  intros E [A B C D F G V].
  assert (L : length (C1 ++ iet_set x (set_saf (dc_iet x) v) :: C2) = length (d_comps d)) by (rewrite E, !app_length; reflexivity).
  constructor; auto.
  - rewrite (pieces_mid d C1 x C2 E). rewrite (pieces_mid (set_comps d _) C1 (iet_set x (set_saf (dc_iet x) v)) C2 eq_refl) in B. exact B.
  - unfold dstep_post in *. destruct (dst_result st).
    + destruct G as (i' & G1 & G2 & G3). exists i'. split; [exact G1|]. split; [eapply reach_saf_start; exact G2|exact G3].
    + exact G.
    + destruct G as (i1 & k & b & t & w & G1 & G2 & G3 & G4 & G5 & G6). exists i1, k, b, t, w.
      split; [eapply reach_saf_start; exact G1|]. split; [exact G2|]. split; [exact G3|]. split; [exact G4|]. split; [exact G5|].
      change (d_comps (set_comps d (C1 ++ iet_set x (set_saf (dc_iet x) v) :: C2))) with (C1 ++ iet_set x (set_saf (dc_iet x) v) :: C2) in G6.
      rewrite L in G6. exact G6.
    + destruct G as (i1 & i' & b & t & w & G1 & G2). exists i1, i', b, t, w. split; [eapply reach_saf_start; exact G1|exact G2].
    + destruct G as (i' & G1 & G2 & G3). exists i'. split; [exact G1|]. split; [eapply reach_saf_start; exact G2|exact G3].
    + destruct G as (i' & G1 & G2 & G3). exists i'. split; [exact G1|]. split; [eapply reach_saf_start; exact G2|exact G3].
    + exact G.
Qed.

(** A call that ran out of its budget, followed by another one. *)
Lemma step_post_trans e0 d C1 x C2 st d1 i1 st' d' : dec_ok e0 d -> d_comps d = C1 ++ x :: C2 ->
  step_post e0 d C1 x C2 st d1 -> d_comps d1 = C1 ++ iet_set x i1 :: C2 -> reach (dc_iet x) (d_len d) i1 (d_len d1) -> i_size (dc_iet x) <> 1 ->
  step_post e0 d1 C1 (iet_set x i1) C2 st' d' -> step_post e0 d C1 x C2 st' d'.
Proof.
  intros H E P E1 R Hs P'.
  assert (Hx : In x (d_comps d)) by (rewrite E; apply in_middle; auto).
  destruct (dk_good _ _ H x Hx) as [Gx Sw]. pose proof (proj1 Gx) as Wx.
  pose proof (reach_labels _ _ _ _ Wx R) as PL.
  assert (NI : forall l, ~ In l (i_top (dc_iet x)) -> ~ In l (i_top (dc_iet (iet_set x i1)))).
  { intros l N C. apply N. apply (Permutation_in _ (Permutation_sym PL)). exact C. }
  assert (RT : forall i' s', reach (dc_iet (iet_set x i1)) (d_len d1) i' s' -> reach (dc_iet x) (d_len d) i' s').
  { intros i' s' R'. exact (reach_trans _ _ _ _ _ _ Wx R R'). }
  assert (SZ : i_size i1 = i_size (dc_iet x)) by (symmetry; exact (Permutation_length PL)).
  assert (L : length (d_comps d1) = length (d_comps d)) by (rewrite E, E1, !app_length; reflexivity).
  destruct P as [A B C D F G V]. destruct P' as [A' B' C' D' F' G' V']. constructor; auto.
  - eapply asteps_trans; eassumption.
  - intros l Hl. rewrite C' by (apply NI; exact Hl). apply C. exact Hl.
  - congruence.
  - intros l Hl. rewrite F' by (apply NI; exact Hl). apply F. exact Hl.
  - unfold dstep_post in G, G' |- *. cbn [dc_iet iet_set] in *. rewrite L in G'. rewrite SZ in G'.
    destruct (dst_result st').
    + destruct G' as (i' & G1 & G2 & G3). exists i'. split; [exact G1|]. split; [apply RT; exact G2|exact G3].
    + destruct G' as (i' & G1 & _). contradiction.
    + destruct G' as (i2 & k & b & t & w & G1 & G2). exists i2, k, b, t, w. split; [apply RT; exact G1|exact G2].
    + destruct G' as (i2 & i' & b & t & w & G1 & G2). exists i2, i', b, t, w. split; [apply RT; exact G1|exact G2].
    + destruct G' as (i' & G1 & G2 & G3). exists i'. split; [exact G1|]. split; [apply RT; exact G2|exact G3].
    + destruct G' as (i' & G1 & G2 & G3). exists i'. split; [exact G1|]. split; [apply RT; exact G2|exact G3].
    + exact G'.
Qed.

Lemma step_limited_ok e0 fuel d C1 x C2 limit : dec_ok e0 d -> d_comps d = C1 ++ x :: C2 ->
  (limit <= INT_MAX)%Z -> (limit <> -1)%Z -> length (d_keys d) < fuel ->
  let r := step_limited fuel limit (length C1) d in
  (r = OutOfFuel /\ (Z.of_nat fuel <= Z.max 0 limit)%Z) \/
  exists st d', r = Ok (st, d') /\ step_post e0 d C1 x C2 st d' /\
    (dst_result st = D_LIMIT_REACHED -> exists i', d_comps d' = C1 ++ iet_set x i' :: C2 /\ forall u, (0 < u)%R -> integral u (exch_of (dc_iet x) (d_len d)) ->
       (ltot i' (d_len d') + IZR limit * u <= ltot (dc_iet x) (d_len d))%R).
Proof.
  intros H E HM Hm Hf r. unfold r, step_limited.
  destruct (step_start_ok e0 d C1 x C2 H E) as (cost & v & Es & Ec & H0). rewrite Es. cbn [bind].
  set (d0 := set_comps d _) in *. set (x0 := iet_set x (set_saf (dc_iet x) (Some v))) in *.
  assert (E0 : d_comps d0 = C1 ++ x0 :: C2) by reflexivity.
  assert (Cc : cost = None \/ cost = Some 64%Z) by (destruct (vis0 _); auto).
  destruct (step_loop_ok e0 fuel cost Cc fuel d0 C1 x0 C2 limit H0 E0 HM Hm) as [[El Hl]|(st & i' & d1 & El & G1 & S1 & K1 & Ec1 & PC & PN & PL)].
  - left. rewrite El. split; [reflexivity|]. lia.
  - right. rewrite El. cbn [bind].
    destruct (step_finish_ok e0 fuel d0 C1 x0 C2 st i' d1 H0 E0 G1 S1 K1 Ec1 PC PN Hf) as (st' & d' & Ef & P & PLim).
    exists st', d'. split; [exact Ef|]. split; [apply (step_post_start e0 d C1 x C2 (Some v)); assumption|].
    intro Q. destruct (PLim Q) as [Q' ->]. exists i'. split; [exact Ec1|]. exact (PL Q').
Qed.

Lemma path_integral_piece e0 d C1 x C2 i1 s1 u : dec_ok e0 d -> d_comps d = C1 ++ x :: C2 -> reach (dc_iet x) (d_len d) i1 s1 ->
  integral u (exch_of (dc_iet x) (d_len d)) -> integral u (exch_of i1 s1).
Proof.
  intros H E R I. eapply path_integral; [|exact (r_path _ _ _ _ R)|exact I].
  apply wf_proper, (dk_good _ _ H). rewrite E. apply in_middle. auto.
Qed.

Lemma ltot_pos (i : iet T) s : wf i s -> (0 < ltot i s)%R.
Proof. intro H. apply total_pos; [intros a Ha; apply posl_lamR, H, Ha | apply H]. Qed.

Lemma step_unlimited_ok e0 fuel cost : (cost = None \/ cost = Some 64%Z) ->
  forall rounds d C1 x C2 limit, dec_ok e0 d -> d_comps d = C1 ++ x :: C2 -> length (d_keys d) < fuel ->
  (0 <= limit <= INT_MAX)%Z -> (cost = None -> exists j, limit + 2 = 2 ^ j /\ 0 <= j)%Z -> (cost <> None -> (limit <= 64)%Z) ->
  let r := step_unlimited rounds fuel cost limit (length C1) d in
  (r = OutOfFuel /\ forall u N, (0 < u)%R -> integral u (exch_of (dc_iet x) (d_len d)) -> (ltot (dc_iet x) (d_len d) <= IZR N * u)%R ->
     (Z.of_nat fuel <= Z.max limit (Z.max 64 (2 * N + 2)) \/ Z.of_nat rounds <= N + (if Z.eqb limit 0 then 1 else 0))%Z) \/
  (r = UB /\ cost = None /\ forall u, (0 < u)%R -> integral u (exch_of (dc_iet x) (d_len d)) ->
     (IZR 2147483646 * u <= ltot (dc_iet x) (d_len d))%R) \/
  exists st d', r = Ok (st, d') /\ step_post e0 d C1 x C2 st d' /\ dst_result st <> D_LIMIT_REACHED.
Proof.
  intro Hc. induction rounds as [|rounds IH]; intros d C1 x C2 limit H E Hf Hl Hn Hs r.
  - left. split; [reflexivity|]. intros u N Hu I HN. right.
    assert (0 < N)%Z.
    { apply lt_IZR. apply Rmult_lt_reg_r with u; [exact Hu|]. 
      assert (Hx : In x (d_comps d)) by (rewrite E; apply in_middle; auto).
      pose proof (ltot_pos _ _ (proj1 (proj1 (dk_good _ _ H x Hx)))). lra. }
    destruct (Z.eqb limit 0); simpl; lia.
  - unfold r. cbn [step_unlimited].
    destruct (step_limited_ok e0 fuel d C1 x C2 limit H E) as [[El Hl']|(st & d1 & El & P & PL)]; try lia; auto.
    + rewrite El. left. split; [reflexivity|]. intros. left. lia.
    + rewrite El. cbn [bind].
      destruct (dst_result st) eqn:Er; try (right; right; exists st, d1; split; [reflexivity|split; [exact P|congruence]]).
      pose proof (sp_case _ _ _ _ _ _ _ P) as Q. unfold dstep_post in Q. rewrite Er in Q.
      destruct Q as (i1 & E1 & R & Hsz & P1 & P2 & P3 & _). destruct (PL eq_refl) as (i1' & E1' & Dec).
      rewrite E1 in E1'. apply app_inv_head in E1'. injection E1' as <-.
      assert (Hf1 : length (d_keys d1) < fuel) by (rewrite (dk_keys _ _ (sp_ok _ _ _ _ _ _ _ P)), <- (dk_keys _ _ H); exact Hf).
      assert (Tot : (0 <= ltot i1 (d_len d1))%R).
      { left. apply ltot_pos. apply R. }
      set (k := match cost with Some k => k | None => (2 * (limit + 1))%Z end).
      assert (Go : (k <= INT_MAX)%Z -> 
        let r := step_unlimited rounds fuel cost k (length C1) d1 in
  (r = OutOfFuel /\ forall u N, (0 < u)%R -> integral u (exch_of (dc_iet x) (d_len d)) -> (ltot (dc_iet x) (d_len d) <= IZR N * u)%R ->
     (Z.of_nat fuel <= Z.max limit (Z.max 64 (2 * N + 2)) \/ Z.of_nat (Datatypes.S rounds) <= N + (if Z.eqb limit 0 then 1 else 0))%Z) \/
  (r = UB /\ cost = None /\ forall u, (0 < u)%R -> integral u (exch_of (dc_iet x) (d_len d)) ->
     (IZR 2147483646 * u <= ltot (dc_iet x) (d_len d))%R) \/
  exists st d', r = Ok (st, d') /\ step_post e0 d C1 x C2 st d' /\ dst_result st <> D_LIMIT_REACHED).
      { intros HK r0.
        destruct (IH d1 C1 (iet_set x i1) C2 k (sp_ok _ _ _ _ _ _ _ P) E1 Hf1) as [[Er1 Bd]|[(Er1 & Cn & Bd)|(st' & d' & Er1 & P' & NL)]].
        - unfold k. destruct Hc as [-> | ->]; unfold k in HK; lia.
        - intros ->. destruct (Hn eq_refl) as (j & Hj & Hj0). exists (j + 1)%Z. unfold k. rewrite Z.pow_add_r by lia. lia.
        - intro N. unfold k. destruct Hc as [-> | ->]; [contradiction|lia].
        - left. split; [exact Er1|]. intros u N Hu I HN. cbn [dc_iet iet_set] in Bd.
          specialize (Dec u Hu I).
          destruct (Bd u (N - limit)%Z Hu (path_integral_piece _ _ _ _ _ _ _ u H E R I)) as [B|B].
          + rewrite minus_IZR. lra.
          + assert (HN0 : (limit <= N)%Z).
            { apply le_IZR. apply Rmult_le_reg_r with u; [exact Hu|]. lra. }
            left. unfold k in B. destruct Hc as [-> | ->]; lia.
          + right. replace (Z.eqb k 0) with false in B; [destruct (Z.eqb_spec limit 0); lia|]. 
            symmetry. apply Z.eqb_neq. unfold k. destruct Hc as [-> | ->]; lia.
        - right. left. split; [exact Er1|]. split; [exact Cn|]. intros u Hu I. specialize (Dec u Hu I).
          specialize (Bd u Hu (path_integral_piece _ _ _ _ _ _ _ u H E R I)). cbn [dc_iet iet_set] in Bd.
          assert (0 <= IZR limit * u)%R by (apply Rmult_le_pos; [apply (IZR_le 0); lia|lra]). lra.
        - right. right. exists st', d'. split; [exact Er1|]. split; [|exact NL].
          exact (step_post_trans e0 d C1 x C2 st d1 i1 st' d' H E P E1 R Hsz P'). }
      destruct Hc as [Hc|Hc].
      * rewrite Hc. unfold k in Go. rewrite Hc in Go. destruct (Z.leb_spec (2 * (limit + 1)) INT_MAX) as [Hle|Hgt].
        -- exact (Go Hle).
        -- right. left. split; [reflexivity|]. split; [reflexivity|]. intros u Hu I. specialize (Dec u Hu I).
           destruct (Hn Hc) as (j & Hj & Hj0). 
           assert (limit = 2147483646)%Z.
           { unfold INT_MAX in *. assert (j <= 31)%Z. { destruct (Z.le_gt_cases j 31) as [|C]; [assumption|].
               assert (2 ^ 32 <= 2 ^ j)%Z by (apply Z.pow_le_mono_r; lia). simpl in H0. lia. }
             assert (31 <= j)%Z. { destruct (Z.le_gt_cases 31 j) as [|C]; [assumption|].
               assert (2 ^ j <= 2 ^ 30)%Z by (apply Z.pow_le_mono_r; lia). simpl in H1. lia. }
             replace j with 31%Z in Hj by lia. simpl in Hj. lia. }
           subst limit. lra.
      * specialize (Hs ltac:(congruence)). rewrite Hc. unfold k in Go. rewrite Hc in Go.
        replace (2 * (limit + 1) <=? INT_MAX)%Z with true by (symmetry; apply Z.leb_le; unfold INT_MAX; lia).
        apply Go. unfold INT_MAX. lia.
Qed.

(** decompositionStep() never throws, no assertion fires, and it does what [step_post] says.  The
    only ways not to return are not to terminate (only if [limit = -1]) and the overflow of the
    budget (only if [limit = -1] and more than 2147483646 steps of induction are needed). *)
Theorem decomposition_step_ok e0 fuel d C1 x C2 limit : dec_ok e0 d -> d_comps d = C1 ++ x :: C2 ->
  (limit <= INT_MAX)%Z -> length (d_keys d) < fuel ->
  let r := decomposition_step fuel limit (length C1) d in
  (r = OutOfFuel /\ if Z.eqb limit (-1) then
     forall u N, (0 < u)%R -> integral u (exch_of (dc_iet x) (d_len d)) -> (ltot (dc_iet x) (d_len d) <= IZR N * u)%R ->
       (Z.of_nat fuel <= Z.max 64 (2 * N + 2))%Z
     else (Z.of_nat fuel <= Z.max 0 limit)%Z) \/
  (r = UB /\ limit = (-1)%Z /\ forall u, (0 < u)%R -> integral u (exch_of (dc_iet x) (d_len d)) ->
     (IZR 2147483646 * u <= ltot (dc_iet x) (d_len d))%R) \/
  exists st d', r = Ok (st, d') /\ step_post e0 d C1 x C2 st d' /\
    (dst_result st = D_LIMIT_REACHED -> limit <> (-1)%Z /\
       exists i', d_comps d' = C1 ++ iet_set x i' :: C2 /\ forall u, (0 < u)%R -> integral u (exch_of (dc_iet x) (d_len d)) ->
       (ltot i' (d_len d') + IZR limit * u <= ltot (dc_iet x) (d_len d))%R).
Proof.
  intros H E HM Hf r. unfold r, decomposition_step. destruct (Z.eqb_spec limit (-1)) as [->|Nl].
  - destruct (step_start_ok e0 d C1 x C2 H E) as (cost & v & Es & Ec & H0). rewrite Es. cbn [bind].
    set (d0 := set_comps d _) in *. set (x0 := iet_set x (set_saf (dc_iet x) (Some v))) in *.
    assert (Cc : cost = None \/ cost = Some 64%Z) by (destruct (vis0 _); auto).
    destruct (step_unlimited_ok e0 fuel cost Cc fuel d0 C1 x0 C2 0 H0 eq_refl Hf) as [[Er B]|[(Er & Cn & B)|(st & d' & Er & P & NL)]].
    + unfold INT_MAX. lia.
    + intro. exists 1%Z. lia.
    + lia.
    + left. split; [exact Er|]. intros u N Hu I HN. destruct (B u N Hu I HN) as [B'|B']; [lia|]. simpl in B'. lia.
    + right. left. split; [exact Er|]. split; [reflexivity|exact B].
    + right. right. exists st, d'. split; [exact Er|]. split; [eapply step_post_start; eassumption|]. intro; contradiction.
  - destruct (step_limited_ok e0 fuel d C1 x C2 limit H E HM Nl Hf) as [[Er B]|(st & d' & Er & P & PL)].
    + left. auto.
    + right. right. exists st, d'. split; [exact Er|]. split; [exact P|]. intro Q. split; [exact Nl|exact (PL Q)].
Qed.

End Step.
