(** Proofs of the properties in [PropDecomp]. *)
From Coq Require Import Reals Lra Permutation.
From Verif Require Import Base QcTac LenT FM Subspace Lengths IET Decomp Spec SpecDec Api DecApi.
From Verif Require Import ZorichProof Dyn Saddle ReduceProof Saf Bosh Path Direct Similar InduceProof InduceCons World Seq.
From Verif Require Import DecompSim DecompInv DecompNav DecompRef DecompStep DecompAll DecompEnds DecompDyn DecompCons DecompMore Fuel DecompBudget PerimProof.
Open Scope nat_scope.

Section Helpers.
Context {T : Type} {O : LenOps T} {W : LenLaws T}.

Lemma view_history (i : iet T) (s : slen T) tr d c x : decomposition i s tr d -> component d c x -> comp_view d c = Ok (view_of d x).
Proof.
  intros H%history_ok (C1 & C2 & E & <-)%component_mid. exact (comp_view_ok _ _ _ _ _ H E).
Qed.

Lemma all_views e0 (d : decomp T) (P : cview T -> Prop) : dec_ok e0 d -> (forall z, In z (d_comps d) -> P (view_of d z)) ->
  forall c, c < length (d_comps d) -> exists v, comp_view d c = Ok v /\ P v.
Proof.
  intros H Q c Hc. destruct (nth_error (d_comps d) c) as [x|] eqn:E; [|apply nth_error_None in E; lia].
  exists (view_of d x). split; [|apply Q; eapply nth_error_In; exact E].
  apply component_mid in E as (C1 & C2 & E & <-). exact (comp_view_ok _ _ _ _ _ H E).
Qed.

Lemma shape_start (i : iet T) (s : slen T) d : obtainable i s -> dec_make i s = Ok d -> forall y, In y (d_comps d) -> flags_shape y.
Proof.
  intros H E y Hy. destruct (made_ok i s d H E) as (_ & _ & _ & D & _). rewrite D in Hy. destruct Hy as [<-|[]].
  split; [discriminate|left; auto].
Qed.

Lemma flags_start (i : iet T) (s : slen T) d : obtainable i s -> dec_make i s = Ok d -> forall y, In y (d_comps d) -> flags_ok d y.
Proof.
  intros H E y Hy. destruct (made_ok i s d H E) as (_ & _ & _ & D & _). rewrite D in Hy. destruct Hy as [<-|[]].
  split; [discriminate|discriminate|left; auto].
Qed.

Lemma history_shape (i : iet T) (s : slen T) tr d y : decomposition i s tr d -> In y (d_comps d) -> flags_shape y.
Proof.
  intros (d0 & Hi & E0 & S)%history_steps Hy. destruct (made_ok i s d0 Hi E0) as (H0 & _).
  exact (proj1 (steps_flags_shape _ _ _ _ H0 S (shape_start i s d0 Hi E0)) y Hy).
Qed.

Lemma single_fixed e a : proper e -> e_top e = [a] -> forall y, (0 <= y < size e)%R -> maps e y y.
Proof.
  intros P E y Hy. destruct P as (ND & Pm & Pos). rewrite E in Pm. apply Permutation_length_1_inv in Pm.
  unfold size in Hy. rewrite E in Hy. cbn in Hy. unfold maps. rewrite E, Pm. exists a, 0%R, 0%R, (e_len e a).
  assert (S : span (e_len e) [a] a 0 (e_len e a)) by (exists [], []; repeat split).
  split; [exact S|]. split; [exact S|]. split; lra.
Qed.

Lemma chained_links l ls : chained l (links l ls) (last ls l).
Proof.
  revert l. induction ls as [|t ls IH]; intro l; [constructor|]. rewrite last_cons. cbn [links]. constructor. apply IH.
Qed.

Lemma last_case {A} (l : list A) : l = [] \/ exists l' a, l = l' ++ [a].
Proof. destruct l as [|x l] using rev_ind; [left; reflexivity|right; eauto]. Qed.

Lemma row_last (r P : list label) l S : NoDup r -> r = P ++ l :: S -> (S = [] <-> last_label r l).
Proof.
  intros ND E. split.
  - intros ->. exists P. exact E.
  - intros (X & E'). destruct (last_case S) as [->|(S' & a & ->)]; [reflexivity|]. exfalso.
    assert (a = l). { rewrite E in E'. change (l :: S' ++ [a]) with ((l :: S') ++ [a]) in E'. rewrite app_assoc in E'. apply app_inj_tail in E'. apply E'. }
    subst a. rewrite E in ND. apply NoDup_remove_2 in ND. apply ND. apply in_or_app. right. apply in_or_app. right. left. reflexivity.
Qed.

Lemma split_unique {A} (a : A) (X Y X' Y' : list A) : ~ In a X -> ~ In a X' -> X ++ a :: Y = X' ++ a :: Y' -> X = X'.
Proof.
  revert X'. induction X as [|x X IH]; intros [|x' X'] H H' E; cbn in E.
  - reflexivity.
  - injection E as -> _. exfalso. apply H'. left. reflexivity.
  - injection E as -> _. exfalso. apply H. left. reflexivity.
  - injection E as -> E. f_equal. apply IH; [intro C; apply H; right; exact C|intro C; apply H'; right; exact C|exact E].
Qed.


Lemma auto_dec st : dst_result st = D_WITHOUT_PERIODIC_TRAJECTORY_AUTO_SIMILAR \/ dst_result st <> D_WITHOUT_PERIODIC_TRAJECTORY_AUTO_SIMILAR.
Proof. destruct (dst_result st); auto; right; discriminate. Qed.

Lemma straight_history (i : iet T) (s : slen T) tr d : straight i s tr d -> decomposition i s tr d.
Proof. induction 1; [constructor; assumption|eapply dh_step; eassumption]. Qed.

Lemma auto_step (i : iet T) (s : slen T) tr d fuel limit c st d' : decomposition i s tr d -> (limit <= INT_MAX)%Z -> c < length (d_comps d) ->
  decomposition_step fuel limit c d = Ok (st, d') -> dst_result st = D_WITHOUT_PERIODIC_TRAJECTORY_AUTO_SIMILAR ->
  exists C1 x C2 i', d_comps d = C1 ++ x :: C2 /\ length C1 = c /\ d_comps d' = C1 ++ mkdcomp i' (Some false) (Some true) (dc_keane x) :: C2 /\
    wf i' (d_len d') /\ similar_state i' (d_len d') /\ i_size (dc_iet x) <> 1 /\ step_post (exch_of i s) d C1 x C2 st d'.
Proof.
  intros H HL Hc E Ha. destruct (step_history_post _ _ _ _ _ _ _ _ _ H HL Hc E) as (C1 & x & C2 & Ec & El & P).
  exists C1, x, C2. pose proof (sp_case _ _ _ _ _ _ _ P) as Q. unfold dstep_post in Q. rewrite Ha in Q. destruct Q as (i' & E' & R & Hs & Hm & _).
  exists i'. repeat (split; [solve [auto | apply R]|]). exact P.
Qed.

Lemma straight_flags (i : iet T) (s : slen T) tr d : straight i s tr d -> forall y, In y (d_comps d) -> flags_ok d y.
Proof.
  induction 1 as [d Hi E|tr d fuel limit c st d' H IH HL Hc E Hs]; [eapply flags_start; eassumption|].
  pose proof (straight_history _ _ _ _ H) as H'. pose proof (history_ok _ _ _ _ H') as D.
  destruct (auto_dec st) as [Ha|Hn].
  - destruct (auto_step _ _ _ _ _ _ _ _ _ H' HL Hc E Ha) as (C1 & x & C2 & i' & Ec & El & E' & Wf & Si & Sz & P).
    intros y Hy. rewrite E' in Hy. apply in_middle in Hy as [->|Hy].
    + constructor; cbn [dc_iet dc_cylinder dc_wpt dc_keane]; [discriminate| |].
      * intros _. apply similar_aperiodic; [exact Wf|exact Si|]. apply (Hs Ha (mkdcomp i' (Some false) (Some true) (dc_keane x))).
        unfold component. rewrite E', nth_error_app2 by lia. replace (c - length C1) with 0 by lia. reflexivity.
      * right. right. split; [reflexivity|]. split; [reflexivity|].
        destruct (IH x ltac:(rewrite Ec; apply in_middle; auto)) as [A _ [C|[C|C]]]; try apply C. exfalso. apply Sz, A, C.
    + assert (Hy' : In y (d_comps d)) by (rewrite Ec; apply in_middle; auto).
      destruct (IH y Hy') as [A B C]. constructor; auto. intros Q Pp. apply (B Q).
      revert Pp. apply agree_periodic, agree_frame; [apply (dk_good _ _ D y Hy')|]. intros l Hl. apply (sp_lens _ _ _ _ _ _ _ P).
      intro C0. eapply (dk_disjoint _ d C1 x C2 y l); eassumption.
  - destruct (step_history_post _ _ _ _ _ _ _ _ _ H' HL Hc E) as (C1 & x & C2 & Ec & _ & P). eapply step_flags; eassumption.
Qed.

End Helpers.

Lemma claim_C27_target : forall (T : Type) (O : LenOps T) (W : LenLaws T) (i : iet T) (s : slen T) tr d rounds fuel target limit d',
  decomposition i s tr d -> (limit <= INT_MAX)%Z -> decompose rounds fuel target limit d = Ok (true, d') ->
  forall c, c < length (d_comps d') -> exists v, comp_view d' c = Ok v /\ target v = true.
Proof.
  intros T O W i s tr d rounds fuel target limit d' H%history_ok HL E.
  destruct (big_decompose _ _ _ _ _ _ E) as (f & Hf & E1).
  destruct (decompose_ok _ rounds f target limit d HL H Hf) as [Q|[(Q & _)|(ok & d1 & tr' & Q & H1 & _ & _ & _ & Ht & _)]];
    cbv zeta in Q; rewrite E1 in Q; try discriminate. injection Q as <- <-.
  apply (all_views _ d' (fun v => target v = true) H1). intros z Hz. exact (Ht eq_refl z Hz).
Qed.

Lemma claim_C27_component : forall (T : Type) (O : LenOps T) (W : LenLaws T) (i : iet T) (s : slen T) tr d rounds fuel target limit c ok d',
  decomposition i s tr d -> (limit <= INT_MAX)%Z -> c < length (d_comps d) ->
  comp_decompose rounds fuel target limit c d = Ok (ok, d') ->
  length (d_comps d) <= length (d_comps d') /\
  (ok = true -> forall c', c' < length (d_comps d') -> c' = c \/ length (d_comps d) <= c' ->
     exists v, comp_view d' c' = Ok v /\ target v = true) /\
  (ok = false -> limit <> (-1)%Z) /\
  (forall c', c' < length (d_comps d) -> c' <> c -> comp_view d' c' = comp_view d c').
Proof.
  intros T O W i s tr d rounds fuel target limit c ok d' H%history_ok HL Hc E.
  destruct (big_comp_decompose _ _ _ _ _ _ _ E) as (f & Hf & E1).
  destruct (nth_error (d_comps d) c) as [x|] eqn:Ex; [|apply nth_error_None in Ex; lia].
  apply component_mid in Ex as (C1 & C2 & HD & <-).
  destruct (comp_decompose_ok _ f target limit HL rounds d C1 x C2 H HD Hf) as [Q|[(Q & _)|(ok1 & d1 & y & extra & tr' & Q & Ch & _ & Ht & Hn)]];
    cbv zeta in Q; rewrite E1 in Q; try discriminate. injection Q as <- <-.
  pose proof (cg_comps _ _ _ _ _ _ _ _ Ch) as HD'. pose proof (cg_ok _ _ _ _ _ _ _ _ Ch) as H'.
  assert (Ln : length (d_comps d) = length C1 + 1 + length C2) by (rewrite HD, app_length; simpl; lia).
  assert (Ln' : length (d_comps d') = length C1 + 1 + length C2 + length extra) by (rewrite HD', app_length; simpl; rewrite app_length; lia).
  split; [lia|]. split; [|split; [exact Hn|]].
  - intros -> c' Hc' Hor. destruct (nth_error (d_comps d') c') as [z|] eqn:Ez; [|apply nth_error_None in Ez; lia].
    exists (view_of d' z). split; [apply component_mid in Ez as (D1 & D2 & ED & <-); exact (comp_view_ok _ _ _ _ _ H' ED)|].
    apply Ht; [reflexivity|]. rewrite HD' in Ez. destruct Hor as [->|Hge].
    + rewrite nth_error_app2, Nat.sub_diag in Ez by lia. injection Ez as <-. left. reflexivity.
    + right. rewrite nth_error_app2 in Ez by lia. replace (c' - length C1) with (Datatypes.S (length C2 + (c' - length (d_comps d)))) in Ez by lia.
      cbn [nth_error] in Ez. rewrite nth_error_app2 in Ez by lia. eapply nth_error_In; exact Ez.
  - intros c' Hc' Hne. destruct (nth_error (d_comps d) c') as [z|] eqn:Ez; [|apply nth_error_None in Ez; lia].
    assert (Hz : In z (C1 ++ C2) /\ nth_error (d_comps d') c' = Some z).
    { rewrite HD in Ez. rewrite HD'. destruct (Nat.lt_ge_cases c' (length C1)).
      - rewrite nth_error_app1 in Ez by lia. rewrite nth_error_app1 by lia. split; [apply in_or_app; left; eapply nth_error_In; exact Ez|exact Ez].
      - rewrite nth_error_app2 in Ez by lia. rewrite nth_error_app2 by lia. destruct (c' - length C1) as [|m] eqn:Em; [lia|].
        cbn [nth_error] in *. rewrite nth_error_app1 by lia. split; [apply in_or_app; right; eapply nth_error_In; exact Ez|exact Ez]. }
    destruct Hz as [Hz Ez']. pose proof (change_view _ _ _ _ _ _ _ _ z H HD Ch Hz) as V.
    assert (Q1 : comp_view d c' = Ok (view_of d z)) by (apply component_mid in Ez as (D1 & D2 & ED & <-); exact (comp_view_ok _ _ _ _ _ H ED)).
    assert (Q2 : comp_view d' c' = Ok (view_of d' z)) by (apply component_mid in Ez' as (D1 & D2 & ED & <-); exact (comp_view_ok _ _ _ _ _ H' ED)).
    rewrite Q1, Q2, V. reflexivity.
Qed.

Lemma claim_C27_history : forall (T : Type) (O : LenOps T) (W : LenLaws T) (i : iet T) (s : slen T) tr d rounds fuel target limit,
  decomposition i s tr d -> (limit <= INT_MAX)%Z ->
  (forall ok d', decompose rounds fuel target limit d = Ok (ok, d') ->
     (exists tr', decomposition i s (tr ++ tr') d') /\ (ok = false -> limit <> (-1)%Z)) /\
  (forall c ok d', c < length (d_comps d) -> comp_decompose rounds fuel target limit c d = Ok (ok, d') ->
     exists tr', decomposition i s (tr ++ tr') d') /\
  (decompose rounds fuel target limit d = UB -> limit = (-1)%Z) /\
  decompose rounds fuel target limit d <> AssertFail /\ decompose rounds fuel target limit d <> Throw.
Proof.
  intros T O W i s tr d rounds fuel target limit Hh HL. pose proof (history_ok _ _ _ _ Hh) as H.
  set (f := Nat.max fuel (Datatypes.S (length (d_keys d)))).
  destruct (decompose_more rounds rounds fuel f target limit d ltac:(lia) ltac:(lia)) as [Q|Q].
  - rewrite Q. split; [intros; discriminate|]. split; [|split; [|split]]; try discriminate.
    intros c ok d' Hc E. destruct (big_comp_decompose _ _ _ _ _ _ _ E) as (f' & Hf & E1).
    destruct (nth_error (d_comps d) c) as [x|] eqn:Ex; [|apply nth_error_None in Ex; lia].
    apply component_mid in Ex as (C1 & C2 & HD & <-).
    destruct (comp_decompose_ok _ f' target limit HL rounds d C1 x C2 H HD Hf) as [Q1|[(Q1 & _)|(ok1 & d1 & y & extra & tr' & Q1 & Ch & S & _)]];
      cbv zeta in Q1; rewrite E1 in Q1; try discriminate. injection Q1 as <- <-. exists tr'. exact (steps_history i s _ _ _ S _ Hh).
  - split; [|split].
    + intros ok d' E. rewrite Q in E.
      destruct (decompose_ok _ rounds f target limit d HL H ltac:(lia)) as [Q1|[(Q1 & _)|(ok1 & d1 & tr' & Q1 & _ & _ & S & _ & _ & Hn)]];
        cbv zeta in Q1; rewrite E in Q1; try discriminate. injection Q1 as <- <-. split; [|exact Hn]. exists tr'. exact (steps_history i s _ _ _ S _ Hh).
    + intros c ok d' Hc E. destruct (big_comp_decompose _ _ _ _ _ _ _ E) as (f' & Hf & E1).
      destruct (nth_error (d_comps d) c) as [x|] eqn:Ex; [|apply nth_error_None in Ex; lia].
      apply component_mid in Ex as (C1 & C2 & HD & <-).
      destruct (comp_decompose_ok _ f' target limit HL rounds d C1 x C2 H HD Hf) as [Q1|[(Q1 & _)|(ok1 & d1 & y & extra & tr' & Q1 & Ch & S & _)]];
        cbv zeta in Q1; rewrite E1 in Q1; try discriminate. injection Q1 as <- <-. exists tr'. exact (steps_history i s _ _ _ S _ Hh).
    + rewrite Q. destruct (decompose_ok _ rounds f target limit d HL H ltac:(lia)) as [Q1|[(Q1 & Hn)|(ok1 & d1 & tr' & Q1 & _)]];
        cbv zeta in Q1; rewrite Q1; repeat split; try discriminate. intros _. exact Hn.
Qed.

Lemma claim_C27_bounds : forall (T : Type) (O : LenOps T) rounds rounds' fuel fuel' target limit c (d : decomp T),
  rounds <= rounds' -> fuel <= fuel' ->
  (decompose rounds fuel target limit d = OutOfFuel \/
   decompose rounds fuel target limit d = decompose rounds' fuel' target limit d) /\
  (decomposition_step fuel limit c d = OutOfFuel \/
   decomposition_step fuel limit c d = decomposition_step fuel' limit c d).
Proof.
  intros T O rounds rounds' fuel fuel' target limit c d H H'. split; [exact (decompose_more _ _ _ _ target limit d H H')|].
  exact (decomposition_step_more fuel fuel' limit c d H').
Qed.

Lemma claim_C28_cylinder : forall (T : Type) (O : LenOps T) (W : LenLaws T) (i : iet T) (s : slen T) tr d c x,
  decomposition i s tr d -> component d c x ->
  (dc_cylinder x = Some true -> length (i_top (dc_iet x)) = 1 /\
     forall y, (0 <= y < size (comp_exch d x))%R -> maps (comp_exch d x) y y) /\
  ~ (dc_cylinder x = Some true /\ dc_wpt x = Some true) /\
  dc_keane x <> Some true.
Proof.
  intros T O W i s tr d c x H Hx. pose proof (nth_error_In _ _ Hx) as Hi. destruct (history_shape _ _ _ _ x H Hi) as [A B].
  apply history_ok in H. destruct (dk_good _ _ H x Hi) as [G _]. split; [|split].
  - intro Q. specialize (A Q). split; [exact A|]. unfold i_size in A.
    destruct (i_top (dc_iet x)) as [|a [|]] eqn:E; try discriminate. apply (single_fixed _ a); [apply wf_proper, G|exact E].
  - intros [Q1 Q2]. destruct B as [(B1 & B2 & B3)|[(B1 & B2 & B3)|(B1 & B2 & B3)]]; congruence.
  - exact (dk_keane _ _ H x Hi).
Qed.

Lemma claim_C28_cylinder_kept : forall (T : Type) (O : LenOps T) (W : LenLaws T) (i : iet T) (s : slen T) tr d fuel limit c st d' c' x,
  decomposition i s tr d -> (limit <= INT_MAX)%Z -> c < length (d_comps d) ->
  decomposition_step fuel limit c d = Ok (st, d') -> component d c' x -> dc_cylinder x = Some true ->
  exists y, component d' c' y /\ dc_cylinder y = Some true.
Proof.
  intros T O W i s tr d fuel limit c st d' c' x H HL Hc E Hx Hf. pose proof (steps_one _ _ _ _ _ _ HL Hc E) as S.
  exact (proj2 (steps_flags_shape _ _ _ _ (history_ok _ _ _ _ H) S (fun y => history_shape i s tr d y H)) c' x Hx Hf).
Qed.

Lemma claim_C28_partial : forall (T : Type) (O : LenOps T) (W : LenLaws T) (i : iet T) (s : slen T) tr d c x,
  straight i s tr d -> component d c x -> dc_wpt x = Some true ->
  ~ has_periodic_point (comp_exch d x) /\
  forall fuel limit c' st d', (limit <= INT_MAX)%Z -> c' < length (d_comps d) ->
    decomposition_step fuel limit c' d = Ok (st, d') ->
    exists y, component d' c y /\ dc_wpt y = Some true.
Proof.
  intros T O W i s tr d c x H Hx Hf. pose proof (straight_history _ _ _ _ H) as H'. pose proof (straight_flags _ _ _ _ H) as Fl.
  split.
  - apply (fl_wpt _ _ (Fl x (nth_error_In _ _ Hx))), Hf.
  - intros fuel limit c' st d' HL Hc E. destruct (auto_dec st) as [Ha|Hn].
    + destruct (auto_step i s tr d fuel limit c' st d' H' HL Hc E Ha) as (C1 & z & C2 & i' & Ec & El & E' & _). unfold component in *.
      rewrite Ec in Hx. rewrite E'. subst c'. destruct (Nat.lt_trichotomy c (length C1)) as [L|[L|L]].
      * rewrite nth_error_app1 in * by exact L. eauto.
      * rewrite nth_error_app2 by lia. replace (c - length C1) with 0 by lia. eexists. split; reflexivity.
      * rewrite nth_error_app2 in * by lia. destruct (c - length C1) as [|m] eqn:Em; [lia|]. cbn [nth_error] in *. eauto.
    + pose proof (steps_one _ _ _ _ _ _ HL Hc E) as S1.
      apply (steps_wpt_kept _ _ _ _ (history_ok _ _ _ _ H') S1 ltac:(intros st' [<-|[]]; exact Hn) Fl c x Hx Hf).
Qed.

Lemma claim_C28_included : forall (T : Type) (O : LenOps T) (W : LenLaws T) (i : iet T) (s : slen T) tr d,
  (straight i s tr d -> decomposition i s tr d) /\
  (decomposition i s tr d -> (forall st, In st tr -> dst_result st <> D_WITHOUT_PERIODIC_TRAJECTORY_AUTO_SIMILAR) -> straight i s tr d).
Proof.
  intros T O W i s tr d. split; [apply straight_history|]. induction 1 as [d Hi E|tr d fuel limit c st d' H IH HL Hc E]; intro Hn; [constructor; assumption|].
  eapply sh_step; [apply IH; intros st' Hs; apply Hn, in_or_app; left; exact Hs|exact HL|exact Hc|exact E|].
  intro Q. refine (False_ind _ (Hn st _ Q)). apply in_or_app. right. left. reflexivity.
Qed.

Lemma claim_C29_cylinders : forall (T : Type) (O : LenOps T) (W : LenLaws T) (i : iet T) (s : slen T) d u m rounds fuel,
  obtainable i s -> dec_make i s = Ok d -> (0 < u)%R -> integral u (exch_of i s) ->
  total (lamR s) (i_top i) = (IZR m * u)%R -> (m < 2147483646)%Z ->
  length (i_top i) < rounds -> length (i_top i) < fuel -> (Z.max 64 (2 * m + 2) < Z.of_nat fuel)%Z ->
  exists d', decompose rounds fuel default_target (-1) d = Ok (true, d') /\
    forall c x, component d' c x -> dc_cylinder x = Some true.
Proof.
  intros T O W i s d u m rounds fuel H E Hu Hi Hm HM HR HF HF'. destruct (made_ok i s d H E) as (H0 & _ & Hl & D & _).
  assert (K : d_keys d = i_top i) by exact (dk_keys _ _ H0).
  destruct (decompose_integral (exch_of i s) u m rounds fuel (-1) d ltac:(vm_compute; discriminate) Hu HM H0) as (ok & d' & E1 & Q1 & Q2).
  - intros y Hy. rewrite D in Hy. destruct Hy as [<-|[]]. cbn [dc_iet]. rewrite Hl. split; [exact Hi|].
    change (total (lamR s) (i_top i) <= IZR m * u)%R. rewrite Hm. apply Rle_refl.
  - intros y Hy. rewrite D in Hy. destruct Hy as [<-|[]]. split; discriminate.
  - rewrite K. exact HF.
  - exact HF'.
  - lia.
  - rewrite K. exact HR.
  - rewrite (Q1 eq_refl) in *. exists d'. split; [exact E1|]. intros c x Hx. apply (Q2 eq_refl), (nth_error_In _ _ Hx).
Qed.

Lemma claim_C29_limited : forall (T : Type) (O : LenOps T) (W : LenLaws T) (i : iet T) (s : slen T) tr d rounds fuel limit,
  decomposition i s tr d -> (limit <= INT_MAX)%Z -> limit <> (-1)%Z ->
  length (i_top i) < rounds -> length (i_top i) < fuel -> (limit < Z.of_nat fuel)%Z ->
  exists ok d', decompose rounds fuel default_target limit d = Ok (ok, d').
Proof.
  intros T O W i s tr d rounds fuel limit H HL Hn HR HF HF'. pose proof (history_keys _ _ _ _ H) as K. apply history_ok in H.
  apply (decompose_limited _ rounds fuel limit d HL Hn H); rewrite ?K; assumption.
Qed.

Lemma claim_C30_consistent : forall (T : Type) (O : LenOps T) (W : LenLaws T) (i : iet T) (s : slen T) tr d,
  decomposition i s tr d ->
  (forall e l k, he_left d e = Ok l -> In k l -> In k (lefts d) /\ exists t b, k = mkconn (mksep t ANTIPARALLEL) (mksep b PARALLEL)) /\
  (forall e r k, he_right d e = Ok r -> In k r -> In k (rights d) /\ exists b t, k = mkconn (mksep b PARALLEL) (mksep t ANTIPARALLEL)) /\
  NoDup (map cn_source (lefts d ++ rights d)) /\ NoDup (map cn_target (lefts d ++ rights d)) /\
  (forall k, In k (lefts d) <-> In (conn_neg k) (rights d)) /\
  dec_check d = Ok tt.
Proof.
  intros T O W i s tr d H%history_ok.
  assert (Mk : forall l, memb l (d_keys d) = true -> In l (d_keys d)).
  { intros l Q. apply existsb_exists in Q as (y & Hy & Q). apply Nat.eqb_eq in Q. subst. exact Hy. }
  assert (Q1 : forall e l k, he_left d e = Ok l -> In k l -> In k (lefts d)).
  { intros e l k E Hk. unfold he_left, conns_at in E. destruct (memb (he_label e) (d_keys d)) eqn:M; [|discriminate]. cbn [bind] in E. injection E as <-.
    apply in_flat_map. exists (he_label e). split; [apply Mk, M|]. apply in_or_app. destruct (he_top e); auto. }
  assert (Q2 : forall e r k, he_right d e = Ok r -> In k r -> In k (rights d)).
  { intros e l k E Hk. unfold he_right, conns_at in E. destruct (memb (he_label e) (d_keys d)) eqn:M; [|discriminate]. cbn [bind] in E. injection E as <-.
    apply in_flat_map. exists (he_label e). split; [apply Mk, M|]. apply in_or_app. destruct (he_top e); auto. }
  pose proof (conns_reverse _ d H) as P. pose proof (conns_sources _ d H) as N.
  split; [|split; [|split; [exact N|split; [|split; [|exact (check_ok _ d H)]]]]].
  - intros e l k E Hk. specialize (Q1 e l k E Hk). split; [exact Q1|]. destruct (conns_left _ d H k Q1) as (b & t & -> & _). exists t, b. reflexivity.
  - intros e l k E Hk. specialize (Q2 e l k E Hk). split; [exact Q2|]. destruct (conns_right _ d H k Q2) as (b & t & -> & _). exists b, t. reflexivity.
  - assert (P2 : Permutation (map cn_target (lefts d ++ rights d)) (map cn_source (lefts d ++ rights d))).
    { rewrite !map_app. transitivity (map cn_target (map conn_neg (rights d)) ++ map cn_target (rights d)).
      - apply Permutation_app_tail, Permutation_map, P.
      - rewrite map_map. change (fun x => cn_target (conn_neg x)) with (fun x => cn_source x).
        rewrite (Permutation_app_comm (map (fun x => cn_source x) (rights d))). apply Permutation_app_tail.
        transitivity (map cn_source (map conn_neg (rights d))); [rewrite map_map; reflexivity|]. apply Permutation_map, Permutation_sym, P. }
    exact (Permutation_NoDup (Permutation_sym P2) N).
  - intro k. split; intro Hk.
    + apply (Permutation_in _ P) in Hk. apply in_map_iff in Hk as (k' & <- & Hk). rewrite conn_neg_neg. exact Hk.
    + apply (Permutation_in _ (Permutation_sym P)). apply in_map_iff. exists (conn_neg k). rewrite conn_neg_neg. auto.
Qed.

Lemma claim_C31_chain : forall (T : Type) (O : LenOps T) (W : LenLaws T) (i : iet T) (s : slen T) tr d c x l,
  decomposition i s tr d -> component d c x -> In l (i_bottom (dc_iet x)) ->
  exists cs r, he_right d (mkhe c l false) = Ok cs /\ chained l cs r /\
    (last_label (i_bottom (dc_iet x)) l -> he_separatrix d (mkhe c l false) = Ok None) /\
    (~ last_label (i_bottom (dc_iet x)) l -> he_separatrix d (mkhe c l false) = Ok (Some (mksep r PARALLEL))).
Proof.
  intros T O W i s tr d c x l H%history_ok (C1 & C2 & HD & <-)%component_mid Hl.
  pose proof (comp_perm _ d H C1 C2 x HD) as P. pose proof (comp_keys _ d H C1 C2 x HD) as K.
  pose proof (comp_nodup _ d H C1 C2 x HD) as ND. pose proof (comp_here d C1 C2 x HD) as Hx.
  assert (Ht : In l (i_top (dc_iet x))) by exact (Permutation_in _ (Permutation_sym P) Hl).
  destruct (separatrix_at_bottom _ d H C1 C2 x HD l Ht) as (ls & E1 & E2).
  exists (links l ls), (last ls l). rewrite (he_right_ok d (length C1) l false (K l Ht)), E1. split; [reflexivity|]. split; [apply chained_links|].
  assert (NDb : NoDup (i_bottom (dc_iet x))) by exact (Permutation_NoDup P ND).
  pose proof Hl as Hs. apply in_split in Hs as (A & B & E).
  pose proof (row_last _ A l B NDb E) as Q.
  unfold he_separatrix. rewrite (he_next_ok d (length C1) x Hx ND P false A l B E). cbn [bind he_top he_label]. destruct B as [|n B].
  - split; [reflexivity|]. intro Nq. exfalso. apply Nq, Q. reflexivity.
  - split; [intro Nq; apply Q in Nq; discriminate|]. intros _. rewrite E2. reflexivity.
Qed.

Lemma claim_C31_top : forall (T : Type) (O : LenOps T) (W : LenLaws T) (i : iet T) (s : slen T) tr d c x l,
  decomposition i s tr d -> component d c x -> In l (i_top (dc_iet x)) ->
  he_right d (mkhe c l true) = Ok [] /\
  (last_label (i_top (dc_iet x)) l -> he_separatrix d (mkhe c l true) = Ok None) /\
  (~ last_label (i_top (dc_iet x)) l -> he_separatrix d (mkhe c l true) = Ok (Some (mksep l ANTIPARALLEL))).
Proof.
  intros T O W i s tr d c x l H%history_ok (C1 & C2 & HD & <-)%component_mid Hl.
  pose proof (comp_perm _ d H C1 C2 x HD) as P. pose proof (comp_keys _ d H C1 C2 x HD) as K.
  pose proof (comp_nodup _ d H C1 C2 x HD) as ND. pose proof (comp_here d C1 C2 x HD) as Hx.
  rewrite (he_right_ok d (length C1) l true (K l Hl)), (right_top _ d H). split; [reflexivity|].
  pose proof Hl as Hs. apply in_split in Hs as (A & B & E).
  pose proof (row_last _ A l B ND E) as Q.
  unfold he_separatrix. rewrite (he_next_ok d (length C1) x Hx ND P true A l B E). cbn [bind he_top he_label]. destruct B as [|n B].
  - split; [reflexivity|]. intro Nq. exfalso. apply Nq, Q. reflexivity.
  - split; [intro Nq; apply Q in Nq; discriminate|]. intros _. rewrite (separatrix_at_top _ d H C1 C2 x HD l Hl). reflexivity.
Qed.

Lemma claim_C32_number : forall (T : Type) (O : LenOps T) (W : LenLaws T) (i : iet T) (s : slen T) tr d,
  decomposition i s tr d ->
  length (rights d) + list_sum (map (fun x => length (i_top (dc_iet x)) - 1) (d_comps d)) = length (i_top i) - 1 /\
  length (lefts d) = length (rights d) /\
  ((forall c x, component d c x -> dc_cylinder x = Some true) -> length (rights d) = length (i_top i) - 1).
Proof.
  intros T O W i s tr d Hh. pose proof (history_ok _ _ _ _ Hh) as H. pose proof (conns_number _ d H) as N. rewrite (history_keys _ _ _ _ Hh) in N.
  change (fun x : dcomp T => i_size (dc_iet x) - 1) with (fun x : dcomp T => length (i_top (dc_iet x)) - 1) in N.
  split; [lia|]. split.
  - rewrite (Permutation_length (conns_reverse _ d H)), map_length. reflexivity.
  - intro Q. assert (Z : list_sum (map (fun x : dcomp T => length (i_top (dc_iet x)) - 1) (d_comps d)) = 0); [|lia].
    assert (Q' : forall x, In x (d_comps d) -> length (i_top (dc_iet x)) = 1).
    { intros x Hx. apply (fs_cyl _ (history_shape _ _ _ _ x Hh Hx)). apply In_nth_error in Hx as (c & Hc). exact (Q c x Hc). }
    clear - Q'. induction (d_comps d) as [|x l IH]; [reflexivity|]. cbn. rewrite Q' by (left; reflexivity). apply IH. intros y Hy. apply Q'. right. exact Hy.
Qed.

Lemma claim_C33_partition : forall (T : Type) (O : LenOps T) (W : LenLaws T) (i : iet T) (s : slen T) tr d,
  decomposition i s tr d ->
  NoDup (flat_map (fun x => i_top (dc_iet x)) (d_comps d)) /\
  (forall c x, component d c x -> valid_input (d_len d) (i_top (dc_iet x)) (i_bottom (dc_iet x)) /\
     incl (i_top (dc_iet x)) (i_top i) /\ i_swap (dc_iet x) = false) /\
  sl_stack (d_len d) = [].
Proof.
  intros T O W i s tr d Hh. pose proof (history_ok _ _ _ _ Hh) as H. split; [|split].
  - pose proof (dk_nodup _ _ H) as N. unfold used, comp_iets in N. rewrite flat_map_concat_map, map_map, <- flat_map_concat_map in N. exact N.
  - intros c x Hx%nth_error_In. destruct (dk_good _ _ H x Hx) as [((H1 & H2 & H3 & H4 & H5) & _) Sw]. split; [|split; [|exact Sw]].
    + split; [exact H1|]. split; [exact H2|]. split; [exact H3|exact H4].
    + intros l Hl. rewrite <- (history_keys _ _ _ _ Hh). exact (dk_label _ _ _ _ H Hx Hl).
  - destruct (d_comps d) as [|x l] eqn:E.
    + destruct (history_steps _ _ _ _ Hh) as (d0 & Hi & E0 & S). exfalso. destruct (made_ok i s d0 Hi E0) as (H0 & _ & _ & D & _).
      destruct (dk_inv _ _ H) as (D1 & C). pose proof (conns_number _ d H) as N. rewrite E in N. cbn in N.
      assert (Q : forall d1 tr1 d2, dec_ok (exch_of i s) d1 -> steps d1 tr1 d2 -> d_comps d1 <> [] -> d_comps d2 <> []).
      { clear. intros d1 tr1 d2 H1 S. revert H1. induction S as [|d fuel limit c st d1 tr d2 HL HF Hc E S IH]; [auto|]. intros H1 _.
        destruct (step_call _ _ _ _ _ _ _ H1 HL HF Hc E) as (C1 & x & C2 & HD & <- & P). apply IH; [apply (sp_ok _ _ _ _ _ _ _ P)|].
        destruct (step_shape _ _ _ _ _ _ _ H1 HD P) as (y & extra & E' & _). rewrite E'. destruct C1; discriminate. }
      apply (Q _ _ _ H0 S); [rewrite D; discriminate|exact E].
    + destruct (dk_good _ _ H x) as [((H1 & H2 & H3 & H4 & H5) & _) _]; [rewrite E; left; reflexivity|exact H5].
Qed.

Lemma claim_C33_step : forall (T : Type) (O : LenOps T) (W : LenLaws T) (i : iet T) (s : slen T) tr d fuel limit c x st d',
  decomposition i s tr d -> (limit <= INT_MAX)%Z -> component d c x ->
  decomposition_step fuel limit c d = Ok (st, d') ->
  (forall c', c' < length (d_comps d) -> c' <> c -> comp_view d' c' = comp_view d c') /\
  exists y, component d' c y /\
    match dst_result st with
    | D_SEPARATING_CONNECTION => exists z, dst_additional st = Some (length (d_comps d)) /\ component d' (length (d_comps d)) z /\
        length (d_comps d') = length (d_comps d) + 1 /\ Permutation (i_top (dc_iet y) ++ i_top (dc_iet z)) (i_top (dc_iet x))
    | D_NON_SEPARATING_CONNECTION => dst_additional st = None /\ length (d_comps d') = length (d_comps d) /\
        exists a, Permutation (a :: i_top (dc_iet y)) (i_top (dc_iet x))
    | _ => dst_additional st = None /\ length (d_comps d') = length (d_comps d) /\ Permutation (i_top (dc_iet y)) (i_top (dc_iet x))
    end.
Proof.
  intros T O W i s tr d fuel limit c x st d' Hh HL Hx E.
  assert (Hc : c < length (d_comps d)) by (apply nth_error_Some; rewrite Hx; discriminate).
  destruct (step_history_post _ _ _ _ _ _ _ _ _ Hh HL Hc E) as (C1 & x' & C2 & HD & HC & P).
  assert (x' = x) as ->. { unfold component in Hx. rewrite HD, <- HC, nth_error_app2, Nat.sub_diag in Hx by lia. injection Hx as ->. reflexivity. }
  pose proof (history_ok _ _ _ _ Hh) as H. destruct (step_change _ _ _ _ _ _ _ H HD P) as (y & extra & Ch & Ex & _).
  pose proof (cg_comps _ _ _ _ _ _ _ _ Ch) as HD'. pose proof (cg_ok _ _ _ _ _ _ _ _ Ch) as H'.
  assert (Ln : length (d_comps d) = length C1 + 1 + length C2) by (rewrite HD, app_length; simpl; lia).
  assert (Ln' : length (d_comps d') = length C1 + 1 + length C2 + length extra) by (rewrite HD', app_length; simpl; rewrite app_length; lia).
  split.
  - intros c' Hc' Hne. destruct (nth_error (d_comps d) c') as [z|] eqn:Ez; [|apply nth_error_None in Ez; lia].
    assert (Hz : In z (C1 ++ C2) /\ nth_error (d_comps d') c' = Some z).
    { rewrite HD in Ez. rewrite HD'. destruct (Nat.lt_ge_cases c' (length C1)).
      - rewrite nth_error_app1 in Ez by lia. rewrite nth_error_app1 by lia. split; [apply in_or_app; left; eapply nth_error_In; exact Ez|exact Ez].
      - rewrite nth_error_app2 in Ez by lia. rewrite nth_error_app2 by lia. destruct (c' - length C1) as [|m] eqn:Em; [lia|].
        cbn [nth_error] in *. rewrite nth_error_app1 by lia. split; [apply in_or_app; right; eapply nth_error_In; exact Ez|exact Ez]. }
    destruct Hz as [Hz Ez']. pose proof (change_view _ _ _ _ _ _ _ _ z H HD Ch Hz) as V.
    assert (Q1 : comp_view d c' = Ok (view_of d z)) by (apply component_mid in Ez as (D1 & D2 & ED & <-); exact (comp_view_ok _ _ _ _ _ H ED)).
    assert (Q2 : comp_view d' c' = Ok (view_of d' z)) by (apply component_mid in Ez' as (D1 & D2 & ED & <-); exact (comp_view_ok _ _ _ _ _ H' ED)).
    rewrite Q1, Q2, V. reflexivity.
  - exists y. split; [unfold component; rewrite HD', <- HC, nth_error_app2, Nat.sub_diag by lia; reflexivity|].
    assert (Wx : wf (dc_iet x) (d_len d)). { destruct (dk_good _ _ H x) as [G _]; [rewrite HD; apply in_elt|apply G]. }
    pose proof (sp_case _ _ _ _ _ _ _ P) as PC. unfold dstep_post in PC.
    assert (Same : forall z, d_comps d' = C1 ++ z :: C2 -> z = y /\ extra = []).
    { intros z Ez. rewrite HD' in Ez. apply app_inv_head in Ez. injection Ez as E1 E2. rewrite <- (app_nil_r C2) in E2 at 2. apply app_inv_head in E2. auto. }
    destruct (dst_result st) eqn:Er.
    + destruct PC as (i' & Ec & R & _ & _ & _ & _ & ->). destruct (Same _ Ec) as [<- ->]. cbn [length] in Ln'. split; [reflexivity|]. split; [lia|].
      apply Permutation_sym, (reach_labels _ _ _ _ Wx R).
    + destruct PC as (i' & _ & Ec & Et & _ & _ & _ & ->). destruct (Same _ Ec) as [<- ->]. cbn [length] in Ln'. split; [reflexivity|]. split; [lia|].
      cbn [dc_iet]. rewrite Et. reflexivity.
    + destruct PC as (i1 & k & b & t & walk & R & Hk & _ & Ec & _ & ->). rewrite HD' in Ec. apply app_inv_head in Ec. injection Ec as -> Ec.
      apply app_inv_head in Ec. subst extra. cbn [length] in Ln'. eexists. split; [reflexivity|]. split.
      * unfold component. rewrite HD', nth_error_app2 by lia. replace (length (d_comps d) - length C1) with (Datatypes.S (length C2)) by lia.
        cbn [nth_error]. rewrite nth_error_app2, Nat.sub_diag by lia. reflexivity.
      * split; [lia|]. unfold left_part, right_part, set_saf, set_labels. cbn [dc_iet iet_set i_top]. rewrite firstn_skipn. apply Permutation_sym, (reach_labels _ _ _ _ Wx R).
    + destruct PC as (i1 & i' & b & t & walk & R & M & _ & Ec & _ & ->). destruct (Same _ Ec) as [<- ->]. cbn [length] in Ln'. split; [reflexivity|]. split; [lia|].
      destruct M as (a & b' & X & Y1 & Y2 & E1 & _ & _ & E4 & _). cbn [exch_of e_top dc_iet iet_set] in *. exists a.
      transitivity (i_top i1); [rewrite E1, E4; reflexivity|]. apply Permutation_sym, (reach_labels _ _ _ _ Wx R).
    + destruct PC as (i' & Ec & R & PC). destruct (Same _ Ec) as [<- ->]. cbn [length] in Ln'. 
      assert (Hst : dst_additional st = None) by (decompose [and] PC; subst st; reflexivity). split; [exact Hst|]. split; [lia|].
      apply Permutation_sym, (reach_labels _ _ _ _ Wx R).
    + destruct PC as (i' & Ec & R & PC). destruct (Same _ Ec) as [<- ->]. cbn [length] in Ln'. 
      assert (Hst : dst_additional st = None) by (decompose [and] PC; subst st; reflexivity). split; [exact Hst|]. split; [lia|].
      apply Permutation_sym, (reach_labels _ _ _ _ Wx R).
    + contradiction.
Qed.

Lemma claim_C34_navigation : forall (T : Type) (O : LenOps T) (W : LenLaws T) (i : iet T) (s : slen T) tr d c x,
  decomposition i s tr d -> component d c x ->
  exists ts bs, top_contour d c = Ok ts /\ bottom_contour d c = Ok bs /\
    map he_label ts = i_top (dc_iet x) /\ map he_label bs = i_bottom (dc_iet x) /\
    NoDup ts /\ NoDup bs /\ (forall e, In e ts <-> In (he_neg e) bs) /\
    (forall es, es = ts \/ es = bs -> forall k e, nth_error es k = Some e ->
       (he_top e = true <-> In e ts) /\
       he_component d e = Ok c /\ he_neg (he_neg e) = e /\ he_label (he_neg e) = he_label e /\ he_neg e <> e /\
       he_next d e = Ok (nth_error es (k + 1)) /\
       he_previous d e = Ok (match k with 0 => None | S k' => nth_error es k' end)).
Proof.
  intros T O W i s tr d c x H%history_ok (C1 & C2 & HD & <-)%component_mid.
  pose proof (comp_perm _ d H C1 C2 x HD) as P. pose proof (comp_nodup _ d H C1 C2 x HD) as ND. pose proof (comp_here d C1 C2 x HD) as Hx.
  pose proof (comp_swap _ d H C1 C2 x HD) as Sw.
  set (c := length C1) in *. exists (map (fun l => mkhe c l true) (i_top (dc_iet x))), (map (fun l => mkhe c l false) (i_bottom (dc_iet x))).
  split; [exact (top_contour_ok d c x Hx Sw)|]. split; [exact (bottom_contour_ok d c x Hx Sw)|].
  split; [rewrite map_map; apply map_id|]. split; [rewrite map_map; apply map_id|].
  assert (NDb : NoDup (i_bottom (dc_iet x))) by exact (Permutation_NoDup P ND).
  split; [apply FinFun.Injective_map_NoDup; [intros a b Q; injection Q; auto|exact ND]|].
  split; [apply FinFun.Injective_map_NoDup; [intros a b Q; injection Q; auto|exact NDb]|].
  split.
  { intros [c' l t]. unfold he_neg. cbn. rewrite !in_map_iff. split.
    - intros (l' & Q & Hl). injection Q as <- <- <-. exists l'. split; [reflexivity|]. exact (Permutation_in _ P Hl).
    - intros (l' & Q & Hl). injection Q as <- <- Q. destruct t; [|discriminate]. exists l'. split; [reflexivity|]. exact (Permutation_in _ (Permutation_sym P) Hl). }
  intros es Hes k e Ek.
  assert (exists top, es = map (fun l => mkhe c l top) (row x top)) as (top & Ees) by (destruct Hes as [->| ->]; [exists true|exists false]; reflexivity).
  rewrite Ees in Ek. rewrite nth_error_map in Ek. destruct (nth_error (row x top) k) as [l|] eqn:El; [|discriminate]. injection Ek as <-.
  cbn [he_top he_label he_neg]. split.
  { split.
    - intros ->. apply in_map_iff. exists l. split; [reflexivity|]. eapply nth_error_In. exact El.
    - intro Q. apply in_map_iff in Q as (l' & Q & _). injection Q. auto. }
  split; [apply (he_component_ok d c x Hx Sw); eapply nth_error_In; exact El|].
  unfold he_neg. cbn [he_comp he_label he_top]. rewrite Bool.negb_involutive. split; [reflexivity|]. split; [reflexivity|]. split; [destruct top; discriminate|].
  pose proof (nth_error_split _ _ El) as (A & B & E & LA).
  rewrite (he_next_ok d c x Hx ND P top A l B E), (he_previous_ok d c x Hx ND P top A l B E). rewrite Ees. split.
  - f_equal. rewrite nth_error_map, E. rewrite nth_error_app2 by lia. replace (k + 1 - length A) with 1 by lia. cbn [nth_error]. destruct B; reflexivity.
  - f_equal. destruct (last_case A) as [->|(A' & a & ->)].
    + simpl in LA. subst k. reflexivity.
    + rewrite rev_app_distr. cbn [rev app]. rewrite app_length in LA. cbn [length] in LA. replace k with (Datatypes.S (length A')) by lia.
      rewrite nth_error_map, E, <- app_assoc. rewrite nth_error_app2, Nat.sub_diag by lia. reflexivity.
Qed.

Lemma claim_C34_inverse : forall (T : Type) (O : LenOps T) (W : LenLaws T) (i : iet T) (s : slen T) tr d c x e e',
  decomposition i s tr d -> component d c x -> he_comp e = c -> he_comp e' = c ->
  in_row x (he_top e) (he_label e) -> in_row x (he_top e') (he_label e') ->
  (he_next d e = Ok (Some e') <-> he_previous d e' = Ok (Some e)).
Proof.
  intros T O W i s tr d c x e e' H%history_ok (C1 & C2 & HD & <-)%component_mid Hc Hc' R R'.
  pose proof (comp_perm _ d H C1 C2 x HD) as P. pose proof (comp_nodup _ d H C1 C2 x HD) as ND. pose proof (comp_here d C1 C2 x HD) as Hx.
  destruct e as [c l top], e' as [c' l' top']. cbn [he_comp he_label he_top] in *. subst c c'.
  change (In l (row x top)) in R. change (In l' (row x top')) in R'.
  apply in_split in R as (A & B & E). apply in_split in R' as (A' & B' & E').
  rewrite (he_next_ok d _ x Hx ND P top A l B E), (he_previous_ok d _ x Hx ND P top' A' l' B' E').
  assert (NR : forall t, NoDup (row x t)) by (intros []; [exact ND|exact (Permutation_NoDup P ND)]).
  split.
  - destruct B as [|n B]; [discriminate|]. intro Q. injection Q as -> ->. 
    assert (A' = A ++ [l]) as ->.
    { assert (Q : (A ++ [l]) ++ l' :: B = A' ++ l' :: B') by (rewrite <- app_assoc; cbn [app]; congruence).
      assert (N1 : ~ In l' (A ++ [l])). { intro C. specialize (NR top'). rewrite E in NR. replace (A ++ l :: l' :: B) with ((A ++ [l]) ++ l' :: B) in NR by (rewrite <- app_assoc; reflexivity). apply NoDup_remove_2 in NR. apply NR, in_or_app. auto. }
      assert (N2 : ~ In l' A'). { intro C. specialize (NR top'). rewrite E' in NR. apply NoDup_remove_2 in NR. apply NR, in_or_app. auto. }
      symmetry. apply (split_unique l' _ B A' B' N1 N2 Q). }
    rewrite rev_app_distr. reflexivity.
  - destruct (last_case A') as [->|(A'' & a & ->)]; [discriminate|]. rewrite rev_app_distr. cbn [rev app]. intro Q. injection Q as -> ->.
    assert (B = l' :: B') as ->; [|reflexivity].
    assert (Q : A ++ l :: B = A'' ++ l :: l' :: B') by (rewrite <- E, E', <- app_assoc; reflexivity).
    assert (N1 : ~ In l A). { intro C. specialize (NR top). rewrite E in NR. apply NoDup_remove_2 in NR. apply NR, in_or_app. auto. }
    assert (N2 : ~ In l A''). { intro C. specialize (NR top). rewrite E', <- app_assoc in NR. cbn [app] in NR. apply NoDup_remove_2 in NR. apply NR, in_or_app. auto. }
    pose proof (split_unique l A B A'' (l' :: B') N1 N2 Q) as ->. apply app_inv_head in Q. injection Q. auto.
Qed.

Lemma claim_C35_perimeter : forall (T : Type) (O : LenOps T) (W : LenLaws T) (i : iet T) (s : slen T) tr d c x,
  decomposition i s tr d -> component d c x ->
  exists p, comp_perimeter d c = Ok p /\ NoDup p /\
    (forall e, In (SEdge e) p <-> he_comp e = c /\ in_row x (he_top e) (he_label e)) /\
    (forall k, In (SConn k) p <-> exists e cs, he_comp e = c /\ in_row x (he_top e) (he_label e) /\
       (he_left d e = Ok cs \/ he_right d e = Ok cs) /\ In k cs).
Proof.
  intros T O W i s tr d c x H%history_ok (C1 & C2 & HD & <-)%component_mid.
  apply perimeter_sides with (x := x).
  - exact (comp_here d C1 C2 x HD).
  - exact (comp_swap _ d H C1 C2 x HD).
  - exact (comp_nodup _ d H C1 C2 x HD).
  - exact (comp_perm _ d H C1 C2 x HD).
  - exact (comp_keys _ d H C1 C2 x HD).
  - exact (rows_cons _ d H C1 C2 x HD).
  - exact (conns_nodup _ d H).
Qed.

Lemma claim_C36_cross : forall (T : Type) (O : LenOps T) (W : LenLaws T) (i : iet T) (s : slen T) tr d c x,
  decomposition i s tr d -> component d c x ->
  exists bs ts css p q first, bottom_contour d c = Ok bs /\ top_contour d c = Ok ts /\ mapM (he_cross d) (bs ++ rev ts) = Ok css /\
    comp_perimeter d c = Ok (p ++ q) /\ q ++ p = concat css /\ NoDup (concat css) /\
    hd_error bs = Some first /\ hd_error (p ++ q) = Some (SEdge first).
Proof.
  intros T O W i s tr d c x H%history_ok (C1 & C2 & HD & <-)%component_mid.
  apply perimeter_cross with (x := x).
  - exact (comp_here d C1 C2 x HD).
  - exact (comp_swap _ d H C1 C2 x HD).
  - exact (comp_nodup _ d H C1 C2 x HD).
  - exact (comp_perm _ d H C1 C2 x HD).
  - exact (comp_keys _ d H C1 C2 x HD).
  - exact (rows_cons _ d H C1 C2 x HD).
  - exact (conns_nodup _ d H).
Qed.

Lemma claim_C36_order : forall (T : Type) (O : LenOps T) (d : decomp T) e l r,
  he_left d e = Ok l -> he_right d e = Ok r ->
  he_cross d e = Ok (if he_top e then map SConn r ++ SEdge e :: map SConn (rev l) else map SConn (rev l) ++ SEdge e :: map SConn r).
Proof.
  intros T O d e l r El Er. unfold he_cross. rewrite El, Er. cbn [bind]. rewrite map_rev. destruct (he_top e); reflexivity.
Qed.

Lemma rotate_mid {A} (a b p q : list A) k : a ++ b = p ++ k :: q -> exists p' q', b ++ a = p' ++ k :: q' /\ q' ++ p' = q ++ p.
Proof.
  intro E. apply app_eq_app in E as (l & [[-> E]|[-> E]]).
  - destruct l as [|z l].
    + cbn in E. subst b. exists [], (q ++ p). rewrite app_nil_r. split; [reflexivity|apply app_nil_r].
    + injection E as <- ->. exists (b ++ p), l. rewrite <- !app_assoc. auto.
  - rewrite E. exists l, (q ++ a). rewrite <- !app_assoc. auto.
Qed.

Lemma backwards_flat {A} (f : A -> list side) l : flat_map (fun a => backwards (f a)) l = backwards (flat_map f (rev l)).
Proof.
  induction l as [|a l IH]; [reflexivity|]. cbn [flat_map rev]. rewrite IH, flat_map_app. cbn [flat_map]. rewrite app_nil_r.
  unfold backwards. rewrite rev_app_distr, map_app. reflexivity.
Qed.

Lemma backwards_app a b : backwards (a ++ b) = backwards b ++ backwards a.
Proof. unfold backwards. rewrite rev_app_distr, map_app. reflexivity. Qed.

Lemma side_back_back s : side_back (side_back s) = s.
Proof. destruct s as [[[? []] [? []]]|]; reflexivity. Qed.

Lemma backwards_back l : backwards (backwards l) = l.
Proof. unfold backwards. rewrite <- map_rev, rev_involutive, map_map. rewrite <- (map_id l) at 2. apply map_ext. intro. apply side_back_back. Qed.
Lemma claim_C58_separating : forall (T : Type) (O : LenOps T) (W : LenLaws T) (i : iet T) (s : slen T) tr d c x fuel limit st d',
  decomposition i s tr d -> component d c x -> (limit <= INT_MAX)%Z -> decomposition_step fuel limit c d = Ok (st, d') ->
  dst_result st = D_SEPARATING_CONNECTION ->
  exists k w p q, dst_connection st = Some k /\ dst_equivalent st = Some w /\
    comp_perimeter d' c = Ok (p ++ SConn k :: q) /\ w = reversed (q ++ p).
Proof.
  intros T O W i s tr d c x fuel limit st d' H Hx HL E Er.
  assert (Hc : c < length (d_comps d)) by (apply nth_error_Some; rewrite Hx; discriminate).
  destruct (step_history_post _ _ _ _ _ _ _ _ _ H HL Hc E) as (C1 & z & C2 & HD & <- & P).
  pose proof (sp_walk _ _ _ _ _ _ _ P) as V. unfold walk_post in V. rewrite Er in V. destruct V as (y & k & w & Hy & Ek & Ew & V).
  exists k, w. pose proof (sp_ok _ _ _ _ _ _ _ P) as H'.
  apply component_mid in Hy as (D1 & D2 & HD' & EL). rewrite <- EL in *.
  destruct (perimeter_ok _ d' H' D1 D2 y HD') as (b & X & Hb & Ep & Ar & ND).
  unfold around in Ar. rewrite !backwards_flat in V. rewrite rev_involutive in V.
  assert (V' : flat_map (fun l => crossing d' (length D1) l true) (rev (i_top (dc_iet y))) ++ flat_map (fun l => crossing d' (length D1) l false) (i_bottom (dc_iet y)) = backwards w ++ [SConn k]).
  { apply (f_equal backwards) in V. rewrite backwards_app, !backwards_back in V. rewrite <- V.
    change (SConn (conn_neg k) :: w) with ([SConn (conn_neg k)] ++ w). rewrite backwards_app. f_equal. cbn. f_equal. apply (side_back_back (SConn k)). }
  apply rotate_mid in V' as (p1 & q1 & V1 & V2). rewrite V1 in Ar. symmetry in Ar. apply rotate_mid in Ar as (p2 & q2 & V3 & V4).
  exists p2, q2. split; [exact Ek|]. split; [exact Ew|]. split; [rewrite Ep, V3; reflexivity|].
  change (reversed (q2 ++ p2)) with (backwards (q2 ++ p2)). rewrite V4, V2. cbn [app]. symmetry. apply backwards_back.
Qed.

Lemma claim_C58_nonseparating : forall (T : Type) (O : LenOps T) (W : LenLaws T) (i : iet T) (s : slen T) tr d c x fuel limit st d',
  decomposition i s tr d -> component d c x -> (limit <= INT_MAX)%Z -> decomposition_step fuel limit c d = Ok (st, d') ->
  dst_result st = D_NON_SEPARATING_CONNECTION ->
  exists y k w b t L1 L2 L3 R1 R2, component d' c y /\ dst_connection st = Some k /\ dst_equivalent st = Some w /\
    in_row y false b /\ ~ in_row y true t /\
    he_left d' (mkhe c b false) = Ok (L1 ++ L2 ++ L3) /\ he_right d' (mkhe c b false) = Ok (R1 ++ k :: R2) /\
    chained b (R1 ++ [k]) t /\
    w = map (fun k => SConn (conn_neg k)) (rev R1) ++ SEdge (mkhe c b false) :: map (fun k => SConn (conn_neg k)) (L1 ++ L2) ++ [SEdge (mkhe c t true)].
Proof.
  intros T O W i s tr d c x fuel limit st d' H Hx HL E Er.
  assert (Hc : c < length (d_comps d)) by (apply nth_error_Some; rewrite Hx; discriminate).
  destruct (step_history_post _ _ _ _ _ _ _ _ _ H HL Hc E) as (C1 & z & C2 & HD & <- & P).
  pose proof (sp_walk _ _ _ _ _ _ _ P) as V. unfold walk_post in V. rewrite Er in V.
  destruct V as (y & k & w & b & t & L1 & L2 & L3 & R1 & R2 & D & Hy & Ek & Ew & Ib & It & Et & EL & ER & ED & Es & Eq).
  pose proof (sp_ok _ _ _ _ _ _ _ P) as H'.
  pose proof (sp_case _ _ _ _ _ _ _ P) as PC. unfold dstep_post in PC. rewrite Er in PC.
  destruct PC as (i1 & i' & b' & t' & w' & R & HM & _ & Ec & _ & Est). rewrite Est in Ek. cbn [dst_connection] in Ek. injection Ek as <-.
  cbn [right_conn cn_target cn_source sp_label fst snd] in *. subst t' b'.
  pose proof (nth_error_In _ _ Hy) as Iy.
  assert (Kb : In b (d_keys d')).
  { eapply dk_label; [exact H'|exact Iy|]. destruct (dk_good _ _ H' y Iy) as [((_ & Pm & _) & _) _]. exact (Permutation_in _ (Permutation_sym Pm) Ib). }
  exists y, (right_conn (last D b, t)), w, b, t, L1, L2, L3, R1, R2.
  split; [exact Hy|]. split; [rewrite Est; reflexivity|]. split; [exact Ew|]. split; [exact Ib|]. split; [exact It|].
  split; [rewrite he_left_ok, EL by exact Kb; reflexivity|]. split; [rewrite he_right_ok, ER by exact Kb; reflexivity|]. split.
  - replace (R1 ++ [right_conn (last D b, t)]) with (links b (D ++ [t])) by (rewrite links_app, ED; reflexivity).
    pose proof (chained_links b (D ++ [t])) as Q. rewrite last_last in Q. exact Q.
  - rewrite Eq. rewrite !backwards_app. change (SEdge (mkhe (length C1) t true) :: rev (map SConn L2)) with ([SEdge (mkhe (length C1) t true)] ++ rev (map SConn L2)).
    rewrite backwards_app. unfold backwards. rewrite !rev_involutive, <- map_rev, !map_map, map_app. cbn [rev map app side_back].
    rewrite <- !app_assoc. reflexivity.
Qed.

Lemma claim_C58_none : forall (T : Type) (O : LenOps T) (W : LenLaws T) (i : iet T) (s : slen T) tr d c x fuel limit st d',
  decomposition i s tr d -> component d c x -> (limit <= INT_MAX)%Z -> decomposition_step fuel limit c d = Ok (st, d') ->
  dst_result st <> D_SEPARATING_CONNECTION -> dst_result st <> D_NON_SEPARATING_CONNECTION -> dst_equivalent st = None /\ dst_connection st = None.
Proof.
  intros T O W i s tr d c x fuel limit st d' H Hx HL E N1 N2.
  assert (Hc : c < length (d_comps d)) by (apply nth_error_Some; rewrite Hx; discriminate).
  destruct (step_history_post _ _ _ _ _ _ _ _ _ H HL Hc E) as (C1 & z & C2 & HD & <- & P).
  pose proof (sp_case _ _ _ _ _ _ _ P) as PC. unfold dstep_post in PC. destruct (dst_result st); try contradiction.
  - destruct PC as (? & _ & _ & _ & _ & _ & _ & ->). auto.
  - destruct PC as (? & _ & _ & _ & _ & _ & _ & ->). auto.
  - destruct PC as (? & _ & _ & _ & _ & _ & _ & ->). auto.
  - destruct PC as (? & _ & _ & _ & _ & ->). auto.
Qed.

Lemma claim_C38_transparent : forall (T : Type) (O : LenOps T) (W : LenLaws T) (i : iet T) (s : slen T) tr d c x fuel limit,
  decomposition i s tr d -> component d c x -> (limit <= INT_MAX)%Z ->
  match induce sample_lens fuel limit (dc_iet x) (d_len d) with
  | Ok (st, j, t) => exists d', induce (dec_lens c) fuel limit (dc_iet x) d = Ok (st, j, d') /\ d_len d' = t /\ d_comps d' = d_comps d
  | OutOfFuel => induce (dec_lens c) fuel limit (dc_iet x) d = OutOfFuel
  | UB => induce (dec_lens c) fuel limit (dc_iet x) d = UB
  | _ => False
  end.
Proof.
  intros T O W i s tr d c x fuel limit H%history_ok Hx HL. pose proof (nth_error_In _ _ Hx) as Hi. destruct (dk_good _ _ H x Hi) as [G Sw].
  apply component_mid in Hx as (C1 & C2 & HD & <-). pose proof (dk_fits _ _ _ _ _ H HD) as Ft.
  pose proof (induce_same (length C1) limit fuel (dc_iet x) d HL G Sw Ft) as Q.
  destruct (induce sample_lens fuel limit (dc_iet x) (d_len d)) as [[[st j] t]| | | |]; try exact Q.
  destruct Q as (d' & E1 & E2 & _ & E3). eauto.
Qed.

Lemma claim_C46_result : forall (T : Type) (O : LenOps T) (d : decomp T) e ls rs L R d',
  inject d e ls rs = Ok (L, R, d') -> he_left d e = Ok [] -> he_right d e = Ok [] ->
  L = map (fun p => mkconn (mksep (fst p) ANTIPARALLEL) (mksep (snd p) PARALLEL)) ls /\
  R = map (fun p => mkconn (mksep (fst p) PARALLEL) (mksep (snd p) ANTIPARALLEL)) rs /\
  he_cross d' e = Ok (if he_top e then map SConn (rev R) ++ SEdge e :: map SConn L else map SConn (rev L) ++ SEdge e :: map SConn R) /\
  (forall e', he_label e' <> he_label e \/ he_top e' <> he_top e -> he_left d' e' = he_left d e' /\ he_right d' e' = he_right d e') /\
  d_comps d' = d_comps d /\ d_len d' = d_len d.
Proof.
  intros T O d e ls rs L R d' E El Er. destruct (inject_result d e ls rs L R d' E El Er) as (H1 & H2 & H3 & _ & _ & H6 & H7 & H8 & _).
  split; [exact H1|]. split; [exact H2|]. rewrite !map_rev. split; [rewrite H3; destruct (he_top e); reflexivity|]. auto.
Qed.

Lemma claim_C46_succeeds : forall (T : Type) (O : LenOps T) (W : LenLaws T) (i : iet T) (s : slen T) tr d e ls rs,
  decomposition i s tr d -> In (he_label e) (i_top i) -> he_left d e = Ok [] -> he_right d e = Ok [] ->
  let new := map (fun p => mkconn (mksep (fst p) ANTIPARALLEL) (mksep (snd p) PARALLEL)) ls ++
             map (fun p => mkconn (mksep (fst p) PARALLEL) (mksep (snd p) ANTIPARALLEL)) rs in
  NoDup (flat_map (fun k => [cn_source k; cn_target k]) new) ->
  (forall k k' z, In k new -> In k' (lefts d ++ rights d) -> z = cn_source k \/ z = cn_target k -> cn_source k' <> z /\ cn_target k' <> z) ->
  exists L R d', inject d e ls rs = Ok (L, R, d').
Proof.
  intros T O W i s tr d e ls rs Hh Hk El Er new ND Fr. pose proof (history_keys _ _ _ _ Hh) as K. apply history_ok in Hh.
  apply (inject_succeeds _ d e ls rs Hh); [rewrite K; exact Hk|exact El|exact Er|exact ND|].
  intros z Hz C. apply in_flat_map in Hz as (k & Hk1 & Hz). apply in_flat_map in C as (k' & Hk2 & C).
  destruct (Fr k k' z Hk1) as [N1 N2].
  - apply in_or_app. right. exact Hk2.
  - destruct Hz as [<-|[<-|[]]]; auto.
  - destruct C as [C|[C|[]]]; contradiction.
Qed.

Lemma claim_C48_terminates : forall (T : Type) (O : LenOps T) (W : LenLaws T) (i : iet T) (s : slen T) tr d c x fuel limit,
  decomposition i s tr d -> component d c x -> (limit <= INT_MAX)%Z -> limit <> (-1)%Z ->
  length (i_top i) < fuel -> (limit < Z.of_nat fuel)%Z ->
  exists st d', decomposition_step fuel limit c d = Ok (st, d').
Proof.
  intros T O W i s tr d c x fuel limit Hh (C1 & C2 & HD & <-)%component_mid HL Hn HF HF'. pose proof (history_keys _ _ _ _ Hh) as K.
  apply history_ok in Hh. rewrite <- K in HF.
  destruct (decomposition_step_ok _ fuel d C1 x C2 limit Hh HD HL HF) as [(E & B)|[(E & Q & _)|(st & d' & E & _)]]; cbv zeta in E.
  - destruct (Z.eqb_spec limit (-1)); [contradiction|]. lia.
  - contradiction.
  - eauto.
Qed.

Lemma claim_C48_budget : forall (T : Type) (O : LenOps T) (W : LenLaws T) (i : iet T) (s : slen T) tr d c x fuel limit st d',
  decomposition i s tr d -> component d c x -> (0 <= limit <= INT_MAX)%Z ->
  decomposition_step fuel limit c d = Ok (st, d') ->
  exists v i0 k f ist j y, saf_invariant (dc_iet x) (d_len d) = Ok (v, i0) /\ (0 <= k <= limit)%Z /\ (0 < limit -> 0 < k)%Z /\
    induce sample_lens f k i0 (d_len d) = Ok (ist, j, d_len d') /\ dst_result st = dresult_of (is_result ist) /\
    component d' c y /\ dc_iet y = j /\
    (forall r, is_result ist = SEPARATING_CONNECTION -> is_additional ist = Some r ->
       exists z, component d' (length (d_comps d)) z /\ dc_iet z = r) /\
    (dst_result st = D_LIMIT_REACHED -> k = limit).
Proof.
  intros T O W i s tr d c x fuel limit st d' H%history_ok (C1 & C2 & HD & <-)%component_mid HL E.
  destruct (step_is_induce _ fuel limit d C1 x C2 st d' H HD HL E) as (v & i0 & k & f & ist & j & y & extra & Q1 & Q2 & Q3 & Q4 & Q5 & Q6 & Q7 & Q8).
  exists v, i0, k, f, ist, j, y. split; [exact Q1|]. split; [lia|]. split; [lia|]. split; [exact Q3|]. split; [exact Q7|].
  split; [unfold component; rewrite Q4, nth_error_app2, Nat.sub_diag by lia; reflexivity|]. split; [exact Q5|]. split; [|exact Q8].
  intros r Er Ea. rewrite Er, Ea in Q6. destruct extra as [|z [|]]; try discriminate. injection Q6 as Q6. exists z. split; [|exact Q6].
  unfold component. rewrite Q4, HD, app_length. cbn [length]. rewrite nth_error_app2 by lia. replace (length C1 + Datatypes.S (length C2) - length C1) with (Datatypes.S (length C2)) by lia.
  cbn [nth_error]. rewrite nth_error_app2, Nat.sub_diag by lia. reflexivity.
Qed.

Lemma claim_C48_unlimited : forall (T : Type) (O : LenOps T) (W : LenLaws T) (i : iet T) (s : slen T) tr d c x fuel,
  decomposition i s tr d -> component d c x -> length (i_top i) < fuel ->
  (forall u m, (0 < u)%R -> integral u (comp_exch d x) -> total (lamR (d_len d)) (i_top (dc_iet x)) = (IZR m * u)%R ->
     (m < 2147483646)%Z -> (Z.max 64 (2 * m + 2) < Z.of_nat fuel)%Z ->
     exists st d', decomposition_step fuel (-1) c d = Ok (st, d') /\ dst_result st <> D_LIMIT_REACHED) /\
  (forall limit, (limit <= INT_MAX)%Z -> decomposition_step fuel limit c d <> AssertFail /\ decomposition_step fuel limit c d <> Throw /\
     (decomposition_step fuel limit c d = UB -> limit = (-1)%Z)).
Proof.
  intros T O W i s tr d c x fuel Hh (C1 & C2 & HD & <-)%component_mid HF. pose proof (history_keys _ _ _ _ Hh) as K.
  apply history_ok in Hh. rewrite <- K in HF. split.
  - intros u m Hu Hi Hm HM HF'.
    destruct (decomposition_step_ok _ fuel d C1 x C2 (-1) Hh HD ltac:(vm_compute; discriminate) HF) as [(E & B)|[(E & Q & B)|(st & d' & E & _ & B)]]; cbv zeta in E.
    + cbn [Z.eqb Pos.eqb] in B. specialize (B u m Hu Hi). unfold ltot in B. rewrite Hm in B. specialize (B (Rle_refl _)). lia.
    + specialize (B u Hu Hi). unfold ltot in B. rewrite Hm in B. exfalso.
      apply Rmult_le_reg_r in B; [|exact Hu]. apply le_IZR in B. lia.
    + exists st, d'. split; [exact E|]. intro Q. apply B in Q as [Q _]. apply Q. reflexivity.
  - intros limit HL. destruct (decomposition_step_ok _ fuel d C1 x C2 limit Hh HD HL HF) as [(E & _)|[(E & Q & _)|(st & d' & E & _)]]; cbv zeta in E;
      rewrite E; repeat split; try discriminate. intros _. exact Q.
Qed.

Lemma claim_C52_tiles : forall (T : Type) (O : LenOps T) (W : LenLaws T) (i : iet T) (s : slen T) tr d,
  decomposition i s tr d ->
  exists P, map fst P = map (comp_exch d) (d_comps d) /\ tiles (exch_of i s) P.
Proof.
  intros T O W i s tr d (d0 & Hi & E0 & S)%history_steps. destruct (made_ok i s d0 Hi E0) as (H0 & P0 & _).
  destruct (steps_ok _ _ _ _ H0 S) as (H1 & A & _). destruct (dk_inv _ _ H0) as (D & C).
  assert (Pr : proper (exch_of i s)) by (apply wf_proper; apply obtainable_good in Hi; apply Hi).
  destruct (asteps_tiles _ _ _ _ _ _ [(exch_of i s, 0%R)] C A) as (P & EP & TP); [rewrite P0; reflexivity|apply tiles_start, Pr|].
  exists P. split; [exact EP|exact TP].
Qed.

Lemma claim_C52_periodic : forall (T : Type) (O : LenOps T) (W : LenLaws T) (i : iet T) (s : slen T) tr d,
  decomposition i s tr d ->
  (has_periodic_point (exch_of i s) <-> exists c x, component d c x /\ has_periodic_point (comp_exch d x)) /\
  ((forall y, (0 <= y < size (exch_of i s))%R -> periodic (maps (exch_of i s)) y) <->
   (forall c x y, component d c x -> (0 <= y < size (comp_exch d x))%R -> periodic (maps (comp_exch d x)) y)) /\
  ((forall c x, component d c x -> dc_cylinder x = Some true) ->
   forall y, (0 <= y < size (exch_of i s))%R -> periodic (maps (exch_of i s)) y).
Proof.
  intros T O W i s tr d Hh. pose proof (history_start _ _ _ _ Hh) as Hi. pose proof (history_ok _ _ _ _ Hh) as H.
  assert (Pr : proper (exch_of i s)) by (apply wf_proper; apply obtainable_good in Hi; apply Hi).
  destruct (claim_C52_tiles T O W i s tr d Hh) as (P & EP & TP).
  assert (Cp : forall x, In x (d_comps d) -> proper (comp_exch d x)).
  { intros x Hx. destruct (dk_good _ _ H x Hx) as [G _]. apply wf_proper, G. }
  assert (PP : forall e o, In (e, o) P -> exists x, In x (d_comps d) /\ e = comp_exch d x).
  { intros e o He. apply (in_map fst) in He. rewrite EP in He. apply in_map_iff in He as (x & Q & Hx). exists x. auto. }
  assert (PP' : forall x, In x (d_comps d) -> exists o, In (comp_exch d x, o) P).
  { intros x Hx. apply (in_map (comp_exch d)) in Hx. rewrite <- EP in Hx. apply in_map_iff in Hx as ([e o] & Q & He). cbn in Q. subst e. exists o. exact He. }
  assert (Pe : forall e o, In (e, o) P -> proper e) by (intros e o He; destruct (PP e o He) as (x & Hx & ->); apply Cp, Hx).
  assert (A : (forall y, (0 <= y < size (exch_of i s))%R -> periodic (maps (exch_of i s)) y) <->
   (forall c x y, component d c x -> (0 <= y < size (comp_exch d x))%R -> periodic (maps (comp_exch d x)) y)).
  { rewrite (tiles_all_periodic _ P Pr Pe TP). split.
    - intros Q c x y Hx Hy. destruct (PP' x (nth_error_In _ _ Hx)) as (o & Ho). exact (Q _ o y Ho Hy).
    - intros Q e o y He Hy. destruct (PP e o He) as (x & Hx & ->). apply In_nth_error in Hx as (c & Hc). exact (Q c x y Hc Hy). }
  split; [|split; [exact A|]].
  - rewrite (tiles_periodic _ P Pr Pe TP). split.
    + intros (e & o & He & Q). destruct (PP e o He) as (x & Hx & ->). apply In_nth_error in Hx as (c & Hc). eauto.
    + intros (c & x & Hx & Q). destruct (PP' x (nth_error_In _ _ Hx)) as (o & Ho). eauto.
  - intro Q. apply A. intros c x y Hx Hy. exists 1. split; [lia|]. exists y. split; [|reflexivity].
    apply (proj1 (claim_C28_cylinder T O W i s tr d c x Hh Hx) (Q c x Hx)). exact Hy.
Qed.

Lemma claim_C54_genuine : forall (T : Type) (O : LenOps T) (W : LenLaws T) (i : iet T) (s : slen T) tr d,
  decomposition i s tr d ->
  (forall b t, In (mkconn (mksep b PARALLEL) (mksep t ANTIPARALLEL)) (rights d) -> direct_connection (exch_of i s) b t) /\
  (forall b t, In (mkconn (mksep t ANTIPARALLEL) (mksep b PARALLEL)) (lefts d) -> direct_connection (exch_of i s) b t) /\
  (forall c x b t b' t', component d c x -> he_separatrix d (mkhe c b false) = Ok (Some (mksep b' PARALLEL)) ->
     he_separatrix d (mkhe c t true) = Ok (Some (mksep t' ANTIPARALLEL)) ->
     In b (i_bottom (dc_iet x)) -> In t (i_top (dc_iet x)) ->
     direct_connection (comp_exch d x) b t -> direct_connection (exch_of i s) b' t') /\
  (forall fuel limit c st d' k, (limit <= INT_MAX)%Z -> c < length (d_comps d) ->
     decomposition_step fuel limit c d = Ok (st, d') -> dst_connection st = Some k ->
     exists b t, k = mkconn (mksep b PARALLEL) (mksep t ANTIPARALLEL) /\ direct_connection (exch_of i s) b t).
Proof.
  intros T O W i s tr d Hh. pose proof (history_ok _ _ _ _ Hh) as H. split; [|split; [|split]].
  - intros b t Q. destruct (conns_right _ d H _ Q) as (b' & t' & E & Q'). injection E as -> ->. exact Q'.
  - intros b t Q. destruct (conns_left _ d H _ Q) as (b' & t' & E & Q'). injection E as -> ->. exact Q'.
  - intros c x b t b' t' (C1 & C2 & HD & <-)%component_mid Eb Et Hb Ht Q.
    pose proof (comp_perm _ d H C1 C2 x HD) as P.
    assert (Hb' : In b (i_top (dc_iet x))) by exact (Permutation_in _ (Permutation_sym P) Hb).
    destruct (right_bottom _ d H C1 C2 x HD b Hb') as (ls & E1 & _ & Lift).
    destruct (separatrix_at_bottom _ d H C1 C2 x HD b Hb') as (ls' & E2 & E3).
    unfold he_separatrix in Eb, Et. apply bind_ok in Eb as ([n|] & _ & Eb); [|discriminate]. apply bind_ok in Et as ([n'|] & _ & Et); [|discriminate].
    cbn [he_top he_label] in Eb, Et. rewrite E3 in Eb. rewrite (separatrix_at_top _ d H C1 C2 x HD t Ht) in Et. cbn [bind] in Eb, Et.
    injection Eb as <-. injection Et as <-. specialize (Lift t Q).
    assert (Same : links b ls = links b ls') by congruence. apply (f_equal (map cn_target)) in Same. rewrite !links_target in Same.
    assert (ls = ls') as <-; [|exact Lift].
    apply (f_equal (map sp_label)) in Same. rewrite !map_map, !map_id in Same. exact Same.
  - intros fuel limit c st d' k HL Hc E Ek. destruct (step_history_post _ _ _ _ _ _ _ _ _ Hh HL Hc E) as (C1 & x & C2 & HD & _ & P).
    pose proof (sp_case _ _ _ _ _ _ _ P) as PC. unfold dstep_post in PC.
    destruct (dst_result st).
    + destruct PC as (i' & _ & _ & _ & _ & _ & _ & ->). discriminate.
    + destruct PC as (i' & _ & _ & _ & _ & _ & _ & ->). discriminate.
    + destruct PC as (i1 & kk & b & t & walk & _ & _ & _ & _ & Q & ->). injection Ek as <-. exists b, t. split; [reflexivity|exact Q].
    + destruct PC as (i1 & i' & b & t & walk & _ & _ & _ & _ & Q & ->). injection Ek as <-. exists b, t. split; [reflexivity|exact Q].
    + destruct PC as (i' & _ & _ & PC). exfalso. decompose [and] PC. subst st. discriminate.
    + destruct PC as (i' & _ & _ & PC). exfalso. decompose [and] PC. subst st. discriminate.
    + contradiction.
Qed.

Lemma claim_C54_complete : forall (T : Type) (O : LenOps T) (W : LenLaws T) (i : iet T) (s : slen T) tr d b t,
  decomposition i s tr d -> (forall c x, component d c x -> length (i_top (dc_iet x)) = 1) ->
  direct_connection (exch_of i s) b t ->
  In (mkconn (mksep b PARALLEL) (mksep t ANTIPARALLEL)) (rights d) /\ In (mkconn (mksep t ANTIPARALLEL) (mksep b PARALLEL)) (lefts d).
Proof.
  intros T O W i s tr d b t H%history_ok Hs Q.
  assert (A : In (right_conn (b, t)) (rights d)).
  { apply (conns_complete _ d H b t); [|exact Q]. intros x Hx. apply In_nth_error in Hx as (c & Hc). exact (Hs c x Hc). }
  split; [exact A|]. apply (Permutation_in _ (Permutation_sym (conns_reverse _ d H))). apply in_map_iff. exists (right_conn (b, t)). split; [reflexivity|exact A].
Qed.

