(** Irreducible IETs with independent lengths: induction and decomposition. *)
From Coq Require Import Reals Lra Lia Permutation QArith Qcanon List ZArith.
From Verif Require Import Base QcTac LenT FM Subspace Lengths IET LenInst Decomp Spec SpecDec SpecLin SpecIndep SpecDense Api DecApi RankApi DenseApi.
From Verif Require Import ZorichProof Dyn Path Saf Bosh Saddle Direct Similar InduceProof InduceCons World Seq DecompInv DecompMore DecompRef DecompStep DecompAll DecompBudget RankDec Ends EndsDec Indep.
Open Scope nat_scope.

Section IndepDec.
Context {T : Type} {O : LenOps T} {W : LenLaws T}.

(** * The SAF invariant and the verdicts of steps *)

Lemma loop_similar_saf e0 fuel cost : (cost = None \/ cost = Some 64%Z) -> forall (d : decomp T) C1 x C2 limit st d',
  dec_ok e0 d -> d_comps d = C1 ++ x :: C2 -> (limit < 0)%Z -> forall rounds, step_loop rounds fuel cost limit (length C1) d = Ok (st, d') ->
  is_result st = WITHOUT_PERIODIC_TRAJECTORY_AUTO_SIMILAR -> vis0 (saf_now (dc_iet x) (d_len d)) = true.
Proof.
  intros HC d C1 x C2 limit st d' H0 HD HL rounds E Hr. destruct rounds as [|rounds]; [discriminate|]. cbn [step_loop] in E.
  assert (K : (match cost with Some k => if (limit <? 2 * k)%Z then limit else k | None => limit end) = limit).
  { destruct HC as [->| ->]; [reflexivity|]. destruct (Z.ltb_spec limit (2 * 64)); [reflexivity|lia]. }
  rewrite K in E. clear K. rewrite (comp_at_mid d C1 x C2 HD) in E. cbn [bind] in E.
  assert (Hx : In x (d_comps d)) by (rewrite HD; apply in_elt).
  destruct (dk_good _ _ H0 x Hx) as [G Sw]. pose proof (dk_fits _ _ _ _ _ H0 HD) as Ft.
  assert (HM : (limit <= INT_MAX)%Z) by (unfold INT_MAX; lia).
  pose proof (induce_same (length C1) limit fuel (dc_iet x) d HM G Sw Ft) as Same.
  destruct (induce sample_lens fuel limit (dc_iet x) (d_len d)) as [[[st1 j] s1]| | | |] eqn:E1; try contradiction.
  2:{ rewrite Same in E. discriminate. }
  2:{ rewrite Same in E. discriminate. }
  destruct Same as (d1 & E2 & L1 & K1 & D1). rewrite E2 in E. cbn [bind] in E.
  assert (HD1 : d_comps d1 = C1 ++ x :: C2) by congruence.
  rewrite (comp_set_mid d1 C1 x C2 _ HD1) in E. cbn [bind] in E. rewrite Z.sub_diag in E. cbn [Z.eqb] in E.
  assert (st1 = st) as -> by (destruct (is_result st1); injection E as <- _; reflexivity).
  exact (similar_saf fuel limit (dc_iet x) (d_len d) st j s1 G HM E1 Hr).
Qed.

Lemma limited_similar_saf e0 fuel (d : decomp T) C1 x C2 limit st d' : dec_ok e0 d -> d_comps d = C1 ++ x :: C2 ->
  (limit <= INT_MAX)%Z -> step_limited fuel limit (length C1) d = Ok (st, d') ->
  dst_result st = D_WITHOUT_PERIODIC_TRAJECTORY_AUTO_SIMILAR -> vis0 (saf_now (dc_iet x) (d_len d)) = true.
Proof.
  intros H0 HD HL E Hr. destruct (Z_le_gt_dec 0 limit) as [HZ|HZ].
  - assert (E' : decomposition_step fuel limit (length C1) d = Ok (st, d')).
    { unfold decomposition_step. destruct (Z.eqb_spec limit (-1)); [lia|]. exact E. }
    destruct (step_is_induce e0 fuel limit d C1 x C2 st d' H0 HD ltac:(lia) E') as (v & i0 & k & f & ist & j & y & extra & Es & Hk & Ei & _ & _ & _ & Hres & _).
    destruct (dk_good _ _ H0 x) as [Gx Sw]; [rewrite HD; apply in_elt|].
    destruct (saf_invariant_ok (dc_iet x) (d_len d) (proj1 Gx) (proj1 (proj2 Gx))) as (w & Q1 & Cw). rewrite Q1 in Es. injection Es as _ <-.
    assert (Hir : is_result ist = WITHOUT_PERIODIC_TRAJECTORY_AUTO_SIMILAR) by (rewrite Hr in Hres; destruct (is_result ist); try discriminate; reflexivity).
    exact (similar_saf f k _ _ ist j (d_len d') (good_set_saf _ _ _ Gx Cw) ltac:(lia) Ei Hir).
  - unfold step_limited in E. destruct (step_start_ok e0 d C1 x C2 H0 HD) as (cost & v & E1 & Hc & H1). rewrite E1 in E. cbn [bind] in E.
    set (d1 := set_comps d (C1 ++ iet_set x (set_saf (dc_iet x) (Some v)) :: C2)) in *.
    apply bind_ok in E as ([ist d2] & E2 & E).
    assert (HC : cost = None \/ cost = Some 64%Z) by (rewrite Hc; destruct (vis0 _); auto).
    destruct (finish_result fuel ist _ d2 st d' E) as (Hres & _).
    assert (Hir : is_result ist = WITHOUT_PERIODIC_TRAJECTORY_AUTO_SIMILAR) by (rewrite Hr in Hres; destruct (is_result ist); try discriminate; reflexivity).
    exact (loop_similar_saf e0 fuel cost HC d1 C1 (iet_set x (set_saf (dc_iet x) (Some v))) C2 limit ist d2 H1 eq_refl ltac:(lia) fuel E2 Hir).
Qed.

Lemma unlimited_similar_saf e0 fuel cost : (cost = None \/ cost = Some 64%Z) -> forall rounds (d : decomp T) C1 x C2 limit st d',
  dec_ok e0 d -> d_comps d = C1 ++ x :: C2 -> length (d_keys d) < fuel -> (0 <= limit <= INT_MAX)%Z ->
  step_unlimited rounds fuel cost limit (length C1) d = Ok (st, d') ->
  dst_result st = D_WITHOUT_PERIODIC_TRAJECTORY_AUTO_SIMILAR -> vis0 (saf_now (dc_iet x) (d_len d)) = true.
Proof.
  intro HC. induction rounds as [|rounds IH]; intros d C1 x C2 limit st d' H0 HD Hf HL E Hr; [discriminate|]. cbn [step_unlimited] in E.
  apply bind_ok in E as ([st1 d1] & E1 & E).
  destruct (dst_result st1) eqn:Er1.
  2-7: injection E as -> ->; exact (limited_similar_saf e0 fuel d C1 x C2 limit st d' H0 HD ltac:(lia) E1 Hr).
  destruct (step_limited_ok e0 fuel d C1 x C2 limit H0 HD ltac:(lia) ltac:(lia) Hf) as [(Q & _)|(st2 & d2 & Q & P & _)]; rewrite Q in E1; [discriminate|].
  injection E1 as -> ->. pose proof (sp_case _ _ _ _ _ _ _ P) as S. unfold dstep_post in S. rewrite Er1 in S. destruct S as (i' & Ed & R & _).
  destruct (dk_good _ _ H0 x) as [Gx Sw]; [rewrite HD; apply in_elt|].
  rewrite <- (reach_saf _ _ _ _ (proj1 Gx) R).
  assert (Hf1 : length (d_keys d1) < fuel) by (rewrite (dk_keys _ _ (sp_ok _ _ _ _ _ _ _ P)), <- (dk_keys _ _ H0); exact Hf).
  change i' with (dc_iet (iet_set x i')).
  destruct HC as [->| ->]; destruct (Z.leb_spec (2 * (limit + 1)) INT_MAX) as [B|B]; try discriminate E.
  - exact (IH d1 C1 (iet_set x i') C2 (2 * (limit + 1))%Z st d' (sp_ok _ _ _ _ _ _ _ P) Ed Hf1 ltac:(lia) E Hr).
  - exact (IH d1 C1 (iet_set x i') C2 64%Z st d' (sp_ok _ _ _ _ _ _ _ P) Ed Hf1 ltac:(unfold INT_MAX; lia) E Hr).
Qed.

Theorem step_similar_saf e0 fuel (d : decomp T) C1 x C2 limit st d' : dec_ok e0 d -> d_comps d = C1 ++ x :: C2 ->
  (limit <= INT_MAX)%Z -> decomposition_step fuel limit (length C1) d = Ok (st, d') ->
  dst_result st = D_WITHOUT_PERIODIC_TRAJECTORY_AUTO_SIMILAR -> vis0 (saf_now (dc_iet x) (d_len d)) = true.
Proof.
  intros H0 HD HL E Hr. destruct (big_step _ _ _ _ _ E) as (f & Hf & E'). clear E. revert E'. unfold decomposition_step. destruct (Z.eqb_spec limit (-1)) as [->|D].
  - destruct (step_start_ok e0 d C1 x C2 H0 HD) as (cost & v & E1 & Hc & H1). rewrite E1. cbn [bind].
    set (d1 := set_comps d (C1 ++ iet_set x (set_saf (dc_iet x) (Some v)) :: C2)) in *. intro E.
    assert (HC : cost = None \/ cost = Some 64%Z) by (rewrite Hc; destruct (vis0 _); auto).
    exact (unlimited_similar_saf e0 f cost HC f d1 C1 (iet_set x (set_saf (dc_iet x) (Some v))) C2 0 st d' H1 eq_refl Hf ltac:(unfold INT_MAX; lia) E Hr).
  - intro E. exact (limited_similar_saf e0 f d C1 x C2 limit st d' H0 HD HL E Hr).
Qed.

(** * Irreducible IETs with independent lengths *)

Definition generic (i : iet T) (s : slen T) : Prop := 2 <= length (i_top i) /\ ~ reducible (exch_of i s) /\ independent (exch_of i s).

Lemma generic_balanced i s : wf i s -> generic i s -> ~ balanced (exch_of i s).
Proof. intros H (L & R & I). exact (independent_unbalanced _ (wf_proper _ _ H) I R L). Qed.
Lemma generic_connectable i s b t : wf i s -> generic i s -> not_last (i_bottom i) b -> not_last (i_top i) t -> ~ connectable (exch_of i s) b t.
Proof. intros H (L & R & I). exact (independent_unconnectable _ (wf_proper _ _ H) I R L b t). Qed.
Lemma generic_saddle i s : wf i s -> generic i s -> ~ has_saddle_connection (exch_of i s).
Proof.
  intros H G (b & t & S). destruct (saddle_not_last _ _ _ (wf_proper _ _ H) S) as [Ht Hb].
  exact (generic_connectable i s b t H G Hb Ht (saddle_connectable _ _ _ (wf_proper _ _ H) S)).
Qed.
Lemma generic_periodic i s : wf i s -> generic i s -> ~ has_periodic_point (exch_of i s).
Proof. intros H G P. exact (generic_balanced i s H G (periodic_balanced _ (wf_proper _ _ H) P)). Qed.
Lemma generic_saf i s : wf i s -> generic i s -> vis0 (saf_now i s) = false.
Proof.
  intros H G. destruct (vis0 (saf_now i s)) eqn:V; [exfalso|reflexivity].
  destruct (saf_zero_solution i s H V) as (g & Hg & HS). exact (generic_balanced i s H G (positive_balanced i s g H Hg HS)).
Qed.
Lemma generic_size i s : generic i s -> i_size i <> 1.
Proof. intros (L & _). unfold i_size. lia. Qed.
Lemma generic_reach i s j t : wf i s -> generic i s -> reach i s j t -> ~ reducible (exch_of j t) -> generic j t.
Proof.
  intros H (L & R & I) Re Rj. split; [|split; [exact Rj|]].
  - rewrite <- (Permutation_length (reach_labels _ _ _ _ H Re)). exact L.
  - exact (path_independent _ _ (wf_proper _ _ H) (r_path _ _ _ _ Re) I).
Qed.

Lemma generic_induce fuel limit i s st j t : good i s -> generic i s -> (limit <= INT_MAX)%Z ->
  induce sample_lens fuel limit i s = Ok (st, j, t) ->
  is_result st = WITHOUT_PERIODIC_TRAJECTORY_BOSHERNITZAN /\ is_connection st = None /\ is_additional st = None /\ limit <> (-1)%Z /\ good j t /\ generic j t.
Proof.
  intros Hg G HL E. pose proof (proj1 Hg) as H.
  pose proof (induce_ok limit fuel i s HL Hg) as [(Q & _)|[(Q & _)|(st' & j' & t' & Q & Hg1 & P)]]; rewrite Q in E; try discriminate.
  injection E as -> -> ->. pose proof (induce_connection_genuine limit i s st j t) as Gen. pose proof P as P0. unfold induce_post in P. destruct (is_result st) eqn:Er.
  - destruct P as (_ & R & Rj & _ & B & _). exfalso. exact (generic_balanced j t (proj1 Hg1) (generic_reach _ _ _ _ H G R Rj) B).
  - destruct P as (Q1 & _). exfalso. exact (generic_size _ _ G Q1).
  - destruct P as (i1 & k & b & t' & _ & _ & _ & _ & _ & _ & _ & Es & _). exfalso. apply (generic_saddle i s H G). exists b, t'.
    apply (Gen b t' H P0). rewrite Es. reflexivity.
  - destruct P as (i1 & a & b & _ & _ & _ & _ & _ & _ & _ & _ & _ & _ & Es). exfalso. apply (generic_saddle i s H G). exists b, a.
    apply (Gen b a H P0). rewrite Es. reflexivity.
  - destruct P as (_ & R & Rj & _ & _ & Lm & Es). rewrite Es. split; [reflexivity|]. split; [reflexivity|]. split; [reflexivity|]. split; [exact Lm|].
    split; [exact Hg1|]. exact (generic_reach _ _ _ _ H G R Rj).
  - exfalso. pose proof (similar_saf fuel limit i s st j t Hg HL Q Er) as V. rewrite (generic_saf i s H G) in V. discriminate.
Qed.

(** A decomposition with a single component. *)
Definition single (e0 : exch) (d : decomp T) : Prop :=
  dec_ok e0 d /\ exists x, d_comps d = [x] /\ generic (dc_iet x) (d_len d) /\ length (i_top (dc_iet x)) = length (e_top e0).

Lemma single_step e0 d fuel limit c st d' : ~ has_saddle_connection e0 -> single e0 d -> (limit <= INT_MAX)%Z -> c < length (d_comps d) ->
  decomposition_step fuel limit c d = Ok (st, d') ->
  st = mkdstep D_WITHOUT_PERIODIC_TRAJECTORY_BOSHERNITZAN None None None /\ single e0 d' /\
  exists y, d_comps d' = [y] /\ dc_cylinder y = Some false /\ dc_wpt y = Some true.
Proof.
  intros Ns (H & x & Ec & Gx & Lx) HL Hc E.
  assert (c = 0) as -> by (rewrite Ec in Hc; simpl in Hc; lia).
  destruct (big_call e0 d fuel limit 0 st d' H HL Hc E) as (C1 & x' & C2 & Ec' & Hl & P).
  destruct C1; [|discriminate]. rewrite Ec' in Ec. simpl in Ec. injection Ec as -> ->.
  destruct (dk_good _ _ H x) as [Hgx Sw]; [rewrite Ec'; left; reflexivity|]. pose proof (proj1 Hgx) as Wx.
  pose proof (sp_case _ _ _ _ _ _ _ P) as Q. unfold dstep_post in Q. destruct (dst_result st) eqn:Er.
  - destruct Q as (i' & Ed & R & _ & Rj & _ & B & _). exfalso. refine (generic_balanced i' (d_len d') _ (generic_reach _ _ _ _ Wx Gx R Rj) B). apply R.
  - destruct Q as (i' & Hs & _). exfalso. exact (generic_size _ _ Gx Hs).
  - destruct Q as (i1 & k & b & t & w & _ & _ & _ & _ & Dc & _). exfalso. apply Ns. exists b, t. exact (direct_saddle _ _ _ Dc).
  - destruct Q as (i1 & i' & b & t & w & _ & _ & _ & _ & Dc & _). exfalso. apply Ns. exists b, t. exact (direct_saddle _ _ _ Dc).
  - destruct Q as (i' & Ed & R & _ & Rj & _ & _ & Es). split; [exact Es|]. simpl in Ed. split.
    + split; [apply P|]. eexists. split; [exact Ed|]. cbn [dc_iet]. split; [exact (generic_reach _ _ _ _ Wx Gx R Rj)|].
      rewrite <- (Permutation_length (reach_labels _ _ _ _ Wx R)). exact Lx.
    + eexists. split; [exact Ed|]. split; reflexivity.
  - exfalso. pose proof (step_similar_saf e0 fuel d [] x [] limit st d' H Ec' HL E Er) as V. rewrite (generic_saf _ _ Wx Gx) in V. discriminate.
  - destruct Q.
Qed.
(** Such steps do not take long. *)
Lemma single_step_ends e0 d fuel limit : ~ has_saddle_connection e0 -> single e0 d -> (limit <= INT_MAX)%Z ->
  length (d_keys d) < fuel -> (limit < Z.of_nat fuel)%Z -> exists st d', decomposition_step fuel limit 0 d = Ok (st, d').
Proof.
  intros Ns S HL Hf HF. pose proof S as (H & x & Ec & Gx & Lx).
  assert (Lim : forall d limit x, dec_ok e0 d -> d_comps d = [x] -> (limit <= INT_MAX)%Z -> (limit <> -1)%Z -> length (d_keys d) < fuel -> (limit < Z.of_nat fuel)%Z ->
    exists st d', step_limited fuel limit 0 d = Ok (st, d')).
  { clear. intros d limit x H Ec HL HN Hf HF.
    destruct (step_limited_ok e0 fuel d [] x [] limit H Ec HL HN Hf) as [(Q & B)|(st & d' & Q & _)]; [exfalso; lia|]. exists st, d'. exact Q. }
  unfold decomposition_step. destruct (Z.eqb_spec limit (-1)) as [->|D]; [|exact (Lim d limit x H Ec HL D Hf HF)].
  destruct (step_start_ok e0 d [] x [] H Ec) as (cost & v & E1 & Hc & H1). cbn [length] in E1. rewrite E1. cbn [bind].
  set (d1 := set_comps d ([] ++ iet_set x (set_saf (dc_iet x) (Some v)) :: [])) in *.
  destruct (Lim d1 0%Z (iet_set x (set_saf (dc_iet x) (Some v))) H1 eq_refl ltac:(unfold INT_MAX; lia) ltac:(lia) Hf ltac:(lia)) as (st & d' & E2).
  assert (S1 : single e0 d1) by (split; [exact H1|]; eexists; split; [reflexivity|]; split; [exact Gx|exact Lx]).
  destruct (single_step e0 d1 fuel 0 0 st d' Ns S1 ltac:(unfold INT_MAX; lia) ltac:(simpl; lia) E2) as (Es & _).
  exists st, d'. destruct fuel as [|fuel]; [lia|]. cbn [step_unlimited]. rewrite E2. cbn [bind]. rewrite Es. reflexivity.
Qed.
End IndepDec.
