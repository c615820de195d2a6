(** Proofs of the properties in [PropIndep]. *)
From Coq Require Import Reals Lra Lia Permutation QArith Qcanon List ZArith Classical.
From Verif Require Import Base QcTac LenT FM Subspace Lengths IET LenInst Sqrt2 Cubic Decomp Spec SpecDec SpecLin SpecIndep SpecDense Api DecApi RankApi DenseApi Fixtures KeaneFixtures.
From Verif Require Import ZorichProof Dyn Path Saf Bosh Saddle Direct Similar InduceProof InduceCons World Seq DecompInv DecompMore DecompCons DecompRef DecompStep DecompAll DecompBudget RankDec Ends EndsDec Indep IndepDec.
From Verif Require Import ClaimsSaf ClaimsInduce ClaimsDecomp ClaimsKeane.
Open Scope nat_scope.

Lemma claim_C78_steps : forall (T : Type) (O : LenOps T) (W : LenLaws T) (i : iet T) (s : slen T) tr d fuel limit c x st d' v i',
  decomposition i s tr d -> (limit <= INT_MAX)%Z -> component d c x ->
  decomposition_step fuel limit c d = Ok (st, d') -> saf_invariant (dc_iet x) (d_len d) = Ok (v, i') ->
  (dst_result st = D_WITHOUT_PERIODIC_TRAJECTORY_AUTO_SIMILAR -> Forall (fun q => q = 0%Qc) v) /\
  (dst_result st = D_WITHOUT_PERIODIC_TRAJECTORY_BOSHERNITZAN -> ~ Forall (fun q => q = 0%Qc) v).
Proof.
  intros T O W i s tr d fuel limit c x st d' v i' H HL Hc E Es. pose proof (history_ok _ _ _ _ H) as D.
  assert (Hn : c < length (d_comps d)) by (apply nth_error_Some; unfold component in Hc; congruence).
  destruct (step_history_post i s tr d fuel limit c st d' H HL Hn E) as (C1 & x' & C2 & Ec & <- & P).
  assert (x' = x) as ->. { unfold component in Hc. rewrite Ec, nth_error_app2, Nat.sub_diag in Hc by lia. injection Hc as ->. reflexivity. }
  destruct (dk_good _ _ D x) as [G Sw]; [rewrite Ec; apply in_elt|].
  destruct (saf_invariant_ok (dc_iet x) (d_len d) (proj1 G) (proj1 (proj2 G))) as (w & Q & _). rewrite Q in Es. injection Es as <- _.
  split; intro Hr.
  - apply vis0_forall. exact (step_similar_saf _ _ _ _ _ _ _ _ _ D Ec HL E Hr).
  - intro Z. apply vis0_forall in Z. pose proof (sp_case _ _ _ _ _ _ _ P) as S. unfold dstep_post in S. rewrite Hr in S.
    destruct S as (j & _ & R & _ & _ & _ & B & _). apply B.
    assert (Wj : wf j (d_len d')) by apply R.
    rewrite <- (reach_saf _ _ _ _ (proj1 G) R) in Z. destruct (saf_zero_solution j (d_len d') Wj Z) as (g & Hg & HS).
    exact (positive_balanced j (d_len d') g Wj Hg HS).
Qed.

Lemma claim_C84_criteria : forall (T : Type) (O : LenOps T) (W : LenLaws T) (i : iet T) (s : slen T),
  obtainable i s -> 2 <= length (i_top i) -> ~ reducible (exch_of i s) -> independent (exch_of i s) ->
  (exists i', bosh_no_periodic i s = Ok (true, i')) /\
  bosh_no_saddle i s = Ok true /\
  forall t b, not_last (i_top i) t -> not_last (i_bottom i) b -> bosh_no_saddle2 i s t b = Ok true.
Proof.
  intros T O W i s H%obtainable_good L R I. assert (G : generic i s) by (repeat split; assumption). pose proof H as (Wf & C & _).
  split; [|split].
  - destruct (bosh_no_periodic_ok i s Wf C) as (b & v & E & _ & Hb). exists (set_saf i (Some v)). rewrite E.
    rewrite (proj2 Hb (generic_balanced i s Wf G)). reflexivity.
  - destruct (bosh_no_saddle_ok i s Wf) as (r & E & Hr). rewrite E. f_equal. apply Hr. split; [exact L|].
    intros t b Ht Hb. exact (generic_connectable i s b t Wf G Hb Ht).
  - intros t b Ht Hb. destruct (bosh_no_saddle2_ok i s t b Wf Ht Hb) as (r & E & Hr). rewrite E. f_equal. apply Hr.
    exact (generic_connectable i s b t Wf G Hb Ht).
Qed.

Lemma claim_C84_dynamics : forall (T : Type) (O : LenOps T) (W : LenLaws T) (i : iet T) (s : slen T),
  obtainable i s -> 2 <= length (i_top i) -> ~ reducible (exch_of i s) -> independent (exch_of i s) ->
  ~ has_periodic_point (exch_of i s) /\ ~ has_saddle_connection (exch_of i s) /\ minimal (exch_of i s).
Proof.
  intros T O W i s H L R I. assert (G : generic i s) by (repeat split; assumption). pose proof (obtainable_good i s H) as Hg. pose proof Hg as (Wf & C & _).
  split; [exact (generic_periodic i s Wf G)|]. split; [exact (generic_saddle i s Wf G)|].
  apply NNPP. intro Nm. destruct (claim_C75_calls T O W i s H (or_intror (or_intror Nm))) as (N & HN).
  assert (Go : forall n i s, good i s -> generic i s -> quiet (repeat 1%Z n) i s).
  { clear. induction n as [|n IH]; intros i s Hg G; simpl; [constructor|].
    destruct (induce_ok 1 2 i s ltac:(unfold INT_MAX; lia) Hg) as [(Q & B)|[(Q & B)|(st & j & t & Q & Hg1 & P)]].
    - exfalso. revert B. simpl. lia.
    - exfalso. destruct B as [B _]. discriminate.
    - destruct (generic_induce 2 1 i s st j t Hg G ltac:(unfold INT_MAX; lia) Q) as (Er & _ & _ & _ & _ & Gj).
      apply (qt_cons 1 _ i s 2 st j t); [unfold INT_MAX; lia|exact Q|right; exact Er|]. apply IH; assumption. }
  specialize (HN _ (Go (Z.to_nat N) i s Hg G)).
  assert (S : forall n, zsuml (repeat 1%Z n) = Z.of_nat n) by (induction n; [reflexivity|]; unfold zsuml in *; cbn [repeat fold_right]; lia).
  rewrite S in HN. lia.
Qed.

Lemma claim_C84_induce : forall (T : Type) (O : LenOps T) (W : LenLaws T) (i : iet T) (s : slen T) fuel limit,
  obtainable i s -> 2 <= length (i_top i) -> ~ reducible (exch_of i s) -> independent (exch_of i s) ->
  (0 <= limit <= INT_MAX)%Z -> (limit < Z.of_nat fuel)%Z ->
  exists st j t, induce sample_lens fuel limit i s = Ok (st, j, t) /\
    is_result st = WITHOUT_PERIODIC_TRAJECTORY_BOSHERNITZAN /\ is_connection st = None /\ is_additional st = None /\
    length (i_top j) = length (i_top i) /\ ~ reducible (exch_of j t) /\ independent (exch_of j t).
Proof.
  intros T O W i s fuel limit H L R I HL HF. assert (G : generic i s) by (repeat split; assumption). pose proof (obtainable_good i s H) as Hg.
  destruct (claim_C26_budget T O W i s fuel limit H ltac:(lia) ltac:(lia) ltac:(lia)) as (st & j & t & E).
  destruct (generic_induce fuel limit i s st j t Hg G ltac:(lia) E) as (Er & Ec & Ea & Hl & _ & (_ & Rj & Ij)).
  exists st, j, t. split; [exact E|]. split; [exact Er|]. split; [exact Ec|]. split; [exact Ea|]. split; [|split; [exact Rj|exact Ij]].
  destruct (induce_ok limit fuel i s ltac:(lia) Hg) as [(Q & _)|[(Q & _)|(st' & j' & t' & Q & _ & P)]]; rewrite Q in E; try discriminate.
  injection E as -> -> ->. unfold induce_post in P. rewrite Er in P. destruct P as (_ & Re & _).
  rewrite <- (Permutation_length (reach_labels _ _ _ _ (proj1 Hg) Re)). reflexivity.
Qed.

Lemma claim_C84_unlimited : forall (T : Type) (O : LenOps T) (W : LenLaws T) (i : iet T) (s : slen T) fuel,
  obtainable i s -> 2 <= length (i_top i) -> ~ reducible (exch_of i s) -> independent (exch_of i s) ->
  forall r, induce sample_lens fuel (-1) i s <> Ok r.
Proof.
  intros T O W i s fuel H L R I [[st j] t] E. assert (G : generic i s) by (repeat split; assumption).
  destruct (generic_induce fuel (-1) i s st j t (obtainable_good i s H) G ltac:(unfold INT_MAX; lia) E) as (_ & _ & _ & N & _). congruence.
Qed.

Lemma make_single (T : Type) (O : LenOps T) (W : LenLaws T) (i : iet T) (s : slen T) d : obtainable i s -> generic i s -> dec_make i s = Ok d ->
  single (exch_of i s) d.
Proof.
  intros H G E. destruct (made_ok i s d H E) as (D & _ & El & Ec & _). split; [exact D|]. eexists. split; [exact Ec|].
  cbn [dc_iet]. rewrite El. split; [exact G|reflexivity].
Qed.
Lemma claim_C84_steps : forall (T : Type) (O : LenOps T) (W : LenLaws T) (i : iet T) (s : slen T) tr d,
  2 <= length (i_top i) -> ~ reducible (exch_of i s) -> independent (exch_of i s) ->
  decomposition i s tr d ->
  (forall st, In st tr -> dst_result st = D_WITHOUT_PERIODIC_TRAJECTORY_BOSHERNITZAN /\ dst_connection st = None /\ dst_additional st = None) /\
  rights d = [] /\ lefts d = [] /\
  exists x, d_comps d = [x] /\ length (i_top (dc_iet x)) = length (i_top i) /\
    ~ reducible (comp_exch d x) /\ independent (comp_exch d x) /\
    (tr = [] \/ dc_cylinder x = Some false /\ dc_wpt x = Some true).
Proof.
  intros T O W i s tr d L R I H. assert (G : generic i s) by (repeat split; assumption).
  pose proof (history_start _ _ _ _ H) as Hi. pose proof (obtainable_good i s Hi) as Hg.
  pose proof (generic_saddle i s (proj1 Hg) G) as Ns.
  assert (Q : single (exch_of i s) d /\ (forall st, In st tr -> st = mkdstep D_WITHOUT_PERIODIC_TRAJECTORY_BOSHERNITZAN None None None) /\
    (tr = [] \/ exists y, d_comps d = [y] /\ dc_cylinder y = Some false /\ dc_wpt y = Some true)).
  { clear - H G Ns. induction H as [d Hi E|tr d fuel limit c st d' H (Sd & Ht & _) HL Hc E].
    - split; [exact (make_single T O W i s d Hi G E)|]. split; [intros st []|left; reflexivity].
    - destruct (single_step _ d fuel limit c st d' Ns Sd HL Hc E) as (Es & S' & Y). split; [exact S'|]. split; [|right; exact Y].
      intros st' Hin. apply in_app_or in Hin as [Hin|[<-|[]]]; [exact (Ht _ Hin)|exact Es]. }
  destruct Q as ((D & x & Ec & (_ & Rx & Ix) & Lx) & Ht & Hfl).
  split; [intros st Hst; rewrite (Ht st Hst); repeat split|].
  split; [|split].
  - destruct (rights d) as [|k ks] eqn:Er; [reflexivity|]. exfalso. apply Ns.
    destruct (conns_right _ d D k) as (b & t & _ & Dc); [rewrite Er; left; reflexivity|]. exists b, t. exact (direct_saddle _ _ _ Dc).
  - destruct (lefts d) as [|k ks] eqn:Er; [reflexivity|]. exfalso. apply Ns.
    destruct (conns_left _ d D k) as (b & t & _ & Dc); [rewrite Er; left; reflexivity|]. exists b, t. exact (direct_saddle _ _ _ Dc).
  - exists x. split; [exact Ec|]. split; [exact Lx|]. split; [exact Rx|]. split; [exact Ix|].
    destruct Hfl as [->|(y & Ey & F)]; [left; reflexivity|]. right. rewrite Ec in Ey. injection Ey as <-. exact F.
Qed.

Lemma claim_C84_decompose : forall (T : Type) (O : LenOps T) (W : LenLaws T) (i : iet T) (s : slen T) d rounds fuel limit,
  obtainable i s -> 2 <= length (i_top i) -> ~ reducible (exch_of i s) -> independent (exch_of i s) ->
  dec_make i s = Ok d -> (limit <= INT_MAX)%Z -> 2 <= rounds -> length (i_top i) < fuel -> (limit < Z.of_nat fuel)%Z ->
  exists d' x, decompose rounds fuel default_target limit d = Ok (true, d') /\
    d_comps d' = [x] /\ dc_cylinder x = Some false /\ dc_wpt x = Some true.
Proof.
  intros T O W i s d rounds fuel limit H L R I E HL Hr Hf HF. assert (G : generic i s) by (repeat split; assumption).
  pose proof (generic_saddle i s (proj1 (obtainable_good i s H)) G) as Ns.
  pose proof (make_single T O W i s d H G E) as S. destruct (made_ok i s d H E) as (D & _ & _ & Ec & _).
  destruct (single_step_ends _ d fuel limit Ns S HL) as (st & d' & Es); [rewrite (dk_keys _ _ D); exact Hf|exact HF|].
  destruct (single_step _ d fuel limit 0 st d' Ns S HL ltac:(rewrite Ec; simpl; lia) Es) as (Q & (D' & _) & y & Ey & F1 & F2).
  exists d', y. split; [|split; [exact Ey|split; [exact F1|exact F2]]].
  destruct rounds as [|[|rounds]]; try lia.
  unfold decompose. rewrite Ec. cbn [length seq decompose_all comp_decompose].
  rewrite (comp_view_ok _ d [] _ [] D Ec : comp_view d 0 = _). cbn [bind]. unfold default_target at 1. cbn [view_of cv_cylinder cv_wpt dc_cylinder dc_wpt].
  rewrite Es. cbn [bind]. rewrite Q. cbn [dst_result dst_additional bind].
  rewrite (comp_view_ok _ d' [] y [] D' Ey : comp_view d' 0 = _). cbn [bind]. unfold default_target at 1. cbn [view_of cv_cylinder cv_wpt]. rewrite F1, F2.
  reflexivity.
Qed.

(** Lengths [1], [g] and [g^2] for a cubic number [g]. *)
Definition in_lens : slen q3 := mkslen [] [(1, 0, 0)%Qc; (0, 1, 0)%Qc; (0, 0, 1)%Qc] .
Definition in_iet : iet q3 := fresh [0; 1; 2] [2; 1; 0].
Lemma in_obtainable : obtainable in_iet in_lens.
Proof. apply fresh_obtainable. vm_compute. reflexivity. Qed.
Lemma in_irreducible : ~ reducible (exch_of in_iet in_lens).
Proof.
  intros (k & Hk & P). simpl in Hk, P. destruct k as [|[|[|k]]]; try lia; simpl in P.
  - apply Permutation_length_1 in P. discriminate.
  - apply (Permutation_in 0) in P; [|left; reflexivity]. destruct P as [P|[P|[]]]; discriminate.
Qed.
Lemma in_independent : independent (exch_of in_iet in_lens).
Proof.
  intros k E.
  set (z := l_add (l_scale (k 0) ((1, 0, 0)%Qc : q3)) (l_add (l_scale (k 1) ((0, 1, 0)%Qc : q3)) (l_scale (k 2) ((0, 0, 1)%Qc : q3)))).
  assert (Ez : z = l_zero).
  { apply val_inj. unfold z. rewrite !val_add, !val_scale, val_zero. rewrite <- E. cbn [exch_of e_top e_len in_iet fresh i_top total]. unfold lamR. cbn [in_lens sl_lens nth_error]. ring_simplify. reflexivity. }
  assert (C : forall j, nth j (l_coef z) 0%Qc = 0%Qc) by (intro j; rewrite Ez; apply coef_zero_nth).
  unfold z in C. pose proof (C 0) as C0. pose proof (C 1) as C1. pose proof (C 2) as C2. rewrite !coef_add_nth, !coef_scale_nth in C0, C1, C2.
  cbn in C0, C1, C2.
  assert (Q : forall m : Z, zq m = 0%Qc -> m = 0%Z).
  { intros m Hm. apply (f_equal Qc2R) in Hm. rewrite Qc2R_zq, Qc2R_0 in Hm. apply eq_IZR. exact Hm. }
  intros a Ha. apply Q. destruct Ha as [<-|[<-|[<-|[]]]]; [rewrite <- C0|rewrite <- C1|rewrite <- C2]; ring.
Qed.
