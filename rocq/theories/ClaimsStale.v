(** Proofs of the theorems in [PropStale]. *)
From Coq Require Import Reals Permutation Lia.
From Verif Require Import Base QcTac LenT FM Subspace Lengths IET LenInst Sqrt2 Decomp Spec SpecDec Api DecApi Callback CallApi Fixtures DecFixtures.
From Verif Require Import InduceProof World DecompInv DecompSim DecompRef DecompNav DecompStep DecompAll DecompBudget ClaimsDecomp ClaimsCall.
Open Scope nat_scope.
Section Stale.
Context {T : Type} {O : LenOps T} {W : LenLaws T}.

Lemma one_component (i : iet T) (s : slen T) tr d c x c' x' l : decomposition i s tr d -> component d c x -> component d c' x' ->
  In l (i_top (dc_iet x)) -> In l (i_top (dc_iet x')) -> c' = c.
Proof.
  intros H%history_ok Hx Hx' I I'. destruct (Nat.eq_dec c' c) as [|N]; [assumption|exfalso].
  apply component_mid in Hx as (C1 & C2 & E & <-). apply (dk_disjoint _ d C1 x C2 x' l H E); [|exact I|exact I'].
  unfold component in Hx'. rewrite E in Hx'. apply in_or_app. destruct (Nat.lt_ge_cases c' (length C1)).
  - left. rewrite nth_error_app1 in Hx' by assumption. eapply nth_error_In. exact Hx'.
  - right. rewrite nth_error_app2 in Hx' by assumption. destruct (c' - length C1) as [|k] eqn:K; [lia|]. eapply nth_error_In. exact Hx'.
Qed.

Lemma step_shrinks (i : iet T) (s : slen T) tr d c0 fuel limit st d1 c x : decomposition i s tr d -> (limit <= INT_MAX)%Z -> c0 < length (d_comps d) ->
  decomposition_step fuel limit c0 d = Ok (st, d1) -> component d c x ->
  exists y, component d1 c y /\ incl (i_top (dc_iet y)) (i_top (dc_iet x)).
Proof.
  intros H HL Hc E Hx. destruct (at_component d c0 Hc) as (x0 & Hx0).
  destruct (Nat.eq_dec c c0) as [->|N].
  - assert (x0 = x) as -> by (unfold component in *; congruence).
    destruct (claim_C33_step T O W i s tr d fuel limit c0 x st d1 H HL Hx E) as (_ & y & Hy & M). exists y. split; [exact Hy|]. intros l I.
    destruct (dst_result st); try (destruct M as (_ & _ & M); first [destruct M as (a & M)|idtac]; apply (Permutation_in _ M); first [exact I|right; exact I]).
    destruct M as (z & _ & _ & _ & M). apply (Permutation_in _ M). apply in_or_app. left. exact I.
  - destruct (step_facts i s tr d c0 x0 fuel limit H HL Hx0) as [Q|[(Q & _)|(st' & d1' & y & Q & H1 & _ & Le & F & _)]]; rewrite E in Q; try discriminate.
    injection Q as <- <-. exists x. split; [|apply incl_refl]. unfold component in *. rewrite (proj1 (F c ltac:(apply nth_error_Some; congruence) N)). exact Hx.
Qed.

Lemma later_shrinks (i : iet T) (s : slen T) d d' : later d d' -> forall tr c x, decomposition i s tr d -> component d c x ->
  exists y, component d' c y /\ incl (i_top (dc_iet y)) (i_top (dc_iet x)).
Proof.
  induction 1 as [d|d fuel limit c0 st d1 d2 HL Hc E L IH]; intros tr c x H Hx; [exists x; split; [exact Hx|apply incl_refl]|].
  destruct (step_shrinks i s tr d c0 fuel limit st d1 c x H HL Hc E Hx) as (y & Hy & I).
  destruct (IH (tr ++ [st]) c y) as (z & Hz & J); [eapply dh_step; eassumption|exact Hy|]. exists z. split; [exact Hz|]. eapply incl_tran; eassumption.
Qed.

Lemma shape_of (i : iet T) (s : slen T) tr d c x : decomposition i s tr d -> component d c x ->
  i_swap (dc_iet x) = false /\ Permutation (i_top (dc_iet x)) (i_bottom (dc_iet x)) /\ incl (i_top (dc_iet x)) (i_top i).
Proof.
  intros H Hx. destruct (claim_C33_partition T O W i s tr d H) as (_ & Q & _). destruct (Q c x Hx) as (V & I & S). split; [exact S|]. split; [|exact I].
  destruct V as (_ & V & _). exact V.
Qed.

Lemma split_out l (row : list label) : ~ In l row -> split_at l row = None.
Proof.
  intro N. destruct (split_at l row) as [[p q]|] eqn:E; [|reflexivity]. exfalso. apply N. apply split_at_some in E as (E & _). rewrite E. apply in_elt.
Qed.

Lemma find_out c b e row : ~ In (he_label e) row -> he_find e (map (fun l => mkhe c l b) row) = Ok false.
Proof.
  induction row as [|a row IH]; intro N; [reflexivity|]. cbn [map he_find]. unfold he_eqb at 1. cbn [he_label he_comp he_top].
  destruct (Nat.eqb_spec a (he_label e)) as [->|_]; [destruct N; left; reflexivity|]. cbn [bind]. apply IH. intro. apply N. right. assumption.
Qed.

Lemma play_later cs : forall (d d' : decomp T) tr, play cs d = Ok (tr, d') -> later d d'.
Proof.
  induction cs as [|c cs IH]; intros d d' tr E; cbn [play] in E; [injection E as <- <-; constructor|].
  destruct (Nat.ltb_spec c (length (d_comps d))); [|discriminate].
  apply bind_ok in E as ([st d1] & E1 & E). apply bind_ok in E as ([tr2 d2] & E2 & E). injection E as <- <-.
  eapply later_step; [|eassumption|exact E1|exact (IH _ _ _ E2)]. discriminate.
Qed.

Lemma after_play (i : iet T) (s : slen T) cs (P : decomp T -> Prop) : obtainable i s ->
  match (d <- dec_make i s ;; play cs d) with Ok (_, d') => P d' | _ => False end ->
  exists tr d, decomposition i s tr d /\ tr = [] /\ match play cs d with Ok (_, d') => later d d' /\ P d' | _ => False end.
Proof.
  intros H Q. destruct (dec_make i s) as [d| | | |] eqn:E; try contradiction. cbn [bind] in Q. exists [], d.
  split; [apply dh_new; assumption|]. split; [reflexivity|]. destruct (play cs d) as [[tr d']| | | |] eqn:Ep; try contradiction.
  split; [exact (play_later _ _ _ _ Ep)|exact Q].
Qed.

End Stale.
Lemma claim_C89_kept : forall (T : Type) (O : LenOps T) (W : LenLaws T) (i : iet T) (s : slen T) tr d d' e x,
  decomposition i s tr d -> later d d' -> component d (he_comp e) x -> In (he_label e) (i_top (dc_iet x)) ->
  exists y, component d' (he_comp e) y /\
    (In (he_label e) (i_top (dc_iet y)) ->
       he_component d' e = Ok (he_comp e) /\
       exists es, (if he_top e then top_contour d' (he_comp e) else bottom_contour d' (he_comp e)) = Ok es /\ In e es) /\
    (~ In (he_label e) (i_top (dc_iet y)) ->
       he_component d' e = AssertFail /\ he_next d' e = AssertFail /\ he_previous d' e = AssertFail /\ he_separatrix d' e = AssertFail).
Proof.
  intros T O W i s tr d d' e x H L Hx I. destruct (later_shrinks i s d d' L tr (he_comp e) x H Hx) as (y & Hy & _). exists y. split; [exact Hy|].
  destruct (later_history i s d d' L tr H) as (tr' & H' & _). destruct (shape_of i s _ d' _ y H' Hy) as (Sw & P & _).
  assert (Ca : comp_at d' (he_comp e) = Ok y) by (unfold comp_at; unfold component in Hy; rewrite Hy; reflexivity).
  split.
  - intro J. destruct (claim_C34_navigation T O W i s _ d' _ y H' Hy) as (ts & bs & Et & Eb & Mt & Mb & _ & _ & _ & Q).
    assert (In e (if he_top e then ts else bs)).
    { unfold top_contour, bottom_contour in Et, Eb. rewrite Ca in Et, Eb. cbn [bind] in Et, Eb. rewrite Sw in Et, Eb. injection Et as <-. injection Eb as <-.
      destruct e as [c l []]; cbn [he_label he_comp he_top] in *; apply (in_map (fun l => mkhe c l _)); [exact J|]. exact (Permutation_in _ P J). }
    destruct (In_nth_error _ _ H0) as (k & Hk). destruct (he_top e); [destruct (Q ts (or_introl eq_refl) k e Hk) as (_ & R & _)|destruct (Q bs (or_intror eq_refl) k e Hk) as (_ & R & _)]; eauto.
  - intro J. assert (Jb : ~ In (he_label e) (i_bottom (dc_iet y))) by (intro A; apply J; exact (Permutation_in _ (Permutation_sym P) A)).
    assert (Nx : he_next d' e = AssertFail) by (unfold he_next; rewrite Ca; cbn [bind]; rewrite split_out; [reflexivity|]; destruct (he_top e); assumption).
    split; [|split; [exact Nx|split; [|unfold he_separatrix; rewrite Nx; reflexivity]]].
    + unfold he_component, top_contour, bottom_contour. rewrite Ca. cbn [bind]. rewrite Sw. destruct (he_top e); cbn [bind]; rewrite find_out by assumption; reflexivity.
    + unfold he_previous; rewrite Ca; cbn [bind]; rewrite split_out; [reflexivity|]; destruct (he_top e); assumption.
Qed.

Lemma claim_C89_lost : forall (T : Type) (O : LenOps T) (W : LenLaws T) (i : iet T) (s : slen T) tr d d' c x l,
  decomposition i s tr d -> later d d' -> component d c x ->
  (~ In l (i_top (dc_iet x)) -> exists y, component d' c y /\ ~ In l (i_top (dc_iet y))) /\
  (In l (i_top (dc_iet x)) -> forall c' z, component d' c' z -> In l (i_top (dc_iet z)) -> c' = c \/ length (d_comps d) <= c' < length (d_comps d')) /\
  ((forall c x, component d c x -> ~ In l (i_top (dc_iet x))) -> forall c y, component d' c y -> ~ In l (i_top (dc_iet y))).
Proof.
  intros T O W i s tr d d' c x l H L Hx. split; [|split].
  - intro N. destruct (later_shrinks i s d d' L tr c x H Hx) as (y & Hy & I). exists y. split; [exact Hy|]. intro J. exact (N (I _ J)).
  - intros I c' z Hz J. destruct (Nat.lt_ge_cases c' (length (d_comps d))) as [Lt|Ge].
    + left. destruct (at_component d c' Lt) as (x' & Hx'). destruct (later_shrinks i s d d' L tr c' x' H Hx') as (y & Hy & K).
      assert (y = z) as -> by (unfold component in *; congruence). exact (one_component i s tr d c x c' x' l H Hx Hx' I (K _ J)).
    + right. split; [exact Ge|]. apply nth_error_Some. unfold component in Hz. congruence.
  - clear c x Hx. revert tr H. induction L as [d|d fuel limit c0 st d1 d2 HL Hc E L IH]; intros tr H N; [exact N|].
    apply (IH (tr ++ [st])); [eapply dh_step; eassumption|]. intros c y Hy J. destruct (at_component d c0 Hc) as (x0 & Hx0).
    destruct (claim_C33_step T O W i s tr d fuel limit c0 x0 st d1 H HL Hx0 E) as (_ & y0 & Hy0 & M).
    destruct (Nat.lt_ge_cases c (length (d_comps d))) as [Lt|Ge].
    + destruct (at_component d c Lt) as (x & Hx). destruct (step_shrinks i s tr d c0 fuel limit st d1 c x H HL Hc E Hx) as (y' & Hy' & K).
      assert (y' = y) as -> by (unfold component in *; congruence). exact (N c x Hx (K _ J)).
    + assert (Lt : c < length (d_comps d1)) by (apply nth_error_Some; unfold component in Hy; congruence).
      destruct (dst_result st); try (destruct M as (_ & M & _); lia). destruct M as (z & _ & Hz & Ln & M).
      assert (c = length (d_comps d)) as -> by lia. assert (z = y) as -> by (unfold component in *; congruence).
      apply (N c0 x0 Hx0). apply (Permutation_in _ M). apply in_or_app. right. exact J.
Qed.

Lemma claim_C89_sides : forall (T : Type) (O : LenOps T) (W : LenLaws T) (i : iet T) (s : slen T) tr d d' e x,
  decomposition i s tr d -> later d d' -> component d (he_comp e) x -> In (he_label e) (i_top (dc_iet x)) ->
  exists l r, he_left d' e = Ok l /\ he_right d' e = Ok r /\
    he_cross d' e = Ok (if he_top e then map SConn r ++ SEdge e :: map SConn (rev l) else map SConn (rev l) ++ SEdge e :: map SConn r) /\
    (forall c y, component d' c y -> In (he_label e) (i_top (dc_iet y)) ->
       he_left d' (mkhe c (he_label e) (he_top e)) = Ok l /\ he_right d' (mkhe c (he_label e) (he_top e)) = Ok r) /\
    ((forall c y, component d' c y -> ~ In (he_label e) (i_top (dc_iet y))) -> l = [] /\ r = []).
Proof.
  intros T O W i s tr d d' e x H L Hx I. destruct (shape_of i s tr d _ x H Hx) as (_ & _ & K).
  destruct (later_history i s d d' L tr H) as (tr' & H' & _). pose proof (history_keys _ _ _ _ H') as Ky.
  assert (Ca : conns_at d' (he_label e) = Ok (d_conns d' (he_label e))).
  { unfold conns_at. rewrite Ky. rewrite (proj2 (Base.memb_In (he_label e) (i_top i)) (K _ I)). reflexivity. }
  eexists _, _. assert (El : he_left d' e = Ok (if he_top e then topLeft (d_conns d' (he_label e)) else bottomLeft (d_conns d' (he_label e)))) by (unfold he_left; rewrite Ca; reflexivity).
  assert (Er : he_right d' e = Ok (if he_top e then topRight (d_conns d' (he_label e)) else bottomRight (d_conns d' (he_label e)))) by (unfold he_right; rewrite Ca; reflexivity).
  split; [exact El|]. split; [exact Er|]. split; [exact (claim_C36_order T O d' e _ _ El Er)|]. split.
  - intros c y _ _. unfold he_left, he_right in *. cbn [he_label he_top]. rewrite Ca. split; reflexivity.
  - intro N. assert (Z : d_conns d' (he_label e) = no_conns).
    { destruct (dk_inv _ _ (history_ok _ _ _ _ H')) as (D & C). specialize (K _ I).
      change (i_top i) with (e_top (exch_of i s)) in K. apply (Permutation_in _ (ci_part _ _ _ _ C)) in K.
      apply in_flat_map in K. destruct K as (l1 & Hl1 & [E1|J]); [|exact (ci_dead _ _ _ _ C l1 _ Hl1 J)].
      exfalso. rewrite E1 in Hl1. apply in_live in Hl1 as (p & Hp & J). unfold pieces in Hp. apply in_map_iff in Hp as (y & <- & Hy). apply In_nth_error in Hy as (c & Hy). exact (N c y Hy J). }
    rewrite Z. destruct (he_top e); split; reflexivity.
Qed.

