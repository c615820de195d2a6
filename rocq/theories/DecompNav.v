(** Half edges, contours and perimeters of one component. *)
From Coq Require Import Permutation Lia.
From Verif Require Import Base QcTac LenT FM Subspace Lengths IET Decomp.
Open Scope nat_scope.

Section Nav.
Context {T : Type} {O : LenOps T}.
Variables (d : decomp T) (c : nat) (x : dcomp T).
Let i := dc_iet x.
Hypothesis Hx : comp_at d c = Ok x.
Hypothesis Hsw : i_swap i = false.
Hypothesis NDt : NoDup (i_top i).
Hypothesis Perm : Permutation (i_top i) (i_bottom i).
Hypothesis Keys : incl (i_top i) (d_keys d).

Let NDb : NoDup (i_bottom i).
Proof. eapply Permutation_NoDup; eassumption. Qed.

Definition row (top : bool) : list label := if top then i_top i else i_bottom i.

Lemma row_nodup top : NoDup (row top).
Proof. destruct top; assumption. Qed.

Lemma row_keys top l : In l (row top) -> In l (d_keys d).
Proof. destruct top; intro H; apply Keys; [exact H|]. apply (Permutation_in _ (Permutation_sym Perm)). exact H. Qed.

Lemma contour_ok top : (if (top : bool) then top_contour d c else bottom_contour d c) = Ok (map (fun l => mkhe c l top) (row top)).
Proof. unfold top_contour, bottom_contour. rewrite Hx. cbn [bind]. fold i. rewrite Hsw. destruct top; reflexivity. Qed.

Lemma top_contour_ok : top_contour d c = Ok (map (fun l => mkhe c l true) (i_top i)).
Proof. exact (contour_ok true). Qed.
Lemma bottom_contour_ok : bottom_contour d c = Ok (map (fun l => mkhe c l false) (i_bottom i)).
Proof. exact (contour_ok false). Qed.

Lemma he_find_ok l top r : In l r -> he_find (mkhe c l top) (map (fun l => mkhe c l top) r) = Ok true.
Proof.
  induction r as [|y r IH]; intros H; [destruct H|]. cbn [map he_find]. unfold he_eqb. cbn [he_label he_comp he_top].
  destruct (Nat.eqb_spec y l) as [->|N].
  - rewrite Nat.eqb_refl, Bool.eqb_reflx. reflexivity.
  - cbn [bind]. apply IH. destruct H; [contradiction|assumption].
Qed.

Lemma he_component_ok l top : In l (row top) -> he_component d (mkhe c l top) = Ok c.
Proof.
  intro H. unfold he_component. cbn [he_top he_comp]. rewrite contour_ok. cbn [bind].
  rewrite he_find_ok by exact H. reflexivity.
Qed.

Lemma conns_at_ok l : In l (d_keys d) -> conns_at d l = Ok (d_conns d l).
Proof. intro H. unfold conns_at. apply memb_In in H. rewrite H. reflexivity. Qed.

(** The connections to the left and right of a half edge. *)
Definition lft (l : label) (top : bool) : list connection := let k := d_conns d l in if top then topLeft k else bottomLeft k.
Definition rgt (l : label) (top : bool) : list connection := let k := d_conns d l in if top then topRight k else bottomRight k.

Lemma he_left_ok l top : In l (d_keys d) -> he_left d (mkhe c l top) = Ok (lft l top).
Proof. intro H. unfold he_left. cbn [he_label he_top]. rewrite conns_at_ok by exact H. reflexivity. Qed.
Lemma he_right_ok l top : In l (d_keys d) -> he_right d (mkhe c l top) = Ok (rgt l top).
Proof. intro H. unfold he_right. cbn [he_label he_top]. rewrite conns_at_ok by exact H. reflexivity. Qed.

(** What is crossed at a half edge in counterclockwise order. *)
Definition crossing (l : label) (top : bool) : list side :=
  if top then map SConn (rgt l true) ++ [SEdge (mkhe c l true)] ++ rev (map SConn (lft l true))
  else rev (map SConn (lft l false)) ++ [SEdge (mkhe c l false)] ++ map SConn (rgt l false).

Lemma he_cross_ok l top : In l (d_keys d) -> he_cross d (mkhe c l top) = Ok (crossing l top).
Proof.
  intro H. unfold he_cross. rewrite he_left_ok, he_right_ok by exact H. cbn [bind he_top].
  destruct top; reflexivity.
Qed.

Lemma nodup_before (P S : list label) l : NoDup (P ++ l :: S) -> ~ In l P.
Proof. intros H C. apply NoDup_remove_2 in H. apply H. apply in_or_app. left. exact C. Qed.

Lemma he_next_ok top P l S : row top = P ++ l :: S ->
  he_next d (mkhe c l top) = Ok (match S with [] => None | n :: _ => Some (mkhe c n top) end).
Proof.
  intro E. unfold he_next. cbn [he_comp he_label he_top]. rewrite Hx. cbn [bind]. fold i.
  change (if top then i_top i else i_bottom i) with (row top). rewrite E.
  rewrite split_at_intro; [destruct S; reflexivity|].
  pose proof (row_nodup top) as N. rewrite E in N. apply nodup_before in N. exact N.
Qed.

Lemma he_previous_ok top P l S : row top = P ++ l :: S ->
  he_previous d (mkhe c l top) = Ok (match rev P with [] => None | n :: _ => Some (mkhe c n top) end).
Proof.
  intro E. unfold he_previous. cbn [he_comp he_label he_top]. rewrite Hx. cbn [bind]. fold i.
  change (if top then i_top i else i_bottom i) with (row top). rewrite E.
  rewrite split_at_intro; [reflexivity|].
  pose proof (row_nodup top) as N. rewrite E in N. apply nodup_before in N. exact N.
Qed.

Lemma he_eqb_self l top : he_eqb (mkhe c l top) (mkhe c l top) = Ok true.
Proof. unfold he_eqb. cbn. rewrite !Nat.eqb_refl, Bool.eqb_reflx. reflexivity. Qed.
Lemma he_eqb_other l l' top top' : l <> l' -> he_eqb (mkhe c l top) (mkhe c l' top') = Ok false.
Proof. intro N. unfold he_eqb. cbn [he_label]. destruct (Nat.eqb_spec l l'); [contradiction|reflexivity]. Qed.

(** Along the bottom, from right to left. *)
Lemma walk_bottom f0 : forall P l S fuel, i_bottom i = P ++ l :: S -> hd_error (i_bottom i) = Some f0 -> length P < fuel ->
  walk_clockwise fuel d (mkhe c l false) (mkhe c f0 false) =
  Ok (flat_map (fun l => backwards (crossing l false)) (l :: rev P)).
Proof.
  induction P as [|p P IH] using rev_ind; intros l S fuel E Hf Hl; destruct fuel as [|fuel]; try (rewrite ?app_length in Hl; simpl in Hl; lia).
  - assert (l = f0) by (rewrite E in Hf; simpl in Hf; congruence). subst f0.
    assert (Hl' : In l (row false)) by (unfold row; rewrite E; left; reflexivity).
    cbn [walk_clockwise]. rewrite he_component_ok by exact Hl'. cbn [bind]. rewrite Nat.eqb_refl. cbn [assert_].
    rewrite top_contour_ok, bottom_contour_ok. cbn [bind he_top negb andb].
    rewrite he_cross_ok by (apply (row_keys false); exact Hl'). cbn [bind].
    rewrite he_eqb_self. cbn [bind flat_map rev]. rewrite app_nil_r. reflexivity.
  - assert (E' : i_bottom i = P ++ p :: l :: S) by (rewrite E, <- app_assoc; reflexivity).
    assert (Hl' : In l (row false)) by (unfold row; rewrite E; apply in_or_app; right; left; reflexivity).
    assert (Hf' : In f0 (row false)).
    { unfold row. destruct (i_bottom i); [discriminate|]. simpl in Hf. injection Hf as ->. left. reflexivity. }
    assert (N : l <> f0).
    { intros ->. rewrite E in *. apply nodup_before in NDb. apply NDb. destruct P as [|q P']; simpl in Hf; injection Hf as ->; left; reflexivity. }
    cbn [walk_clockwise]. rewrite !he_component_ok by assumption. cbn [bind]. rewrite Nat.eqb_refl. cbn [assert_].
    rewrite top_contour_ok, bottom_contour_ok. cbn [bind he_top negb andb].
    rewrite he_cross_ok by (apply (row_keys false); exact Hl'). cbn [bind].
    rewrite he_eqb_other by exact N. cbn [bind].
    rewrite (he_previous_ok false (P ++ [p]) l S E), rev_app_distr. cbn [rev app bind].
    rewrite (IH p (l :: S) fuel E' Hf); [reflexivity|]. rewrite app_length in Hl. simpl in Hl. lia.
Qed.

(** Along the top, from left to right. *)
Lemma walk_top l0 : forall S P l fuel, i_top i = P ++ l :: S -> hd_error (rev (i_top i)) = Some l0 -> length S < fuel ->
  walk_clockwise fuel d (mkhe c l true) (mkhe c l0 true) =
  Ok (flat_map (fun l => backwards (crossing l true)) (l :: S)).
Proof.
  induction S as [|n S IH]; intros P l fuel E Hf Hl; destruct fuel as [|fuel]; try (simpl in Hl; lia).
  - assert (l = l0) by (rewrite E, rev_app_distr in Hf; simpl in Hf; congruence). subst l0.
    assert (Hl' : In l (row true)) by (unfold row; rewrite E; apply in_or_app; right; left; reflexivity).
    cbn [walk_clockwise]. rewrite he_component_ok by exact Hl'. cbn [bind]. rewrite Nat.eqb_refl. cbn [assert_].
    rewrite top_contour_ok, bottom_contour_ok. cbn [bind he_top negb andb].
    rewrite he_cross_ok by (apply (row_keys true); exact Hl'). cbn [bind].
    rewrite he_eqb_self. cbn [bind flat_map]. rewrite app_nil_r. reflexivity.
  - assert (E' : i_top i = (P ++ [l]) ++ n :: S) by (rewrite E, <- app_assoc; reflexivity).
    assert (Hl' : In l (row true)) by (unfold row; rewrite E; apply in_or_app; right; left; reflexivity).
    assert (H0S : In l0 (n :: S)).
    { rewrite E, rev_app_distr in Hf. apply in_rev. cbn [rev] in Hf. cbn [rev]. rewrite <- app_assoc in Hf.
      destruct (rev S); simpl in *; injection Hf as ->; left; reflexivity. }
    assert (Hf' : In l0 (row true)) by (unfold row; rewrite E; apply in_or_app; right; right; exact H0S).
    assert (N : l <> l0).
    { intros ->. rewrite E in NDt. apply NoDup_remove_2 in NDt. apply NDt. apply in_or_app. right. exact H0S. }
    cbn [walk_clockwise]. rewrite !he_component_ok by assumption. cbn [bind]. rewrite Nat.eqb_refl. cbn [assert_].
    rewrite top_contour_ok, bottom_contour_ok. cbn [bind he_top negb andb].
    rewrite he_cross_ok by (apply (row_keys true); exact Hl'). cbn [bind].
    rewrite he_eqb_other by exact N. cbn [bind].
    rewrite (he_next_ok true P l (n :: S) E). cbn [bind].
    rewrite (IH (P ++ [l]) n fuel E' Hf); [reflexivity|]. simpl in Hl. lia.
Qed.

(** Clockwise from the last bottom half edge to the last top half edge. *)
Lemma walk_ok fuel lb lt : hd_error (rev (i_bottom i)) = Some lb -> hd_error (rev (i_top i)) = Some lt ->
  length (i_top i) < fuel ->
  walk_clockwise fuel d (mkhe c lb false) (mkhe c lt true) =
  Ok (flat_map (fun l => backwards (crossing l false)) (rev (i_bottom i)) ++
      flat_map (fun l => backwards (crossing l true)) (i_top i)).
Proof.
  intros Hb Ht Hf. pose proof (Permutation_length Perm) as Len. destruct fuel as [|fuel]; [lia|].
  assert (Eb : exists b0 B, i_bottom i = b0 :: B) by (destruct (i_bottom i) as [|b0 B]; [discriminate|eauto]).
  destruct Eb as (b0 & B & Eb).
  assert (Et : exists t0 S, i_top i = t0 :: S) by (destruct (i_top i) as [|t0 S]; [discriminate|eauto]).
  destruct Et as (t0 & S & Et). rewrite Eb in Hb. rewrite Et in Ht.
  assert (Ib : In lb (row false)).
  { unfold row. rewrite Eb. apply in_rev. destruct (rev (b0 :: B)); [discriminate|]. simpl in Hb. injection Hb as ->. left. reflexivity. }
  assert (It : In lt (row true)).
  { unfold row. rewrite Et. apply in_rev. destruct (rev (t0 :: S)); [discriminate|]. simpl in Ht. injection Ht as ->. left. reflexivity. }
  cbn [walk_clockwise]. rewrite !he_component_ok by assumption. cbn [bind]. rewrite Nat.eqb_refl. cbn [assert_].
  rewrite top_contour_ok, bottom_contour_ok. cbn [bind he_top negb andb]. rewrite Eb, Et. cbn [map].
  assert (El : exists P, b0 :: B = P ++ [lb]).
  { destruct (exists_last (l := b0 :: B)) as (P & z & E); [discriminate|]. exists P. rewrite E, rev_app_distr in Hb.
    simpl in Hb. injection Hb as ->. exact E. }
  destruct El as (P & El).
  rewrite (walk_bottom b0 P lb [] fuel).
  - cbn [bind]. rewrite (walk_top lt S [] t0 fuel).
    + cbn [bind]. rewrite El, rev_app_distr. reflexivity.
    + rewrite Et. reflexivity.
    + rewrite Et. exact Ht.
    + rewrite Et in Hf. simpl in Hf. lia.
  - rewrite Eb. exact El.
  - rewrite Eb. reflexivity.
  - apply (f_equal (@length _)) in El. rewrite app_length in El. rewrite Et, Eb in *. simpl in *. lia.
Qed.

End Nav.
