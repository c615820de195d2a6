(** Self-similar exchanges (specification level): an exchange whose first-return map on a
    proper right sub-interval is a scaled copy of itself has no periodic point. *)
From Coq Require Import Reals Lra Lia List Permutation.
From Verif Require Import Spec Dyn Path.
Import ListNotations.
Open Scope R_scope.

(** Pulling an orbit back to the sub-interval never makes it longer, and it keeps its
    length only if it never leaves the sub-interval. *)
Lemma induced_iter_short e e' : proper e -> proper e' -> induced e e' ->
  let d := total (e_len e) (e_top e) - total (e_len e') (e_top e') in
  forall n u v, d <= u -> d <= v -> iter (maps e) n u v ->
  exists m, iter (maps e') m (u - d) (v - d) /\ ((1 <= n)%nat -> (1 <= m)%nat) /\ (m <= n)%nat /\
    (m = n -> forall k w, (k <= n)%nat -> iter (maps e) k u w -> d <= w).
Proof.
  intros P P' [D [F V]] d n. induction n as [n IH] using (well_founded_induction Wf_nat.lt_wf).
  intros u v Hu Hv Hi. destruct n as [|n].
  { simpl in Hi. subst. exists 0%nat. split; [reflexivity|]. split; [lia|]. split; [lia|].
    intros _ k w Hk Hw. assert (k = 0)%nat by lia. subst k. simpl in Hw. subst. exact Hv. }
  assert (Hdom : 0 <= u < total (e_len e) (e_top e)).
  { destruct Hi as [t [Ht _]]. exact (maps_dom _ P _ _ Ht). }
  destruct (maps_total e' P' (u - d)) as [w Hw]; [unfold d in *; lra|].
  pose proof Hw as Hfr. apply F in Hfr; [|lra]. fold d in Hfr.
  replace (u - d + d) with u in Hfr by lra.
  destruct Hfr as [k [Hk1 [Hk2 [Hk3 Hk4]]]].
  assert (Hle : (k <= S n)%nat).
  { destruct (le_lt_dec k (S n)) as [H|H]; [exact H|]. exfalso. apply (Hk4 (S n) v); auto. lia. }
  replace (S n) with (k + (S n - k))%nat in Hi by lia. apply iter_split in Hi. destruct Hi as [t [T1 T2]].
  rewrite (iter_fun _ (maps_fun _ P) _ _ _ _ T1 Hk2) in T2.
  destruct (IH (S n - k)%nat ltac:(lia) (w + d) v) as [m [Hm [_ [Hm2 Hm3]]]]; auto.
  replace (w + d - d) with w in Hm by lra. exists (S m). split; [exists w; auto|]. split; [lia|]. split; [lia|].
  intros He j x Hj Hx. assert (k = 1)%nat by lia. subst k.
  destruct j as [|j]; [simpl in Hx; subst; exact Hu|].
  replace (S j) with (1 + j)%nat in Hx by lia. apply iter_split in Hx. destruct Hx as [y [Y1 Y2]].
  rewrite (iter_fun _ (maps_fun _ P) _ _ _ _ Y1 Hk2) in Y2.
  apply (Hm3 ltac:(lia) j x); [lia | exact Y2].
Qed.

(** Scaling all lengths conjugates the maps. *)
Lemma total_scale_in c f g l : (forall a, In a l -> g a = c * f a) -> total g l = c * total f l.
Proof.
  induction l as [|a l IH]; intros H; simpl; [lra|].
  rewrite (H a) by (left; reflexivity). rewrite IH; [lra|]. intros x Hx. apply H; right; exact Hx.
Qed.

Definition scaled (c : R) (e e' : exch) : Prop :=
  e_top e' = e_top e /\ e_bot e' = e_bot e /\ forall a, In a (e_top e) -> e_len e' a = c * e_len e a.

Lemma scaled_maps c e e' : proper e -> 0 < c -> scaled c e e' ->
  forall y z, maps e' y z -> maps e (y / c) (z / c).
Proof.
  intros (N & Pe & _) Hc (A & B & C) y z H. apply maps_iff in H. apply maps_iff.
  destruct H as (a & X & Y & X' & Y' & Ht & Hb & Hy & ->). rewrite A in Ht. rewrite B in Hb.
  exists a, X, Y, X', Y'. split; [exact Ht|]. split; [exact Hb|].
  assert (HX : total (e_len e') X = c * total (e_len e) X).
  { apply total_scale_in. intros x Hx. apply C. rewrite Ht. apply in_app_iff; left; exact Hx. }
  assert (HX' : total (e_len e') X' = c * total (e_len e) X').
  { apply total_scale_in. intros x Hx. apply C. rewrite Pe, Hb. apply in_app_iff; left; exact Hx. }
  assert (Ha : e_len e' a = c * e_len e a).
  { apply C. rewrite Ht. apply in_app_iff; right; left; reflexivity. }
  rewrite HX, Ha in Hy. rewrite HX, HX'. split.
  - destruct Hy as [H1 H2]. split.
    + apply (Rmult_le_reg_l c); [exact Hc|]. replace (c * (y / c)) with y by (field; lra). exact H1.
    + apply (Rmult_lt_reg_l c); [exact Hc|]. replace (c * (y / c)) with y by (field; lra). lra.
  - field. lra.
Qed.

Lemma iter_mult {A} (f : A -> A -> Prop) p x k : iter f p x x -> iter f (k * p) x x.
Proof.
  intros H. induction k as [|k IH]; [reflexivity|]. simpl. apply iter_add with x; assumption.
Qed.

Section SelfSimilar.
Variables (e e' e2 : exch) (c : R).
Hypothesis P : proper e.
Hypothesis Hc : 0 < c < 1.
Hypothesis Sc : scaled c e e'.
Hypothesis E2 : e2 = e' \/ e2 = flip e'.
Hypothesis I : induced e e2.
Let L := total (e_len e) (e_top e).

Lemma similar_proper' : proper e'.
Proof.
  destruct P as (N & Pe & Hp). destruct Sc as (A & B & C). split; [rewrite A; exact N|].
  split; [rewrite A, B; exact Pe|]. rewrite A. intros a Ha. rewrite C by exact Ha.
  apply Rmult_lt_0_compat; [lra | apply Hp, Ha].
Qed.
Lemma similar_proper2 : proper e2.
Proof. destruct E2 as [-> | ->]; [|apply flip_proper]; apply similar_proper'. Qed.
Lemma similar_total : total (e_len e2) (e_top e2) = c * L.
Proof.
  assert (H : total (e_len e') (e_top e') = c * L).
  { destruct Sc as (A & _ & C). rewrite A. apply total_scale_in. exact C. }
  destruct E2 as [-> | ->]; [exact H|]. simpl. rewrite <- (proper_total e' similar_proper'). exact H.
Qed.
Lemma similar_iter m u : iter (maps e2) m u u -> iter (maps e) m (u / c) (u / c).
Proof.
  intros H. apply (iter_map (maps e') (maps e) (fun y => y / c)).
  - intros x y. apply scaled_maps; [exact P | lra | exact Sc].
  - destruct E2 as [-> | ->]; [exact H | apply iter_flip in H; exact H].
Qed.

Let d := L - c * L.

Lemma similar_no_period p : (1 <= p)%nat -> (forall q x, (1 <= q < p)%nat -> ~ iter (maps e) q x x) ->
  forall x, ~ iter (maps e) p x x.
Proof.
  intros Hp Hmin.
  assert (Dom : forall x, iter (maps e) p x x -> 0 <= x < L).
  { intros x H. destruct p as [|p']; [lia|]. destruct H as [t [Ht _]]. exact (maps_dom _ P _ _ Ht). }
  assert (Step : forall x, iter (maps e) p x x -> d <= x /\ iter (maps e) p ((x - d) / c) ((x - d) / c)).
  { intros x H. pose proof I as [D [F V]]. rewrite similar_total in D, V. fold L in D, V. fold d in D, V.
    destruct (V x (Dom x H)) as (n & z & Hn & Hz).
    (* z is periodic with period p *)
    assert (Hx : iter (maps e) (n * p - n) z x).
    { pose proof (iter_mult _ _ _ n H) as Hm. assert (n <= n * p)%nat by nia.
      replace (n * p)%nat with (n + (n * p - n))%nat in Hm by lia. apply iter_split in Hm. destruct Hm as [y [Y1 Y2]].
      rewrite (iter_fun _ (maps_fun _ P) _ _ _ _ Y1 Hn) in Y2. exact Y2. }
    assert (Hpz : iter (maps e) p z z).
    { pose proof (iter_add _ _ _ _ _ _ H Hn) as Hm. rewrite Nat.add_comm in Hm. apply iter_split in Hm.
      destruct Hm as [y [Y1 Y2]]. rewrite (iter_fun _ (maps_fun _ P) _ _ _ _ Y1 Hn) in Y2. exact Y2. }
    assert (Key : forall w, d <= w -> iter (maps e) p w w ->
      iter (maps e) p ((w - d) / c) ((w - d) / c) /\ forall k y, (k <= p)%nat -> iter (maps e) k w y -> d <= y).
    { intros w Hw Hpw. destruct (induced_iter_short e e2 P similar_proper2 I p w w) as (m & M1 & M2 & M3 & M4);
        rewrite ?similar_total; fold L; fold d; auto.
      rewrite similar_total in M1, M4. fold L in M1, M4. fold d in M1, M4. apply similar_iter in M1.
      destruct (Nat.eq_dec m p) as [->|Hne].
      - split; [exact M1 | apply M4; reflexivity].
      - exfalso. apply (Hmin m ((w - d) / c)); [split; [apply M2; lia | lia] | exact M1]. }
    destruct (Key z Hz Hpz) as [_ Kz].
    assert (All : forall k y, iter (maps e) k z y -> d <= y).
    { intros k. induction k as [k IH] using (well_founded_induction Wf_nat.lt_wf). intros y Hy.
      destruct (le_lt_dec k p) as [Hk|Hk]; [exact (Kz k y Hk Hy)|].
      apply (IH (k - p)%nat ltac:(lia) y). replace k with (p + (k - p))%nat in Hy by lia.
      apply iter_split in Hy. destruct Hy as [t [T1 T2]]. rewrite (iter_fun _ (maps_fun _ P) _ _ _ _ T1 Hpz) in T2. exact T2. }
    pose proof (All _ _ Hx) as Hdx. split; [exact Hdx | apply Key; assumption]. }
  intros x H.
  assert (Many : forall n, exists y, iter (maps e) p y y /\ L - y = (L - x) * (/ c) ^ n).
  { induction n as [|n (y & Y1 & Y2)].
    - exists x. split; [exact H | simpl; lra].
    - destruct (Step y Y1) as [_ Y3]. exists ((y - d) / c). split; [exact Y3|].
      replace (L - (y - d) / c) with ((L - y) * / c) by (unfold d; field; lra).
      rewrite Y2. simpl. field. lra. }
  pose proof (Dom x H) as Dx.
  assert (Hc1 : Rabs c < 1) by (rewrite Rabs_right; lra).
  destruct (pow_lt_1_zero c Hc1 ((L - x) / (2 * L))) as [n Hn].
  { apply Rdiv_lt_0_compat; lra. }
  specialize (Hn n (le_n n)). destruct (Many n) as (y & Y1 & Y2). pose proof (Dom y Y1) as Dy.
  assert (Hcn : 0 < c ^ n) by (apply pow_lt; lra).
  rewrite Rabs_right in Hn by lra. rewrite pow_inv in Y2.
  assert (L - y > L).
  { rewrite Y2. apply Rlt_gt, (Rmult_lt_reg_r (c ^ n)); [exact Hcn|].
    replace ((L - x) * / c ^ n * c ^ n) with (L - x) by (field; lra).
    apply (Rmult_lt_compat_l (2 * L)) in Hn; [|lra].
    replace (2 * L * ((L - x) / (2 * L))) with (L - x) in Hn by (field; lra). nra. }
  lra.
Qed.

Lemma self_similar_aperiodic : ~ has_periodic_point e.
Proof.
  assert (A : forall p x, (1 <= p)%nat -> ~ iter (maps e) p x x).
  { intros p. induction p as [p IH] using (well_founded_induction Wf_nat.lt_wf). intros x Hp.
    apply similar_no_period; [exact Hp|]. intros q y [Hq1 Hq2]. apply IH; [exact Hq2 | exact Hq1]. }
  intros [x [n [Hn H]]]. exact (A n x Hn H).
Qed.
End SelfSimilar.
