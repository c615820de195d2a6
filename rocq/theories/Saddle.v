(** Saddle connections under induction (specification level). *)
From Coq Require Import Reals Lra Lia List Permutation.
From Verif Require Import Spec Dyn.
Import ListNotations.
Open Scope R_scope.

Lemma right_end_unique f l a x y : NoDup l -> right_end f l a x -> right_end f l a y -> x = y.
Proof.
  intros N [X [Y [E ->]]] [X' [Y' [E' ->]]].
  destruct (nodup_split_unique l a X Y X' Y' N E E') as [-> _]. reflexivity.
Qed.

Lemma right_end_exists f l a : In a l -> exists x, right_end f l a x.
Proof. intros H. destruct (in_split _ _ H) as [X [Y E]]. eexists. exists X, Y. eauto. Qed.

Lemma right_end_in f l a x : right_end f l a x -> In a l.
Proof. intros [X [Y [-> _]]]. apply in_or_app; right; left; reflexivity. Qed.

(** ** The elementary step *)
Section Step.
Variables e e' : exch.
Variables (a b : lab) (X Y1 Y2 : list lab).
Hypothesis P : proper e.
Hypothesis Et : e_top e = a :: X.
Hypothesis Eb : e_bot e = b :: Y1 ++ a :: Y2.
Hypothesis Hlt : e_len e b < e_len e a.
Hypothesis Et' : e_top e' = e_top e.
Hypothesis Eb' : e_bot e' = Y1 ++ b :: a :: Y2.
Hypothesis Ha : e_len e' a = e_len e a - e_len e b.
Hypothesis Hc : forall c, c <> a -> e_len e' c = e_len e c.

Let HaX : ~ In a X.
Proof. destruct P as [N _]. rewrite Et in N. inversion N; assumption. Qed.

Let HaY : ~ In a (b :: Y1) /\ ~ In a Y2.
Proof.
  pose proof (proper_bot_nodup _ P) as NB. rewrite Eb in NB.
  change (b :: Y1 ++ a :: Y2) with ((b :: Y1) ++ a :: Y2) in NB.
  apply NoDup_remove_2 in NB. rewrite in_app_iff in NB. tauto.
Qed.

Let Hpart : forall l, ~ In a l -> total (e_len e') l = total (e_len e) l.
Proof. intros l Hl. apply total_ext. intros c Hcin. apply Hc. intros ->. exact (Hl Hcin). Qed.

Lemma step_top_end t y' : right_end (e_len e') (e_top e') t y' ->
  right_end (e_len e) (e_top e) t (y' + e_len e b).
Proof.
  intros [U [V [E ->]]]. rewrite Et' in E. exists U, V. split; [exact E|].
  rewrite Et in E. destruct U as [|u U]; simpl in E.
  - injection E as <- <-. simpl. rewrite Ha. lra.
  - injection E as <- E. simpl.
    assert (HU : ~ In a U) by (intros H; apply HaX; rewrite E; apply in_or_app; left; exact H).
    assert (Ht : t <> a) by (intros ->; apply HaX; rewrite E; apply in_or_app; right; left; reflexivity).
    rewrite (Hpart U HU), Ha, (Hc t Ht). lra.
Qed.

Lemma step_bot_end c x' : right_end (e_len e') (e_bot e') c x' ->
  exists x, right_end (e_len e) (e_bot e) c x /\
    (x = x' + e_len e b \/ (maps e x (x' + e_len e b) /\ x = e_len e b)).
Proof.
  destruct HaY as [HY1 HY2].
  assert (HY1' : ~ In a Y1) by (intros H; apply HY1; right; exact H).
  assert (Hba : b <> a) by (intros ->; apply HY1; left; reflexivity).
  assert (Hbp : 0 < e_len e b) by (apply (proper_bot_pos _ P); rewrite Eb; left; reflexivity).
  intros [U [V [E ->]]]. rewrite Eb' in E. symmetry in E.
  destruct (app_cut _ _ _ _ E) as [[Z [Z1 Z2]]|[Z [Z1 Z2]]].
  - destruct Z as [|z Z].
    + (* c = b *)
      simpl in Z2. injection Z2 as -> ->. rewrite app_nil_r in Z1. subst U.
      exists (e_len e b). split; [exists [], (Y1 ++ a :: Y2); simpl; split; [exact Eb | lra]|].
      right. split; [|reflexivity]. apply maps_iff. exists a, [], X, (b :: Y1), Y2. simpl.
      rewrite (Hpart Y1 HY1'), (Hc b Hba). repeat split; auto; lra.
    + simpl in Z2. injection Z2 as <- Z2.
      assert (HU : ~ In a U) by (intros H; apply HY1'; rewrite Z1; apply in_or_app; left; exact H).
      assert (Hca : c <> a) by (intros ->; apply HY1'; rewrite Z1; apply in_or_app; right; left; reflexivity).
      eexists. split.
      * exists (b :: U), (Z ++ a :: Y2). rewrite Eb, Z1. simpl. rewrite <- app_assoc. split; reflexivity.
      * left. rewrite (Hpart U HU), (Hc c Hca). simpl. lra.
  - destruct Z as [|z Z].
    + simpl in Z2. injection Z2 as <- <-. rewrite app_nil_r in Z1. subst U.
      exists (e_len e b). split; [exists [], (Y1 ++ a :: Y2); simpl; split; [exact Eb | lra]|].
      right. split; [|reflexivity]. apply maps_iff. exists a, [], X, (b :: Y1), Y2. simpl.
      rewrite (Hpart Y1 HY1'), (Hc b Hba). repeat split; auto; lra.
    + simpl in Z2. injection Z2 as <- Z2. destruct Z as [|z Z].
      * simpl in Z2. injection Z2 as <- <-. eexists. split.
        -- exists (b :: Y1), Y2. split; [exact Eb | reflexivity].
        -- left. rewrite Z1, total_app. simpl. rewrite (Hpart Y1 HY1'), (Hc b Hba), Ha. lra.
      * simpl in Z2. injection Z2 as <- Z2. eexists. split.
        -- exists (b :: Y1 ++ a :: Z), V. rewrite Eb, Z2. simpl. rewrite <- app_assoc. split; reflexivity.
        -- left. rewrite Z1, total_app. simpl. rewrite total_app. simpl.
           assert (HZ : ~ In a Z) by (intros H; apply HY2; rewrite Z2; apply in_or_app; left; exact H).
           assert (Hca : c <> a) by (intros ->; apply HY2; rewrite Z2; apply in_or_app; right; left; reflexivity).
           rewrite (Hpart Y1 HY1'), (Hpart Z HZ), (Hc b Hba), (Hc c Hca), Ha. lra.
Qed.

Lemma step_saddle_iff c t : saddle_connection e' c t <-> saddle_connection e c t.
Proof.
  assert (S : rauzy_step e e') by (exists a, b, X, Y1, Y2; repeat split; assumption).
  pose proof (rauzy_step_proper _ _ P S) as P'.
  pose proof (rauzy_step_induced _ _ P S) as I.
  assert (Ed : total (e_len e) (e_top e) - total (e_len e') (e_top e') = e_len e b).
  { rewrite Et', Et. simpl. rewrite (Hpart X HaX), Ha. lra. }
  assert (Hbp : 0 < e_len e b) by (apply (proper_bot_pos _ P); rewrite Eb; left; reflexivity).
  assert (Hap : 0 < e_len e a) by (apply P; rewrite Et; left; reflexivity).
  assert (Hbt : e_len e b < total (e_len e) (e_top e)).
  { rewrite Et. simpl. assert (0 <= total (e_len e) X); [|lra].
    apply total_nonneg. intros d Hd. apply P. rewrite Et. right; exact Hd. }
  pose proof (induced_iter e e' P' I) as Ii. pose proof (induced_iter_back e e' P P' I) as Ib.
  cbv zeta in Ii, Ib. rewrite Ed in Ii, Ib.
  pose proof (proper_total _ P) as TT. pose proof (proper_total _ P') as TT'.
  split.
  - intros (x' & y' & n & Hx & Hy & Hxl & Hyl & Hi).
    destruct (step_bot_end _ _ Hx) as [x [Hx1 Hx2]]. pose proof (step_top_end _ _ Hy) as Hy1.
    destruct (Ii _ _ _ Hi) as [k [_ Hk]].
    exists x, (y' + e_len e b).
    destruct Hx2 as [-> | [Hm ->]].
    + exists k. repeat split; auto; lra.
    + exists (Datatypes.S k). repeat split; auto; try lra. eexists. split; [exact Hm | exact Hk].
  - intros (x & y & n & Hx & Hy & Hxl & Hyl & Hi).
    assert (Hc' : In c (e_bot e')).
    { apply right_end_in in Hx. destruct P as [_ [PP _]], P' as [_ [PP' _]].
      apply (Permutation_in _ PP'). rewrite Et'. apply (Permutation_in _ (Permutation_sym PP)), Hx. }
    assert (Ht' : In t (e_top e')) by (rewrite Et'; eapply right_end_in; exact Hy).
    destruct (right_end_exists (e_len e') _ _ Hc') as [x' Hx'].
    destruct (right_end_exists (e_len e') _ _ Ht') as [y' Hy'].
    destruct (step_bot_end _ _ Hx') as [x1 [Hx1 Hx2]]. pose proof (step_top_end _ _ Hy') as Hy1.
    rewrite (right_end_unique _ _ _ _ _ (proper_bot_nodup _ P) Hx1 Hx) in Hx2.
    assert (Ny : NoDup (e_top e)) by apply P.
    assert (Ey : y = y' + e_len e b) by (apply (right_end_unique _ _ _ _ _ Ny Hy Hy1)).
    assert (Hyge : e_len e a <= y).
    { destruct Hy as [U [V [E ->]]]. rewrite Et in E. destruct U as [|u U]; simpl in E; injection E as <- E; simpl; [lra|].
      assert (0 <= total (e_len e) U).
      { apply total_nonneg. intros d Hd. apply P. rewrite Et, E. right. apply in_or_app; left; exact Hd. }
      assert (0 < e_len e t).
      { apply P. rewrite Et, E. right. apply in_or_app; right; left; reflexivity. }
      lra. }
    assert (Hx'nn : 0 <= x').
    { destruct Hx' as [U [V [E ->]]].
      assert (0 <= total (e_len e') U).
      { apply total_nonneg. intros d Hd. apply (proper_bot_pos _ P'). rewrite E. apply in_or_app; left; exact Hd. }
      assert (0 < e_len e' c).
      { apply (proper_bot_pos _ P'). rewrite E. apply in_or_app; right; left; reflexivity. }
      lra. }
    assert (Hfin : exists m, iter (maps e) m (x' + e_len e b) y).
    { destruct Hx2 as [Hx2 | [Hm Ex]].
      - rewrite <- Hx2. exists n. exact Hi.
      - destruct n as [|n]; [simpl in Hi; lra|].
        destruct Hi as [u [Hu Hi]]. rewrite (maps_fun _ P _ _ _ Hu Hm) in Hi. exists n. exact Hi. }
    destruct Hfin as [m Hm].
    destruct (Ib m (x' + e_len e b) y) as [k [Hk _]]; [lra | lra | exact Hm |].
    replace (x' + e_len e b - e_len e b) with x' in Hk by lra. rewrite Ey in Hk.
    replace (y' + e_len e b - e_len e b) with y' in Hk by lra.
    exists x', y', k. repeat split; auto; [|lra].
    (* x' + d is in the domain *)
    assert (Hdom : x' + e_len e b < total (e_len e) (e_top e)).
    { destruct m as [|m]; [simpl in Hm; lra|]. destruct Hm as [u [Hu _]]. apply (maps_dom _ P) in Hu. lra. }
    lra.
Qed.
End Step.

Lemma rauzy_step_saddle e e' c t : proper e -> rauzy_step e e' ->
  (saddle_connection e' c t <-> saddle_connection e c t).
Proof.
  intros P (a & b & X & Y1 & Y2 & Et & Eb & Hlt & Et' & Eb' & Ha & Hc).
  eapply step_saddle_iff; eassumption.
Qed.

Lemma maps_same e e' : same_exch e e' -> forall y z, maps e y z -> maps e' y z.
Proof.
  intros [Ht [Hb Hl]] y z H. rewrite maps_iff in *. destruct H as (a & X & Y & X' & Y' & E1 & E2 & H & ->).
  assert (Etot : forall l, total (e_len e) l = total (e_len e') l) by (intros l; apply total_ext; auto).
  exists a, X, Y, X', Y'. rewrite <- Ht, <- Hb, <- !Etot, <- Hl. auto.
Qed.

Lemma same_exch_sym e e' : same_exch e e' -> same_exch e' e.
Proof. intros [A [B C]]. repeat split; auto. Qed.

Lemma same_exch_saddle e e' c t : same_exch e e' -> saddle_connection e c t -> saddle_connection e' c t.
Proof.
  intros S (x & y & n & Hx & Hy & Hxl & Hyl & Hi). pose proof S as [Ht [Hb Hl]].
  assert (Etot : forall l, total (e_len e) l = total (e_len e') l) by (intros l; apply total_ext; auto).
  exists x, y, n. split; [|split; [|split; [|split]]].
  - destruct Hx as [X [Y [E ->]]]. exists X, Y. rewrite <- Hb, <- Etot, <- Hl. auto.
  - destruct Hy as [X [Y [E ->]]]. exists X, Y. rewrite <- Ht, <- Etot, <- Hl. auto.
  - rewrite <- Hb, <- Etot. exact Hxl.
  - rewrite <- Ht, <- Etot. exact Hyl.
  - apply (iter_map (maps e) (maps e') (fun u => u)) in Hi; [exact Hi|]. apply maps_same, S.
Qed.

Lemma rauzy_run_saddle e e' : proper e -> rauzy_run e e' ->
  forall c t, saddle_connection e' c t <-> saddle_connection e c t.
Proof.
  intros P R. revert P. induction R as [e e' S | e e1 e' S R IH]; intros P c t.
  - split; apply same_exch_saddle; [apply same_exch_sym, S | exact S].
  - rewrite IH by (eapply rauzy_step_proper; eassumption). apply rauzy_step_saddle; assumption.
Qed.

Lemma flip_saddle e c t : saddle_connection (flip e) t c <-> saddle_connection e c t.
Proof.
  split; intros (x & y & n & Hx & Hy & Hxl & Hyl & Hi); exists y, x, n; simpl in *;
    repeat split; auto; apply iter_flip; exact Hi.
Qed.
