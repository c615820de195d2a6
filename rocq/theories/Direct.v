(** Direct saddle connections under induction, cuts and merges (specification level). *)
From Coq Require Import Reals Lra Lia List Permutation.
From Verif Require Import Spec Dyn Saddle Path.
Import ListNotations.
Open Scope R_scope.

(** One step of an orbit that has not met a discontinuity. *)
Notation smooth e := (fun u v => ~ singular e u /\ maps e u v).

Lemma smooth_maps e n x y : iter (smooth e) n x y -> iter (maps e) n x y.
Proof. apply (iter_map (smooth e) (maps e) (fun u => u)). intros u v [_ H]; exact H. Qed.

Lemma smooth_fun e : proper e -> forall x y z, smooth e x y -> smooth e x z -> y = z.
Proof. intros P x y z [_ H] [_ H']. exact (maps_fun e P x y z H H'). Qed.

Lemma direct_saddle e b t : direct_connection e b t -> saddle_connection e b t.
Proof.
  intros (x & y & n & Hx & Hy & Lx & Ly & Hi). exists x, y, n. repeat split; try assumption.
  apply smooth_maps, Hi.
Qed.

Lemma right_end_pos e l b x : (forall c, In c l -> 0 < e_len e c) -> right_end (e_len e) l b x -> 0 < x.
Proof.
  intros H (X & Y & -> & ->).
  assert (0 <= total (e_len e) X) by (apply total_nonneg; intros c Hc; apply H, in_or_app; left; exact Hc).
  assert (0 < e_len e b) by (apply H, in_or_app; right; left; reflexivity). lra.
Qed.

(** The point 0 is only reached from 0 or from a discontinuity. *)
Lemma maps_to_zero e u : proper e -> maps e u 0 -> u = 0 \/ singular e u.
Proof.
  intros P H. apply maps_iff in H. destruct H as (c & X & Y & X' & Y' & E & E' & Hr & Hz).
  assert (PX' : 0 <= total (e_len e) X').
  { apply total_nonneg. intros d Hd. apply (proper_bot_pos e P). rewrite E'. apply in_or_app; left; exact Hd. }
  assert (Eu : u = total (e_len e) X) by lra.
  destruct X as [|d X] using rev_ind; [left; exact Eu|]. clear IHX.
  right. exists d, X, (c :: Y). split; [rewrite E, <- app_assoc; reflexivity|].
  rewrite Eu, total_app. simpl. lra.
Qed.

Lemma smooth_pos e : proper e -> forall n x y, 0 < x -> iter (smooth e) n x y -> 0 < y.
Proof.
  intros P. induction n as [|n IH]; intros x y Hx Hi; [simpl in Hi; lra|].
  destruct Hi as (z & (Hs & Hm) & Hi). apply (IH z y); [|exact Hi].
  pose proof (maps_ran e P x z Hm). destruct (Req_dec z 0) as [E|E]; [|lra].
  rewrite E in Hm. destruct (maps_to_zero e x P Hm) as [E0|E0]; [lra | exfalso; exact (Hs E0)].
Qed.

(** A point in the image of the left end of a label on the bottom. *)
Lemma bot_end_prev e b z u : proper e -> right_end (e_len e) (e_bot e) b z -> maps e u z -> u = 0 \/ singular e u.
Proof.
  intros P (X & Y & E & ->) H. apply maps_iff in H. destruct H as (c & U & V & U' & V' & Et & Eb & Hr & Hz).
  (* z is the left end of c on the bottom *)
  pose proof (proper_bot_pos e P) as Hp.
  assert (Hpos : forall l d, In d l -> incl l (e_bot e) -> 0 < e_len e d) by (intros l d Hd Hl; apply Hp, Hl, Hd).
  assert (Eu : u = total (e_len e) U).
  { assert (EX : X ++ b :: Y = U' ++ c :: V') by (rewrite <- E; exact Eb).
    replace (X ++ b :: Y) with ((X ++ [b]) ++ Y) in EX by (rewrite <- app_assoc; reflexivity).
    destruct (app_cut _ _ _ _ EX) as [[Z [Z1 Z2]]|[Z [Z1 Z2]]].
    - assert (total (e_len e) U' = total (e_len e) X + e_len e b + total (e_len e) Z).
      { rewrite Z1, !total_app. simpl. lra. }
      assert (0 <= total (e_len e) Z).
      { apply total_nonneg. intros d Hd. apply Hp. rewrite Eb, Z1. apply in_or_app; left. apply in_or_app; right; exact Hd. }
      lra.
    - destruct Z as [|d Z].
      + rewrite app_nil_r in Z1. rewrite <- Z1, total_app in Hz. simpl in Hz. lra.
      + injection Z2 as <- Z2.
        assert (total (e_len e) X + e_len e b = total (e_len e) U' + e_len e c + total (e_len e) Z).
        { replace (total (e_len e) X + e_len e b) with (total (e_len e) (X ++ [b])) by (rewrite total_app; simpl; lra).
          rewrite Z1, total_app. simpl. lra. }
        assert (0 <= total (e_len e) Z).
        { apply total_nonneg. intros d Hd. apply Hp. rewrite Eb, Z2. apply in_or_app; right; right.
          apply in_or_app; left; exact Hd. }
        lra. }
  destruct U as [|d U] using rev_ind; [left; exact Eu|]. clear IHU.
  right. exists d, U, (c :: V). split; [rewrite Et, <- app_assoc; reflexivity|].
  rewrite Eu, total_app. simpl. lra.
Qed.

(** Along a smooth orbit there are no right ends of bottom intervals either. *)
Lemma smooth_bot e : proper e -> forall n x y, 0 < x -> iter (smooth e) (S n) x y ->
  ~ exists b, right_end (e_len e) (e_bot e) b y.
Proof.
  intros P n x y Hx Hi (b & Hb). destruct (iter_S_r _ _ _ _ Hi) as (u & Hu & Hs & Hm).
  destruct (bot_end_prev e b y u P Hb Hm) as [E|E]; [|exact (Hs E)].
  pose proof (smooth_pos e P n x u Hx Hu). lra.
Qed.

Lemma smooth_back e : proper e -> forall n x y, 0 < x -> iter (smooth e) n x y -> iter (smooth (flip e)) n y x.
Proof.
  intros P n. induction n as [|n IH]; intros x y Hx Hi; [simpl in *; congruence|].
  pose proof Hi as Hi0. destruct (iter_S_r _ _ _ _ Hi) as (u & Hu & Hs & Hm).
  exists u. split; [|apply IH; assumption]. split.
  - intros (b & Hb). apply (smooth_bot e P n x y Hx Hi0). exists b. exact Hb.
  - apply maps_flip. exact Hm.
Qed.

Lemma direct_flip_1 e b t : proper e -> direct_connection e b t -> direct_connection (flip e) t b.
Proof.
  intros P (x & y & n & Hx & Hy & Lx & Ly & Hi). exists y, x, n. simpl.
  repeat split; try assumption. apply (smooth_back e P); [|exact Hi].
  apply (right_end_pos e (e_bot e) b); [apply proper_bot_pos, P | exact Hx].
Qed.

Lemma direct_flip e b t : proper e -> (direct_connection (flip e) t b <-> direct_connection e b t).
Proof.
  intros P. split; [|apply direct_flip_1, P]. intros H.
  apply (direct_flip_1 (flip e) t b (flip_proper e P)) in H. rewrite flip_flip in H. exact H.
Qed.

(** Orbits of the induced map lift to orbits, and stay smooth. *)
Lemma induced_smooth e e' : proper e -> proper e' -> induced e e' ->
  let d := total (e_len e) (e_top e) - total (e_len e') (e_top e') in
  (forall z, singular e z -> d <= z) ->
  (forall u, 0 < u -> singular e (u + d) -> singular e' u) ->
  forall m u v, 0 < u -> iter (smooth e') m u v -> exists k, iter (smooth e) k (u + d) (v + d).
Proof.
  intros P P' (Hd & Hfr & _) d Hs Hs' m. induction m as [|m IH]; intros u v Hu Hi.
  - simpl in Hi. subst v. exists 0%nat. reflexivity.
  - destruct Hi as (w & (Hn & Hm) & Hi).
    assert (Hw : 0 < w).
    { apply (smooth_pos e' P' 1 u w Hu). exists w. split; [split; assumption | reflexivity]. }
    destruct (IH w v Hw Hi) as [k Hk].
    apply Hfr in Hm; [|lra]. destruct Hm as (n & Hn1 & Hit & Hw2 & Hout).
    exists (n + k)%nat. apply (iter_add _ n k _ (w + d)); [|exact Hk].
    (* the n steps of the first return are smooth *)
    assert (G : forall j, (j <= n)%nat -> forall z, iter (maps e) j (u + d) z -> iter (smooth e) j (u + d) z).
    { induction j as [|j IHj]; intros Hj z Hz; [exact Hz|].
      destruct (iter_S_r _ _ _ _ Hz) as (y & Hy & Hyz).
      replace (S j) with (j + 1)%nat by lia. apply (iter_add _ j 1 _ y); [apply IHj; [lia | exact Hy]|].
      exists z. split; [|reflexivity]. split; [|exact Hyz].
      intros Hsy. destruct j as [|j].
      - simpl in Hy. subst y. exact (Hn (Hs' u Hu Hsy)).
      - apply (Hout (S j) y); [lia | exact Hy | exact (Hs y Hsy)]. }
    apply G; [lia | exact Hit].
Qed.

Lemma same_exch_singular e e' z : same_exch e e' -> singular e z -> singular e' z.
Proof.
  intros (Ht & Hb & Hl) (t & X & Y & E & ->). exists t, X, Y. rewrite <- Ht. split; [exact E|].
  rewrite <- Hl. f_equal. apply total_ext. intros c _. apply Hl.
Qed.

Lemma direct_same e e' b t : same_exch e e' -> direct_connection e b t -> direct_connection e' b t.
Proof.
  intros S (x & y & n & Hx & Hy & Hxl & Hyl & Hi). pose proof S as (Ht & Hb & Hl).
  assert (Etot : forall l, total (e_len e) l = total (e_len e') l) by (intros l; apply total_ext; auto).
  exists x, y, n. split; [|split; [|split; [|split]]].
  - destruct Hx as (X & Y & E & ->). exists X, Y. rewrite <- Hb, <- Etot, <- Hl. auto.
  - destruct Hy as (X & Y & E & ->). exists X, Y. rewrite <- Ht, <- Etot, <- Hl. auto.
  - rewrite <- Hb, <- Etot. exact Hxl.
  - rewrite <- Ht, <- Etot. exact Hyl.
  - apply (iter_map (smooth e) (smooth e') (fun u => u)) in Hi; [exact Hi|].
    intros u v [N M]. split; [|exact (maps_same e e' S u v M)].
    intros H. apply N. exact (same_exch_singular e' e u (same_exch_sym e e' S) H).
Qed.

Section Step.
Variables e e' : exch.
Variables (a b : lab) (X Y1 Y2 : list lab).
Hypothesis P : proper e.
Hypothesis Et : e_top e = a :: X.
Hypothesis Eb : e_bot e = b :: Y1 ++ a :: Y2.
Hypothesis Hlt : e_len e b < e_len e a.
Hypothesis Et' : e_top e' = e_top e.
Hypothesis Eb' : e_bot e' = Y1 ++ b :: a :: Y2.
Hypothesis Ha : e_len e' a = e_len e a - e_len e b.
Hypothesis Hc : forall c, c <> a -> e_len e' c = e_len e c.

Lemma top_end_ge z : singular e z -> e_len e a <= z.
Proof.
  intros (t & U & V & E & ->). rewrite Et in E. destruct U as [|u U]; simpl in E; injection E as <- E; simpl; [lra|].
  assert (0 <= total (e_len e) U).
  { apply total_nonneg. intros d Hd. apply P. rewrite Et, E. right. apply in_or_app; left; exact Hd. }
  assert (0 < e_len e t).
  { apply P. rewrite Et, E. right. apply in_or_app; right; left; reflexivity. }
  lra.
Qed.

Lemma step_direct c t : direct_connection e' c t -> direct_connection e c t.
Proof.
  assert (S : rauzy_step e e') by (exists a, b, X, Y1, Y2; repeat split; assumption).
  pose proof (rauzy_step_proper _ _ P S) as P'.
  pose proof (rauzy_step_induced _ _ P S) as I.
  assert (HaX : ~ In a X) by (destruct P as [N _]; rewrite Et in N; inversion N; assumption).
  assert (Ed : total (e_len e) (e_top e) - total (e_len e') (e_top e') = e_len e b).
  { rewrite Et', Et. simpl. rewrite Ha.
    rewrite (total_ext (e_len e') (e_len e) X); [lra|]. intros d Hd. apply Hc. intros ->. exact (HaX Hd). }
  assert (Hbp : 0 < e_len e b) by (apply (proper_bot_pos _ P); rewrite Eb; left; reflexivity).
  pose proof (proper_total _ P) as TT. pose proof (proper_total _ P') as TT'.
  assert (Hbt : e_len e b < total (e_len e) (e_top e)).
  { rewrite Et. simpl. assert (0 <= total (e_len e) X); [|lra].
    apply total_nonneg. intros d Hd. apply P. rewrite Et. right; exact Hd. }
  pose proof (induced_smooth e e' P P' I) as Is. cbv zeta in Is. rewrite Ed in Is.
  specialize (Is (fun z Hz => Rle_trans _ _ _ (Rlt_le _ _ Hlt) (top_end_ge z Hz))).
  assert (Hs' : forall u, 0 < u -> singular e (u + e_len e b) -> singular e' u).
  { intros u Hu (r & U & V & E & H). exists r. 
    destruct (right_end_exists (e_len e') (e_top e') r) as [y Hy].
    { rewrite Et', E. apply in_or_app; right; left; reflexivity. }
    pose proof (step_top_end e e' a b X P Et Et' Ha Hc r y Hy) as Hy'.
    assert (Ey : y + e_len e b = u + e_len e b).
    { apply (right_end_unique (e_len e) (e_top e) r); [apply P | exact Hy' | exists U, V; auto]. }
    replace u with y by lra. exact Hy. }
  specialize (Is Hs').
  intros (x' & y' & n & Hx & Hy & Hxl & Hyl & Hi).
  assert (Hx'p : 0 < x') by (apply (right_end_pos e' (e_bot e') c); [apply proper_bot_pos, P' | exact Hx]).
  destruct (step_bot_end e e' a b X Y1 Y2 P Et Eb Hlt Eb' Ha Hc _ _ Hx) as [x [Hx1 Hx2]].
  pose proof (step_top_end e e' a b X P Et Et' Ha Hc _ _ Hy) as Hy1.
  destruct (Is n x' y' Hx'p Hi) as [k Hk].
  exists x, (y' + e_len e b).
  destruct Hx2 as [-> | [Hm ->]].
  - exists k. repeat split; auto; lra.
  - exists (Datatypes.S k). repeat split; auto; try lra. eexists. split; [|exact Hk].
    split; [|exact Hm]. intros Hs. apply top_end_ge in Hs. lra.
Qed.
End Step.

Lemma rauzy_step_direct e e' c t : proper e -> rauzy_step e e' ->
  direct_connection e' c t -> direct_connection e c t.
Proof.
  intros P (a & b & X & Y1 & Y2 & Et & Eb & Hlt & Et' & Eb' & Ha & Hc).
  eapply step_direct; eassumption.
Qed.

Lemma path_direct e e' : proper e -> rauzy_path e e' ->
  forall c t, direct_connection e' c t -> direct_connection e c t.
Proof.
  intros P H. revert P. induction H as [e e' S | e e1 e' S _ IH | e e1 e' S _ IH]; intros P c t Hd.
  - exact (direct_same e' e c t (same_exch_sym e e' S) Hd).
  - apply (rauzy_step_direct e e1 c t P S), IH; [eapply rauzy_step_proper; eassumption | exact Hd].
  - destruct (bot_step_facts e e1 P S) as [_ P1]. apply IH in Hd; [|exact P1].
    apply (direct_flip e c t P). apply (rauzy_step_direct (flip e) (flip e1) t c (flip_proper e P) S).
    apply (direct_flip e1 c t P1). exact Hd.
Qed.

(** ** Cuts *)
Lemma direct_cut_left e X1 X2 Y1 Y2 c t : proper e -> e_top e = X1 ++ X2 -> e_bot e = Y1 ++ Y2 -> Permutation X1 Y1 ->
  direct_connection (mkexch X1 Y1 (e_len e)) c t -> direct_connection e c t.
Proof.
  intros P Et Eb HP (x & y & n & Hx & Hy & Hxl & Hyl & Hi). simpl in *.
  destruct (cut_proper e X1 X2 Y1 Y2 P Et Eb HP) as [P1 P2].
  assert (E12 : total (e_len e) X1 = total (e_len e) Y1) by (apply total_perm, HP).
  assert (L1 : total (e_len e) X1 <= total (e_len e) (e_top e)).
  { rewrite Et, total_app. assert (0 <= total (e_len e) X2); [|lra].
    apply total_nonneg. intros d Hd. apply P. rewrite Et. apply in_or_app; right; exact Hd. }
  pose proof (proper_total e P) as TT.
  exists x, y, n. split; [|split; [|split; [lra|split; [lra|]]]].
  - destruct Hx as (U & V & E & ->). exists U, (V ++ Y2). rewrite Eb, E, <- app_assoc. split; reflexivity.
  - destruct Hy as (U & V & E & ->). exists U, (V ++ X2). rewrite Et, E, <- app_assoc. split; reflexivity.
  - apply (iter_map (smooth (mkexch X1 Y1 (e_len e))) (smooth e) (fun u => u)) in Hi; [exact Hi|].
    intros u v [N M]. apply (cut_left e X1 X2 Y1 Y2 P Et Eb HP) in M. destruct M as [M Hu].
    split; [|exact M]. intros (r & U & V & E & ->). apply N.
    rewrite Et in E. symmetry in E. destruct (app_cut _ _ _ _ E) as [[Z [Z1 Z2]]|[Z [Z1 Z2]]].
    + destruct Z as [|z Z].
      * rewrite app_nil_r in Z1. subst U. assert (0 < e_len e r); [|lra].
        apply P. rewrite Et. simpl in Z2. apply in_or_app; right. rewrite <- Z2. left; reflexivity.
      * injection Z2 as <- Z2. exists r, U, Z. simpl. split; [exact Z1 | reflexivity].
    + assert (total (e_len e) U = total (e_len e) X1 + total (e_len e) Z) by (rewrite Z1, total_app; reflexivity).
      assert (0 <= total (e_len e) Z).
      { apply total_nonneg. intros d Hd. apply P. rewrite Et, Z2. apply in_or_app; right. apply in_or_app; left; exact Hd. }
      assert (0 < e_len e r).
      { apply P. rewrite Et, Z2. apply in_or_app; right. apply in_or_app; right; left; reflexivity. }
      lra.
Qed.

Lemma direct_cut_right e X1 X2 Y1 Y2 c t : proper e -> e_top e = X1 ++ X2 -> e_bot e = Y1 ++ Y2 -> Permutation X1 Y1 ->
  direct_connection (mkexch X2 Y2 (e_len e)) c t -> direct_connection e c t.
Proof.
  intros P Et Eb HP (x & y & n & Hx & Hy & Hxl & Hyl & Hi). simpl in *.
  destruct (cut_proper e X1 X2 Y1 Y2 P Et Eb HP) as [P1 P2].
  assert (E12 : total (e_len e) X1 = total (e_len e) Y1) by (apply total_perm, HP).
  pose proof (proper_total e P) as TT.
  set (d := total (e_len e) X1) in *.
  exists (x + d), (y + d), n. split; [|split; [|split; [|split]]].
  - destruct Hx as (U & V & E & ->). exists (Y1 ++ U), V. rewrite Eb, E, <- app_assoc. split; [reflexivity|].
    rewrite total_app. lra.
  - destruct Hy as (U & V & E & ->). exists (X1 ++ U), V. rewrite Et, E, <- app_assoc. split; [reflexivity|].
    rewrite total_app. fold d. lra.
  - rewrite Eb, total_app. lra.
  - rewrite Et, total_app. fold d. lra.
  - assert (Hx0 : 0 < x) by (apply (right_end_pos e Y2 c); [|exact Hx]; intros r Hr; apply (proper_bot_pos e P);
      rewrite Eb; apply in_or_app; right; exact Hr).
    clear Hx Hy Hxl Hyl. revert x Hx0 Hi. induction n as [|n IH]; intros x Hx0 Hi; [simpl in *; congruence|].
    destruct Hi as (z & [N M] & Hi).
    assert (Hz : 0 < z).
    { apply (smooth_pos _ P2 1 x z Hx0). exists z. split; [split; assumption | reflexivity]. }
    exists (z + d). split; [|apply IH; assumption].
    split; [|apply (cut_right e X1 X2 Y1 Y2 P Et Eb HP); [lra | exact M]].
    intros (r & U & V & E & He). apply N.
    rewrite Et in E. symmetry in E. destruct (app_cut _ _ _ _ E) as [[Z [Z1 Z2]]|[Z [Z1 Z2]]].
    + (* r in X1, or U = X1 *)
      destruct Z as [|q Z].
      * rewrite app_nil_r in Z1. subst U. simpl in Z2. exists r, [], V. simpl. split; [symmetry; exact Z2|].
        unfold d in He. lra.
      * injection Z2 as <- Z2. exfalso.
        assert (d = total (e_len e) U + e_len e r + total (e_len e) Z) by (unfold d; rewrite Z1, total_app; simpl; lra).
        assert (0 <= total (e_len e) Z).
        { apply total_nonneg. intros q Hq. apply P. rewrite Et, Z1. apply in_or_app; left. apply in_or_app; right; right; exact Hq. }
        lra.
    + exists r, Z, V. simpl. split; [exact Z2|]. rewrite Z1, total_app in He. fold d in He. lra.
Qed.

(** ** Merges *)
Lemma direct_merge e e' a b X Y1 Y2 c t : proper e -> 
  e_top e = a :: X -> e_bot e = b :: Y1 ++ a :: Y2 -> e_len e a = e_len e b ->
  e_top e' = X -> e_bot e' = Y1 ++ b :: Y2 -> (forall c, c <> a -> e_len e' c = e_len e c) ->
  direct_connection e' c t -> direct_connection e (if Nat.eqb c b then a else c) t.
Proof.
  intros P Et Eb Hab Et' Eb' Hc (x & y & n & Hx & Hy & Hxl & Hyl & Hi).
  assert (M : merge_step e e') by (exists a, b, X, Y1, Y2; repeat split; assumption).
  pose proof (merge_step_proper e e' P M) as P'. pose proof (merge_step_induced e e' P M) as I.
  assert (HaX : ~ In a X) by (destruct P as [N _]; rewrite Et in N; inversion N; assumption).
  pose proof (proper_bot_nodup _ P) as NB. rewrite Eb in NB.
  assert (HaY : ~ In a (b :: Y1) /\ ~ In a Y2).
  { change (b :: Y1 ++ a :: Y2) with ((b :: Y1) ++ a :: Y2) in NB.
    apply NoDup_remove_2 in NB. rewrite in_app_iff in NB. tauto. }
  destruct HaY as [HaY1 HaY2].
  assert (Hba : b <> a) by (intros ->; apply HaY1; left; reflexivity).
  assert (HbY : ~ In b Y1 /\ ~ In b Y2).
  { inversion NB as [|? ? Hn _ E]; subst. rewrite in_app_iff in Hn. simpl in Hn. tauto. }
  destruct HbY as [HbY1 HbY2].
  assert (Hpart : forall l, ~ In a l -> total (e_len e') l = total (e_len e) l).
  { intros l Hl. apply total_ext. intros q Hq. apply Hc. intros ->. exact (Hl Hq). }
  assert (HaY1' : ~ In a Y1) by (intros H; apply HaY1; right; exact H).
  assert (Ed : total (e_len e) (e_top e) - total (e_len e') (e_top e') = e_len e a).
  { rewrite Et', Et. simpl. rewrite (Hpart X HaX). lra. }
  pose proof (proper_total _ P) as TT. pose proof (proper_total _ P') as TT'.
  pose proof (induced_smooth e e' P P' I) as Is. cbv zeta in Is. rewrite Ed in Is.
  specialize (Is (fun z Hz => top_end_ge e a X P Et z Hz)).
  assert (Hs' : forall u, 0 < u -> singular e (u + e_len e a) -> singular e' u).
  { intros u Hu (r & U & V & E & H). rewrite Et in E. destruct U as [|q U]; simpl in E.
    - injection E as <- E. simpl in H. lra.
    - injection E as <- E. exists r, U, V. rewrite Et'. split; [exact E|]. simpl in H.
      rewrite (Hpart U), (Hc r); [lra | |]; [intros ->; apply HaX; rewrite E; apply in_or_app; right; left; reflexivity|].
      intros Hin. apply HaX. rewrite E. apply in_or_app; left; exact Hin. }
  specialize (Is Hs').
  assert (Hx0 : 0 < x) by (apply (right_end_pos e' (e_bot e') c); [apply proper_bot_pos, P' | exact Hx]).
  destruct (Is n x y Hx0 Hi) as [k Hk].
  exists (x + e_len e a), (y + e_len e a), k. split; [|split; [|split; [lra|split; [lra | exact Hk]]]].
  - destruct Hx as (U & V & E & ->). rewrite Eb' in E. symmetry in E.
    destruct (app_cut _ _ _ _ E) as [[Z [Z1 Z2]]|[Z [Z1 Z2]]].
    + destruct Z as [|q Z].
      * injection Z2 as -> Z2. rewrite app_nil_r in Z1. subst U. rewrite Nat.eqb_refl.
        exists (b :: Y1), Y2. split; [exact Eb|]. simpl. rewrite (Hpart Y1 HaY1'), (Hc b Hba). lra.
      * injection Z2 as <- Z2.
        assert (In c Y1) by (rewrite Z1; apply in_or_app; right; left; reflexivity).
        destruct (Nat.eqb_spec c b) as [->|Nb]; [exfalso; tauto|].
        exists (b :: U), (Z ++ a :: Y2). split; [rewrite Eb, Z1; simpl; rewrite <- app_assoc; reflexivity|].
        simpl. rewrite (Hpart U), (Hc c); [lra | |]; [intros ->; tauto|].
        intros Hin. apply HaY1'. rewrite Z1. apply in_or_app; left; exact Hin.
    + destruct Z as [|q Z].
      * injection Z2 as <- Z2. rewrite app_nil_r in Z1. subst U. rewrite Nat.eqb_refl.
        exists (b :: Y1), Y2. split; [exact Eb|]. simpl. rewrite (Hpart Y1 HaY1'), (Hc b Hba). lra.
      * injection Z2 as <- Z2.
        assert (In c Y2) by (rewrite Z2; apply in_or_app; right; left; reflexivity).
        destruct (Nat.eqb_spec c b) as [->|Nb]; [exfalso; tauto|].
        exists (b :: Y1 ++ a :: Z), V. split; [rewrite Eb, Z2; simpl; rewrite <- app_assoc; reflexivity|].
        rewrite Z1. simpl. rewrite !total_app. simpl. rewrite (Hpart Y1 HaY1'), (Hpart Z), (Hc b Hba), (Hc c); [lra | |].
        -- intros ->. tauto.
        -- intros Hin. apply HaY2. rewrite Z2. apply in_or_app; left; exact Hin.
  - destruct Hy as (U & V & E & ->). rewrite Et' in E. exists (a :: U), V. split; [rewrite Et, E; reflexivity|].
    simpl. rewrite (Hpart U), (Hc t); [lra | |].
    + intros ->. apply HaX. rewrite E. apply in_or_app; right; left; reflexivity.
    + intros Hin. apply HaX. rewrite E. apply in_or_app; left; exact Hin.
Qed.

(** ** The connections that are found *)
Lemma prefix_direct e k b t : proper e -> invariant_prefix e k ->
  hd_error (rev (firstn k (e_bot e))) = Some b -> hd_error (rev (firstn k (e_top e))) = Some t ->
  direct_connection e b t.
Proof.
  intros P [Hk HP] Hb Ht.
  pose proof (Permutation_length (proj1 (proj2 P))) as HL.
  exists (total (e_len e) (firstn k (e_bot e))), (total (e_len e) (firstn k (e_top e))), 0%nat.
  split; [apply last_right_end; [lia | exact Hb]|]. split; [apply last_right_end; [lia | exact Ht]|].
  rewrite <- (total_perm (e_len e) _ _ HP), <- (proper_total e P).
  pose proof (total_firstn_lt e k P (proj2 Hk)). repeat split; try assumption.
Qed.

Lemma merge_direct e a b X Y : proper e -> e_top e = a :: X -> e_bot e = b :: Y -> e_len e a = e_len e b ->
  X <> [] -> direct_connection e b a.
Proof.
  intros P Ht Hb He HX.
  pose proof (total_firstn_lt e 1 P) as L. rewrite Ht in L. destruct X as [|c X]; [congruence|].
  specialize (L ltac:(simpl; lia)).
  exists (e_len e b), (e_len e a), 0%nat. rewrite <- (proper_total e P), Ht. simpl in *.
  split; [exists [], Y; rewrite Hb; simpl; split; [reflexivity | lra]|].
  split; [exists [], (c :: X); simpl; split; [reflexivity | lra]|].
  repeat split; lra.
Qed.

(** ** Uniqueness *)
Lemma direct_target e b t t' : proper e -> direct_connection e b t -> direct_connection e b t' -> t = t'.
Proof.
  intros P (x & y & n & Hx & Hy & _ & Ly & Hi) (x' & y' & n' & Hx' & Hy' & _ & Ly' & Hi').
  assert (Ex : x = x') by (apply (right_end_unique (e_len e) (e_bot e) b); [apply proper_bot_nodup, P | exact Hx | exact Hx']).
  rewrite <- Ex in Hi'.
  assert (stop : forall m k u v w, (m < k)%nat -> iter (smooth e) m u v -> iter (smooth e) k u w -> ~ singular e v).
  { intros m k u v w Hmk H1 H2. replace k with (m + S (k - m - 1))%nat in H2 by lia.
    destruct (iter_split _ _ _ _ _ H2) as (v' & H3 & H4).
    assert (v' = v) by (apply (iter_fun (smooth e) (smooth_fun e P) m u); assumption). subst v'.
    destruct H4 as (w' & [H4 _] & _). exact H4. }
  assert (Ey : y = y').
  { destruct (lt_eq_lt_dec n n') as [[L|L]|L].
    - exfalso. apply (stop n n' x y y' L Hi Hi'). exists t. exact Hy.
    - subst n'. exact (iter_fun (smooth e) (smooth_fun e P) n x y y' Hi Hi').
    - exfalso. apply (stop n' n x y' y L Hi' Hi). exists t'. exact Hy'. }
  rewrite <- Ey in Hy'.
  destruct Hy as (U & V & E & H1), Hy' as (U' & V' & E' & H2).
  (* two labels with the same right end *)
  pose proof (proj2 (proj2 P)) as Hp.
  assert (EE : (U ++ [t]) ++ V = (U' ++ [t']) ++ V') by (rewrite <- !app_assoc; simpl; rewrite <- E, <- E'; reflexivity).
  assert (T1 : total (e_len e) (U ++ [t]) = y) by (rewrite total_app; simpl; lra).
  assert (T2 : total (e_len e) (U' ++ [t']) = y) by (rewrite total_app; simpl; lra).
  assert (In' : forall Z, total (e_len e) Z = 0 -> incl Z (e_top e) -> Z = []).
  { intros [|z Z] HZ Hin; [reflexivity|]. simpl in HZ.
    assert (0 < e_len e z) by (apply Hp, Hin; left; reflexivity).
    assert (0 <= total (e_len e) Z) by (apply total_nonneg; intros q Hq; apply Hp, Hin; right; exact Hq). lra. }
  destruct (app_cut _ _ _ _ EE) as [[Z [Z1 Z2]]|[Z [Z1 Z2]]].
  - assert (Z = []) as ->.
    { apply In'; [rewrite Z1, total_app in T2; lra|]. intros q Hq. rewrite E, Z2.
      apply in_or_app; right; right; apply in_or_app; left; exact Hq. }
    rewrite app_nil_r in Z1. apply app_inj_tail in Z1. symmetry. tauto.
  - assert (Z = []) as ->.
    { apply In'; [rewrite Z1, total_app in T1; lra|]. intros q Hq. rewrite E', Z2.
      apply in_or_app; right; right; apply in_or_app; left; exact Hq. }
    rewrite app_nil_r in Z1. apply app_inj_tail in Z1. tauto.
Qed.

Lemma direct_source e b b' t : proper e -> direct_connection e b t -> direct_connection e b' t -> b = b'.
Proof.
  intros P H H'. apply (direct_target (flip e) t b b' (flip_proper e P));
    apply (direct_flip e); assumption.
Qed.

Lemma direct_not_last e b t : proper e -> direct_connection e b t -> not_last (e_bot e) b /\ not_last (e_top e) t.
Proof.
  intros P (x & y & n & (X & Y & E & Hx) & (U & V & E' & Hy) & Lx & Ly & _). split.
  - destruct Y as [|c Y]; [|exists X, c, Y; exact E].
    exfalso. rewrite E, total_app in Lx. simpl in Lx. lra.
  - destruct V as [|c V]; [|exists U, c, V; exact E'].
    exfalso. rewrite E', total_app in Ly. simpl in Ly. lra.
Qed.
