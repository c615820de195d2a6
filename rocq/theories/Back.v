(** The connections of the original IET that have not been found yet are connections of the
    components: the converse of what [Direct] and [DecompInv] show. *)
From Coq Require Import Reals Lra Lia List Permutation Arith.
From Verif Require Import Base LenT Lengths IET Decomp Spec Dyn Saddle Path Direct DecompInv DecompCons.
Import ListNotations.
Open Scope R_scope.

(** ** The first discontinuity on a saddle connection *)

Lemma ends_dec len l : forall z, (exists t, right_end len l t z) \/ ~ (exists t, right_end len l t z).
Proof.
  induction l as [|c l IH]; intros z.
  - right. intros (t & X & Y & E & _). destruct X; discriminate.
  - destruct (Req_dec z (len c)) as [->|N].
    + left. exists c, [], l. simpl. split; [reflexivity | lra].
    + destruct (IH (z - len c)) as [(t & X & Y & E & Hz)|H].
      * left. exists t, (c :: X), Y. simpl. rewrite E. split; [reflexivity | lra].
      * right. intros (t & X & Y & E & Hz). destruct X as [|q X]; injection E as <- E; simpl in Hz; [lra|].
        apply H. exists t, X, Y. split; [exact E | lra].
Qed.

Lemma saddle_first e b t : proper e -> saddle_connection e b t -> exists t', direct_connection e b t'.
Proof.
  intros P (x & y & n & Hx & Hy & Lx & Ly & Hi).
  assert (G : exists m z, iter (smooth e) m x z /\ singular e z /\ z < total (e_len e) (e_top e)).
  { clear Hx Lx. revert x Hi. induction n as [|n IH]; intros x Hi.
    - simpl in Hi. subst y. exists 0%nat, x. split; [reflexivity|]. split; [exists t; exact Hy | exact Ly].
    - destruct Hi as (u & Hu & Hi). destruct (ends_dec (e_len e) (e_top e) x) as [S|S].
      + exists 0%nat, x. split; [reflexivity|]. split; [exact S|]. apply (maps_dom e P) in Hu. lra.
      + destruct (IH u Hi) as (m & z & Hm & Hz). exists (Datatypes.S m), z. split; [|exact Hz].
        exists u. split; [split; assumption | exact Hm]. }
  destruct G as (m & z & Hm & (t' & Ht') & Lz). exists t', x, z, m. auto 6.
Qed.

(** ** Paths *)

Lemma path_direct_back e e' c t : proper e -> rauzy_path e e' -> direct_connection e c t -> direct_connection e' c t.
Proof.
  intros P H Q. destruct (path_induced e e' P H) as [_ P'].
  pose proof (proj2 (path_saddle e e' P H c t) (direct_saddle e c t Q)) as S.
  destruct (saddle_first e' c t P' S) as [t' Q']. 
  rewrite (direct_target e c t t' P Q (path_direct e e' P H c t' Q')). exact Q'.
Qed.

(** ** Cuts *)

Lemma direct_cut_left_back e X1 X2 Y1 Y2 c t : proper e -> e_top e = X1 ++ X2 -> e_bot e = Y1 ++ Y2 -> Permutation X1 Y1 ->
  not_last Y1 c -> direct_connection e c t -> direct_connection (mkexch X1 Y1 (e_len e)) c t.
Proof.
  intros P Et Eb HP (U0 & c0 & V0 & EY) Q. pose proof Q as (x & y & n & Hx & Hy & Hxl & Hyl & Hi).
  destruct (cut_proper e X1 X2 Y1 Y2 P Et Eb HP) as [P1 P2].
  assert (E12 : total (e_len e) X1 = total (e_len e) Y1) by (apply total_perm, HP).
  assert (Ex : x = total (e_len e) U0 + e_len e c).
  { apply (right_end_unique (e_len e) (e_bot e) c); [apply proper_bot_nodup, P | exact Hx|].
    exists U0, (c0 :: V0 ++ Y2). rewrite Eb, EY, <- app_assoc. split; reflexivity. }
  assert (Lx : x < total (e_len e) Y1).
  { rewrite EY, total_app. simpl. assert (0 < e_len e c0).
    { apply (proper_bot_pos e P). rewrite Eb, EY. apply in_or_app; left. apply in_or_app; right; right; left; reflexivity. }
    assert (0 <= total (e_len e) V0); [|lra]. apply total_nonneg. intros d Hd. apply (proper_bot_pos e P).
    rewrite Eb, EY. apply in_or_app; left. apply in_or_app; right; right; right; exact Hd. }
  apply smooth_maps in Hi.
  assert (G : iter (maps (mkexch X1 Y1 (e_len e))) n x y /\ y < total (e_len e) X1).
  { rewrite <- E12 in Lx. clear Hx Ex. revert x Lx Hxl Hi. induction n as [|n IH]; intros x Lx Hxl Hi.
    - simpl in *. subst y. split; [reflexivity | exact Lx].
    - destruct Hi as (u & Hu & Hi). assert (M : maps (mkexch X1 Y1 (e_len e)) x u) by (apply (cut_left e X1 X2 Y1 Y2 P Et Eb HP); split; assumption).
      pose proof (maps_ran _ P1 _ _ M) as R. simpl in R. pose proof (maps_ran _ P _ _ Hu) as R'. rewrite (proper_total e P) in R'.
      destruct (IH u (proj2 R) (proj2 R') Hi) as [G1 G2]. split; [|exact G2]. exists u. split; assumption. }
  destruct G as [G Ly].
  assert (Ht : right_end (e_len e) X1 t y).
  { destruct Hy as (U & V & E & Ey). rewrite Et in E. symmetry in E. destruct (app_cut _ _ _ _ E) as [[Z [Z1 Z2]]|[Z [Z1 Z2]]].
    - destruct Z as [|z Z].
      + exfalso. rewrite app_nil_r in Z1. subst U. assert (0 < e_len e t); [|lra].
        apply P. rewrite Et. simpl in Z2. apply in_or_app; right. rewrite <- Z2. left; reflexivity.
      + injection Z2 as <- Z2. exists U, Z. split; [exact Z1 | exact Ey].
    - exfalso. assert (total (e_len e) U = total (e_len e) X1 + total (e_len e) Z) by (rewrite Z1, total_app; reflexivity).
      assert (0 <= total (e_len e) Z).
      { apply total_nonneg. intros d Hd. apply P. rewrite Et, Z2. apply in_or_app; right. apply in_or_app; left; exact Hd. }
      assert (0 < e_len e t).
      { apply P. rewrite Et, Z2. apply in_or_app; right. apply in_or_app; right; left; reflexivity. }
      lra. }
  assert (S : saddle_connection (mkexch X1 Y1 (e_len e)) c t).
  { exists x, y, n. simpl. split; [exists U0, (c0 :: V0); split; [exact EY | exact Ex]|]. auto. }
  destruct (saddle_first _ c t P1 S) as [t' Q'].
  rewrite (direct_target e c t t' P Q (direct_cut_left e X1 X2 Y1 Y2 c t' P Et Eb HP Q')). exact Q'.
Qed.

Lemma direct_cut_right_back e X1 X2 Y1 Y2 c t : proper e -> e_top e = X1 ++ X2 -> e_bot e = Y1 ++ Y2 -> Permutation X1 Y1 ->
  In c Y2 -> direct_connection e c t -> direct_connection (mkexch X2 Y2 (e_len e)) c t.
Proof.
  intros P Et Eb HP Hc Q. pose proof Q as (x & y & n & Hx & Hy & Hxl & Hyl & Hi).
  destruct (cut_proper e X1 X2 Y1 Y2 P Et Eb HP) as [P1 P2].
  assert (E12 : total (e_len e) X1 = total (e_len e) Y1) by (apply total_perm, HP).
  destruct (in_split _ _ Hc) as (U0 & V0 & EY). set (d := total (e_len e) X1) in *.
  assert (Ex : x = (total (e_len e) U0 + e_len e c) + d).
  { apply (right_end_unique (e_len e) (e_bot e) c); [apply proper_bot_nodup, P | exact Hx|].
    exists (Y1 ++ U0), V0. rewrite Eb, EY, <- app_assoc, total_app. split; [reflexivity | lra]. }
  set (x2 := total (e_len e) U0 + e_len e c) in *.
  assert (Hx2 : right_end (e_len e) Y2 c x2) by (exists U0, V0; split; [exact EY | reflexivity]).
  assert (Px : 0 < x2).
  { apply (right_end_pos e Y2 c); [|exact Hx2]. intros q Hq. apply (proper_bot_pos e P). rewrite Eb. apply in_or_app; right; exact Hq. }
  assert (Sing : forall u, singular (mkexch X2 Y2 (e_len e)) u -> singular e (u + d)).
  { intros u (r & U & V & E & ->). exists r, (X1 ++ U), V. simpl in E. rewrite Et, E, <- app_assoc, total_app. split; [reflexivity|]. fold d. simpl. lra. }
  assert (G : forall n u, 0 < u -> iter (smooth e) n (u + d) y -> 0 < y - d /\ iter (maps (mkexch X2 Y2 (e_len e))) n u (y - d)).
  { clear Hi Ex. clear n. induction n as [|n IH]; intros u Hu Hi.
    - simpl in Hi. rewrite <- Hi. replace (u + d - d) with u by lra. split; [exact Hu | reflexivity].
    - destruct Hi as (z & [N M] & Hi). replace z with ((z - d) + d) in M, Hi by lra.
      apply (cut_right e X1 X2 Y1 Y2 P Et Eb HP) in M; [|lra].
      assert (Z : 0 < z - d).
      { pose proof (maps_ran _ P2 _ _ M) as R. destruct (Req_dec (z - d) 0) as [E|E]; [|lra]. exfalso.
        rewrite E in M. destruct (maps_to_zero _ u P2 M) as [E0|E0]; [lra|]. exact (N (Sing u E0)). }
      destruct (IH (z - d) Z Hi) as [G1 G2]. split; [exact G1|]. exists (z - d). split; assumption. }
  rewrite Ex in Hi. destruct (G n x2 Px Hi) as [Py Hit].
  assert (Ht : right_end (e_len e) X2 t (y - d)).
  { destruct Hy as (U & V & E & Ey). rewrite Et in E. symmetry in E. destruct (app_cut _ _ _ _ E) as [[Z [Z1 Z2]]|[Z [Z1 Z2]]].
    - destruct Z as [|q Z].
      + rewrite app_nil_r in Z1. simpl in Z2. exists [], V. simpl. split; [symmetry; exact Z2|]. unfold d. rewrite Ey, Z1. lra.
      + injection Z2 as <- Z2. exfalso.
        assert (d = total (e_len e) U + e_len e t + total (e_len e) Z) by (unfold d; rewrite Z1, total_app; simpl; lra).
        assert (0 <= total (e_len e) Z).
        { apply total_nonneg. intros q Hq. apply P. rewrite Et, Z1. apply in_or_app; left. apply in_or_app; right; right; exact Hq. }
        lra.
    - exists Z, V. split; [exact Z2|]. rewrite Ey, Z1, total_app. fold d. lra. }
  assert (Tb : total (e_len e) (e_bot e) = d + total (e_len e) Y2) by (rewrite Eb, total_app; lra).
  assert (Tt : total (e_len e) (e_top e) = d + total (e_len e) X2) by (rewrite Et, total_app; reflexivity).
  assert (S : saddle_connection (mkexch X2 Y2 (e_len e)) c t).
  { exists x2, (y - d), n. simpl. split; [exact Hx2|]. split; [exact Ht|]. split; [lra|]. split; [lra | exact Hit]. }
  destruct (saddle_first _ c t P2 S) as [t' Q'].
  rewrite (direct_target e c t t' P Q (direct_cut_right e X1 X2 Y1 Y2 c t' P Et Eb HP Q')). exact Q'.
Qed.

(** ** Merges *)

Lemma direct_merge_back e e' a b X Y1 Y2 c t : proper e ->
  e_top e = a :: X -> e_bot e = b :: Y1 ++ a :: Y2 -> e_len e a = e_len e b ->
  e_top e' = X -> e_bot e' = Y1 ++ b :: Y2 -> (forall c, c <> a -> e_len e' c = e_len e c) ->
  c <> b -> direct_connection e c t -> direct_connection e' (if Nat.eqb c a then b else c) t.
Proof.
  intros P Et Eb Hab Et' Eb' Hc Ncb Q. pose proof Q as (x & y & n & Hx & Hy & Hxl & Hyl & Hi).
  assert (M : merge_step e e') by (exists a, b, X, Y1, Y2; repeat split; assumption).
  pose proof (merge_step_proper e e' P M) as P'. pose proof (merge_step_induced e e' P M) as I.
  assert (HaX : ~ In a X) by (destruct P as [N _]; rewrite Et in N; inversion N; assumption).
  pose proof (proper_bot_nodup _ P) as NB. rewrite Eb in NB.
  assert (HaY : ~ In a (b :: Y1) /\ ~ In a Y2).
  { change (b :: Y1 ++ a :: Y2) with ((b :: Y1) ++ a :: Y2) in NB.
    apply NoDup_remove_2 in NB. rewrite in_app_iff in NB. tauto. }
  destruct HaY as [HaY1 HaY2].
  assert (Hba : b <> a) by (intros ->; apply HaY1; left; reflexivity).
  assert (HaY1' : ~ In a Y1) by (intros H; apply HaY1; right; exact H).
  assert (Hpart : forall l, ~ In a l -> total (e_len e') l = total (e_len e) l).
  { intros l Hl. apply total_ext. intros q Hq. apply Hc. intros ->. exact (Hl Hq). }
  set (d := e_len e a) in *.
  assert (Ed : total (e_len e) (e_top e) - total (e_len e') (e_top e') = d).
  { rewrite Et', Et. simpl. rewrite (Hpart X HaX). fold d. lra. }
  pose proof (proper_total _ P) as TT. pose proof (proper_total _ P') as TT'.
  assert (Hd : 0 < d) by (apply P; rewrite Et; left; reflexivity).
  (* the start *)
  assert (Sx : d < x /\ right_end (e_len e') (e_bot e') (if Nat.eqb c a then b else c) (x - d)).
  { assert (Pos : forall U, incl U (e_bot e) -> 0 <= total (e_len e) U).
    { intros U HU. apply total_nonneg. intros q Hq. apply (proper_bot_pos e P), HU, Hq. }
    pose proof (proper_bot_pos e P c (right_end_in _ _ _ _ Hx)) as Pc.
    destruct Hx as (U & V & E & ->). rewrite Eb in E. destruct U as [|q U]; [injection E as E _; congruence|].
    injection E as <- E.
    assert (PU : 0 <= total (e_len e) U).
    { apply Pos. intros q Hq. rewrite Eb, E. right. apply in_or_app. left. exact Hq. }
    simpl. split; [lra|]. symmetry in E. destruct (app_cut _ _ _ _ E) as [[Z [Z1 Z2]]|[Z [Z1 Z2]]].
    - destruct Z as [|z Z].
      + injection Z2 as -> Z2. rewrite app_nil_r in Z1. subst U. rewrite Nat.eqb_refl. exists Y1, Y2. split; [exact Eb'|].
        rewrite (Hpart Y1 HaY1'), (Hc b Hba). fold d. lra.
      + injection Z2 as <- Z2. assert (In c Y1) by (rewrite Z1; apply in_or_app; right; left; reflexivity).
        destruct (Nat.eqb_spec c a) as [->|Na]; [contradiction|]. exists U, (Z ++ b :: Y2). rewrite Eb', Z1, <- app_assoc. split; [reflexivity|].
        rewrite (Hpart U), (Hc c Na); [lra|]. intros Hin. apply HaY1'. rewrite Z1. apply in_or_app; left; exact Hin.
    - destruct Z as [|z Z].
      + injection Z2 as <- Z2. rewrite app_nil_r in Z1. subst U. rewrite Nat.eqb_refl. exists Y1, Y2. split; [exact Eb'|].
        rewrite (Hpart Y1 HaY1'), (Hc b Hba). fold d. lra.
      + injection Z2 as <- Z2. assert (In c Y2) by (rewrite Z2; apply in_or_app; right; left; reflexivity).
        destruct (Nat.eqb_spec c a) as [->|Na]; [contradiction|]. exists (Y1 ++ b :: Z), V. rewrite Eb', Z2, <- app_assoc. split; [reflexivity|].
        rewrite Z1, !total_app. simpl. rewrite (Hpart Y1 HaY1'), (Hpart Z), (Hc b Hba), (Hc c Na); [fold d; lra|].
        intros Hin. apply HaY2. rewrite Z2. apply in_or_app; left; exact Hin. }
  destruct Sx as [Lx Hx'].
  (* the end *)
  assert (Ly : d < y).
  { pose proof (top_end_ge e a X P Et y (ex_intro _ t Hy)) as G. fold d in G.
    destruct (Req_dec y d) as [E|E]; [exfalso | lra]. subst y.
    destruct n as [|n]; [simpl in Hi; lra|]. destruct (iter_S_r _ _ _ _ Hi) as (u & Hu & Hs & Hm).
    assert (Rb : right_end (e_len e) (e_bot e) b d) by (exists [], (Y1 ++ a :: Y2); simpl; split; [exact Eb | lra]).
    destruct (bot_end_prev e b d u P Rb Hm) as [E|E]; [|exact (Hs E)].
    pose proof (smooth_pos e P n x u ltac:(lra) Hu). lra. }
  assert (Hy' : right_end (e_len e') (e_top e') t (y - d)).
  { destruct Hy as (U & V & E & ->). rewrite Et in E. destruct U as [|q U]; injection E as <- E; simpl in Ly; [fold d in Ly; lra|].
    exists U, V. rewrite Et'. split; [exact E|]. simpl. fold d.
    rewrite (Hpart U), (Hc t); [lra | |].
    - intros ->. apply HaX. rewrite E. apply in_or_app; right; left; reflexivity.
    - intros Hin. apply HaX. rewrite E. apply in_or_app; left; exact Hin. }
  pose proof (induced_iter_back e e' P P' I) as Ib. cbv zeta in Ib. rewrite Ed in Ib.
  destruct (Ib n x y ltac:(lra) ltac:(lra) (smooth_maps _ _ _ _ Hi)) as (m & Hm & _).
  assert (S : saddle_connection e' (if Nat.eqb c a then b else c) t).
  { exists (x - d), (y - d), m. split; [exact Hx'|]. split; [exact Hy'|]. split; [lra|]. split; [lra | exact Hm]. }
  destruct (saddle_first _ _ t P' S) as [t' Q'].
  pose proof (direct_merge e e' a b X Y1 Y2 _ t' P Et Eb Hab Et' Eb' Hc Q') as Q2.
  assert (Q3 : direct_connection e c t').
  { destruct (Nat.eqb_spec c a) as [->|Na]; [rewrite Nat.eqb_refl in Q2; exact Q2|].
    destruct (Nat.eqb_spec c b); [contradiction | exact Q2]. }
  rewrite (direct_target e c t t' P Q Q3). exact Q'.
Qed.

(** ** The invariant *)
Open Scope nat_scope.

Definition back (e0 : exch) (E : list exch) (D : label -> list label) : Prop :=
  forall e l t, In e E -> In l (e_bot e) -> l <> lst (e_bot e) -> direct_connection e0 (last (D l) l) t -> direct_connection e l t.

Lemma in_not_last L (l : label) : In l L -> l <> lst L -> not_last L l.
Proof.
  intros H N. destruct (in_split _ _ H) as (U & V & ->). destruct V as [|c V]; [|exists U, c, V; reflexivity].
  exfalso. apply N. unfold lst. rewrite last_snoc. reflexivity.
Qed.

Lemma back_init e0 : back e0 [e0] (fun _ => []).
Proof. intros e l t [<-|[]] _ _ Q. exact Q. Qed.

Theorem astep_back e0 E f E' f' D : conn_inv e0 E f D -> back e0 E D -> astep E f E' f' ->
  exists D', conn_inv e0 E' f' D' /\ back e0 E' D'.
Proof.
  intros H B S. destruct S as [E E' f f' A Hf|E1 e E2 f e' f' C|E1 e E2 f k b t b' src tgt f' Hk Hb Ht Hb' Hs Ht' Hf
    |E1 e E2 f a b first e' src tgt f' M Ha Hb Hfi Hs Ht Hf].
  - exists D. split; [eapply inv_agree; eassumption|]. intros e l t He Hl N Q.
    destruct (Forall2_in_r _ _ _ _ A He) as (y & Hy & R). apply (agree_direct y e l t R).
    pose proof R as (_ & Rb & _). apply B; [exact Hy|rewrite Rb; exact Hl|rewrite Rb; exact N|exact Q].
  - exists D. split; [eapply inv_path; eassumption|]. intros x l t Hx Hl N Q. apply in_middle in Hx. destruct Hx as [->|Hx].
    + destruct (ci_proper _ _ _ _ H e) as [Pe _]; [apply in_middle; auto|].
      pose proof (cpath_moved _ _ _ _ Pe C) as M. pose proof (mv_path _ _ _ _ M) as Pa. destruct (path_induced _ _ Pe Pa) as [_ P'].
      apply (path_direct_back e e' l t Pe Pa). apply B; [apply in_middle; auto| | |exact Q].
      * destruct Pe as (_ & Pb & _), P' as (_ & Pb' & _). apply (Permutation_in _ Pb). apply (Permutation_in _ (Permutation_sym (path_labels _ _ (proj1 (ci_proper _ _ _ _ H e ltac:(apply in_middle; auto))) Pa))).
        apply (Permutation_in _ (Permutation_sym Pb')). exact Hl.
      * unfold lst in *. rewrite (mv_last_bot _ _ _ _ M) in N. exact N.
    + apply B; [apply in_middle; auto|exact Hl|exact N|exact Q].
  - exists D. destruct (split_sep _ _ _ _ _ _ k b t b' H Hk Hb Ht Hb' src tgt Hs Ht') as [Q _].
    split; [eapply inv_split; try eassumption; intro l; rewrite <- Q; apply Hf|].
    destruct (split_rows _ _ _ _ _ _ k b t b' H Hk Hb Ht Hb') as (PL & PR & T2 & N1 & N2 & B1 & T1 & LB & LT & Nb & Bl & Tl & B3 & T3 & B4 & F1 & F2).
    destruct (ci_proper _ _ _ _ H e) as [P _]; [apply in_middle; auto|].
    pose proof (firstn_skipn k (e_top e)) as St. pose proof (firstn_skipn k (e_bot e)) as Sb.
    intros x l u Hx Hl N R. apply in_middle in Hx. destruct Hx as [->|Hx].
    + change (e_bot (left_of e k)) with (firstn k (e_bot e)) in Hl, N.
      apply (direct_cut_left_back e _ _ _ _ l u P (eq_sym St) (eq_sym Sb) (proj2 Hk) (in_not_last _ _ Hl N)).
      apply B; [apply in_middle; auto|rewrite <- Sb; apply in_or_app; left; exact Hl| |exact R].
      apply F1. apply (Permutation_in _ (Permutation_sym (proj2 Hk))). exact Hl.
    + rewrite app_assoc in Hx. apply in_app_or in Hx. destruct Hx as [Hx|[<-|[]]]; [apply B; [apply in_middle; auto|exact Hl|exact N|exact R]|].
      change (e_bot (right_of e k)) with (skipn k (e_bot e)) in Hl, N.
      apply (direct_cut_right_back e _ _ _ _ l u P (eq_sym St) (eq_sym Sb) (proj2 Hk) Hl).
      apply B; [apply in_middle; auto|rewrite <- Sb; apply in_or_app; right; exact Hl| |exact R]. rewrite <- LB. exact N.
  - pose proof M as (a' & b0 & X & Y1 & Y2 & Q1 & Q2 & Q3 & Q4 & Q5 & Q6).
    rewrite Q1 in Ha. inversion Ha; subst a'. rewrite Q2 in Hb. inversion Hb; subst b0. rewrite Q4 in Hfi.
    assert (Q : mkconn src tgt = right_conn (last (D b) b, a)) by (eapply merge_sep; eassumption).
    exists (chain_merge D a b). split.
    { eapply (inv_merge e0 E1 e E2 f D e' a b first X Y1 Y2); try eassumption. intro l. rewrite <- Q. apply Hf. }
    destruct (ci_proper _ _ _ _ H e) as [P _]; [apply in_middle; auto|].
    pose proof (proper_bot_nodup _ P) as NB. rewrite Q2 in NB.
    destruct (merge_lasts e0 E1 e E2 f D e' a b first X Y1 Y2 H Q1 Q2 Q4 Q5 Hfi) as [_ LB].
    intros x l u Hx Hl N R. apply in_middle in Hx. destruct Hx as [->|Hx].
    + unfold chain_merge in R. destruct (Nat.eqb_spec l b) as [->|Nb].
      * rewrite last_app_cons, last_cons in R.
        assert (R' : direct_connection e a u).
        { apply B; [apply in_middle; auto|rewrite Q2; right; apply in_or_app; right; left; reflexivity| |exact R].
          destruct LB as [(_ & _ & LB)|(_ & _ & LB & _)]; [congruence|]. intros C. apply LB. symmetry. exact C. }
        assert (Nab : a <> b).
        { intros C. subst b. apply NoDup_cons_iff in NB. apply (proj1 NB), in_or_app. right. left. reflexivity. }
        pose proof (direct_merge_back e e' a b X Y1 Y2 a u P Q1 Q2 Q3 Q4 Q5 Q6 Nab R') as W. rewrite Nat.eqb_refl in W. exact W.
      * assert (Hl' : In l (Y1 ++ Y2)).
        { rewrite Q5 in Hl. apply in_app_or in Hl. destruct Hl as [Hl|[Hl|Hl]]; [apply in_or_app; auto|congruence|apply in_or_app; auto]. }
        assert (Na : l <> a).
        { intros ->. change (b :: Y1 ++ a :: Y2) with ((b :: Y1) ++ a :: Y2) in NB. apply NoDup_remove_2 in NB. apply NB. right. exact Hl'. }
        assert (R' : direct_connection e l u).
        { apply B; [apply in_middle; auto|rewrite Q2; right; apply in_app_or in Hl'; apply in_or_app; destruct Hl'; [auto|right; right; assumption]| |exact R].
          destruct LB as [(_ & LB & _)|(_ & LB & _)]; congruence. }
        pose proof (direct_merge_back e e' a b X Y1 Y2 l u P Q1 Q2 Q3 Q4 Q5 Q6 Nb R') as W.
        destruct (Nat.eqb_spec l a); [contradiction|exact W].
    + destruct (ci_proper _ _ _ _ H x) as [Px Nx]; [apply in_middle; auto|].
      apply B; [apply in_middle; auto|exact Hl|exact N|].
      unfold chain_merge in R. destruct (Nat.eqb_spec l b) as [->|Nb]; [exfalso|exact R].
      destruct (ci_parts _ _ _ _ H) as (NDl & _). refine (pieces_disjoint E1 e E2 x b NDl Hx _ (proj1 (bot_in _ _ Px) Hl)).
      apply bot_in; [exact P|]. rewrite Q2. left. reflexivity.
Qed.

Theorem asteps_back e0 E f E' f' : asteps E f E' f' -> forall D, conn_inv e0 E f D -> back e0 E D -> exists D', conn_inv e0 E' f' D' /\ back e0 E' D'.
Proof.
  induction 1 as [|E f E1 f1 E' f' S _ IH]; intros D H B; [exists D; auto|].
  destruct (astep_back _ _ _ _ _ _ H B S) as (D1 & H1 & B1). exact (IH D1 H1 B1).
Qed.

(** ** What has not been found is inside of a component *)

Lemma links_in U a c V l L : l :: L = U ++ a :: c :: V -> In (right_conn (a, c)) (links l L).
Proof.
  revert l L. induction U as [|u U IH]; intros l L E.
  - injection E as -> ->. left. reflexivity.
  - injection E as -> E. destruct L as [|x L]; [destruct U; discriminate|]. right. apply (IH x L E).
Qed.

Lemma found_or_inside e0 E f D b t : conn_inv e0 E f D -> back e0 E D -> direct_connection e0 b t ->
  In (right_conn (b, t)) (flat_map (fun l => right_conns (f l)) (e_top e0)) \/
  exists e l, In e E /\ In l (e_bot e) /\ l <> lst (e_bot e) /\ last (D l) l = b /\ direct_connection e l t.
Proof.
  intros H B Q. pose proof (ci_start _ _ _ _ H) as P0.
  destruct (direct_not_last e0 b t P0 Q) as [(X0 & c0 & Y0 & EX) _].
  assert (Hb : In b (e_top e0)).
  { apply bot_in; [exact P0|]. rewrite EX. apply in_or_app. right. left. reflexivity. }
  apply (Permutation_in _ (ci_part _ _ _ _ H)) in Hb. apply in_flat_map in Hb. destruct Hb as (l & Hl & Hb).
  pose proof (ci_keys _ _ _ _ l H Hl) as Kl. pose proof Hl as Hlive. apply in_live in Hl. destruct Hl as (e & He & Hl).
  pose proof (ci_chain _ _ _ _ H e l He Hl) as Ch.
  assert (Found : forall c, In (right_conn (b, c)) (bottomRight (f l)) -> In (right_conn (b, t)) (flat_map (fun l => right_conns (f l)) (e_top e0))).
  { intros c Hc. assert (I : In (right_conn (b, c)) (flat_map (fun l => right_conns (f l)) (e_top e0))).
    { apply in_flat_map. exists l. split; [exact Kl|]. unfold right_conns. apply in_or_app. right. exact Hc. }
    destruct (ci_real _ _ _ _ H _ I) as (b1 & t1 & E1 & Q1). injection E1 as <- <-.
    rewrite (direct_target e0 b t c P0 Q Q1). exact I. }
  destruct (ci_proper _ _ _ _ H e He) as [Pe Ne].
  destruct (in_split _ _ Hb) as (U & V & EU). destruct V as [|c V].
  - assert (Eb : last (D l) l = b).
    { rewrite <- (last_cons l (D l) l). rewrite EU. apply last_snoc. }
    destruct (Nat.eq_dec l (lst (e_bot e))) as [El|Nl].
    + left. destruct (Nat.eq_dec (lst (e_top e)) (lst (e_top e0))) as [Ez|Nz].
      * exfalso. destruct (ci_open _ _ _ _ H) as (x & Hx & L1 & L2).
        assert (x = e).
        { apply (ci_same_piece _ _ _ _ H x e (lst (e_top e0)) Hx He); [rewrite <- L1|rewrite <- Ez]; apply lst_in; [apply (ci_proper _ _ _ _ H x Hx)|exact Ne]. }
        subst x. rewrite <- El, Eb in L2. pose proof (proper_bot_nodup _ P0) as NB. rewrite EX in NB.
        apply NoDup_remove_2 in NB. apply NB. apply in_or_app. right. rewrite L2. unfold lst. rewrite EX.
        destruct (exists_last (l := c0 :: Y0) ltac:(discriminate)) as (W & w & EW). rewrite EW.
        change (X0 ++ b :: W ++ [w]) with (X0 ++ (b :: W) ++ [w]). rewrite app_assoc, last_snoc. apply in_or_app. right. left. reflexivity.
      * apply (Found (lst (e_top e))). rewrite Ch. unfold tail_of. rewrite <- El, Nat.eqb_refl.
        destruct (Nat.eqb_spec (lst (e_top e)) (lst (e_top e0))); [contradiction|].
        apply (links_in U _ _ []). change (l :: D l ++ [lst (e_top e)]) with ((l :: D l) ++ [lst (e_top e)]). rewrite EU, <- app_assoc. reflexivity.
    + right. exists e, l. assert (Hlb : In l (e_bot e)) by (apply (Permutation_in _ (proj1 (proj2 Pe))), Hl).
      repeat split; auto. apply B; auto. rewrite Eb. exact Q.
  - left. apply (Found c). rewrite Ch. apply (links_in U _ _ (V ++ tail_of (lst (e_top e0)) e l)).
    change (l :: D l ++ tail_of (lst (e_top e0)) e l) with ((l :: D l) ++ tail_of (lst (e_top e0)) e l). rewrite EU, <- app_assoc. reflexivity.
Qed.
