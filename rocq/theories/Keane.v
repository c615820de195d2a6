(** Induction that never ends (specification level): there is no saddle connection and every
    orbit is dense. *)
From Coq Require Import Reals Lra Lia List Permutation Arith Classical Bool.
From Verif Require Import Spec SpecDec SpecTower SpecDense Dyn Saddle Path Similar Endless Rank2 RankEnd Tower.
Import ListNotations.
Open Scope R_scope.

(** * Saddle connections *)

(** Singularities: ends of proper prefixes of a row. *)
Definition inner (f : lab -> R) (l : list lab) (x : R) : Prop := exists X Y, l = X ++ Y /\ X <> [] /\ Y <> [] /\ x = total f X.

(** A connection that takes [m] steps and where it starts and ends, seen from the right. *)
Definition conn (e : exch) (m : nat) (p q : R) : Prop :=
  exists y x, inner (e_len e) (e_bot e) y /\ inner (e_len e) (e_top e) x /\ iter (maps e) m y x /\
    p = total (e_len e) (e_top e) - y /\ q = total (e_len e) (e_top e) - x.

Lemma conn_saddle e : proper e -> has_saddle_connection e -> exists m p q, conn e m p q.
Proof.
  intros P (b & t & x & y & n & (X & Y & Eb & Ex) & (X' & Y' & Et & Ey) & Hx & Hy & Hi). pose proof (proper_total e P) as PT.
  exists n, (total (e_len e) (e_top e) - x), (total (e_len e) (e_top e) - y), x, y. split; [|split; [|split; [exact Hi|auto]]].
  - exists (X ++ [b]), Y. rewrite <- app_assoc. split; [exact Eb|]. split; [destruct X; discriminate|]. split.
    + intros ->. rewrite Ex, Eb, total_app in Hx. simpl in Hx. lra.
    + rewrite total_app. simpl. lra.
  - exists (X' ++ [t]), Y'. rewrite <- app_assoc. split; [exact Et|]. split; [destruct X'; discriminate|]. split.
    + intros ->. rewrite Ey, Et, total_app in Hy. simpl in Hy. lra.
    + rewrite total_app. simpl. lra.
Qed.

Lemma conn_flip e m p q : proper e -> conn (flip e) m q p <-> conn e m p q.
Proof.
  intro P. pose proof (proper_total e P) as PT. unfold conn. cbn [flip e_top e_bot e_len]. rewrite <- PT.
  split; intros (y & x & H1 & H2 & H3 & H4 & H5); exists x, y; (split; [exact H2|split; [exact H1|split; [|auto]]]); apply iter_flip; exact H3.
Qed.

Lemma duel_conn w l e e' m p q : proper e -> duel w l e e' -> conn e m p q ->
  conn e' m p q \/ exists m' p' q', (m' < m)%nat /\ conn e' m' p' q'.
Proof.
  intros P D (y & x & (Z & Z' & Eb & Nz & Nz' & Ey) & (V & V' & Et & Nv & Nv' & Ex) & Hi & Hp & Hq).
  pose proof (rauzy_step_proper _ _ P (duel_rauzy _ _ _ _ D)) as P'.
  pose proof (rauzy_step_induced _ _ P (duel_rauzy _ _ _ _ D)) as I.
  destruct (duel_facts w l e e' P D) as (Dwl & Iw & Il & Hl & Lw & Lo & Tt).
  pose proof (proper_bot_nodup _ P) as NB. pose proof P as (NT & Pm & Pos).
  destruct D as (X & Y1 & Y2 & T & B & _ & T' & B' & _ & _).
  rewrite T in NT. rewrite B in NB. inversion NB as [|? ? Nl NB1]; subst.
  assert (Nw1 : ~ In w Y1) by (apply NoDup_remove_2 in NB1; intros C; apply NB1, in_app_iff; auto).
  assert (Nw2 : ~ In w Y2) by (apply NoDup_remove_2 in NB1; intros C; apply NB1, in_app_iff; auto).
  assert (NwX : ~ In w X) by (inversion NT; assumption).
  pose proof (Pos l Il) as Pl.
  assert (Ext : forall Q, ~ In w Q -> total (e_len e') Q = total (e_len e) Q) by (intros Q HQ; apply total_ext; intros c Hc; apply Lo; congruence).
  set (d := e_len e l) in *.
  assert (Dd : total (e_len e) (e_top e) - total (e_len e') (e_top e') = d) by lra.
  (* the end *)
  assert (HV : exists V1, V = w :: V1 /\ X = V1 ++ V').
  { destruct V as [|c V1]; [contradiction|]. rewrite T in Et. injection Et as <- ->. eauto. }
  destruct HV as (V1 & -> & EX).
  assert (NwV : ~ In w V1) by (intro C; apply NwX; rewrite EX; apply in_app_iff; auto).
  assert (Xd : d < total (e_len e) (w :: V1)).
  { simpl. assert (0 <= total (e_len e) V1); [|lra]. apply total_nonneg. intros c Hc. apply Pos. rewrite T. right. rewrite EX. apply in_app_iff; auto. }
  assert (Sx : inner (e_len e') (e_top e') (total (e_len e) (w :: V1) - d)).
  { exists (w :: V1), V'. rewrite T', T, EX. split; [reflexivity|]. split; [discriminate|]. split; [exact Nv'|]. simpl. rewrite Ext by exact NwV. lra. }
  (* the start *)
  destruct Z as [|c Z]; [contradiction|]. rewrite B in Eb. injection Eb as <- Eb.
  assert (Cont : forall z n, (n <= m)%nat -> inner (e_len e') (e_bot e') (z - d) -> d <= z -> iter (maps e) n z (total (e_len e) (w :: V1)) ->
    exists m', (m' <= n)%nat /\ conn e' m' (total (e_len e) (e_top e) - z) (total (e_len e) (e_top e) - total (e_len e) (w :: V1))).
  { intros z n Hn Hz Hd Hit. destruct (induced_iter_short e e' P P' I n z (total (e_len e) (w :: V1))) as (m' & H1 & _ & H2 & _); rewrite ?Dd; [exact Hd|lra|exact Hit|].
    rewrite Dd in H1. exists m'. split; [exact H2|]. exists (z - d), (total (e_len e) (w :: V1) - d). split; [exact Hz|]. split; [exact Sx|]. split; [exact H1|]. lra. }
  destruct Z as [|z Z].
  - (* the cut is at the singularity *)
    right. assert (Ey' : total (e_len e) [l] = d) by (simpl; fold d; lra). rewrite Ey' in Hi.
    destruct m as [|m]; [cbn [iter] in Hi; lra|]. destruct Hi as (z & Hz & Hi).
    assert (Ez : z = d + total (e_len e) Y1 + d).
    { apply (maps_fun e P d); [exact Hz|]. apply maps_iff. exists w, [], X, (l :: Y1), Y2. split; [exact T|]. split; [exact B|]. simpl. fold d. lra. }
    assert (0 <= total (e_len e) Y1) by (apply total_nonneg; intros c Hc; apply Pos, (Permutation_in _ (Permutation_sym Pm)); rewrite B; right; apply in_app_iff; auto).
    destruct (Cont z m) as (m' & Hm & C); [lia| |lra|exact Hi|].
    + exists (Y1 ++ [l]), (w :: Y2). rewrite <- app_assoc. split; [exact B'|]. split; [destruct Y1; discriminate|]. split; [discriminate|].
      rewrite total_app. simpl. rewrite (Ext Y1 Nw1), (Lo l) by auto. fold d. lra.
    + exists m', (total (e_len e) (e_top e) - z), (total (e_len e) (e_top e) - total (e_len e) (w :: V1)). split; [lia|exact C].
  - (* it is further to the right *)
    assert (Pz : 0 < total (e_len e) (z :: Z)).
    { assert (Q : forall c, In c (z :: Z) -> 0 < e_len e c) by (intros c Hc; apply Pos, (Permutation_in _ (Permutation_sym Pm)); rewrite B; right; rewrite Eb; apply in_app_iff; auto).
      simpl. pose proof (Q z (or_introl eq_refl)). pose proof (total_nonneg (e_len e) Z (fun c Hc => Q c (or_intror Hc))). lra. }
    assert (Eyl : total (e_len e) (l :: z :: Z) = d + total (e_len e) (z :: Z)) by (simpl; fold d; lra).
    destruct (Cont (total (e_len e) (l :: z :: Z)) m) as (m' & Hm & C); [lia| |lra|exact Hi|].
    + rewrite Eyl. replace (d + total (e_len e) (z :: Z) - d) with (total (e_len e) (z :: Z)) by lra.
      destruct (app_cut Y1 (w :: Y2) (z :: Z) Z' Eb) as [(Q & EQ & EV)|(Q & EQ & EV)].
      * (* Y1 is a prefix of Z *)
        destruct Q as [|q Q].
        -- rewrite app_nil_r in EQ. exists Y1, (l :: w :: Y2). split; [exact B'|]. split; [rewrite <- EQ; discriminate|]. split; [discriminate|]. rewrite EQ, Ext by exact Nw1. reflexivity.
        -- injection EV as <- EV. exists (Y1 ++ l :: w :: Q), Z'. rewrite <- app_assoc. cbn [app]. rewrite <- EV. split; [exact B'|].
           split; [destruct Y1; discriminate|]. split; [exact Nz'|]. rewrite EQ, !total_app. simpl.
           assert (~ In w Q) by (intro C; apply Nw2; rewrite EV; apply in_app_iff; auto). rewrite !Ext by assumption. rewrite (Lo l) by auto. rewrite Lw. fold d. lra.
      * exists (z :: Z), (Q ++ l :: w :: Y2). rewrite app_assoc, <- EQ. split; [exact B'|]. split; [discriminate|]. split; [destruct Q; discriminate|].
        rewrite Ext; [reflexivity|]. intro C. apply Nw1. rewrite EQ. apply in_app_iff; auto.
    + destruct (Nat.eq_dec m' m) as [->|Ne]; [left; exact C|]. right. exists m', (total (e_len e) (e_top e) - total (e_len e) (l :: z :: Z)), (total (e_len e) (e_top e) - total (e_len e) (w :: V1)). split; [lia|exact C].
Qed.

Lemma move_conn w l e e' m p q : proper e -> move w l e e' -> conn e m p q ->
  conn e' m p q \/ exists m' p' q', (m' < m)%nat /\ conn e' m' p' q'.
Proof.
  intros P [D|D] C; [exact (duel_conn w l e e' m p q P D C)|].
  assert (P' : proper e') by (apply (path_induced e e' P), (move_path w l); right; exact D).
  apply (conn_flip e m p q P) in C. destruct (duel_conn w l _ _ m q p (flip_proper _ P) D C) as [C'|(m' & p' & q' & H & C')].
  - left. apply (conn_flip e' m p q P'). exact C'.
  - right. exists m', q', p'. split; [exact H|]. apply (conn_flip e' m' q' p' P'). exact C'.
Qed.

Section Keane.
Variable E : nat -> exch.
Variables W L : nat -> nat.
Hypothesis P0 : proper (E 0%nat).
Hypothesis I0 : ~ reducible (E 0%nat).
Hypothesis M : forall n, move (W n) (L n) (E n) (E (S n)).

Lemma no_connection m : forall k p q, ~ conn (E k) m p q.
Proof.
  induction m as [m IH] using (well_founded_induction Wf_nat.lt_wf). intros k p q C.
  assert (St : forall j, conn (E (k + j)) m p q).
  { induction j as [|j IHj]; [rewrite Nat.add_0_r; exact C|]. rewrite Nat.add_succ_r.
    destruct (move_conn _ _ _ _ m p q (E_proper E W L P0 M (k + j)) (M (k + j)) IHj) as [H|(m' & p' & q' & H & H')]; [exact H|].
    exfalso. exact (IH m' H _ _ _ H'). }
  assert (Hq : 0 < q).
  { destruct C as (y & x & _ & (X & Y & Et & _ & Ny & Ex) & _ & _ & Hq). pose proof (E_proper E W L P0 M k) as (_ & _ & Pos). rewrite Hq, Ex, Et, total_app.
    destruct Y as [|c Y]; [contradiction|]. simpl. rewrite Et in Pos. pose proof (Pos c ltac:(apply in_app_iff; right; left; reflexivity)).
    pose proof (total_nonneg (e_len (E k)) Y (fun a Ha => Pos a ltac:(apply in_app_iff; right; right; exact Ha))). lra. }
  destruct (tot_small E W L P0 I0 M q Hq) as (N & HN). specialize (HN (k + N)%nat ltac:(lia)).
  destruct (St N) as (y & x & _ & (X & Y & Et & _ & _ & Ex) & _ & _ & Eq). unfold tot, len in HN.
  assert (0 <= x); [|lra]. pose proof (E_proper E W L P0 M (k + N)) as (_ & _ & Pos). rewrite Ex. apply total_nonneg. intros c Hc. apply Pos. rewrite Et. apply in_app_iff; auto.
Qed.

(** * Orbits *)

(** A point of the interval [c] of stage [n] runs through the intervals of its word. *)
Lemma walk_at n c z : In c (letters E) -> pos E n c <= z < pos E n c + len E n c -> forall v u u', word E L 0 n c = u ++ v ++ u' ->
  iter (maps (E 0%nat)) (length v) (z + total (sh E (len E) 0) u) (z + total (sh E (len E) 0) (u ++ v)).
Proof.
  intros Hc Hz. induction v as [|d v IH]; intros u u' Hw.
  - rewrite app_nil_r. reflexivity.
  - simpl. exists (z + total (sh E (len E) 0) u + sh E (len E) 0 d). split.
    + apply (maps_letter E W L P0 M).
      * apply (word_letters E W L P0 M 0 n c); [exact Hc|]. rewrite Hw. apply in_app_iff. right; left; reflexivity.
      * destruct (floors E W L P0 M n c u d (v ++ u') Hc Hw). lra.
    + specialize (IH (u ++ [d]) u'). rewrite <- !app_assoc in IH. specialize (IH Hw).
      replace (z + total (sh E (len E) 0) u + sh E (len E) 0 d) with (z + total (sh E (len E) 0) (u ++ [d])); [exact IH|].
      rewrite total_app. simpl. ring.
Qed.

(** Every orbit visits every interval. *)
Lemma visits a y : In a (letters E) -> 0 <= y < tot E 0 -> exists k z, iter (maps (E 0%nat)) k y z /\
  left_end (len E 0) (e_top (E 0%nat)) a <= z < left_end (len E 0) (e_top (E 0%nat)) a + len E 0 a.
Proof.
  intros Ha Hy. destruct (everywhere E W L P0 I0 M 0 a Ha) as (K & HK). 
  destruct (path_induced _ _ P0 (E_path E W L M K)) as [(_ & _ & Hv) PK].
  destruct (Hv y Hy) as (k & z & Hk & Hd).
  change (total (e_len (E 0%nat)) (e_top (E 0%nat))) with (tot E 0) in Hd. change (total (e_len (E K)) (e_top (E K))) with (tot E K) in Hd.
  assert (Hz : z < tot E 0).
  { destruct k; [simpl in Hk; subst; lra|]. apply iter_S_r in Hk as (z' & _ & Hz'). apply (maps_ran _ P0) in Hz'. unfold tot, len. lra. }
  destruct (locate_exists (len E K) (e_top (E K)) (z - (tot E 0 - tot E K))) as (X & c & Y & ET & Hc); [fold (tot E K); lra|].
  assert (Ic : In c (e_top (E K))) by (rewrite ET; apply in_app_iff; right; left; reflexivity).
  apply (E_in' E W L P0 M K) in Ic.
  assert (Nc : ~ In c X) by (pose proof (proj1 PK) as N; rewrite ET in N; apply NoDup_remove_2 in N; intros C; apply N, in_app_iff; auto).
  assert (Hp : pos E K c <= z < pos E K c + len E K c).
  { unfold pos. rewrite ET, left_end_app by exact Nc. simpl. rewrite Nat.eqb_refl. lra. }
  assert (Iw : In a (word E L 0 K c)) by (apply HK; [lia|exact Ic]). apply in_split in Iw as (u & u' & Hw).
  pose proof (walk_at K c z Ic Hp u [] (a :: u') Hw) as Hi. destruct (floors E W L P0 M K c u a u' Ic Hw) as [F1 F2].
  exists (k + length u)%nat, (z + total (sh E (len E) 0) u). split.
  - eapply iter_add; [exact Hk|]. simpl in Hi. rewrite Rplus_0_r in Hi. exact Hi.
  - assert (Pa : pos E 0 a = left_end (len E 0) (e_top (E 0%nat)) a) by (unfold pos; ring). rewrite Pa in F1, F2. lra.
Qed.
End Keane.

(** Iterates of the exchange of a base are iterates of the original one. *)
Lemma base_iter e0 e o h : proper e -> tower_of e0 (mktower e o h) -> forall k u w, iter (maps e) k u w ->
  exists K, iter (maps e0) K (u + o) (w + o).
Proof.
  intros P (T1 & T2 & _). induction k as [|k IH]; intros u w H.
  - simpl in H. subst. exists 0%nat. reflexivity.
  - destruct H as (v & Hv & H). destruct (IH v w H) as (K & HK). pose proof (maps_dom _ P _ _ Hv) as Hd.
    destruct (base_exists e o h (u + o) P) as (a & Ha); [unfold size; lra|].
    pose proof (maps_base e o h a (u + o) P Ha) as Q. replace (u + o - o) with u in Q by lra.
    pose proof (maps_fun _ P _ _ _ Hv Q) as ->. exists (h a + K)%nat. eapply iter_add; [exact (T2 a _ Ha)|].
    cbn [tw_base]. replace (u + o + shift e a) with (u + shift e a + o) by lra. exact HK.
Qed.

Section Dense.
Variable e0 : exch.
Variable E : nat -> exch.
Variables W L : nat -> nat.
Hypothesis Pe : proper e0.
Hypothesis R0 : rauzy_path e0 (E 0%nat).
Hypothesis I0 : ~ reducible (E 0%nat).
Hypothesis M : forall n, move (W n) (L n) (E n) (E (S n)).

Theorem endless_minimal : minimal e0.
Proof.
  pose proof (proj2 (path_induced _ _ Pe R0)) as P0.
  intros x Hx u v Hu Hv.
  destruct (tot_small E W L P0 I0 M ((v - u) / 2)) as (N & HN); [lra|]. specialize (HN N (le_n _)).
  pose proof (E_proper E W L P0 M N) as PN.
  pose proof (towers_start e0 Pe) as (S1 & _ & S3 & _).
  destruct (path_tower e0 e0 0 (fun _ => 1%nat) (E N) Pe Pe (rauzy_path_trans _ _ _ R0 (E_path E W L M N)) (S1 _ (or_introl eq_refl))) as (o & h & (T & Cov & _)).
  set (t := mktower (E N) o h) in *.
  assert (Fl : forall z, 0 <= z < total (e_len e0) (e_top e0) -> exists a k, on_floor e0 t a k z).
  { intros z Hz. apply Cov. destruct (S3 z Hz) as (t0 & a & k & [<-|[]] & F). eauto. }
  pose proof T as (T1 & T2 & T3 & T4 & _).
  (* a floor between u and v *)
  destruct (Fl ((u + v) / 2)) as (a & k & Hk & y & Hy & Hi); [lra|].
  destruct (T4 a k ltac:(lia)) as (d & Hd). pose proof (iter_fun _ (maps_fun _ Pe) _ _ _ _ Hi (Hd y Hy)) as Ed.
  assert (Wa : e_len (E N) a < (v - u) / 2).
  { destruct Hy as (Ia & _). cbn in Ia. destruct PN as (_ & _ & Pos). unfold tot, len in HN. apply in_split in Ia as (X & Y & ET). rewrite ET in HN, Pos. rewrite total_app in HN. simpl in HN.
    pose proof (total_nonneg (e_len (E N)) X (fun c Hc => Pos c ltac:(apply in_app_iff; auto))).
    pose proof (total_nonneg (e_len (E N)) Y (fun c Hc => Pos c ltac:(apply in_app_iff; right; right; auto))). lra. }
  (* the orbit of x gets to the base *)
  destruct (Fl x Hx) as (c & j & Hj & y0 & Hy0 & Hi0).
  pose proof (T2 c y0 Hy0) as Hr. cbn [t tw_height tw_base] in Hr, Hj. replace (h c) with (j + (h c - j))%nat in Hr by lia.
  apply iter_split in Hr as (x' & Hx' & Hr). pose proof (iter_fun _ (maps_fun _ Pe) _ _ _ _ Hx' Hi0) as ->.
  pose proof (maps_ran _ PN _ _ (maps_base (E N) o h c y0 PN Hy0)) as Rg.
  (* and then to the interval a *)
  destruct (visits (fun n => E (N + n)%nat) (fun n => W (N + n)%nat) (fun n => L (N + n)%nat)) with (a := a) (y := y0 - o + shift (E N) c) as (k' & z & Hz & Hza).
  - rewrite Nat.add_0_r. exact PN.
  - rewrite Nat.add_0_r. exact (E_irreducible E W L P0 I0 M N).
  - intros n. rewrite Nat.add_succ_r. apply M.
  - unfold letters. rewrite Nat.add_0_r. exact (proj1 Hy).
  - unfold tot, len. rewrite Nat.add_0_r. exact Rg.
  - unfold len in Hza. rewrite Nat.add_0_r in Hz, Hza.
    destruct (base_iter e0 (E N) o h PN T k' _ _ Hz) as (K & HK).
    replace (y0 - o + shift (E N) c + o) with (y0 + shift (E N) c) in HK by lra.
    assert (Hb : in_base t a (z + o)) by (split; [exact (proj1 Hy)|]; cbn; lra).
    exists (h c - j + K + k)%nat, (z + o + d). split.
    + eapply iter_add; [eapply iter_add; [exact Hr|exact HK]|]. apply Hd, Hb.
    + destruct Hy as (_ & Hy). cbn in Hy. lra.
Qed.
End Dense.

(** * It ends *)

Theorem keane_ends e : proper e -> has_saddle_connection e \/ has_periodic_point e \/ ~ minimal e ->
  exists N, forall n e', (N <= n)%nat -> after n e e' -> able e' -> reducible e'.
Proof.
  intros P Q.
  destruct (classic (forall n, able (Nat.iter n rz e))) as [All|No].
  2:{ apply not_all_ex_not in No. destruct No as (m & Hm). exists m. intros n e' Hn (A1 & A2) Hab. exfalso.
      apply Hm. destruct (Nat.eq_dec m n) as [->|D]; [exact (able_same _ _ (same_exch_sym _ _ A1) Hab)|]. apply A2. lia. }
  assert (Pn : forall n, proper (Nat.iter n rz e)).
  { induction n as [|n IH]; [exact P|]. simpl. exact (proj2 (path_induced _ _ IH (move_path _ _ _ _ (go_move _ IH (All n))))). }
  assert (Rn : forall n, rauzy_path e (Nat.iter n rz e)).
  { induction n as [|n IH]; [apply path_refl, same_exch_refl|]. simpl.
    apply (rauzy_path_trans _ _ _ IH). exact (move_path _ _ _ _ (go_move _ (Pn n) (All n))). }
  destruct (classic (exists m, ~ reducible (Nat.iter m rz e))) as [(m & Hm)|Red].
  2:{ exists 0%nat. intros n e' _ (A1 & _) _. apply (reducible_same _ _ A1). apply NNPP. intros C. apply Red. exists n. exact C. }
  exfalso. set (F := fun n => Nat.iter n rz (Nat.iter m rz e)).
  set (W := fun n => fst (fst (go (F n)))). set (L := fun n => snd (fst (go (F n)))).
  assert (M : forall n, move (W n) (L n) (F n) (F (S n))).
  { intros n. unfold W, L, F. simpl. rewrite <- !iter_plus. exact (go_move _ (Pn (m + n)%nat) (All (m + n)%nat)). }
  destruct Q as [Q|[Q|Q]].
  - destruct (conn_saddle e P Q) as (k & p & q & C).
    assert (G : forall n, exists k p q, conn (Nat.iter n rz e) k p q).
    { induction n as [|n (k' & p' & q' & IH)]; [eauto|]. simpl.
      destruct (move_conn _ _ _ _ k' p' q' (Pn n) (go_move _ (Pn n) (All n)) IH) as [H|(k2 & p2 & q2 & _ & H)]; eauto. }
    destruct (G m) as (k' & p' & q' & C'). exact (no_connection F W L (Pn m) Hm M k' 0%nat p' q' C').
  - apply (aperiodic F W L (Pn m) Hm M). apply (induced_periodic e (F 0%nat) P (Pn m)); [apply (path_induced e _ P (Rn m))|exact Q].
  - apply Q. exact (endless_minimal e F W L P (Rn m) Hm M).
Qed.
