(** The towers over cylinders, and the towers with dense orbits, are determined by the
    original exchange. *)
From Coq Require Import Reals Permutation Lia Lra Classical.
From Verif Require Import Base Spec SpecDec SpecTower SpecDense SpecCanon Dyn Path Direct Bosh Endless Decomp DecompSim DecompInv DecompDyn Tower.
Open Scope R_scope.

(** * Intervals *)

Lemma interval_maps e c x : proper e -> in_interval e c x -> maps e x (x + shift e c).
Proof.
  intros P (I & H). assert (B : in_base (mktower e 0 (fun _ => 1%nat)) c x) by (split; [exact I|cbn; lra]).
  pose proof (maps_base e 0 _ c x P B) as Q. rewrite Rminus_0_r in Q. exact Q.
Qed.

Lemma interval_exists e x : proper e -> 0 <= x < size e -> exists c, in_interval e c x.
Proof.
  intros P H. destruct (base_exists e 0 (fun _ => 1%nat) x P) as (a & I & Ha); [lra|]. exists a. split; [exact I|]. cbn in Ha. lra.
Qed.

Lemma base_unique e o h a a' x : proper e -> in_base (mktower e o h) a x -> in_base (mktower e o h) a' x -> a = a'.
Proof.
  intros P (I & B) (I' & B'). cbn in *. pose proof P as [N _]. apply in_split in I as (X & Y & Et). apply in_split in I' as (X' & Y' & Et').
  assert (N1 : ~ In a X) by (intro Q; rewrite Et in N; apply NoDup_remove_2 in N; apply N, in_or_app; auto).
  assert (N2 : ~ In a' X') by (intro Q; rewrite Et' in N; apply NoDup_remove_2 in N; apply N, in_or_app; auto).
  rewrite Et in B. rewrite left_end_app, left_end_hd in B by exact N1. rewrite Et' in B'. rewrite left_end_app, left_end_hd in B' by exact N2.
  destruct (locate_unique (e_len e) (e_top e) X a Y X' a' Y' (x - o)) as (_ & E & _); auto; try lra. apply P.
Qed.

Lemma interval_unique e c c' x : proper e -> in_interval e c x -> in_interval e c' x -> c = c'.
Proof.
  intros P (I & H) (I' & H'). apply (base_unique e 0 (fun _ => 1%nat) c c' x P); (split; [assumption|cbn; lra]).
Qed.

Lemma interval_dom e c x : proper e -> in_interval e c x -> 0 <= x < size e.
Proof. intros P H. exact (maps_dom _ P _ _ (interval_maps e c x P H)). Qed.

Lemma iter_total e : proper e -> forall n x, 0 <= x < size e -> exists y, iter (maps e) n x y /\ 0 <= y < size e.
Proof.
  intros P. induction n as [|n IH]; intros x H; [exists x; split; [reflexivity|exact H]|].
  destruct (maps_total _ P x H) as (z & Hz). pose proof (maps_ran _ P _ _ Hz) as Rz. destruct (IH z Rz) as (y & Hy & Ry).
  exists y. split; [exists z; auto|exact Ry].
Qed.

(** * Orbits through the same intervals *)

Definition alongside (e : exch) (x y : R) : Prop :=
  forall n x' y', iter (maps e) n x x' -> iter (maps e) n y y' -> exists c, in_interval e c x' /\ in_interval e c y'.

Lemma alongside_sym e x y : alongside e x y -> alongside e y x.
Proof. intros H n x' y' A B. destruct (H n y' x' B A) as (c & C & D). eauto. Qed.

Lemma alongside_shift e : proper e -> forall n x y x', alongside e x y -> iter (maps e) n x x' -> iter (maps e) n y (y + (x' - x)).
Proof.
  intros P. induction n as [|n IH]; intros x y x' H Hx; [simpl in *; subst; lra|].
  destruct (H 0%nat x y eq_refl eq_refl) as (c & C & D). destruct Hx as (z & Hz & Hx).
  pose proof (maps_fun _ P _ _ _ Hz (interval_maps e c x P C)) as ->. pose proof (interval_maps e c y P D) as Hy.
  exists (y + shift e c). split; [exact Hy|]. replace (y + (x' - x)) with (y + shift e c + (x' - (x + shift e c))) by lra.
  apply (IH (x + shift e c)); [|exact Hx]. intros m u v Hu Hv. apply (H (S m)); [exists (x + shift e c)|exists (y + shift e c)]; auto.
Qed.

Lemma alongside_between e : proper e -> forall x y z, alongside e x y -> x <= z <= y -> alongside e x z.
Proof.
  intros P x y z H Hz n. revert x y z H Hz. induction n as [|n IH]; intros x y z H Hz x' z' Hx Hz';
    destruct (H 0%nat x y eq_refl eq_refl) as (c & C & D); assert (Cz : in_interval e c z) by (destruct C as (I & C); destruct D as (_ & D); split; [exact I|lra]).
  - simpl in *. subst. eauto.
  - destruct Hx as (u & Hu & Hx). destruct Hz' as (v & Hv & Hz').
    pose proof (maps_fun _ P _ _ _ Hu (interval_maps e c x P C)) as ->. pose proof (maps_fun _ P _ _ _ Hv (interval_maps e c z P Cz)) as ->.
    refine (IH (x + shift e c) (y + shift e c) (z + shift e c) _ _ x' z' Hx Hz'); [|lra].
    intros m p q Hp Hq. apply (H (S m)); [exists (x + shift e c)|exists (y + shift e c)]; split; auto using interval_maps.
Qed.

(** * Towers *)

Section Towers.
Context (e0 : exch) (P0 : proper e0).

Lemma floor_dom t a k x : tower_of e0 t -> on_floor e0 t a k x -> 0 <= x < size e0.
Proof.
  intros (_ & _ & _ & _ & T5 & _) (K & y & Hy & Hi). destruct (T5 a k (proj1 Hy) K) as (c & Hc). exact (interval_dom e0 c x P0 (Hc y x Hy Hi)).
Qed.

(** A floor is an interval. *)
Lemma floor_interval t a k : tower_of e0 t -> In a (e_top (tw_base t)) -> (k < tw_height t a)%nat ->
  exists d, (forall y, in_base t a y -> iter (maps e0) k y (y + d)) /\
    forall x, on_floor e0 t a k x <->
      tw_at t + left_end (e_len (tw_base t)) (e_top (tw_base t)) a + d <= x <
      tw_at t + left_end (e_len (tw_base t)) (e_top (tw_base t)) a + e_len (tw_base t) a + d.
Proof.
  intros (_ & _ & _ & T4 & _) Ia K. destruct (T4 a k ltac:(lia)) as (d & Hd). exists d. split; [exact Hd|]. intro x. split.
  - intros (_ & y & Hy & Hi). pose proof (iter_fun _ (maps_fun _ P0) _ _ _ _ Hi (Hd y Hy)) as ->. destruct Hy as (_ & Hy). lra.
  - intros H. assert (B : in_base t a (x - d)) by (split; [exact Ia|lra]). split; [exact K|]. exists (x - d). split; [exact B|].
    pose proof (Hd _ B) as Q. replace (x - d + d) with x in Q by lra. exact Q.
Qed.

(** Over a cylinder, the floors are visited one after the other, again and again. *)
Lemma cylinder_shift t a : proper (tw_base t) -> e_top (tw_base t) = [a] -> shift (tw_base t) a = 0.
Proof. intros (_ & Pm & _) Et. unfold shift. rewrite Et in Pm. apply Permutation_length_1_inv in Pm. rewrite Et, Pm, !left_end_hd. lra. Qed.

Lemma cylinder_next t a k : tower_of e0 t -> proper (tw_base t) -> e_top (tw_base t) = [a] -> (k < tw_height t a)%nat ->
  exists k', forall x y, on_floor e0 t a k x -> maps e0 x y -> on_floor e0 t a k' y.
Proof.
  intros T P Et K. pose proof T as (T1 & T2 & _). destruct (lt_dec (S k) (tw_height t a)) as [L|L].
  - exists (S k). intros x y (_ & z & Hz & Hi) M. split; [exact L|]. exists z. split; [exact Hz|].
    replace (S k) with (k + 1)%nat by lia. eapply iter_add; [exact Hi|]. exists y. split; [exact M|reflexivity].
  - exists 0%nat. intros x y (_ & z & Hz & Hi) M. assert (E : tw_height t a = (k + 1)%nat) by lia.
    pose proof (T2 a z Hz) as Q. rewrite (cylinder_shift t a P Et), Rplus_0_r, E in Q.
    assert (Hi' : iter (maps e0) (k + 1) z y) by (eapply iter_add; [exact Hi|]; exists y; split; [exact M|reflexivity]).
    pose proof (iter_fun _ (maps_fun _ P0) _ _ _ _ Q Hi') as <-. split; [lia|]. exists z. split; [exact Hz|reflexivity].
Qed.

Lemma cylinder_alongside t a : tower_of e0 t -> proper (tw_base t) -> e_top (tw_base t) = [a] ->
  forall k x y, on_floor e0 t a k x -> on_floor e0 t a k y -> alongside e0 x y.
Proof.
  intros T P Et k x y Fx Fy n. revert k x y Fx Fy. induction n as [|n IH]; intros k x y Fx Fy x' y' Hx Hy.
  - simpl in *. subst. destruct T as (_ & _ & _ & _ & T5 & _). destruct (T5 a k) as (c & Hc); [rewrite Et; left; reflexivity|apply Fx|].
    exists c. split; [destruct Fx as (_ & z & Hz & Hi)|destruct Fy as (_ & z & Hz & Hi)]; exact (Hc z _ Hz Hi).
  - destruct Hx as (u & Hu & Hx). destruct Hy as (v & Hv & Hy). destruct (cylinder_next t a k T P Et (proj1 Fx)) as (k' & N).
    exact (IH k' u v (N _ _ Fx Hu) (N _ _ Fy Hv) x' y' Hx Hy).
Qed.

(** The right end of a floor is not alongside. *)
Lemma cylinder_right t a k d z : tower_of e0 t -> proper (tw_base t) -> e_top (tw_base t) = [a] -> on_floor e0 t a k z ->
  (forall y, in_base t a y -> iter (maps e0) k y (y + d)) ->
  ~ alongside e0 z (tw_at t + left_end (e_len (tw_base t)) (e_top (tw_base t)) a + e_len (tw_base t) a + d).
Proof.
  intros T P Et F Hd A. set (p := tw_at t + _ + _ + d) in A. pose proof T as (T1 & T2 & _ & _ & _ & T6).
  assert (Ia : In a (e_top (tw_base t))) by (rewrite Et; left; reflexivity).
  destruct (T6 a Ia) as (j & dj & c & Kj & Ic & Hj & E).
  destruct F as (K & y & Hy & Hi). pose proof (iter_fun _ (maps_fun _ P0) _ _ _ _ Hi (Hd y Hy)) as ->.
  pose proof (T2 a y Hy) as Q. rewrite (cylinder_shift t a P Et), Rplus_0_r in Q.
  replace (tw_height t a) with (k + (tw_height t a - k))%nat in Q by lia. apply iter_split in Q as (w & W1 & W2).
  pose proof (iter_fun _ (maps_fun _ P0) _ _ _ _ W1 (Hd y Hy)) as ->.
  pose proof (iter_add _ _ _ _ _ _ W2 (Hj y Hy)) as Z. pose proof (alongside_shift e0 P0 _ _ _ _ A Z) as Zp.
  destruct (A _ _ _ Z Zp) as (c' & C & C').
  assert (Ep : p + (y + dj - (y + d)) = left_end (e_len e0) (e_top e0) c + e_len e0 c) by (rewrite <- E; unfold p; lra).
  rewrite Ep in C'. assert (Lc : 0 < e_len e0 c) by (apply P0, Ic).
  assert (Hlt : y + dj < left_end (e_len e0) (e_top e0) c + e_len e0 c) by (rewrite <- E; destruct Hy as (_ & Hy); lra).
  assert (Ec : c = c').
  { apply (interval_unique e0 c c' (Rmax (y + dj) (left_end (e_len e0) (e_top e0) c)) P0).
    - split; [exact Ic|]. unfold Rmax. destruct (Rle_dec _ _); lra.
    - destruct C as (I & C). destruct C' as (_ & C'). split; [exact I|]. unfold Rmax. destruct (Rle_dec _ _); lra. }
  subst c'. destruct C' as (_ & C'). lra.
Qed.

Context (Ts : list tower) (HT : towers e0 Ts) (PT : forall t, In t Ts -> proper (tw_base t)).

Lemma towers_once t t' a k a' k' x : In t Ts -> In t' Ts -> on_floor e0 t a k x -> on_floor e0 t' a' k' x -> t = t' /\ a = a' /\ k = k'.
Proof.
  intros I I' F F'. destruct HT as (A & B & _). assert (E : t = t').
  { pose proof I as I0. apply in_split in I as (X & Y & ES). rewrite ES in I'. apply in_app_or in I'. simpl in I'.
    rewrite ES in B. apply fop_app_cons in B as (_ & B2 & B3). rewrite Forall_forall in B2, B3. destruct I' as [I'|[I'|I']].
    - exfalso. exact (B2 _ I' _ _ _ _ _ F' F).
    - exact I'.
    - exfalso. exact (B3 _ I' _ _ _ _ _ F F'). }
  subst t'. split; [reflexivity|]. destruct (A t I) as (_ & _ & T3 & _). exact (T3 _ _ _ _ _ F F').
Qed.

Lemma towers_stays t : In t Ts -> forall n a k x y, on_floor e0 t a k x -> iter (maps e0) n x y -> exists a' k', on_floor e0 t a' k' y.
Proof.
  intros I. induction n as [|n IH]; intros a k x y F Hi; [simpl in Hi; subst; eauto|]. destruct Hi as (z & M & Hi).
  destruct (towers_stay e0 Ts P0 HT t a k x z I (PT t I) F M) as (a' & k' & F'). exact (IH _ _ _ _ F' Hi).
Qed.

(** The base has a periodic point if the tower has one. *)
Lemma base_back t : In t Ts -> forall N a y a' y', in_base t a y -> in_base t a' y' -> iter (maps e0) N y y' ->
  exists m, iter (maps (tw_base t)) m (y - tw_at t) (y' - tw_at t) /\ (1 <= N -> 1 <= m)%nat.
Proof.
  intros I. destruct (proj1 HT t I) as (T1 & T2 & T3 & _). induction N as [N IH] using lt_wf_ind. intros a y a' y' Hy Hy' Hi.
  destruct N as [|N]; [simpl in Hi; subst; exists 0%nat; split; [reflexivity|lia]|].
  assert (L : (tw_height t a <= S N)%nat).
  { destruct (le_lt_dec (tw_height t a) (S N)) as [L|L]; [exact L|]. exfalso.
    assert (F : on_floor e0 t a (S N) y') by (split; [exact L|]; exists y; auto).
    assert (F' : on_floor e0 t a' 0 y') by (split; [exact (T1 a' (proj1 Hy'))|]; exists y'; split; [exact Hy'|reflexivity]).
    destruct (T3 _ _ _ _ _ F F'). lia. }
  pose proof (T1 a (proj1 Hy)) as G. replace (S N) with (tw_height t a + (S N - tw_height t a))%nat in Hi by lia.
  apply iter_split in Hi as (z & Hz & Hi). pose proof (iter_fun _ (maps_fun _ P0) _ _ _ _ Hz (T2 a y Hy)) as ->.
  pose proof (PT t I) as Pt. destruct t as [e o h]. pose proof (maps_base e o h a y Pt Hy) as M. cbn [tw_base tw_at tw_height] in *.
  pose proof (maps_ran _ Pt _ _ M) as Rg. destruct (base_exists e o h (y + shift e a) Pt) as (b & Hb); [unfold size; lra|].
  destruct (IH (S N - h a)%nat ltac:(lia) b _ a' y' Hb Hy' Hi) as (m & Hm & _). exists (S m). split; [|lia].
  exists (y - o + shift e a). split; [exact M|]. replace (y - o + shift e a) with (y + shift e a - o) by lra. exact Hm.
Qed.

Lemma periodic_base t a k x : In t Ts -> on_floor e0 t a k x -> periodic (maps e0) x -> has_periodic_point (tw_base t).
Proof.
  intros I (K & y & Hy & Hi) (n & Hn & Hp).
  assert (Hy' : iter (maps e0) n y y).
  { assert (Q : iter (maps e0) (n + k) y x) by (rewrite Nat.add_comm; eapply iter_add; eassumption).
    apply iter_split in Q as (z & Z1 & Z2). rewrite (iter_inj _ (maps_inj _ P0) _ _ _ _ Z2 Hi) in Z1. exact Z1. }
  destruct (base_back t I n a y a y Hy Hy Hy') as (m & Hm & M). exists (y - tw_at t), m. split; [lia|exact Hm].
Qed.

Lemma cylinder_periodic t a k x : In t Ts -> e_top (tw_base t) = [a] -> on_floor e0 t a k x -> iter (maps e0) (tw_height t a) x x.
Proof. intros I Et F. exact (proj1 (towers_cylinder e0 Ts P0 HT t a k x I (PT t I) Et F)). Qed.

(** Every tower is over a cylinder or has no periodic points. *)
Context (Cm : forall t, In t Ts -> (exists a, e_top (tw_base t) = [a]) \/ ~ has_periodic_point (tw_base t)).

Lemma periodic_floor x : 0 <= x < size e0 -> periodic (maps e0) x -> exists t a k, In t Ts /\ e_top (tw_base t) = [a] /\ on_floor e0 t a k x.
Proof.
  intros D Q. destruct HT as (_ & _ & C & _). destruct (C x D) as (t & a & k & I & F). destruct (Cm t I) as [(b & Eb)|N].
  - exists t, a, k. split; [exact I|]. split; [|exact F]. destruct F as (_ & y & (Ia & _) & _). rewrite Eb in *. destruct Ia as [->|[]]. reflexivity.
  - exfalso. exact (N (periodic_base t a k x I F Q)).
Qed.

(** The floors over cylinders are what runs alongside. *)
Lemma floor_class t a k z : In t Ts -> e_top (tw_base t) = [a] -> on_floor e0 t a k z ->
  forall x, on_floor e0 t a k x <-> 0 <= x < size e0 /\ alongside e0 z x.
Proof.
  intros I Et F x. pose proof (proj1 HT t I) as T. split.
  - intros Fx. split; [exact (floor_dom t a k x T Fx)|]. exact (cylinder_alongside t a T (PT t I) Et k z x F Fx).
  - intros (D & A). apply NNPP. intros NF.
    assert (Px : periodic (maps e0) x).
    { exists (tw_height t a). split; [destruct F; lia|]. pose proof (alongside_shift e0 P0 _ _ _ _ A (cylinder_periodic t a k z I Et F)) as Q.
      replace (x + (z - z)) with x in Q by lra. exact Q. }
    destruct (periodic_floor x D Px) as (t' & a' & k' & I' & Et' & F').
    assert (Ne : forall w, on_floor e0 t a k w -> on_floor e0 t' a' k' w -> False).
    { intros w W W'. destruct (towers_once _ _ _ _ _ _ _ I I' W W') as (<- & <- & <-). exact (NF F'). }
    assert (Half : forall t a k z t' a' k' x, In t Ts -> e_top (tw_base t) = [a] -> on_floor e0 t a k z -> ~ on_floor e0 t a k x -> z < x -> alongside e0 z x ->
      In t' Ts -> on_floor e0 t' a' k' x -> False).
    { clear -P0 HT PT. intros t a k z t' a' k' x I Et F NF L A I' F'. pose proof (proj1 HT t I) as T.
      destruct (floor_interval t a k T) as (d & Hd & Fl); [rewrite Et; left; reflexivity|apply F|].
      apply (cylinder_right t a k d z T (PT t I) Et F Hd). apply (alongside_between e0 P0 z x); [exact A|].
      pose proof (proj1 (Fl z) F) as Fz. split; [lra|]. apply Rnot_lt_le. intros L'. apply NF, Fl. lra. }
    destruct (Rtotal_order z x) as [L|[->|L]].
    + exact (Half t a k z t' a' k' x I Et F NF L A I' F').
    + exact (NF F).
    + apply (Half t' a' k' x t a k z I' Et' F'); auto; [intros W; exact (Ne z F W)|apply alongside_sym, A].
Qed.
End Towers.

(** * Towers with dense orbits *)

Definition reaches (e : exch) (x x' : R) : Prop :=
  forall eps, 0 < eps -> exists n z, iter (maps e) n x z /\ x' <= z < x' + eps.

Section Dense.
Context (e0 : exch) (P0 : proper e0) (Ts : list tower) (HT : towers e0 Ts) (PT : forall t, In t Ts -> proper (tw_base t)).

(** The orbit of a point gets back to the base. *)
Lemma to_base t a k x : In t Ts -> on_floor e0 t a k x -> exists n b y, iter (maps e0) n x y /\ in_base t b y.
Proof.
  intros I (K & y & Hy & Hi). destruct (proj1 HT t I) as (_ & T2 & _). pose proof (T2 a y Hy) as Q.
  replace (tw_height t a) with (k + (tw_height t a - k))%nat in Q by lia. apply iter_split in Q as (w & W1 & W2).
  rewrite (iter_fun _ (maps_fun _ P0) _ _ _ _ W1 Hi) in W2.
  pose proof (PT t I) as Pt. destruct t as [e o h]. pose proof (maps_base e o h a y Pt Hy) as M.
  pose proof (maps_ran _ Pt _ _ M) as Rg. cbn [tw_base tw_at tw_height] in *. destruct (base_exists e o h (y + shift e a) Pt) as (b & Hb); [unfold size; lra|].
  eauto.
Qed.

Lemma base_iterate t : In t Ts -> forall m u w, 0 <= u < size (tw_base t) -> iter (maps (tw_base t)) m u w ->
  exists n, iter (maps e0) n (u + tw_at t) (w + tw_at t).
Proof.
  intros I. destruct (proj1 HT t I) as (_ & T2 & _). pose proof (PT t I) as Pt. destruct t as [e o h]. cbn [tw_base tw_at tw_height] in *.
  induction m as [|m IH]; intros u w Hu H; [simpl in H; subst; exists 0%nat; reflexivity|]. destruct H as (v & Hv & H).
  destruct (IH v w (maps_ran _ Pt _ _ Hv) H) as (n & Hn). destruct (base_exists e o h (u + o) Pt) as (a & Ha); [lra|].
  pose proof (maps_base e o h a (u + o) Pt Ha) as Q. replace (u + o - o) with u in Q by lra. pose proof (maps_fun _ Pt _ _ _ Hv Q) as ->.
  exists (h a + n)%nat. eapply iter_add; [exact (T2 a _ Ha)|]. cbn [tw_base]. replace (u + o + shift e a) with (u + shift e a + o) by lra. exact Hn.
Qed.

Lemma base_dom t a y : proper (tw_base t) -> in_base t a y -> 0 <= y - tw_at t < size (tw_base t).
Proof. intros P Hy. destruct t as [e o h]. exact (maps_dom _ P _ _ (maps_base e o h a y P Hy)). Qed.

Lemma dense_reaches t a k x : In t Ts -> minimal (tw_base t) -> on_floor e0 t a k x ->
  forall x', 0 <= x' < size e0 -> ((exists a' k', on_floor e0 t a' k' x') <-> reaches e0 x x').
Proof.
  intros I M F x' D. pose proof (proj1 HT t I) as T. split.
  - intros (a' & k' & F') eps He. pose proof F' as (K' & y' & Hy' & Hi').
    destruct (floor_interval e0 P0 t a' k' T (proj1 Hy') K') as (d & Hd & _).
    pose proof (iter_fun _ (maps_fun _ P0) _ _ _ _ Hi' (Hd y' Hy')) as ->.
    destruct (to_base t a k x I F) as (n & b & y & Hn & Hy). pose proof (base_dom t b y (PT t I) Hy) as Dy.
    pose proof (base_dom t a' y' (PT t I) Hy') as Dy'. pose proof Hy' as (Ia' & Ba').
    set (r := left_end (e_len (tw_base t)) (e_top (tw_base t)) a' + e_len (tw_base t) a') in *.
    assert (Rr : r <= size (tw_base t)).
    { apply Rnot_lt_le. intros L. set (q := Rmax (y' - tw_at t) (size (tw_base t))).
      assert (Bq : in_base t a' (q + tw_at t)). { split; [exact Ia'|]. fold r. unfold q, Rmax. destruct (Rle_dec _ _); lra. }
      pose proof (base_dom t a' _ (PT t I) Bq) as Q. unfold q, Rmax in Q. destruct (Rle_dec _ _); lra. }
    destruct (M (y - tw_at t) Dy (y' - tw_at t) (Rmin r (y' - tw_at t + eps))) as (m & w & Hm & Hw).
    + unfold Rmin. destruct (Rle_dec _ _); lra.
    + unfold Rmin. change (total (e_len (tw_base t)) (e_top (tw_base t))) with (size (tw_base t)). destruct (Rle_dec _ _); lra.
    + destruct (base_iterate t I m _ _ Dy Hm) as (n' & Hn'). replace (y - tw_at t + tw_at t) with y in Hn' by lra.
      assert (Bw : in_base t a' (w + tw_at t)). { split; [exact Ia'|]. fold r. unfold Rmin in Hw. destruct (Rle_dec _ _); lra. }
      exists (n + (n' + k'))%nat, (w + tw_at t + d). split.
      * eapply iter_add; [exact Hn|]. eapply iter_add; [exact Hn'|]. apply Hd, Bw.
      * unfold Rmin in Hw. destruct (Rle_dec _ _); lra.
  - intros Re. destruct HT as (_ & _ & C & _). destruct (C x' D) as (t' & a' & k' & I' & F').
    pose proof F' as (K' & y' & Hy' & _). destruct (floor_interval e0 P0 t' a' k' (proj1 HT t' I') (proj1 Hy') K') as (d & _ & Fl).
    pose proof (proj1 (Fl x') F') as Bx. destruct (Re (tw_at t' + left_end (e_len (tw_base t')) (e_top (tw_base t')) a' + e_len (tw_base t') a' + d - x')) as (n & z & Hn & Hz); [lra|].
    assert (Fz : on_floor e0 t' a' k' z) by (apply Fl; lra).
    destruct (towers_stays e0 P0 Ts HT PT t I n a k x z F Hn) as (b & j & G).
    destruct (towers_once e0 Ts HT t t' b j a' k' z I I' G Fz) as (<- & _). eauto.
Qed.

(** Dense orbits are not periodic. *)
Lemma orbit_finite (f : R -> R -> Prop) (Ff : forall x y z, f x y -> f x z -> y = z) n : forall x, (exists y, iter f n x y) ->
  exists l, forall k z, (k <= n)%nat -> iter f k x z -> In z l.
Proof.
  induction n as [|n IH]; intros x (y & Hy).
  - exists [x]. intros k z Hk Hz. assert (k = 0%nat) by lia. subst k. left. exact Hz.
  - destruct Hy as (u & Hu & Hy). destruct (IH u (ex_intro _ y Hy)) as (l & Hl). exists (x :: l). intros [|k] z Hk Hz; [left; exact Hz|].
    destruct Hz as (v & Hv & Hz). rewrite (Ff _ _ _ Hv Hu) in Hz. right. apply (Hl k z); [lia|exact Hz].
Qed.

Lemma gap (l : list R) : forall u v, u < v -> exists u' v', u <= u' < v' /\ v' <= v /\ forall z, In z l -> ~ u' < z < v'.
Proof.
  induction l as [|a l IH]; intros u v L; [exists u, v; repeat split; try lra; intros z []|].
  destruct (IH u v L) as (u' & v' & A & B & C). destruct (Rlt_le_dec u' a) as [La|La]; [destruct (Rlt_le_dec a v') as [Lb|Lb]|].
  - exists u', a. repeat split; try lra. intros z [<-|Hz] Q; [lra|]. apply (C z Hz). lra.
  - exists u', v'. repeat split; try lra. intros z [<-|Hz] Q; [lra|exact (C z Hz Q)].
  - exists u', v'. repeat split; try lra. intros z [<-|Hz] Q; [lra|exact (C z Hz Q)].
Qed.
End Dense.

Lemma minimal_aperiodic e : proper e -> minimal e -> ~ has_periodic_point e.
Proof.
  intros P M (x & n & Hn & Hx). pose proof (maps_dom _ P) as D.
  assert (Dx : 0 <= x < total (e_len e) (e_top e)) by (destruct n; [lia|]; destruct Hx as (z & Hz & _); exact (D _ _ Hz)).
  destruct (orbit_finite (maps e) (maps_fun _ P) n x (ex_intro _ x Hx)) as (l & Hl).
  destruct (gap l 0 (total (e_len e) (e_top e))) as (u & v & A & B & C); [lra|].
  destruct (M x Dx u v) as (m & z & Hm & Hz); [lra|lra|]. apply (C z); [|exact Hz].
  clear -Hm Hx Hl Hn P. revert z Hm. induction m as [m IH] using lt_wf_ind. intros z Hm. destruct (le_lt_dec m n) as [L|L]; [exact (Hl m z L Hm)|].
  apply (IH (m - n)%nat); [lia|]. replace m with (n + (m - n))%nat in Hm by lia. apply iter_split in Hm as (w & W1 & W2).
  rewrite (iter_fun _ (maps_fun _ P) _ _ _ _ W1 Hx) in W2. exact W2.
Qed.

(** * Two ways of decomposing *)

Lemma match_lists {A B} (Rel : A -> B -> Prop) : forall l l',
  (forall a, In a l -> exists b, In b l' /\ Rel a b) -> (forall b, In b l' -> exists a, In a l /\ Rel a b) ->
  ForallOrdPairs (fun a a' => forall b, Rel a b -> Rel a' b -> False) l ->
  ForallOrdPairs (fun b b' => forall a, Rel a b -> Rel a b' -> False) l' ->
  exists l'', Permutation l' l'' /\ Forall2 Rel l l''.
Proof.
  induction l as [|a l IH]; intros l' H1 H2 D1 D2.
  - destruct l' as [|b l']; [exists []; auto|]. destruct (H2 b) as (a & [] & _); left; reflexivity.
  - destruct (H1 a) as (b & Ib & Rb); [left; reflexivity|]. apply in_split in Ib as (X & Y & ->).
    apply fop_app_cons in D2 as (D2 & E2 & F2). rewrite Forall_forall in E2, F2. inversion D1 as [|? ? E1 D1']; subst. rewrite Forall_forall in E1.
    destruct (IH (X ++ Y)) as (l'' & Pl & Fl).
    + intros a' Ha'. destruct (H1 a') as (b' & Ib' & Rb'); [right; exact Ha'|]. exists b'. split; [|exact Rb'].
      apply in_app_or in Ib' as [Ib'|[<-|Ib']]; [apply in_or_app; auto| |apply in_or_app; auto]. exfalso. exact (E1 a' Ha' b Rb Rb').
    + intros b' Hb'. destruct (H2 b') as (a' & [<-|Ia'] & Ra'); [apply in_or_app; apply in_app_or in Hb'; destruct Hb'; [auto|right; right; assumption]| |eauto].
      exfalso. apply in_app_or in Hb' as [Hb'|Hb']; [exact (E2 b' Hb' a Ra' Rb)|exact (F2 b' Hb' a Rb Ra')].
    + exact D1'.
    + exact D2.
    + exists (b :: l''). split; [|constructor; assumption]. rewrite <- Permutation_middle. constructor. exact Pl.
Qed.

Lemma fop_filter {A} (R : A -> A -> Prop) p l : ForallOrdPairs R l -> ForallOrdPairs R (filter p l).
Proof.
  induction 1 as [|a l H1 H2 IH]; simpl; [constructor|]. destruct (p a); [|exact IH]. constructor; [|exact IH].
  rewrite Forall_forall in *. intros x Hx. apply filter_In in Hx. apply H1, Hx.
Qed.

Lemma fop_impl_in {A} (R S : A -> A -> Prop) l : (forall a b, In a l -> In b l -> R a b -> S a b) -> ForallOrdPairs R l -> ForallOrdPairs S l.
Proof.
  intros H Q. induction Q as [|a l H1 H2 IH]; constructor.
  - rewrite Forall_forall in *. intros x Hx. apply H; [left; reflexivity|right; exact Hx|exact (H1 x Hx)].
  - apply IH. intros x y Hx Hy. apply H; right; assumption.
Qed.

Section Two.
Context (e0 : exch) (P0 : proper e0).

Definition ready (Ts : list tower) : Prop := towers e0 Ts /\ forall t, In t Ts -> proper (tw_base t).

Definition sorted (Ts : list tower) : Prop :=
  ready Ts /\ forall t, In t Ts -> (exists a, e_top (tw_base t) = [a]) \/ ~ has_periodic_point (tw_base t).

Lemma points_nonempty Ts t : ready Ts -> In t Ts -> e_top (tw_base t) <> [] -> exists a k x, on_floor e0 t a k x.
Proof.
  intros ((A & _) & PT) I N. destruct (e_top (tw_base t)) as [|a l] eqn:Et; [congruence|]. pose proof (proj1 (A t I) a) as T1.
  destruct (PT t I) as (_ & _ & Pos). rewrite Et in *. specialize (T1 (or_introl eq_refl)).
  exists a, 0%nat, (tw_at t + left_end (e_len (tw_base t)) (e_top (tw_base t)) a). split; [lia|].
  eexists. split; [|reflexivity]. pose proof (Pos a (or_introl eq_refl)). split; [rewrite Et; left; reflexivity|lra].
Qed.

Lemma same_from Ts Ts' t t' a k a' k' : ready Ts -> ready Ts' -> In t Ts -> In t' Ts' -> e_top (tw_base t) = [a] ->
  (forall x, on_floor e0 t a k x <-> on_floor e0 t' a' k' x) -> (k < tw_height t a)%nat ->
  forall x, (exists b j, on_floor e0 t b j x) -> (exists b j, on_floor e0 t' b j x).
Proof.
  intros (HT & PT) (HT' & PT') I I' Et Eq K x (b & j & F).
  assert (b = a). { destruct F as (_ & y & (Ib & _) & _). rewrite Et in Ib. destruct Ib as [->|[]]. reflexivity. } subst b.
  pose proof F as (J & y & Hy & Hi). pose proof (proj1 HT t I) as (_ & T2 & _ & T4 & _).
  destruct (T4 a k ltac:(lia)) as (d & Hd).
  assert (Fk : on_floor e0 t a k (y + d)) by (split; [exact K|]; exists y; auto).
  pose proof (T2 a y Hy) as Q. rewrite (cylinder_shift t a (PT t I) Et), Rplus_0_r in Q.
  replace (tw_height t a) with (k + (tw_height t a - k))%nat in Q by lia. apply iter_split in Q as (w & W1 & W2).
  pose proof (iter_fun _ (maps_fun _ P0) _ _ _ _ W1 (Hd y Hy)) as ->.
  pose proof (iter_add _ _ _ _ _ _ W2 Hi) as Z. apply Eq in Fk. exact (towers_stays e0 P0 Ts' HT' PT' t' I' _ _ _ _ _ Fk Z).
Qed.

Lemma cylinder_partner Ts Ts' t a : sorted Ts -> sorted Ts' -> In t Ts -> e_top (tw_base t) = [a] ->
  exists t' a', In t' Ts' /\ e_top (tw_base t') = [a'] /\ same_cylinder e0 t t'.
Proof.
  intros ((HT & PT) & Cm) ((HT' & PT') & Cm') I Et. destruct (points_nonempty Ts t (conj HT PT) I) as (b & k & x & F); [rewrite Et; discriminate|].
  assert (b = a). { destruct F as (_ & y & (Ib & _) & _). rewrite Et in Ib. destruct Ib as [->|[]]. reflexivity. } subst b.
  pose proof (floor_dom e0 P0 t a k x (proj1 HT t I) F) as D. destruct (towers_cylinder e0 Ts P0 HT t a k x I (PT t I) Et F) as (Q1 & Q2).
  assert (Px : periodic (maps e0) x) by (exists (tw_height t a); split; [destruct F; lia|exact Q1]).
  destruct (periodic_floor e0 P0 Ts' HT' PT' Cm' x D Px) as (t' & a' & k' & I' & Et' & F').
  destruct (towers_cylinder e0 Ts' P0 HT' t' a' k' x I' (PT' t' I') Et' F') as (Q1' & Q2').
  assert (Eq : forall y, on_floor e0 t a k y <-> on_floor e0 t' a' k' y).
  { intro y. rewrite (floor_class e0 P0 Ts HT PT Cm t a k x I Et F y), (floor_class e0 P0 Ts' HT' PT' Cm' t' a' k' x I' Et' F' y). reflexivity. }
  exists t', a'. split; [exact I'|]. split; [exact Et'|]. exists a, a'. split; [exact Et|]. split; [exact Et'|]. split; [|split].
  - destruct (floor_interval e0 P0 t a k (proj1 HT t I)) as (d & _ & Fl); [rewrite Et; left; reflexivity|apply F|].
    destruct (floor_interval e0 P0 t' a' k' (proj1 HT' t' I')) as (d' & _ & Fl'); [rewrite Et'; left; reflexivity|apply F'|].
    assert (L : 0 < e_len (tw_base t) a) by (apply (PT t I); rewrite Et; left; reflexivity).
    assert (L' : 0 < e_len (tw_base t') a') by (apply (PT' t' I'); rewrite Et'; left; reflexivity).
    set (u := tw_at t + left_end (e_len (tw_base t)) (e_top (tw_base t)) a + d) in *. set (u' := tw_at t' + left_end (e_len (tw_base t')) (e_top (tw_base t')) a' + d') in *.
    assert (G : forall y, u <= y < u + e_len (tw_base t) a <-> u' <= y < u' + e_len (tw_base t') a').
    { intro y. transitivity (on_floor e0 t a k y); [rewrite Fl|rewrite Eq, Fl']; unfold u, u'; split; lra. }
    assert (Hu : u = u') by (destruct (proj1 (G u)); [lra|]; destruct (proj2 (G u')); lra).
    rewrite Hu in G. destruct (Rtotal_order (e_len (tw_base t) a) (e_len (tw_base t') a')) as [Lt|[E|Lt]]; [|exact E|]; exfalso.
    + destruct (proj2 (G (u' + e_len (tw_base t) a))); lra.
    + destruct (proj1 (G (u' + e_len (tw_base t') a'))); lra.
  - destruct (lt_eq_lt_dec (tw_height t a) (tw_height t' a')) as [[L|E]|L]; [|exact E|]; exfalso.
    + apply (Q2' (tw_height t a)); [destruct F; lia|exact Q1].
    + apply (Q2 (tw_height t' a')); [destruct F'; lia|exact Q1'].
  - intro y. split.
    + exact (same_from Ts Ts' t t' a k a' k' (conj HT PT) (conj HT' PT') I I' Et Eq (proj1 F) y).
    + apply (same_from Ts' Ts t' t a' k' a k (conj HT' PT') (conj HT PT) I' I Et'); [intro z; symmetry; apply Eq|apply F'].
Qed.

Lemma same_cylinder_sym t t' : same_cylinder e0 t t' -> same_cylinder e0 t' t.
Proof. intros (a & a' & A & B & C & D & E). exists a', a. repeat split; auto; apply E. Qed.

Lemma in_cylinders Ts t : In t (cylinders Ts) <-> In t Ts /\ exists a, e_top (tw_base t) = [a].
Proof.
  unfold cylinders. rewrite filter_In. destruct (e_top (tw_base t)) as [|a [|b l]]; split; intros (A & B); split; auto; try discriminate.
  - destruct B as (a & B). discriminate.
  - exists a. reflexivity.
  - destruct B as (c & B). discriminate.
Qed.

Lemma in_others Ts t : In t (noncylinders Ts) <-> In t Ts /\ forall a, e_top (tw_base t) <> [a].
Proof.
  unfold noncylinders. rewrite filter_In. destruct (e_top (tw_base t)) as [|a [|b l]]; split; intros (A & B); split; auto; try discriminate.
  exfalso. exact (B a eq_refl).
Qed.

Lemma apart_distinct l : (forall t, In t l -> exists a k x, on_floor e0 t a k x) -> ForallOrdPairs (apart_towers e0) l ->
  ForallOrdPairs (fun t t' => forall u, same_points e0 t u -> same_points e0 t' u -> False) l.
Proof.
  intros N. apply fop_impl_in. intros t t' I I' A u S S'. destruct (N t I) as (a & k & x & F).
  destruct (proj2 (S' x) (proj1 (S x) (ex_intro _ a (ex_intro _ k F)))) as (a' & k' & F'). exact (A _ _ _ _ _ F F').
Qed.

Lemma same_points_sym t t' : same_points e0 t t' -> same_points e0 t' t.
Proof. intros H x. symmetry. apply H. Qed.

Theorem same_cylinders Ts Ts' : sorted Ts -> sorted Ts' ->
  exists Us, Permutation (cylinders Ts') Us /\ Forall2 (same_cylinder e0) (cylinders Ts) Us.
Proof.
  assert (Half : forall Ts Ts', sorted Ts -> sorted Ts' -> forall t, In t (cylinders Ts) -> exists t', In t' (cylinders Ts') /\ same_cylinder e0 t t').
  { intros Us Us' H H' t I. apply in_cylinders in I as (I & a & Et). destruct (cylinder_partner Us Us' t a H H' I Et) as (t' & a' & I' & Et' & S).
    exists t'. split; [apply in_cylinders; eauto|exact S]. }
  assert (Pt : forall t t', same_cylinder e0 t t' -> same_points e0 t t') by (intros t t' (a & a' & _ & _ & _ & _ & S); exact S).
  assert (Ap : forall Us, sorted Us -> ForallOrdPairs (fun t t' => forall u, same_points e0 t u -> same_points e0 t' u -> False) (cylinders Us)).
  { intros Us (H & _). apply apart_distinct; [|apply fop_filter, H]. intros t I. apply in_cylinders in I as (I & a & Et).
    apply (points_nonempty Us t H I). rewrite Et. discriminate. }
  intros H H'. apply match_lists.
  - apply Half; assumption.
  - intros t I. destruct (Half Ts' Ts H' H t I) as (t' & I' & S). exists t'. split; [exact I'|apply same_cylinder_sym, S].
  - eapply fop_impl_in; [|exact (Ap Ts H)]. intros t t' _ _ Q u S S'. exact (Q u (Pt _ _ S) (Pt _ _ S')).
  - eapply fop_impl_in; [|exact (Ap Ts' H')]. intros t t' _ _ Q u S S'. exact (Q u (same_points_sym _ _ (Pt _ _ S)) (same_points_sym _ _ (Pt _ _ S'))).
Qed.

Lemma cylinders_widths Ts : widths (map tw_base Ts) = flat_map (fun t => match e_top (tw_base t) with [a] => [e_len (tw_base t) a] | _ => [] end) (cylinders Ts).
Proof.
  unfold widths, cylinders. induction Ts as [|t Ts IH]; [reflexivity|]. cbn [map flat_map filter]. rewrite IH.
  destruct (e_top (tw_base t)) as [|a [|b l]] eqn:Et; cbn [flat_map]; rewrite ?Et; reflexivity.
Qed.

Theorem same_widths Ts Ts' : sorted Ts -> sorted Ts' -> Permutation (widths (map tw_base Ts)) (widths (map tw_base Ts')).
Proof.
  intros H H'. destruct (same_cylinders Ts Ts' H H') as (Us & Pm & F). rewrite !cylinders_widths. rewrite Pm.
  match goal with |- Permutation ?x ?y => replace y with x; [reflexivity|] end.
  clear Pm. induction F as [|t u l l' S F IH]; [reflexivity|]. cbn [flat_map]. rewrite IH. f_equal.
  destruct S as (a & a' & -> & -> & -> & _). reflexivity.
Qed.

(** Every tower is over a cylinder or has dense orbits. *)
Definition worked_out (Ts : list tower) : Prop :=
  ready Ts /\ forall t, In t Ts -> e_top (tw_base t) <> [] /\ ((exists a, e_top (tw_base t) = [a]) \/ minimal (tw_base t)).

Lemma settled_sorted Ts : worked_out Ts -> sorted Ts.
Proof.
  intros (H & Q). split; [exact H|]. intros t I. destruct (Q t I) as (_ & [A|A]); [left; exact A|right].
  apply minimal_aperiodic; [apply H, I|exact A].
Qed.

Lemma dense_partner Ts Ts' t : worked_out Ts -> worked_out Ts' -> In t (noncylinders Ts) -> exists t', In t' (noncylinders Ts') /\ same_points e0 t t'.
Proof.
  intros H H' I. apply in_others in I as (I & N). pose proof (settled_sorted _ H') as SH'.
  destruct H as ((HT & PT) & Q). destruct H' as ((HT' & PT') & Q').
  destruct (Q t I) as (Ne & [(a & Et)|M]); [exfalso; exact (N a Et)|].
  destruct (points_nonempty Ts t (conj HT PT) I Ne) as (a & k & x & F).
  pose proof (floor_dom e0 P0 t a k x (proj1 HT t I) F) as D. destruct HT' as (A' & B' & C' & D'). pose proof (C' x D) as (t' & a' & k' & I' & F').
  assert (HT' : towers e0 Ts') by (split; auto).
  assert (N' : forall b, e_top (tw_base t') <> [b]).
  { intros b Eb. assert (a' = b) by (destruct F' as (_ & y & (Ib & _) & _); rewrite Eb in Ib; destruct Ib as [->|[]]; reflexivity). subst b.
    destruct (towers_cylinder e0 Ts' P0 HT' t' a' k' x I' (PT' t' I') Eb F') as (Qx & _).
    apply (minimal_aperiodic _ (PT t I) M). apply (periodic_base e0 P0 Ts HT PT t a k x I F). exists (tw_height t' a'). split; [destruct F'; lia|exact Qx]. }
  destruct (Q' t' I') as (_ & [(b & Eb)|M']); [exfalso; exact (N' b Eb)|].
  exists t'. split; [apply in_others; auto|]. intros y. split; intros (b & j & G).
  - assert (Dy : 0 <= y < size e0) by exact (floor_dom e0 P0 t b j y (proj1 HT t I) G).
    apply (dense_reaches e0 P0 Ts' HT' PT' t' a' k' x I' M' F' y Dy). apply (dense_reaches e0 P0 Ts HT PT t a k x I M F y Dy). eauto.
  - assert (Dy : 0 <= y < size e0) by exact (floor_dom e0 P0 t' b j y (proj1 HT' t' I') G).
    apply (dense_reaches e0 P0 Ts HT PT t a k x I M F y Dy). apply (dense_reaches e0 P0 Ts' HT' PT' t' a' k' x I' M' F' y Dy). eauto.
Qed.

Theorem same_others Ts Ts' : worked_out Ts -> worked_out Ts' ->
  exists Us, Permutation (noncylinders Ts') Us /\ Forall2 (same_points e0) (noncylinders Ts) Us.
Proof.
  assert (Ap : forall Us, worked_out Us -> ForallOrdPairs (fun t t' => forall u, same_points e0 t u -> same_points e0 t' u -> False) (noncylinders Us)).
  { intros Us (H & Q). apply apart_distinct; [|apply fop_filter, H]. intros t I. apply in_others in I as (I & _).
    apply (points_nonempty Us t H I), Q, I. }
  intros H H'. apply match_lists.
  - intros t I. exact (dense_partner Ts Ts' t H H' I).
  - intros t I. destruct (dense_partner Ts' Ts t H' H I) as (t' & I' & S). exists t'. split; [exact I'|apply same_points_sym, S].
  - exact (Ap Ts H).
  - eapply fop_impl_in; [|exact (Ap Ts' H')]. intros t t' _ _ Q u S S'. exact (Q u (same_points_sym _ _ S) (same_points_sym _ _ S')).
Qed.
End Two.
