(** A cylinder is never cut by another decomposition. *)
From Coq Require Import Reals List Permutation Lia Lra.
From Verif Require Import Spec SpecDec SpecTower SpecCanon SpecRim Dyn Saddle Tower Canon Rim.
Import ListNotations.
Open Scope R_scope.

Section Meet.
Context (e0 : exch) (P0 : proper e0).

Lemma iter_times (f : R -> R -> Prop) n x : iter f n x x -> forall m, iter f (m * n) x x.
Proof. intros H. induction m as [|m IH]; [reflexivity|]. cbn [Nat.mul]. eapply iter_add; eassumption. Qed.

(** Nothing moves along with a periodic point and with the right end of the floor that it is on. *)
Lemma column_right t a k d z : tower_of e0 t -> on_floor e0 t a k z -> periodic (maps e0) z ->
  (forall y, in_base t a y -> iter (maps e0) k y (y + d)) ->
  ~ alongside e0 z (tw_at t + left_end (e_len (tw_base t)) (e_top (tw_base t)) a + e_len (tw_base t) a + d).
Proof.
  intros T F (N & HN & Pz) Hd A. set (p := tw_at t + _ + _ + d) in A. pose proof T as (T1 & T2 & _ & _ & _ & T6).
  destruct F as (K & y & Hy & Hi). pose proof (iter_fun _ (maps_fun _ P0) _ _ _ _ Hi (Hd y Hy)) as ->.
  destruct (T6 a (proj1 Hy)) as (j & dj & c & Kj & Ic & Hj & E).
  assert (Z : exists n, iter (maps e0) n (y + d) (y + dj)).
  { destruct (le_lt_dec k j) as [L|L].
    - exists (j - k)%nat. pose proof (Hj y Hy) as Q. replace j with (k + (j - k))%nat in Q by lia. apply iter_split in Q as (w & W1 & W2).
      rewrite (iter_fun _ (maps_fun _ P0) _ _ _ _ W1 Hi) in W2. exact W2.
    - pose proof (Hd y Hy) as Q. replace k with (j + (k - j))%nat in Q by lia. apply iter_split in Q as (w & W1 & W2).
      rewrite (iter_fun _ (maps_fun _ P0) _ _ _ _ W1 (Hj y Hy)) in W2.
      pose proof (iter_times _ _ _ Pz (k - j)) as Q. exists ((k - j) * N - (k - j))%nat.
      assert (L' : (k - j <= (k - j) * N)%nat) by nia.
      replace ((k - j) * N)%nat with (((k - j) * N - (k - j)) + (k - j))%nat in Q by lia. apply iter_split in Q as (v & V1 & V2).
      rewrite (iter_inj _ (maps_inj _ P0) _ _ _ _ V2 W2) in V1. exact V1. }
  destruct Z as (n & Z). pose proof (alongside_shift e0 P0 _ _ _ _ A Z) as Zp.
  destruct (A _ _ _ Z Zp) as (c' & C & C').
  assert (Ep : p + (y + dj - (y + d)) = left_end (e_len e0) (e_top e0) c + e_len e0 c) by (rewrite <- E; unfold p; lra).
  rewrite Ep in C'. assert (Lc : 0 < e_len e0 c) by (apply P0, Ic).
  assert (Hlt : y + dj < left_end (e_len e0) (e_top e0) c + e_len e0 c) by (rewrite <- E; destruct Hy as (_ & Hy); lra).
  assert (Ec : c = c').
  { apply (interval_unique e0 c c' (Rmax (y + dj) (left_end (e_len e0) (e_top e0) c)) P0).
    - split; [exact Ic|]. unfold Rmax. destruct (Rle_dec _ _); lra.
    - destruct C as (I & C). destruct C' as (_ & C'). split; [exact I|]. unfold Rmax. destruct (Rle_dec _ _); lra. }
  subst c'. destruct C' as (_ & C'). lra.
Qed.

Lemma floor_inside Ts Ts' t a k t' a' k' x : ready e0 Ts -> ready e0 Ts' -> In t Ts -> In t' Ts' -> e_top (tw_base t') = [a'] ->
  on_floor e0 t a k x -> on_floor e0 t' a' k' x -> forall v, on_floor e0 t' a' k' v -> on_floor e0 t a k v.
Proof.
  intros (HT & PT) (HT' & PT') I I' Et' F F'.
  assert (Up : forall t a k x v, In t Ts -> on_floor e0 t a k x -> on_floor e0 t' a' k' x -> on_floor e0 t' a' k' v -> x <= v -> on_floor e0 t a k v).
  { clear t a k x I F F'. intros t a k x v I F F' Fv L. assert (Ia : In a (e_top (tw_base t))) by (destruct F as (_ & y & (Ia & _) & _); exact Ia).
    destruct (floor_interval e0 P0 t a k (proj1 HT t I) Ia (proj1 F)) as (d & Hd & G). apply G. pose proof (proj1 (G x) F) as Gx. split; [lra|].
    set (p := tw_at t + left_end (e_len (tw_base t)) (e_top (tw_base t)) a + e_len (tw_base t) a + d) in *.
    destruct (Rlt_le_dec v p) as [Q|Q]; [exact Q|exfalso].
    pose proof (cylinder_alongside e0 P0 t' a' (proj1 HT' t' I') (PT' t' I') Et' k' x v F' Fv) as A.
    apply (column_right t a k d x (proj1 HT t I) F).
    - exists (tw_height t' a'). split; [destruct F'; lia|]. exact (cylinder_periodic e0 P0 Ts' HT' PT' t' a' k' x I' Et' F').
    - exact Hd.
    - apply (alongside_between e0 P0 x v); [exact A|]. fold p. lra. }
  intros v Fv. destruct (Rle_lt_dec x v) as [L|L]; [exact (Up t a k x v I F F' Fv L)|].
  destruct (proj1 (proj2 (proj2 HT)) v (floor_dom e0 P0 t' a' k' v (proj1 HT' t' I') Fv)) as (t2 & a2 & k2 & I2 & F2).
  pose proof (Up t2 a2 k2 v x I2 F2 Fv F' ltac:(lra)) as Fx. destruct (towers_once e0 Ts HT t t2 a k a2 k2 x I I2 F Fx) as (-> & -> & ->). exact F2.
Qed.

Lemma cylinder_width Ts Ts' t a k t' a' k' x : ready e0 Ts -> ready e0 Ts' -> In t Ts -> In t' Ts' -> e_top (tw_base t') = [a'] ->
  on_floor e0 t a k x -> on_floor e0 t' a' k' x -> e_len (tw_base t') a' <= e_len (tw_base t) a.
Proof.
  intros R R' I I' Et' F F'. pose proof (floor_inside Ts Ts' t a k t' a' k' x R R' I I' Et' F F') as Q. destruct R as (HT & PT), R' as (HT' & PT').
  assert (Ia : In a (e_top (tw_base t))) by (destruct F as (_ & y & (Ia & _) & _); exact Ia). assert (Ia' : In a' (e_top (tw_base t'))) by (rewrite Et'; left; reflexivity).
  destruct (floor_interval e0 P0 t a k (proj1 HT t I) Ia (proj1 F)) as (d & _ & G). destruct (floor_interval e0 P0 t' a' k' (proj1 HT' t' I') Ia' (proj1 F')) as (d' & _ & G').
  pose proof (proj2 (proj2 (PT' t' I')) a' Ia') as L'. pose proof (proj2 (proj2 (PT t I)) a Ia) as L.
  set (u := tw_at t + left_end (e_len (tw_base t)) (e_top (tw_base t)) a) in *. set (u' := tw_at t' + left_end (e_len (tw_base t')) (e_top (tw_base t')) a') in *.
  destruct (Rle_lt_dec (e_len (tw_base t') a') (e_len (tw_base t) a)) as [C|C]; [exact C|exfalso].
  assert (A : on_floor e0 t a k (u' + d')) by (apply Q, G'; lra).
  assert (B : on_floor e0 t a k (u' + d' + e_len (tw_base t) a)) by (apply Q, G'; lra). apply G in A, B. lra.
Qed.

Lemma cylinder_inside Ts Ts' t a k t' a' k' x : ready e0 Ts -> ready e0 Ts' -> In t Ts -> In t' Ts' -> e_top (tw_base t') = [a'] ->
  on_floor e0 t a k x -> on_floor e0 t' a' k' x -> forall b' j' v, on_floor e0 t' b' j' v -> exists b j, on_floor e0 t b j v.
Proof.
  intros R R' I I' Et' F F' b' j' v Fv. pose proof (floor_inside Ts Ts' t a k t' a' k' x R R' I I' Et' F F') as Q. destruct R as (HT & PT), R' as (HT' & PT').
  destruct Fv as (J & y & Hy & Hi). assert (b' = a') as -> by (pose proof (proj1 Hy) as Ib; rewrite Et' in Ib; destruct Ib as [<-|[]]; reflexivity).
  destruct (proj1 HT' t' I') as (_ & T2 & _). pose proof (T2 a' y Hy) as H. rewrite (cylinder_shift t' a' (PT' t' I') Et'), Rplus_0_r in H.
  destruct F' as (K' & _). replace (tw_height t' a') with (k' + (tw_height t' a' - k'))%nat in H by lia. apply iter_split in H as (w & W1 & W2).
  assert (Fw : on_floor e0 t' a' k' w) by (split; [exact K'|]; exists y; auto).
  exact (towers_stays e0 P0 Ts HT PT t I _ a k w v (Q w Fw) (iter_add _ _ _ _ _ _ W2 Hi)).
Qed.

Lemma cylinders_meet Ts Ts' t a k t' a' k' x : ready e0 Ts -> ready e0 Ts' -> In t Ts -> In t' Ts' -> e_top (tw_base t) = [a] -> e_top (tw_base t') = [a'] ->
  on_floor e0 t a k x -> on_floor e0 t' a' k' x -> same_cylinder e0 t t'.
Proof.
  intros R R' I I' Et Et' F F'. exists a, a'. split; [exact Et|]. split; [exact Et'|]. split; [|split].
  - apply Rle_antisym; [exact (cylinder_width Ts' Ts t' a' k' t a k x R' R I' I Et F' F)|exact (cylinder_width Ts Ts' t a k t' a' k' x R R' I I' Et' F F')].
  - destruct R as (HT & PT), R' as (HT' & PT'). destruct (towers_cylinder e0 Ts P0 HT t a k x I (PT t I) Et F) as (Q1 & Q2). destruct (towers_cylinder e0 Ts' P0 HT' t' a' k' x I' (PT' t' I') Et' F') as (Q1' & Q2').
    destruct (lt_eq_lt_dec (tw_height t a) (tw_height t' a')) as [[L|E]|L]; [|exact E|]; exfalso.
    + apply (Q2' (tw_height t a)); [destruct F; lia|exact Q1].
    + apply (Q2 (tw_height t' a')); [destruct F'; lia|exact Q1'].
  - intro v. split; intros (b & j & Fv).
    + exact (cylinder_inside Ts' Ts t' a' k' t a k x R' R I' I Et F' F b j v Fv).
    + exact (cylinder_inside Ts Ts' t a k t' a' k' x R R' I I' Et' F F' b j v Fv).
Qed.

End Meet.
