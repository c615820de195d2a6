(** Dynamics of interval exchanges (specification level): the exchange map is a
    bijection of [0, L), and the induction moves produce first-return maps. *)
From Coq Require Import Reals Lra Lia List Permutation.
From Verif Require Import Spec.
Import ListNotations.
Open Scope R_scope.

(** * Rows of labels *)

Lemma total_app f l1 l2 : total f (l1 ++ l2) = total f l1 + total f l2.
Proof. induction l1 as [|x l1 IH]; simpl; [lra|]. rewrite IH. lra. Qed.

Lemma total_ext f g l : (forall x, In x l -> f x = g x) -> total f l = total g l.
Proof.
  induction l as [|x l IH]; intros H; simpl; [reflexivity|].
  rewrite (H x) by (left; reflexivity). rewrite IH; [reflexivity|].
  intros y Hy; apply H; right; exact Hy.
Qed.

Lemma total_nonneg f l : (forall x, In x l -> 0 < f x) -> 0 <= total f l.
Proof.
  induction l as [|x l IH]; intros H; simpl; [lra|].
  assert (0 < f x) by (apply H; left; reflexivity).
  assert (0 <= total f l) by (apply IH; intros y Hy; apply H; right; exact Hy). lra.
Qed.

Lemma total_perm f l1 l2 : Permutation l1 l2 -> total f l1 = total f l2.
Proof. induction 1; simpl; lra. Qed.

Lemma nodup_split_unique {A} (l : list A) a X Y X' Y' :
  NoDup l -> l = X ++ a :: Y -> l = X' ++ a :: Y' -> X = X' /\ Y = Y'.
Proof.
  intros Hn E. revert l X' Hn E. induction X as [|x X IH]; intros l X' Hn E E'.
  - destruct X' as [|x' X'].
    + subst. simpl in E'. injection E' as E'. auto.
    + subst l. simpl in E'. injection E' as <- E'. exfalso.
      inversion Hn; subst. apply H1. apply in_or_app; right; left; reflexivity.
  - destruct X' as [|x' X'].
    + subst l. simpl in E'. injection E' as -> E'. exfalso.
      inversion Hn; subst. apply H1. apply in_or_app; right; left; reflexivity.
    + subst l. simpl in E'. injection E' as <- E'.
      inversion Hn; subst. destruct (IH _ X' H2 eq_refl E') as [-> ->]. auto.
Qed.

Lemma app_cut {A} (X1 : list A) : forall Y1 X2 Y2, X1 ++ Y1 = X2 ++ Y2 ->
  (exists Z, X2 = X1 ++ Z /\ Y1 = Z ++ Y2) \/ (exists Z, X1 = X2 ++ Z /\ Y2 = Z ++ Y1).
Proof.
  induction X1 as [|x X1 IH]; intros Y1 X2 Y2 E; simpl in *.
  - left. exists X2. auto.
  - destruct X2 as [|x2 X2]; simpl in *.
    + right. exists (x :: X1). auto.
    + injection E as <- E. destruct (IH _ _ _ E) as [[Z [-> ->]]|[Z [-> ->]]]; [left|right]; exists Z; auto.
Qed.

(** The label containing a point is unique. *)
Lemma locate_unique f l X a Y X' a' Y' y :
  (forall c, In c l -> 0 < f c) -> l = X ++ a :: Y -> l = X' ++ a' :: Y' ->
  total f X <= y < total f X + f a -> total f X' <= y < total f X' + f a' ->
  X = X' /\ a = a' /\ Y = Y'.
Proof.
  intros Hp E E' H H'.
  assert (Hcut : X ++ (a :: Y) = X' ++ (a' :: Y')) by congruence.
  destruct (app_cut _ _ _ _ Hcut) as [[Z [E1 E2]]|[Z [E1 E2]]].
  - destruct Z as [|z Z].
    + rewrite app_nil_r in E1. simpl in E2. injection E2 as -> ->. auto.
    + exfalso. simpl in E2. injection E2 as <- E2. subst X'. rewrite total_app in H'. simpl in H'.
      assert (0 <= total f Z).
      { apply total_nonneg. intros c Hc. apply Hp. rewrite E. apply in_or_app. right. right.
        rewrite E2. apply in_or_app; left; exact Hc. }
      lra.
  - destruct Z as [|z Z].
    + rewrite app_nil_r in E1. simpl in E2. injection E2 as -> ->. auto.
    + exfalso. simpl in E2. injection E2 as <- E2. subst X. rewrite total_app in H. simpl in H.
      assert (0 <= total f Z).
      { apply total_nonneg. intros c Hc. apply Hp. rewrite E'. apply in_or_app. right. right.
        rewrite E2. apply in_or_app; left; exact Hc. }
      lra.
Qed.

Lemma locate_exists f l y : 0 <= y < total f l ->
  exists X a Y, l = X ++ a :: Y /\ total f X <= y < total f X + f a.
Proof.
  revert y; induction l as [|x l IH]; simpl; intros y H; [lra|].
  destruct (Rlt_le_dec y (f x)) as [Hy|Hy].
  - exists [], x, l. simpl. split; [reflexivity | lra].
  - destruct (IH (y - f x)) as [X [a [Y [E HH]]]]; [lra|].
    exists (x :: X), a, Y. simpl. split; [congruence | lra].
Qed.

Lemma total_piece f l X a Y : (forall c, In c l -> 0 < f c) -> l = X ++ a :: Y ->
  0 <= total f X /\ total f X + f a <= total f l.
Proof.
  intros Hp ->. rewrite total_app. simpl. split.
  - apply total_nonneg. intros c Hc; apply Hp. apply in_or_app; left; exact Hc.
  - assert (0 <= total f Y); [|lra].
    apply total_nonneg. intros c Hc; apply Hp. apply in_or_app; right; right; exact Hc.
Qed.

(** * The map *)

Lemma maps_iff e y z : maps e y z <->
  exists a X Y X' Y', e_top e = X ++ a :: Y /\ e_bot e = X' ++ a :: Y' /\
    total (e_len e) X <= y < total (e_len e) X + e_len e a /\
    z = y - total (e_len e) X + total (e_len e) X'.
Proof.
  unfold maps, span. split.
  - intros (a & x & x' & w & (X & Y & E1 & -> & ->) & (X' & Y' & E2 & -> & E3) & H & ->).
    exists a, X, Y, X', Y'. auto.
  - intros (a & X & Y & X' & Y' & E1 & E2 & H & ->).
    exists a, (total (e_len e) X), (total (e_len e) X'), (e_len e a).
    split; [exists X, Y; auto|]. split; [exists X', Y'; auto|]. auto.
Qed.

Lemma flip_proper e : proper e -> proper (flip e).
Proof.
  intros [H1 [H2 H3]]. split; [|split]; simpl.
  - eapply Permutation_NoDup; eassumption.
  - apply Permutation_sym, H2.
  - intros a Ha. apply H3. apply (Permutation_in _ (Permutation_sym H2)), Ha.
Qed.

Lemma maps_flip e y z : maps (flip e) y z <-> maps e z y.
Proof.
  rewrite !maps_iff. simpl. split; intros (a & X & Y & X' & Y' & E1 & E2 & H & ->);
    exists a, X', Y', X, Y; repeat split; auto; try lra.
Qed.

Lemma proper_bot_pos e : proper e -> forall c, In c (e_bot e) -> 0 < e_len e c.
Proof. intros [H1 [H2 H3]] c Hc. apply H3. apply (Permutation_in _ (Permutation_sym H2)), Hc. Qed.

Lemma proper_bot_nodup e : proper e -> NoDup (e_bot e).
Proof. intros [H1 [H2 H3]]. eapply Permutation_NoDup; eassumption. Qed.

Lemma proper_total e : proper e -> total (e_len e) (e_top e) = total (e_len e) (e_bot e).
Proof. intros [H1 [H2 H3]]. apply total_perm, H2. Qed.

Lemma maps_fun e : proper e -> forall y z z', maps e y z -> maps e y z' -> z = z'.
Proof.
  intros Hp y z z' H H'. rewrite maps_iff in *.
  destruct H as (a & X & Y & X' & Y' & E1 & E2 & H & ->).
  destruct H' as (b & U & V & U' & V' & F1 & F2 & H' & ->).
  destruct (locate_unique (e_len e) (e_top e) X a Y U b V y) as [-> [-> ->]]; auto.
  { apply Hp. }
  destruct (nodup_split_unique (e_bot e) b X' Y' U' V') as [-> ->]; auto.
  apply proper_bot_nodup, Hp.
Qed.

Lemma maps_inj e : proper e -> forall y y' z, maps e y z -> maps e y' z -> y = y'.
Proof.
  intros Hp y y' z H H'. apply maps_flip in H. apply maps_flip in H'.
  exact (maps_fun _ (flip_proper _ Hp) _ _ _ H H').
Qed.

Lemma maps_total e : proper e -> forall y, 0 <= y < total (e_len e) (e_top e) -> exists z, maps e y z.
Proof.
  intros Hp y Hy. destruct (locate_exists _ _ _ Hy) as [X [a [Y [E H]]]].
  assert (Ha : In a (e_bot e)).
  { destruct Hp as [_ [H2 _]]. apply (Permutation_in _ H2). rewrite E. apply in_or_app; right; left; reflexivity. }
  destruct (in_split _ _ Ha) as [X' [Y' E']].
  eexists. apply maps_iff. exists a, X, Y, X', Y'. repeat split; eauto; lra.
Qed.

Lemma maps_dom e : proper e -> forall y z, maps e y z -> 0 <= y < total (e_len e) (e_top e).
Proof.
  intros Hp y z H. apply maps_iff in H. destruct H as (a & X & Y & X' & Y' & E1 & E2 & H & ->).
  destruct (total_piece (e_len e) (e_top e) X a Y) as [H1 H2]; auto; [apply Hp|]. lra.
Qed.

Lemma maps_ran e : proper e -> forall y z, maps e y z -> 0 <= z < total (e_len e) (e_top e).
Proof.
  intros Hp y z H. apply maps_flip in H. apply maps_dom in H; [|apply flip_proper, Hp].
  simpl in H. rewrite proper_total; [exact H | exact Hp].
Qed.

Lemma maps_onto e : proper e -> forall z, 0 <= z < total (e_len e) (e_top e) -> exists y, maps e y z.
Proof.
  intros Hp z Hz. rewrite proper_total in Hz by exact Hp.
  destruct (maps_total (flip e) (flip_proper _ Hp) z Hz) as [y Hy].
  exists y. apply maps_flip, Hy.
Qed.

(** * Iteration and first returns of relations *)

Section Rel.
Context {A : Type} (f : A -> A -> Prop).

Lemma iter_add n m x y z : iter f n x y -> iter f m y z -> iter f (n + m) x z.
Proof.
  revert x; induction n as [|n IH]; simpl; intros x H1 H2; [subst; exact H2|].
  destruct H1 as [u [Hu H1]]. exists u. split; [exact Hu | apply IH; assumption].
Qed.

Lemma iter_split n m x z : iter f (n + m) x z -> exists y, iter f n x y /\ iter f m y z.
Proof.
  revert x; induction n as [|n IH]; simpl; intros x H.
  - exists x. auto.
  - destruct H as [u [Hu H]]. destruct (IH _ H) as [y [H1 H2]]. exists y. split; [exists u; auto | exact H2].
Qed.

Lemma iter_S_r n x z : iter f (S n) x z -> exists y, iter f n x y /\ f y z.
Proof.
  replace (S n) with (n + 1)%nat by lia. intros H. apply iter_split in H.
  destruct H as [y [H1 [u [H2 H3]]]]. simpl in H3. subst. exists y; auto.
Qed.

Lemma iter_fun : (forall x y z, f x y -> f x z -> y = z) ->
  forall n x y z, iter f n x y -> iter f n x z -> y = z.
Proof.
  intros Hf. induction n as [|n IH]; simpl; intros x y z H1 H2; [congruence|].
  destruct H1 as [u [Hu H1]], H2 as [v [Hv H2]]. rewrite (Hf _ _ _ Hu Hv) in H1. eauto.
Qed.

Lemma iter_inj : (forall x y z, f x z -> f y z -> x = y) ->
  forall n x y z, iter f n x z -> iter f n y z -> x = y.
Proof.
  intros Hf. induction n as [|n IH]; simpl; intros x y z H1 H2; [congruence|].
  destruct H1 as [u [Hu H1]], H2 as [v [Hv H2]]. rewrite (IH _ _ _ H1 H2) in Hu. eauto.
Qed.

Lemma iter_inverse n x y : iter (inverse f) n x y <-> iter f n y x.
Proof.
  revert x y; induction n as [|n IH]; intros x y; [simpl; split; congruence|]. split.
  - intros [u [Hu H]]. apply IH in H. replace (S n) with (n + 1)%nat by lia.
    apply iter_add with u; [exact H|]. exists x. split; [exact Hu | reflexivity].
  - intros H. apply iter_S_r in H. destruct H as [u [H1 H2]]. exists u. split; [exact H2 | apply IH, H1].
Qed.

Lemma first_return_fun (J : A -> Prop) : (forall x y z, f x y -> f x z -> y = z) ->
  forall x y z, first_return f J x y -> first_return f J x z -> y = z.
Proof.
  intros Hf x y z [n [Hn [H1 [H2 H3]]]] [m [Hm [G1 [G2 G3]]]].
  destruct (lt_eq_lt_dec n m) as [[H|H]|H].
  - exfalso. apply (G3 n y); auto.
  - subst. eapply iter_fun; eassumption.
  - exfalso. apply (H3 m z); auto.
Qed.

Lemma first_return_inverse (J : A -> Prop) : (forall x y z, f x y -> f x z -> y = z) ->
  (forall x y z, f x z -> f y z -> x = y) ->
  forall x y, J x -> J y -> (first_return (inverse f) J x y <-> first_return f J y x).
Proof.
  intros Hf Hi x y Jx Jy. split.
  - intros [n [Hn [H1 [_ H3]]]]. apply iter_inverse in H1. exists n. repeat split; auto.
    intros k z Hk Hz Jz.
    assert (E : iter f (k + (n - k)) y x) by (replace (k + (n - k))%nat with n by lia; exact H1).
    apply iter_split in E. destruct E as [w [E1 E2]].
    rewrite (iter_fun Hf _ _ _ _ Hz E1) in Jz.
    apply (H3 (n - k)%nat w); [lia | apply iter_inverse, E2 | exact Jz].
  - intros [n [Hn [H1 [_ H3]]]]. exists n. repeat split; auto.
    + apply iter_inverse, H1.
    + intros k z Hk Hz Jz. apply iter_inverse in Hz.
      assert (E : iter f ((n - k) + k) y x) by (replace ((n - k) + k)%nat with n by lia; exact H1).
      apply iter_split in E. destruct E as [w [E1 E2]].
      rewrite (iter_inj Hi _ _ _ _ Hz E2) in Jz.
      apply (H3 (n - k)%nat w); [lia | exact E1 | exact Jz].
Qed.

(** First returns of first returns are first returns. *)
Lemma first_return_trans (J1 J2 : A -> Prop) (g : A -> A -> Prop) :
  (forall x y z, f x y -> f x z -> y = z) ->
  (forall x, J2 x -> J1 x) ->
  (forall x y, g x y -> first_return f J1 x y) ->
  forall x y, first_return g J2 x y -> first_return f J2 x y.
Proof.
  intros Hf HJ Hg x y [n [Hn [H1 [H2 H3]]]].
  revert x H1 H3. induction n as [|n IH]; intros x H1 H3; [lia|].
  destruct H1 as [z [Hz H1]]. destruct (Hg _ _ Hz) as [m [Hm [G1 [G2 G3]]]].
  destruct n as [|n].
  - simpl in H1. subst z. exists m. repeat split; auto. intros k w Hk Hw Jw. apply (G3 k w); auto.
  - destruct (IH ltac:(lia) z H1) as [m2 [Hm2 [F1 [F2 F3]]]].
    { intros k w Hk Hw. apply (H3 (S k) w); [lia|]. exists z. auto. }
    assert (Hz2 : ~ J2 z).
    { apply (H3 1%nat z); [lia|]. exists z. simpl. auto. }
    exists (m + m2)%nat. repeat split; [lia | eapply iter_add; eassumption | exact F2 |].
    intros k w Hk Hw Jw. destruct (lt_eq_lt_dec k m) as [[Hlt|Heq]|Hgt].
    + apply (G3 k w); [lia | exact Hw | apply HJ, Jw].
    + subst k. rewrite (iter_fun Hf _ _ _ _ Hw G1) in Jw. exact (Hz2 Jw).
    + replace k with (m + (k - m))%nat in Hw by lia. apply iter_split in Hw.
      destruct Hw as [u [U1 U2]]. rewrite (iter_fun Hf _ _ _ _ U1 G1) in U2.
      apply (F3 (k - m)%nat w); [lia | exact U2 | exact Jw].
Qed.

Lemma first_return_mono_iter J x y : first_return f J x y -> exists n, (n >= 1)%nat /\ iter f n x y.
Proof. intros [n [H1 [H2 _]]]. eauto. Qed.

End Rel.

(** Transport of iterates along a map. *)
Lemma iter_map {A B} (f : A -> A -> Prop) (g : B -> B -> Prop) (h : A -> B) :
  (forall x y, f x y -> g (h x) (h y)) -> forall n x y, iter f n x y -> iter g n (h x) (h y).
Proof.
  intros H. induction n as [|n IH]; simpl; intros x y Hi; [congruence|].
  destruct Hi as [z [Hz Hi]]. exists (h z). auto.
Qed.

(** * Inducing on a right sub-interval *)

(** It is enough to establish one direction. *)
Lemma induced_intro e e' : proper e -> proper e' ->
  let d := total (e_len e) (e_top e) - total (e_len e') (e_top e') in
  0 <= d ->
  (forall y z, maps e' y z -> first_return (maps e) (fun u => d <= u) (y + d) (z + d)) ->
  (forall y, 0 <= y < total (e_len e) (e_top e) -> exists n z, iter (maps e) n y z /\ d <= z) ->
  induced e e'.
Proof.
  intros Hp Hp' d Hd H Hv. split; [exact Hd|]. split; [|exact Hv]. fold d.
  intros y z Hy. split; [apply H|]. intros Hr.
  assert (Hdom : 0 <= y + d < total (e_len e) (e_top e)).
  { destruct Hr as [n [Hn [Hi _]]]. destruct n as [|n]; [lia|]. destruct Hi as [u [Hu _]].
    exact (maps_dom _ Hp _ _ Hu). }
  destruct (maps_total e' Hp' y) as [z' Hz']; [unfold d in *; lra|].
  pose proof (H _ _ Hz') as Hr'.
  assert (z' + d = z + d) by (eapply first_return_fun; [apply maps_fun, Hp | exact Hr' | exact Hr]).
  replace z with z' by lra. exact Hz'.
Qed.

Lemma induced_refl e e' : same_exch e e' -> proper e -> induced e e'.
Proof.
  intros [Ht [Hb Hl]] Hp.
  assert (Etot : forall l, total (e_len e) l = total (e_len e') l) by (intros l; apply total_ext; auto).
  assert (Ed : total (e_len e) (e_top e) - total (e_len e') (e_top e') = 0) by (rewrite Etot, Ht; lra).
  assert (Hp' : proper e').
  { destruct Hp as [H1 [H2 H3]]. split; [|split]; rewrite <- ?Ht, <- ?Hb; auto.
    intros a Ha. rewrite <- Hl. apply H3. exact Ha. }
  apply induced_intro; auto; rewrite Ed.
  - lra.
  - intros y z H. exists 1%nat. split; [lia|].
    assert (Hm : maps e y z).
    { apply maps_iff in H. apply maps_iff. destruct H as (a & X & Y & X' & Y' & E1 & E2 & H & ->).
      exists a, X, Y, X', Y'. rewrite !Etot, Hl, Ht, Hb. auto. }
    rewrite !Rplus_0_r. split; [exists z; simpl; auto|]. split.
    + apply (maps_ran _ Hp) in Hm. lra.
    + intros k w Hk. lia.
  - intros y Hy. exists 0%nat, y. simpl. split; [reflexivity | lra].
Qed.

Lemma induced_trans e1 e2 e3 : proper e1 -> proper e2 -> proper e3 ->
  induced e1 e2 -> induced e2 e3 -> induced e1 e3.
Proof.
  intros P1 P2 P3 [D1 [F1 V1]] [D2 [F2 V2]].
  set (d1 := total (e_len e1) (e_top e1) - total (e_len e2) (e_top e2)) in *.
  set (d2 := total (e_len e2) (e_top e2) - total (e_len e3) (e_top e3)) in *.
  assert (Ed : total (e_len e1) (e_top e1) - total (e_len e3) (e_top e3) = d1 + d2) by (unfold d1, d2; lra).
  apply induced_intro; auto; rewrite Ed.
  - lra.
  - intros y z H. pose proof (maps_dom _ P3 _ _ H) as Hy. apply F2 in H; [|lra].
    set (g := fun u v => maps e2 (u - d1) (v - d1)).
    assert (Hg : first_return g (fun u => d1 + d2 <= u) (y + (d1 + d2)) (z + (d1 + d2))).
    { destruct H as [n [Hn [Hi [HJ Hk]]]]. exists n. split; [exact Hn|].
      split.
      { replace (y + (d1 + d2)) with ((fun u => u + d1) (y + d2)) by lra.
        replace (z + (d1 + d2)) with ((fun u => u + d1) (z + d2)) by lra.
        apply (iter_map (maps e2) g (fun u => u + d1)); [|exact Hi].
        intros u v Huv. unfold g. replace (u + d1 - d1) with u by lra. replace (v + d1 - d1) with v by lra. exact Huv. }
      split; [lra|]. intros k w Hkk Hw Jw. apply (Hk k (w - d1)); [exact Hkk | | lra].
      replace (y + d2) with ((fun u => u - d1) (y + (d1 + d2))) by lra.
      apply (iter_map g (maps e2) (fun u => u - d1)); [|exact Hw].
      intros u v Huv. exact Huv. }
    apply (first_return_trans (maps e1) (fun u => d1 <= u) (fun u => d1 + d2 <= u) g).
    + apply maps_fun, P1.
    + intros u Hu. lra.
    + intros u v Huv. unfold g in Huv. pose proof (maps_dom _ P2 _ _ Huv) as Hd.
      apply F1 in Huv; [|lra]. replace (u - d1 + d1) with u in Huv by lra.
      replace (v - d1 + d1) with v in Huv by lra. exact Huv.
    + exact Hg.
  - intros y Hy. destruct (V1 y Hy) as [n [z [Hi Hz]]].
    assert (Hzr : 0 <= z < total (e_len e1) (e_top e1)).
    { destruct n as [|n]; [simpl in Hi; subst; exact Hy|].
      apply iter_S_r in Hi. destruct Hi as [u [_ Hu]]. exact (maps_ran _ P1 _ _ Hu). }
    destruct (V2 (z - d1)) as [m [w [Hm Hw]]]; [unfold d1 in *; lra|].
    assert (Hm1 : forall m u v, iter (maps e2) m u v -> exists k, iter (maps e1) k (u + d1) (v + d1)).
    { clear - F1 P2. induction m as [|m IH]; intros u v H.
      - simpl in H. subst. exists 0%nat. reflexivity.
      - destruct H as [t [Ht H]]. destruct (IH _ _ H) as [k Hk].
        pose proof (maps_dom _ P2 _ _ Ht) as Hd. apply F1 in Ht; [|lra].
        destruct Ht as [j [_ [Hj _]]]. exists (j + k)%nat. eapply iter_add; eassumption. }
    destruct (Hm1 _ _ _ Hm) as [k Hk]. replace (z - d1 + d1) with z in Hk by lra.
    exists (n + k)%nat, (w + d1). split; [eapply iter_add; eassumption | lra].
Qed.

(** Every backward orbit visits the sub-interval as well. *)
Lemma induced_flip e e' : proper e -> proper e' -> induced e e' -> induced (flip e) (flip e').
Proof.
  intros P P' [D [F V]].
  set (d := total (e_len e) (e_top e) - total (e_len e') (e_top e')) in *.
  assert (Ed : total (e_len (flip e)) (e_top (flip e)) - total (e_len (flip e')) (e_top (flip e')) = d).
  { simpl. rewrite <- !proper_total by assumption. reflexivity. }
  assert (Hinv : forall n x y, iter (maps (flip e)) n x y <-> iter (maps e) n y x).
  { intros n x y. rewrite <- iter_inverse. split; apply (iter_map _ _ (fun u => u)); intros u v; apply maps_flip. }
  apply induced_intro; try apply flip_proper; auto; rewrite Ed.
  - exact D.
  - intros y z H. pose proof (maps_dom _ (flip_proper _ P') _ _ H) as Hy.
    pose proof (maps_ran _ (flip_proper _ P') _ _ H) as Hz.
    apply (proj1 (maps_flip e' y z)) in H. apply F in H; [|lra].
    apply (first_return_inverse (maps e) (fun u => d <= u)) in H;
      [| apply maps_fun, P | apply maps_inj, P | lra | lra].
    destruct H as [n [H1 [H2 [H3 H4]]]]. exists n. repeat split; auto.
    + apply Hinv. apply iter_inverse. exact H2.
    + intros k w Hk Hw. apply (H4 k w Hk). apply iter_inverse, Hinv, Hw.
  - (* an orbit of the inverse that never visits: use the first return of a visited forward point *)
    intros y Hy. simpl in Hy. rewrite <- proper_total in Hy by exact P.
    destruct (Rle_lt_dec d y) as [Hdy|Hdy].
    { exists 0%nat, y. split; [reflexivity | exact Hdy]. }
    (* forward orbit hits [w >= d]; the preimage under the induced map is a backward visit *)
    destruct (V y Hy) as [n [w [Hn Hw]]].
    (* choose the first visit *)
    assert (Hfirst : exists n w, iter (maps e) n y w /\ d <= w /\
              forall k u, (k < n)%nat -> iter (maps e) k y u -> u < d).
    { clear Hinv. revert w Hn Hw. induction n as [n IH] using (well_founded_induction Wf_nat.lt_wf).
      intros w Hn Hw.
      destruct (Classical_Prop.classic (exists k u, (k < n)%nat /\ iter (maps e) k y u /\ d <= u)) as [[k [u [Hk [Hu1 Hu2]]]]|Hno].
      - exact (IH k Hk u Hu1 Hu2).
      - exists n, w. repeat split; auto. intros k u Hk Hu.
        destruct (Rlt_le_dec u d) as [H|H]; [exact H|]. exfalso. apply Hno. exists k, u. auto. }
    destruct Hfirst as [m [u [Hm [Hu Hmin]]]].
    assert (Hur : 0 <= u < total (e_len e) (e_top e)).
    { destruct m as [|m]; [simpl in Hm; subst; exact Hy|].
      apply iter_S_r in Hm. destruct Hm as [t [_ Ht]]. exact (maps_ran _ P _ _ Ht). }
    destruct (maps_onto e' P' (u - d)) as [v Hv]; [unfold d in *; lra|].
    pose proof (maps_dom _ P' _ _ Hv) as Hvd.
    apply F in Hv; [|lra]. replace (u - d + d) with u in Hv by lra.
    destruct Hv as [q [Hq [Hi [_ Hk]]]].
    (* m < q, since y is not visited earlier *)
    assert (Hmq : (m < q)%nat \/ (q <= m)%nat) by lia. destruct Hmq as [Hmq|Hmq].
    + exists (q - m)%nat, (v + d). split; [|lra]. apply Hinv.
      replace q with ((q - m) + m)%nat in Hi by lia. apply iter_split in Hi. destruct Hi as [t [T1 T2]].
      rewrite (iter_inj _ (maps_inj _ P) _ _ _ _ Hm T2). exact T1.
    + exfalso. replace m with ((m - q) + q)%nat in Hm by lia. apply iter_split in Hm.
      destruct Hm as [t [T1 T2]]. rewrite (iter_inj _ (maps_inj _ P) _ _ _ _ T2 Hi) in T1.
      assert (v + d < d) by (apply (Hmin (m - q)%nat); [lia | exact T1]). lra.
Qed.

(** * Elementary moves *)

Lemma rauzy_step_proper e e' : proper e -> rauzy_step e e' -> proper e'.
Proof.
  intros [H1 [H2 H3]] (a & b & X & Y1 & Y2 & Et & Eb & Hlt & Et' & Eb' & Ha & Hc).
  split; [|split]; rewrite ?Et', ?Eb'.
  - exact H1.
  - rewrite H2, Eb. change (b :: Y1 ++ a :: Y2) with ((b :: Y1) ++ a :: Y2).
    change (Y1 ++ b :: a :: Y2) with (Y1 ++ [b] ++ a :: Y2). rewrite app_assoc.
    apply Permutation_app_tail. apply Permutation_cons_append.
  - intros c Hcin. destruct (Nat.eq_dec c a) as [->|Hne].
    + lra.
    + rewrite Hc by exact Hne. apply H3, Hcin.
Qed.

(** Labels other than those of the move: common part of all moves. *)
Lemma rauzy_step_induced e e' : proper e -> rauzy_step e e' -> induced e e'.
Proof.
  intros P S. pose proof (rauzy_step_proper _ _ P S) as P'.
  destruct S as (a & b & X & Y1 & Y2 & Et & Eb & Hlt & Et' & Eb' & Ha & Hc).
  pose proof P as [N [Pm Pos]].
  assert (NB : NoDup (e_bot e)) by (apply proper_bot_nodup, P).
  assert (PosB : forall c, In c (e_bot e) -> 0 < e_len e c) by (apply proper_bot_pos, P).
  assert (Hbp : 0 < e_len e b) by (apply PosB; rewrite Eb; left; reflexivity).
  assert (Hab : b <> a).
  { rewrite Eb in NB. inversion NB; subst. intros ->. apply H1. apply in_or_app; right; left; reflexivity. }
  assert (HaX : ~ In a X) by (rewrite Et in N; inversion N; assumption).
  assert (HaY : ~ In a (b :: Y1) /\ ~ In a Y2).
  { rewrite Eb in NB. change (b :: Y1 ++ a :: Y2) with ((b :: Y1) ++ a :: Y2) in NB.
    apply NoDup_remove_2 in NB. rewrite in_app_iff in NB. tauto. }
  destruct HaY as [HaY1 HaY2].
  assert (Hpart : forall l, ~ In a l -> total (e_len e') l = total (e_len e) l).
  { intros l Hl. apply total_ext. intros c Hcin. apply Hc. intros ->. exact (Hl Hcin). }
  assert (Ed : total (e_len e) (e_top e) - total (e_len e') (e_top e') = e_len e b).
  { rewrite Et', Et. simpl. rewrite (Hpart X HaX), Ha. lra. }
  (* points in [0, len b) are in the top interval of a *)
  assert (Hlow : forall u, 0 <= u < e_len e b -> maps e u (u + e_len e b + total (e_len e) Y1)).
  { intros u Hu. apply maps_iff. exists a, [], X, (b :: Y1), Y2. simpl. repeat split; auto; lra. }
  assert (HnnY1 : 0 <= total (e_len e) Y1).
  { apply total_nonneg. intros c Hcin. apply PosB. rewrite Eb. right. apply in_or_app; left; exact Hcin. }
  apply induced_intro; auto; rewrite Ed.
  - lra.
  - intros y z H. apply maps_iff in H. destruct H as (c & U & V & U' & V' & E1 & E2 & H & Hz).
    rewrite Et', Et in E1. rewrite Eb' in E2.
    destruct (Nat.eq_dec c a) as [->|Hca].
    + (* the point is in the shortened interval a *)
      destruct U as [|u0 U]; [|exfalso; simpl in E1; injection E1 as <- E1; apply HaX; rewrite E1; apply in_or_app; right; left; reflexivity].
      destruct (nodup_split_unique (e_bot e') a (Y1 ++ [b]) Y2 U' V') as [<- <-].
      { apply proper_bot_nodup, P'. } { rewrite Eb', <- app_assoc. reflexivity. } { rewrite Eb'; exact E2. }
      simpl in H, Hz. rewrite Ha in H.
      rewrite total_app in Hz. simpl in Hz. rewrite (Hpart Y1), (Hc b) in Hz by (auto; intros Hin; apply HaY1; right; exact Hin).
      exists 1%nat. split; [lia|]. split; [|split; [lra | intros; lia]].
      exists (z + e_len e b). split; [|reflexivity].
      apply maps_iff. exists a, [], X, (b :: Y1), Y2. simpl. repeat split; auto; lra.
    + destruct U as [|u0 U]; [simpl in E1; congruence|]. simpl in E1. injection E1 as <- E1.
      assert (HaU : ~ In a U) by (intros Hin; apply HaX; rewrite E1; apply in_or_app; left; exact Hin).
      simpl in H, Hz. rewrite (Hpart U HaU), Ha, (Hc c Hca) in H. rewrite (Hpart U HaU), Ha in Hz.
      destruct (Nat.eq_dec c b) as [->|Hcb].
      * (* the point passes through [0, len b) *)
        destruct (nodup_split_unique (e_bot e') b Y1 (a :: Y2) U' V') as [<- <-].
        { apply proper_bot_nodup, P'. } { exact Eb'. } { rewrite Eb'; exact E2. }
        rewrite (Hpart Y1) in Hz by (intros Hin; apply HaY1; right; exact Hin).
        set (u := y + e_len e b - (e_len e a + total (e_len e) U)).
        assert (Hm : maps e (y + e_len e b) u).
        { apply maps_iff. exists b, (a :: U), V, [], (Y1 ++ a :: Y2). simpl. rewrite Et, E1, Eb.
          unfold u. repeat split; auto; lra. }
        exists 2%nat. split; [lia|]. split; [|split].
        -- exists u. split; [exact Hm|]. exists (z + e_len e b). split; [|reflexivity].
           replace (z + e_len e b) with (u + e_len e b + total (e_len e) Y1) by (unfold u; lra).
           apply Hlow. unfold u; lra.
        -- lra.
        -- intros k w Hk Hw. assert (k = 1%nat) by lia. subst k. destruct Hw as [w' [Hw' Ew]]. simpl in Ew. subst w'.
           rewrite (maps_fun _ P _ _ _ Hw' Hm). unfold u. lra.
      * (* unaffected labels *)
        assert (Hb : exists Z Z', e_bot e = (b :: Z) ++ c :: Z' /\ total (e_len e') U' = total (e_len e) Z).
        { assert (Hcut : U' ++ c :: V' = Y1 ++ b :: a :: Y2) by congruence.
          destruct (app_cut _ _ _ _ Hcut) as [[Z [Z1 Z2]]|[Z [Z1 Z2]]].
          - destruct Z as [|z0 Z]; [simpl in Z2; injection Z2; intros; congruence|].
            simpl in Z2. injection Z2 as <- Z2.
            exists U', (Z ++ a :: Y2). split.
            + rewrite Eb, Z1. simpl. rewrite <- app_assoc. reflexivity.
            + apply Hpart. intros Hin. apply HaY1. right. rewrite Z1. apply in_or_app; left; exact Hin.
          - destruct Z as [|z0 Z]; [simpl in Z2; injection Z2; intros; congruence|].
            simpl in Z2. injection Z2 as <- Z2. destruct Z as [|z1 Z]; [simpl in Z2; injection Z2; intros; congruence|].
            simpl in Z2. injection Z2 as <- Z2.
            exists (Y1 ++ a :: Z), V'. split.
            + rewrite Eb, Z2. simpl. rewrite <- app_assoc. reflexivity.
            + rewrite Z1, !total_app. simpl.
              rewrite (Hpart Y1) by (intros Hin; apply HaY1; right; exact Hin).
              rewrite (Hpart Z) by (intros Hin; apply HaY2; rewrite Z2; apply in_or_app; left; exact Hin).
              rewrite Ha, (Hc b Hab). lra. }
        destruct Hb as [Z [Z' [EZ HZ]]].
        exists 1%nat. split; [lia|].
        assert (Hm : maps e (y + e_len e b) (z + e_len e b)).
        { apply maps_iff. exists c, (a :: U), V, (b :: Z), Z'. simpl. rewrite Et, E1. repeat split; auto; try lra. }
        split; [exists (z + e_len e b); simpl; auto|]. split; [|intros; lia].
        assert (0 <= total (e_len e) Z).
        { apply total_nonneg. intros d Hd. apply PosB. rewrite EZ. right. apply in_or_app; left; exact Hd. }
        rewrite HZ in Hz. lra.
  - intros y Hy. destruct (Rle_lt_dec (e_len e b) y) as [H|H].
    + exists 0%nat, y. split; [reflexivity | exact H].
    + exists 1%nat, (y + e_len e b + total (e_len e) Y1). split; [|lra].
      eexists. split; [apply Hlow; lra | reflexivity].
Qed.

Lemma same_exch_proper e e' : same_exch e e' -> proper e -> proper e'.
Proof.
  intros [Ht [Hb Hl]] [H1 [H2 H3]]. split; [|split]; rewrite <- ?Ht, <- ?Hb; auto.
  intros a Ha. rewrite <- Hl. apply H3, Ha.
Qed.

Lemma rauzy_run_induced e e' : proper e -> rauzy_run e e' -> induced e e' /\ proper e'.
Proof.
  intros P R. revert P. induction R as [e e' S | e e1 e' S R IH]; intros P.
  - split; [apply induced_refl; assumption | eapply same_exch_proper; eassumption].
  - pose proof (rauzy_step_proper _ _ P S) as P1. destruct (IH P1) as [I P'].
    split; [|exact P']. apply (induced_trans e e1 e'); auto. apply rauzy_step_induced; assumption.
Qed.

(** * Merging *)

Lemma merge_step_proper e e' : proper e -> merge_step e e' -> proper e'.
Proof.
  intros [H1 [H2 H3]] (a & b & X & Y1 & Y2 & Et & Eb & Hl & Et' & Eb' & Hc).
  split; [|split]; rewrite ?Et', ?Eb'.
  - rewrite Et in H1. inversion H1; assumption.
  - rewrite Et, Eb in H2. apply (Permutation_cons_inv (a := a)). rewrite H2.
    change (b :: Y1 ++ a :: Y2) with ((b :: Y1) ++ a :: Y2). rewrite <- Permutation_middle.
    apply perm_skip. simpl. apply Permutation_middle.
  - intros c Hcin. rewrite Hc.
    + apply H3. rewrite Et. right; exact Hcin.
    + intros ->. rewrite Et in H1. inversion H1; contradiction.
Qed.

Lemma merge_step_induced e e' : proper e -> merge_step e e' -> induced e e'.
Proof.
  intros P S. pose proof (merge_step_proper _ _ P S) as P'.
  destruct S as (a & b & X & Y1 & Y2 & Et & Eb & Hl & Et' & Eb' & Hc).
  pose proof P as [N [Pm Pos]].
  assert (NB : NoDup (e_bot e)) by (apply proper_bot_nodup, P).
  assert (PosB : forall c, In c (e_bot e) -> 0 < e_len e c) by (apply proper_bot_pos, P).
  assert (Hbp : 0 < e_len e b) by (apply PosB; rewrite Eb; left; reflexivity).
  assert (Hab : b <> a).
  { rewrite Eb in NB. inversion NB; subst. intros ->. apply H1. apply in_or_app; right; left; reflexivity. }
  assert (HaX : ~ In a X) by (rewrite Et in N; inversion N; assumption).
  assert (HaY : ~ In a (b :: Y1) /\ ~ In a Y2).
  { rewrite Eb in NB. change (b :: Y1 ++ a :: Y2) with ((b :: Y1) ++ a :: Y2) in NB.
    apply NoDup_remove_2 in NB. rewrite in_app_iff in NB. tauto. }
  destruct HaY as [HaY1 HaY2].
  assert (Hpart : forall l, ~ In a l -> total (e_len e') l = total (e_len e) l).
  { intros l Hl'. apply total_ext. intros c Hcin. apply Hc. intros ->. exact (Hl' Hcin). }
  assert (Ed : total (e_len e) (e_top e) - total (e_len e') (e_top e') = e_len e b).
  { rewrite Et', Et. simpl. rewrite (Hpart X HaX). lra. }
  assert (Hlow : forall u, 0 <= u < e_len e b -> maps e u (u + e_len e b + total (e_len e) Y1)).
  { intros u Hu. apply maps_iff. exists a, [], X, (b :: Y1), Y2. simpl. repeat split; auto; lra. }
  assert (HnnY1 : 0 <= total (e_len e) Y1).
  { apply total_nonneg. intros c Hcin. apply PosB. rewrite Eb. right. apply in_or_app; left; exact Hcin. }
  apply induced_intro; auto; rewrite Ed.
  - lra.
  - intros y z H. apply maps_iff in H. destruct H as (c & U & V & U' & V' & E1 & E2 & H & Hz).
    rewrite Et' in E1. rewrite Eb' in E2.
    assert (Hca : c <> a) by (intros ->; apply HaX; rewrite E1; apply in_or_app; right; left; reflexivity).
    assert (HaU : ~ In a U) by (intros Hin; apply HaX; rewrite E1; apply in_or_app; left; exact Hin).
    rewrite (Hpart U HaU), (Hc c Hca) in H. rewrite (Hpart U HaU) in Hz.
    destruct (Nat.eq_dec c b) as [->|Hcb].
    + destruct (nodup_split_unique (e_bot e') b Y1 Y2 U' V') as [<- <-].
      { apply proper_bot_nodup, P'. } { exact Eb'. } { rewrite Eb'; exact E2. }
      rewrite (Hpart Y1) in Hz by (intros Hin; apply HaY1; right; exact Hin).
      set (u := y - total (e_len e) U).
      assert (Hm : maps e (y + e_len e b) u).
      { apply maps_iff. exists b, (a :: U), V, [], (Y1 ++ a :: Y2). simpl. rewrite Et, E1, Eb.
        unfold u. repeat split; auto; lra. }
      exists 2%nat. split; [lia|]. split; [|split].
      * exists u. split; [exact Hm|]. exists (z + e_len e b). split; [|reflexivity].
        replace (z + e_len e b) with (u + e_len e b + total (e_len e) Y1) by (unfold u; lra).
        apply Hlow. unfold u; lra.
      * lra.
      * intros k w Hk Hw. assert (k = 1%nat) by lia. subst k. destruct Hw as [w' [Hw' Ew]]. simpl in Ew. subst w'.
        rewrite (maps_fun _ P _ _ _ Hw' Hm). unfold u. lra.
    + assert (Hb : exists Z Z', e_bot e = (b :: Z) ++ c :: Z' /\ total (e_len e') U' = total (e_len e) Z).
      { assert (Hcut : U' ++ c :: V' = Y1 ++ b :: Y2) by congruence.
        destruct (app_cut _ _ _ _ Hcut) as [[Z [Z1 Z2]]|[Z [Z1 Z2]]].
        - destruct Z as [|z0 Z]; [simpl in Z2; injection Z2; intros; congruence|].
          simpl in Z2. injection Z2 as <- Z2.
          exists U', (Z ++ a :: Y2). split.
          + rewrite Eb, Z1. simpl. rewrite <- app_assoc. reflexivity.
          + apply Hpart. intros Hin. apply HaY1. right. rewrite Z1. apply in_or_app; left; exact Hin.
        - destruct Z as [|z0 Z]; [simpl in Z2; injection Z2; intros; congruence|].
          simpl in Z2. injection Z2 as <- Z2.
          exists (Y1 ++ a :: Z), V'. split.
          + rewrite Eb, Z2. simpl. rewrite <- app_assoc. reflexivity.
          + rewrite Z1, !total_app. simpl.
            rewrite (Hpart Y1) by (intros Hin; apply HaY1; right; exact Hin).
            rewrite (Hpart Z) by (intros Hin; apply HaY2; rewrite Z2; apply in_or_app; left; exact Hin).
            rewrite Hl, (Hc b Hab). lra. }
      destruct Hb as [Z [Z' [EZ HZ]]].
      exists 1%nat. split; [lia|].
      assert (Hm : maps e (y + e_len e b) (z + e_len e b)).
      { apply maps_iff. exists c, (a :: U), V, (b :: Z), Z'. simpl. rewrite Et, E1. repeat split; auto; try lra. }
      split; [exists (z + e_len e b); simpl; auto|]. split; [|intros; lia].
      assert (0 <= total (e_len e) Z).
      { apply total_nonneg. intros d Hd. apply PosB. rewrite EZ. right. apply in_or_app; left; exact Hd. }
      rewrite HZ in Hz. lra.
  - intros y Hy. destruct (Rle_lt_dec (e_len e b) y) as [H|H].
    + exists 0%nat, y. split; [reflexivity | exact H].
    + exists 1%nat, (y + e_len e b + total (e_len e) Y1). split; [|lra].
      eexists. split; [apply Hlow; lra | reflexivity].
Qed.

(** * Cutting at an invariant prefix *)

Lemma cut_left e X1 X2 Y1 Y2 : proper e -> e_top e = X1 ++ X2 -> e_bot e = Y1 ++ Y2 ->
  Permutation X1 Y1 -> forall y z,
  maps (mkexch X1 Y1 (e_len e)) y z <-> maps e y z /\ y < total (e_len e) X1.
Proof.
  intros P Et Eb Pm y z. rewrite !maps_iff. simpl. split.
  - intros (a & U & V & U' & V' & E1 & E2 & H & ->). split.
    + exists a, U, (V ++ X2), U', (V' ++ Y2). rewrite Et, Eb, E1, E2, <- !app_assoc. auto.
    + assert (HH : total (e_len e) U + e_len e a <= total (e_len e) X1).
      { apply (total_piece (e_len e) X1 U a V); auto. intros c Hc. apply P. rewrite Et.
        apply in_or_app; left; exact Hc. }
      lra.
  - intros [(a & U & V & U' & V' & E1 & E2 & H & ->) Hy].
    assert (Ha : In a X1).
    { rewrite Et in E1. destruct (app_cut _ _ _ _ E1) as [[Z [Z1 Z2]]|[Z [Z1 Z2]]].
      - exfalso. rewrite Z1, total_app in H.
        assert (0 <= total (e_len e) Z); [|lra].
        apply total_nonneg. intros c Hc. apply P. rewrite Et, Z2. rewrite !in_app_iff. auto.
      - destruct Z as [|z0 Z].
        + exfalso. rewrite app_nil_r in Z1. subst U. lra.
        + simpl in Z2. injection Z2 as <- Z2. rewrite Z1. apply in_or_app; right; left; reflexivity. }
    assert (Ha' : In a Y1) by (apply (Permutation_in _ Pm), Ha).
    destruct (in_split _ _ Ha) as [W [W2 EW]]. destruct (in_split _ _ Ha') as [W' [W2' EW']].
    destruct (nodup_split_unique (e_top e) a U V W (W2 ++ X2)) as [-> _]; auto.
    { apply P. } { rewrite Et, EW, <- app_assoc. reflexivity. }
    destruct (nodup_split_unique (e_bot e) a U' V' W' (W2' ++ Y2)) as [-> _]; auto.
    { apply proper_bot_nodup, P. } { rewrite Eb, EW', <- app_assoc. reflexivity. }
    exists a, W, W2, W', W2'. auto.
Qed.

Lemma cut_right e X1 X2 Y1 Y2 : proper e -> e_top e = X1 ++ X2 -> e_bot e = Y1 ++ Y2 ->
  Permutation X1 Y1 -> forall y z, 0 <= y ->
  (maps (mkexch X2 Y2 (e_len e)) y z <-> maps e (y + total (e_len e) X1) (z + total (e_len e) X1)).
Proof.
  intros P Et Eb Pm y z Hy0. pose proof (total_perm (e_len e) _ _ Pm) as Ht.
  rewrite !maps_iff. simpl. split.
  - intros (a & U & V & U' & V' & E1 & E2 & H & ->).
    exists a, (X1 ++ U), V, (Y1 ++ U'), V'. rewrite Et, Eb, E1, E2, !total_app, <- !app_assoc.
    repeat split; auto; lra.
  - intros (a & U & V & U' & V' & E1 & E2 & H & Hz).
    assert (Ha : In a X2).
    { rewrite Et in E1. destruct (app_cut _ _ _ _ E1) as [[Z [Z1 Z2]]|[Z [Z1 Z2]]].
      - rewrite Z2. apply in_or_app; right; left; reflexivity.
      - destruct Z as [|z0 Z].
        + simpl in Z2. rewrite <- Z2. left; reflexivity.
        + exfalso. simpl in Z2. injection Z2 as <- Z2. rewrite Z1, total_app in H. simpl in H.
          assert (0 <= total (e_len e) Z); [|lra].
          apply total_nonneg. intros c Hc. apply P. rewrite Et, Z1, !in_app_iff. simpl. auto. }
    assert (Ha' : In a Y2).
    { destruct P as [N [PP _]]. assert (Hin : In a (e_bot e)) by (rewrite E2; apply in_or_app; right; left; reflexivity).
      rewrite Eb in Hin. apply in_app_or in Hin. destruct Hin as [Hin|Hin]; [exfalso | exact Hin].
      apply (Permutation_in _ (Permutation_sym Pm)) in Hin. rewrite Et in N.
      destruct (in_split _ _ Ha) as [W [W2 EW]]. rewrite EW, app_assoc in N.
      apply NoDup_remove_2 in N. apply N. rewrite !in_app_iff. auto. }
    destruct (in_split _ _ Ha) as [W [W2 EW]]. destruct (in_split _ _ Ha') as [W' [W2' EW']].
    destruct (nodup_split_unique (e_top e) a U V (X1 ++ W) W2) as [-> _]; auto.
    { apply P. } { rewrite Et, EW, <- app_assoc. reflexivity. }
    destruct (nodup_split_unique (e_bot e) a U' V' (Y1 ++ W') W2') as [-> _]; auto.
    { apply proper_bot_nodup, P. } { rewrite Eb, EW', <- app_assoc. reflexivity. }
    rewrite !total_app in *. exists a, W, W2, W', W2'. repeat split; auto; lra.
Qed.

Lemma cut_proper e X1 X2 Y1 Y2 : proper e -> e_top e = X1 ++ X2 -> e_bot e = Y1 ++ Y2 ->
  Permutation X1 Y1 -> proper (mkexch X1 Y1 (e_len e)) /\ proper (mkexch X2 Y2 (e_len e)).
Proof.
  intros [N [PP Pos]] Et Eb Pm. rewrite Et in *. rewrite Eb in *.
  assert (N1 : NoDup X1 /\ NoDup X2).
  { clear - N. induction X1 as [|x X1 IH]; simpl in *; [split; [constructor | exact N]|].
    inversion N; subst. destruct (IH H2) as [A B]. split; [|exact B]. constructor; [|exact A].
    intros Hin. apply H1. apply in_or_app; left; exact Hin. }
  destruct N1 as [N1 N2]. split; split; simpl; try split; auto.
  - intros a Ha. apply Pos. apply in_or_app; left; exact Ha.
  - apply (Permutation_app_inv_l X1). rewrite PP. apply Permutation_app_tail, Permutation_sym, Pm.
  - intros a Ha. apply Pos. apply in_or_app; right; exact Ha.
Qed.

(** * Periodic points *)

Lemma iter_periodic {A} (f : A -> A -> Prop) (Hf : forall x y z, f x y -> f x z -> y = z) x n y :
  periodic f x -> iter f n x y -> periodic f y.
Proof.
  intros [p [Hp Hx]] Hn. exists p. split; [exact Hp|].
  (* x --p--> x --n--> y and x --n--> y --p--> w, deterministic so w = y *)
  assert (H : iter f (p + n) x y) by (eapply iter_add; eassumption).
  rewrite Nat.add_comm in H. apply iter_split in H. destruct H as [u [H1 H2]].
  rewrite <- (iter_fun f Hf _ _ _ _ Hn H1) in H2. exact H2.
Qed.

Lemma induced_iter e e' : proper e' -> induced e e' ->
  let d := total (e_len e) (e_top e) - total (e_len e') (e_top e') in
  forall m u v, iter (maps e') m u v -> exists k, (m <= k)%nat /\ iter (maps e) k (u + d) (v + d).
Proof.
  intros P' [D [F V]] d. induction m as [|m IH]; intros u v H.
  - simpl in H. subst. exists 0%nat. split; [lia | reflexivity].
  - destruct H as [t [Ht H]]. destruct (IH _ _ H) as [k [Hmk Hk]].
    pose proof (maps_dom _ P' _ _ Ht) as Hd. apply F in Ht; [|lra].
    destruct Ht as [j [Hj1 [Hj _]]]. exists (j + k)%nat. split; [lia|]. eapply iter_add; eassumption.
Qed.

(** A return to the sub-interval is an iterate of the induced map. *)
Lemma induced_iter_back e e' : proper e -> proper e' -> induced e e' ->
  let d := total (e_len e) (e_top e) - total (e_len e') (e_top e') in
  forall n u v, d <= u -> d <= v -> iter (maps e) n u v ->
  exists m, iter (maps e') m (u - d) (v - d) /\ ((1 <= n)%nat -> (1 <= m)%nat).
Proof.
  intros P P' [D [F V]] d n. induction n as [n IH] using (well_founded_induction Wf_nat.lt_wf).
  intros u v Hu Hv Hi. destruct n as [|n].
  { simpl in Hi. subst. exists 0%nat. split; [reflexivity | lia]. }
  assert (Hdom : 0 <= u < total (e_len e) (e_top e)).
  { destruct Hi as [t [Ht _]]. exact (maps_dom _ P _ _ Ht). }
  destruct (maps_total e' P' (u - d)) as [w Hw]; [unfold d in *; lra|].
  pose proof Hw as Hfr. apply F in Hfr; [|lra]. fold d in Hfr.
  replace (u - d + d) with u in Hfr by lra.
  destruct Hfr as [k [Hk1 [Hk2 [Hk3 Hk4]]]].
  assert (Hle : (k <= S n)%nat).
  { destruct (le_lt_dec k (S n)) as [H|H]; [exact H|]. exfalso. apply (Hk4 (S n) v); auto. lia. }
  replace (S n) with (k + (S n - k))%nat in Hi by lia. apply iter_split in Hi. destruct Hi as [t [T1 T2]].
  rewrite (iter_fun _ (maps_fun _ P) _ _ _ _ T1 Hk2) in T2.
  destruct (IH (S n - k)%nat ltac:(lia) (w + d) v) as [m [Hm _]]; auto.
  replace (w + d - d) with w in Hm by lra. exists (S m). split; [exists w; auto | lia].
Qed.

Lemma induced_periodic_point e e' : proper e -> proper e' -> induced e e' ->
  let d := total (e_len e) (e_top e) - total (e_len e') (e_top e') in
  forall y, 0 <= y -> (periodic (maps e') y <-> periodic (maps e) (y + d)).
Proof.
  intros P P' I d y Hy. split.
  - intros [n [Hn H]]. destruct (induced_iter e e' P' I n y y H) as [k [Hk1 Hk2]].
    exists k. split; [lia | exact Hk2].
  - intros [n [Hn H]]. destruct (induced_iter_back e e' P P' I n (y + d) (y + d)) as [m [Hm1 Hm2]]; auto; fold d; try lra.
    fold d in Hm1. replace (y + d - d) with y in Hm1 by lra. exists m. split; [apply Hm2; lia | exact Hm1].
Qed.

Lemma induced_periodic e e' : proper e -> proper e' -> induced e e' ->
  (has_periodic_point e <-> has_periodic_point e').
Proof.
  intros P P' I. split.
  - intros [x Hx].
    assert (Hdom : 0 <= x < total (e_len e) (e_top e)).
    { destruct Hx as [n [Hn H]]. destruct n as [|n]; [lia|]. destruct H as [t [Ht _]]. exact (maps_dom _ P _ _ Ht). }
    pose proof I as [D [F V]]. destruct (V x Hdom) as [n [z [Hn Hz]]].
    set (d := total (e_len e) (e_top e) - total (e_len e') (e_top e')) in *.
    exists (z - d). apply (induced_periodic_point e e' P P' I); [lra|]. fold d.
    replace (z - d + d) with z by lra. eapply iter_periodic; [apply maps_fun, P | exact Hx | exact Hn].
  - intros [y Hy]. exists (y + (total (e_len e) (e_top e) - total (e_len e') (e_top e'))).
    apply (induced_periodic_point e e' P P' I); [|exact Hy].
    destruct Hy as [n [Hn H]]. destruct n as [|n]; [lia|]. destruct H as [t [Ht _]].
    apply (maps_dom _ P') in Ht. lra.
Qed.

Lemma iter_flip e n x y : iter (maps (flip e)) n x y <-> iter (maps e) n y x.
Proof.
  rewrite <- iter_inverse. split; apply (iter_map _ _ (fun u => u)); intros u v; apply maps_flip.
Qed.

Lemma flip_periodic e : has_periodic_point (flip e) <-> has_periodic_point e.
Proof.
  split; intros [x [n [Hn H]]]; exists x, n; split; auto; apply iter_flip; exact H.
Qed.
