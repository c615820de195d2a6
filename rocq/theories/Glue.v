(** Moves of glued polygons that do not change the order of the vertical directions around the
    vertices. *)
From Coq Require Import List Lia Permutation.
From Verif Require Import Spec SpecGlue.
Import ListNotations.

Section Cyc.
Context {A : Type}.

(** Neighbours in [l ++ [y]]. *)
Fixpoint ap (l : list A) (y : A) : list (A * A) :=
  match l with
  | [] => []
  | x :: l' => (x, hd y l') :: ap l' y
  end.

Lemma hd_app (u v : list A) y : hd y (u ++ v) = hd (hd y v) u.
Proof. destruct u; reflexivity. Qed.

Lemma ap_app u v y : ap (u ++ v) y = ap u (hd y v) ++ ap v y.
Proof. induction u as [|x u IH]; [reflexivity|]. cbn [app ap]. rewrite IH, hd_app. reflexivity. Qed.

(** Neighbours in a cyclic list. *)
Definition cyc (w : list A) : list (A * A) := match w with [] => [] | a :: _ => ap w a end.

Lemma cyc_rot u v p : In p (cyc (u ++ v)) <-> In p (cyc (v ++ u)).
Proof.
  destruct u as [|a u]; [rewrite app_nil_r; reflexivity|]. destruct v as [|b v]; [rewrite app_nil_r; reflexivity|].
  change (cyc ((a :: u) ++ b :: v)) with (ap ((a :: u) ++ b :: v) a). change (cyc ((b :: v) ++ a :: u)) with (ap ((b :: v) ++ a :: u) b).
  rewrite !ap_app. cbn [hd]. rewrite !in_app_iff. tauto.
Qed.

Lemma in_ap l y p q : In (p, q) (ap l y) -> In p l /\ (q = y \/ In q l).
Proof.
  revert p q. induction l as [|x l IH]; [intros p q []|]. intros p q [H|H].
  - injection H as <- <-. split; [left; reflexivity|]. destruct l; [left; reflexivity|right; right; left; reflexivity].
  - apply IH in H. destruct H as [H [->|H']]; split; try (right; exact H); auto. right; right; exact H'.
Qed.

(** Only the first item comes behind the end: the pairs whose second component is in the list,
    and the last pair. *)
Lemma ap_snoc l x y : ap (l ++ [x]) y = ap l x ++ [(x, y)].
Proof. rewrite ap_app. reflexivity. Qed.

Lemma snoc_case (l : list A) : l = [] \/ exists l' x, l = l' ++ [x].
Proof. destruct l as [|a l] using rev_ind; [left; reflexivity|right; eauto]. Qed.

Lemma ap_change l y y' p q : In (p, q) (ap l y) -> In (p, q) (ap l y') \/ (q = y /\ In (p, y') (ap l y')).
Proof.
  revert p q. induction l as [|x l IH]; [intros p q []|]. intros p q [H|H].
  - injection H as <- <-. destruct l as [|z l]; cbn [hd ap].
    + right. split; [reflexivity|left; reflexivity].
    + left. left. reflexivity.
  - apply IH in H. cbn [ap]. destruct H as [H|[-> H]]; [left; right; exact H|right; split; [reflexivity|right; exact H]].
Qed.

Lemma before_ap l y p q : In (p, q) (ap l y) <-> exists u v, l ++ [y] = u ++ p :: q :: v.
Proof.
  revert p q. induction l as [|x l IH]; intros p q.
  - split; [intros []|]. intros ([|z u] & v & H); cbn in H; [discriminate|]. destruct u; discriminate.
  - cbn [ap]. split.
    + intros [H|H].
      * injection H as <- <-. exists [], (tl (l ++ [y])). destruct l; reflexivity.
      * apply IH in H. destruct H as (u & v & H). exists (x :: u), v. cbn. rewrite H. reflexivity.
    + intros ([|z u] & v & H); cbn in H; injection H as <- H.
      * left. destruct l; cbn in H |- *; congruence.
      * right. apply IH. exists u, v. exact H.
Qed.

End Cyc.

Section Moves.
Context {S : Type}.
Notation item := (item S).

Lemma before_cyc (w : list item) x y : before w x y <-> In (x, y) (cyc w).
Proof.
  unfold before, cyc. destruct w as [|a w].
  - split; [|intros []]. intros [(u & v & H)|(u & H & _)]; [destruct u; discriminate|discriminate].
  - rewrite before_ap. split.
    + intros [(u & v & H)|(u & H & L)].
      * exists u, (v ++ [a]). rewrite H, <- app_assoc. reflexivity.
      * injection H as <- <-. destruct (@exists_last _ (a :: w)) as (q & z & E); [discriminate|]. rewrite E in L |- *.
        rewrite last_last in L. subst z. exists q, []. rewrite <- app_assoc. reflexivity.
    + intros (u & v & H). destruct (snoc_case v) as [->|(v' & z & ->)].
      * change (u ++ [x; y]) with (u ++ [x] ++ [y]) in H. rewrite app_assoc in H. apply app_inj_tail in H. destruct H as [H <-].
        right. exists w. split; [reflexivity|]. rewrite H. apply last_last.
      * left. change (u ++ x :: y :: v' ++ [z]) with (u ++ (x :: y :: v') ++ [z]) in H. rewrite app_assoc in H. apply app_inj_tail in H.
        destruct H as [H _]. exists u, v'. exact H.
Qed.

(** Which items come behind which. *)
Definition linked (W : list (list item)) (x y : item) : Prop := exists w, In w W /\ In (x, y) (cyc w).

Inductive seesL (L : item -> item -> Prop) : item -> S -> Prop :=
| sl_sep y s : L (Sep s) y -> seesL L y s
| sl_conn y s t : L (Conn s t) y -> seesL L y t
| sl_edge y l top s : L (Edge l top) y -> seesL L (Edge l (negb top)) s -> seesL L y s.

Lemma sees_linked W y s : sees W y s <-> seesL (linked W) y s.
Proof.
  split.
  - induction 1 as [w y s I B|w y s t I B|w y l top s I B _ IH].
    + apply sl_sep. exists w. rewrite <- before_cyc. auto.
    + eapply sl_conn. exists w. rewrite <- before_cyc. split; [exact I|exact B].
    + eapply sl_edge; [|exact IH]. exists w. rewrite <- before_cyc. split; [exact I|exact B].
  - induction 1 as [y s (w & I & B)|y s t (w & I & B)|y l top s (w & I & B) _ IH]; rewrite <- before_cyc in B.
    + eapply sees_sep; eassumption.
    + eapply sees_conn; eassumption.
    + eapply sees_edge; eassumption.
Qed.

Lemma seesL_ext (L L' : item -> item -> Prop) y s : (forall x y, L x y -> L' x y) -> seesL L y s -> seesL L' y s.
Proof.
  intro H. induction 1 as [y s I|y s t I|y l top s I _ IH].
  - apply sl_sep, H, I.
  - eapply sl_conn, H, I.
  - eapply sl_edge; [apply H, I|exact IH].
Qed.

(** ** Sliding part of a polygon along an edge *)

(** If [x] comes before [y'] then [y'] sees what is seen through [x]. *)
Definition through (L : item -> item -> Prop) (x : item) (s : S) : Prop :=
  match x with
  | Sep s' => s = s'
  | Conn _ t => s = t
  | Edge l top => seesL L (Edge l (negb top)) s
  end.

Lemma seesL_through L y s : seesL L y s <-> exists x, L x y /\ through L x s.
Proof.
  split.
  - intros [y' s' H|y' s' t H|y' l top s' H H']; eexists; (split; [exact H|]); cbn; auto.
  - intros ([l top|s' t|s'] & H & Th); cbn in Th.
    + eapply sl_edge; eassumption.
    + subst s. eapply sl_conn, H.
    + subst s. apply sl_sep, H.
Qed.

(** Simulation: if everything that comes before [y] can be replaced. *)
Lemma seesL_sim (L L' R : item -> item -> Prop) :
  (forall x y y', L x y -> R y y' ->
     (forall s, (match x with Edge l top => forall z, R (Edge l (negb top)) z -> seesL L' z s | _ => through L' x s end) -> seesL L' y' s)) ->
  forall y s, seesL L y s -> forall y', R y y' -> seesL L' y' s.
Proof.
  intro H. induction 1 as [y s I|y s t I|y l top s I _ IH]; intros y' Ry.
  - apply (H _ _ _ I Ry s). reflexivity.
  - apply (H _ _ _ I Ry t). reflexivity.
  - apply (H _ _ _ I Ry s). exact IH.
Qed.

(** The letters [a] and [b] are glued to each other; [Z] slides along them from behind [b] to
    before [a]. *)
Lemma slide_half (L L' Rest : item -> item -> Prop) l top V z Z u U :
  let a := Edge l top in
  let b := Edge l (negb top) in
  (forall x y, L x y -> In (x, y) (cyc (a :: V ++ b :: (z :: Z) ++ u :: U)) \/ Rest x y) ->
  (forall x y, In (x, y) (cyc (a :: V ++ b :: (u :: U) ++ z :: Z)) \/ Rest x y -> L' x y) ->
  (forall x, In x (V ++ (z :: Z) ++ u :: U) -> x <> a /\ x <> b) ->
  (forall x y, Rest x y -> x <> b /\ y <> a) ->
  forall y s, y <> a -> seesL L y s -> seesL L' y s.
Proof.
  intros a b H1 H2 N NR.
  assert (Nab : a <> b) by (unfold a, b; destruct top; discriminate).
  assert (Pb : match b with Edge l top => Edge l (negb top) | x => x end = a) by (unfold a, b; cbn; rewrite Bool.negb_involutive; reflexivity).
  set (R := fun y y' : item => (y = a /\ y' = z) \/ (y <> a /\ y' = y)).
  assert (P : forall x y' s, L' x y' -> x <> b ->
    (match x with Edge l top => forall z, R (Edge l (negb top)) z -> seesL L' z s | _ => through L' x s end) -> seesL L' y' s).
  { intros x y' s Hl Nx Th. apply seesL_through. exists x. split; [exact Hl|]. destruct x as [l0 t0| |]; [|exact Th|exact Th].
    cbn. apply Th. right. split; [|reflexivity]. intro E. apply Nx. unfold a, b in *. injection E as -> E. rewrite <- E, Bool.negb_involutive. reflexivity. }
  assert (E1 : cyc (a :: V ++ b :: (z :: Z) ++ u :: U) = ap (a :: V) b ++ ((b, z) :: ap (z :: Z) u) ++ ap (u :: U) a).
  { unfold cyc. change (a :: V ++ b :: (z :: Z) ++ u :: U) with ((a :: V) ++ (b :: (z :: Z)) ++ (u :: U)). rewrite !ap_app. reflexivity. }
  assert (E2 : cyc (a :: V ++ b :: (u :: U) ++ z :: Z) = ap (a :: V) b ++ ((b, u) :: ap (u :: U) z) ++ ap (z :: Z) a).
  { unfold cyc. change (a :: V ++ b :: (u :: U) ++ z :: Z) with ((a :: V) ++ (b :: (u :: U)) ++ (z :: Z)). rewrite !ap_app. reflexivity. }
  rewrite E1 in H1. rewrite E2 in H2. clear E1 E2.
  assert (NZ : forall x, In x (z :: Z) -> x <> a /\ x <> b) by (intros x Hx; apply N; rewrite !in_app_iff; tauto).
  assert (NU : forall x, In x (u :: U) -> x <> a /\ x <> b) by (intros x Hx; apply N; rewrite !in_app_iff; tauto).
  assert (NV : forall x, In x V -> x <> a /\ x <> b) by (intros x Hx; apply N; rewrite !in_app_iff; tauto).
  intros y s Ny Hs. refine (seesL_sim L L' R _ y s Hs y (or_intror (conj Ny eq_refl))). clear y s Ny Hs.
  intros x y y' Hxy Ry s Th. destruct (H1 x y Hxy) as [I|I].
  - rewrite in_app_iff in I. destruct I as [I|I]; [|rewrite in_app_iff in I; destruct I as [[I|I]|I]].
    + assert (I' := I). apply in_ap in I'. destruct I' as [Ix Iy].
      assert (Ny : y <> a).
      { cbn [ap] in I. destruct I as [I|I].
        - injection I as <- <-. destruct V as [|v V]; cbn; [auto|]. apply NV. left. reflexivity.
        - apply in_ap in I. destruct I as [_ [->|I]]; [auto|apply NV, I]. }
      destruct Ry as [[? _]|[_ ->]]; [contradiction|].
      apply (P x y s); [apply H2; left; rewrite in_app_iff; left; exact I| |exact Th].
      destruct Ix as [<-|Ix]; [exact Nab|apply NV, Ix].
    + injection I as <- <-. destruct Ry as [[E _]|[_ ->]]; [exfalso; apply (proj1 (NZ z (or_introl eq_refl))), E|].
      cbn in Th. apply Th. left. split; [|reflexivity]. exact Pb.
    + assert (Ix := proj1 (in_ap _ _ _ _ I)). destruct (ap_change _ u a _ _ I) as [I'|[-> I']].
      * assert (Ny : y <> a).
        { apply in_ap in I. destruct I as [_ [->|I]]; [apply NU; left; reflexivity|apply NZ, I]. }
        destruct Ry as [[? _]|[_ ->]]; [contradiction|].
        apply (P x y s); [apply H2; left; rewrite !in_app_iff; right; right; exact I'|apply NZ, Ix|exact Th].
      * destruct Ry as [[E _]|[_ ->]]; [exfalso; apply (proj1 (NU u (or_introl eq_refl))), E|].
        apply seesL_through. exists b. split; [apply H2; left; rewrite !in_app_iff; right; left; left; reflexivity|].
        cbn. change (Edge l (negb (negb top))) with (match b with Edge l top => Edge l (negb top) | x => x end). rewrite Pb.
        apply (P x a s); [apply H2; left; rewrite !in_app_iff; right; right; exact I'|apply NZ, Ix|exact Th].
    + assert (Ix := proj1 (in_ap _ _ _ _ I)). destruct (ap_change _ a z _ _ I) as [I'|[-> I']].
      * assert (Ny : y <> a).
        { apply in_ap in I'. destruct I' as [_ [->|I']]; [apply NZ; left; reflexivity|apply NU, I']. }
        destruct Ry as [[? _]|[_ ->]]; [contradiction|].
        apply (P x y s); [apply H2; left; rewrite !in_app_iff; right; left; right; exact I'|apply NU, Ix|exact Th].
      * destruct Ry as [[_ ->]|[E _]]; [|contradiction].
        apply (P x z s); [apply H2; left; rewrite !in_app_iff; right; left; right; exact I'|apply NU, Ix|exact Th].
  - destruct (NR x y I) as [Nx Ny]. destruct Ry as [[? _]|[_ ->]]; [contradiction|].
    apply (P x y s); [apply H2; right; exact I|exact Nx|exact Th].
Qed.

Definition same_next (L L' : item -> item -> Prop) : Prop :=
  forall s s', (seesL L (Sep s) s' \/ exists t, seesL L (Conn s t) s') <-> (seesL L' (Sep s) s' \/ exists t, seesL L' (Conn s t) s').

Lemma same_next_ext (L L' : item -> item -> Prop) : (forall x y, L x y <-> L' x y) -> same_next L L'.
Proof.
  intros H s s'. split; (intros [I|[t I]]; [left|right; exists t]); (eapply seesL_ext; [|exact I]); intros; apply H; assumption.
Qed.

Lemma slide (L L' Rest : item -> item -> Prop) w w' l top V Z U :
  let a := Edge l top in
  let b := Edge l (negb top) in
  (forall p, In p (cyc w) <-> In p (cyc (a :: V ++ b :: Z ++ U))) ->
  (forall p, In p (cyc w') <-> In p (cyc (a :: V ++ b :: U ++ Z))) ->
  (forall x y, L x y <-> In (x, y) (cyc w) \/ Rest x y) ->
  (forall x y, L' x y <-> In (x, y) (cyc w') \/ Rest x y) ->
  (forall x, In x (V ++ Z ++ U) -> x <> a /\ x <> b) ->
  (forall x y, Rest x y -> x <> b /\ y <> a) ->
  same_next L L'.
Proof.
  intros a b E1 E2 H1 H2 N NR.
  assert (H1' : forall x y, L x y <-> In (x, y) (cyc (a :: V ++ b :: Z ++ U)) \/ Rest x y) by (intros; rewrite H1, E1; reflexivity).
  assert (H2' : forall x y, L' x y <-> In (x, y) (cyc (a :: V ++ b :: U ++ Z)) \/ Rest x y) by (intros; rewrite H2, E2; reflexivity).
  clear H1 H2 E1 E2.
  destruct Z as [|z Z]; [apply same_next_ext; intros x y; rewrite H1', H2', app_nil_r; reflexivity|].
  destruct U as [|u U]; [apply same_next_ext; intros x y; rewrite H1', H2', app_nil_r; reflexivity|].
  intros s s'. split; (intros [I|[t I]]; [left|right; exists t]).
  1,2: refine (slide_half L L' Rest l top V z Z u U _ _ N NR _ _ _ I); try discriminate; intros; [apply H1'|apply H2']; assumption.
  all: refine (slide_half L' L Rest l top V u U z Z _ _ _ NR _ _ _ I); try discriminate; try (intros; first [apply H2'|apply H1']; assumption).
  all: intros x Hx; apply N; rewrite !in_app_iff in *; tauto.
Qed.

(** ** Cutting a polygon in two *)

Lemma cut (L L' Rest : item -> item -> Prop) w w1 w2 s t x X y Y z Z :
  (forall p, In p (cyc w) <-> In p (cyc ((x :: X) ++ Sep s :: (y :: Y) ++ Sep t :: z :: Z))) ->
  (forall p, In p (cyc w1) <-> In p (cyc ((x :: X) ++ Conn s t :: z :: Z))) ->
  (forall p, In p (cyc w2) <-> In p (cyc (Conn t s :: y :: Y))) ->
  (forall p q, L p q <-> In (p, q) (cyc w) \/ Rest p q) ->
  (forall p q, L' p q <-> In (p, q) (cyc w1) \/ In (p, q) (cyc w2) \/ Rest p q) ->
  same_next L L'.
Proof.
  intros E E1 E2 H H'.
  assert (A : forall p q, L p q <-> In (p, q) (ap (x :: X) (Sep s)) \/ (p, q) = (Sep s, y) \/ In (p, q) (ap (y :: Y) (Sep t)) \/
    (p, q) = (Sep t, z) \/ In (p, q) (ap (z :: Z) x) \/ Rest p q).
  { intros p q. rewrite H, E.
    replace (cyc ((x :: X) ++ Sep s :: (y :: Y) ++ Sep t :: z :: Z)) with (ap (x :: X) (Sep s) ++ ((Sep s, y) :: ap (y :: Y) (Sep t)) ++ (Sep t, z) :: ap (z :: Z) x).
    - rewrite !in_app_iff. cbn [In]. intuition congruence.
    - change (cyc ((x :: X) ++ Sep s :: (y :: Y) ++ Sep t :: z :: Z)) with (ap ((x :: X) ++ (Sep s :: y :: Y) ++ Sep t :: z :: Z) x). rewrite !ap_app. reflexivity. }
  assert (B : forall p q, L' p q <-> In (p, q) (ap (x :: X) (Conn s t)) \/ (p, q) = (Conn s t, z) \/ In (p, q) (ap (z :: Z) x) \/
    (p, q) = (Conn t s, y) \/ In (p, q) (ap (y :: Y) (Conn t s)) \/ Rest p q).
  { intros p q. rewrite H', E1, E2.
    replace (cyc ((x :: X) ++ Conn s t :: z :: Z)) with (ap (x :: X) (Conn s t) ++ (Conn s t, z) :: ap (z :: Z) x).
    - cbn [cyc ap hd]. rewrite !in_app_iff. cbn [In]. intuition congruence.
    - change (cyc ((x :: X) ++ Conn s t :: z :: Z)) with (ap ((x :: X) ++ (Conn s t :: z :: Z)) x). rewrite !ap_app. reflexivity. }
  clear H H' E E1 E2.
  assert (F : forall q r, seesL L q r -> seesL L' q r \/ (q = Sep s /\ seesL L' (Conn s t) r) \/ (q = Sep t /\ seesL L' (Conn t s) r)).
  { assert (St : forall p q r, L p q -> through L' p r ->
      seesL L' q r \/ (q = Sep s /\ seesL L' (Conn s t) r) \/ (q = Sep t /\ seesL L' (Conn t s) r)).
    { intros p q r Hl Th. assert (P : forall q', L' p q' -> seesL L' q' r) by (intros q' Hq; apply seesL_through; exists p; auto).
      apply A in Hl. destruct Hl as [I|[I|[I|[I|[I|I]]]]].
      - destruct (ap_change _ _ (Conn s t) _ _ I) as [I'|[-> I']]; [left; apply P, B; tauto|]. right. left. split; [reflexivity|]. apply P, B. tauto.
      - injection I as -> ->. cbn in Th. subst r. left. eapply sl_conn. apply B. right. right. right. left. reflexivity.
      - destruct (ap_change _ _ (Conn t s) _ _ I) as [I'|[-> I']]; [left; apply P, B; tauto|]. right. right. split; [reflexivity|]. apply P, B. tauto.
      - injection I as -> ->. cbn in Th. subst r. left. eapply sl_conn. apply B. right. left. reflexivity.
      - left. apply P, B. tauto.
      - left. apply P, B. tauto. }
    induction 1 as [q r I|q r u I|q l top r I _ IH]; apply (St _ _ _ I); cbn; auto.
    destruct IH as [IH|[[? _]|[? _]]]; [exact IH|discriminate|discriminate]. }
  assert (G : forall q r, seesL L' q r -> seesL L q r \/ (q = Conn s t /\ seesL L (Sep s) r) \/ (q = Conn t s /\ seesL L (Sep t) r)).
  { assert (St : forall p q r, L' p q -> through L p r ->
      seesL L q r \/ (q = Conn s t /\ seesL L (Sep s) r) \/ (q = Conn t s /\ seesL L (Sep t) r)).
    { intros p q r Hl Th. assert (P : forall q', L p q' -> seesL L q' r) by (intros q' Hq; apply seesL_through; exists p; auto).
      apply B in Hl. destruct Hl as [I|[I|[I|[I|[I|I]]]]].
      - destruct (ap_change _ _ (Sep s) _ _ I) as [I'|[-> I']]; [left; apply P, A; tauto|]. right. left. split; [reflexivity|]. apply P, A. tauto.
      - injection I as -> ->. cbn in Th. subst r. left. apply sl_sep, A. tauto.
      - left. apply P, A. tauto.
      - injection I as -> ->. cbn in Th. subst r. left. apply sl_sep, A. tauto.
      - destruct (ap_change _ _ (Sep t) _ _ I) as [I'|[-> I']]; [left; apply P, A; tauto|]. right. right. split; [reflexivity|]. apply P, A. tauto.
      - left. apply P, A. tauto. }
    induction 1 as [q r I|q r u I|q l top r I _ IH]; apply (St _ _ _ I); cbn; auto.
    destruct IH as [IH|[[? _]|[? _]]]; [exact IH|discriminate|discriminate]. }
  intros r r'. split.
  - intros [I|[u I]]; apply F in I; destruct I as [I|[[E I]|[E I]]]; try discriminate; eauto; injection E as ->; eauto.
  - intros [I|[u I]]; apply G in I; destruct I as [I|[[E I]|[E I]]]; try discriminate; eauto; injection E as -> ->; eauto.
Qed.

(** ** Removing an edge: a corner is opened on both sides *)

Lemma open_edge (L L' Rest : item -> item -> Prop) w w' l top s t v V z Z U :
  let a := Edge l top in
  let b := Edge l (negb top) in
  (forall p, In p (cyc w) <-> In p (cyc (a :: (v :: V) ++ Sep t :: b :: (z :: Z) ++ Sep s :: U))) ->
  (forall p, In p (cyc w') <-> In p (cyc (Conn s t :: (v :: V) ++ Conn t s :: U ++ z :: Z))) ->
  (forall p q, L p q <-> In (p, q) (cyc w) \/ Rest p q) ->
  (forall p q, L' p q <-> In (p, q) (cyc w') \/ Rest p q) ->
  (forall x, In x ((v :: V) ++ (z :: Z) ++ U) -> x <> a /\ x <> b) ->
  (forall p q, Rest p q -> p <> a /\ p <> b /\ q <> a /\ q <> b) ->
  same_next L L'.
Proof.
  intros a b E E' H H' N NR.
  assert (Nab : a <> b) by (unfold a, b; destruct top; discriminate).
  assert (Pb : Edge l (negb (negb top)) = a) by (unfold a; rewrite Bool.negb_involutive; reflexivity).
  set (u := hd a U). set (u' := hd z U).
  assert (A : forall p q, L p q <-> (p, q) = (a, v) \/ In (p, q) (ap (v :: V) (Sep t)) \/ (p, q) = (Sep t, b) \/ (p, q) = (b, z) \/
    In (p, q) (ap (z :: Z) (Sep s)) \/ (p, q) = (Sep s, u) \/ In (p, q) (ap U a) \/ Rest p q).
  { intros p q. rewrite H, E.
    replace (cyc (a :: (v :: V) ++ Sep t :: b :: (z :: Z) ++ Sep s :: U)) with
      (((a, v) :: ap (v :: V) (Sep t)) ++ ((Sep t, b) :: (b, z) :: ap (z :: Z) (Sep s)) ++ (Sep s, u) :: ap U a).
    - rewrite !in_app_iff. cbn [In]. intuition congruence.
    - unfold cyc. change (a :: (v :: V) ++ Sep t :: b :: (z :: Z) ++ Sep s :: U) with ((a :: v :: V) ++ (Sep t :: b :: z :: Z) ++ Sep s :: U).
      rewrite !ap_app. reflexivity. }
  assert (B : forall p q, L' p q <-> (p, q) = (Conn s t, v) \/ In (p, q) (ap (v :: V) (Conn t s)) \/ (p, q) = (Conn t s, u') \/
    In (p, q) (ap U z) \/ In (p, q) (ap (z :: Z) (Conn s t)) \/ Rest p q).
  { intros p q. rewrite H', E'.
    replace (cyc (Conn s t :: (v :: V) ++ Conn t s :: U ++ z :: Z)) with
      (((Conn s t, v) :: ap (v :: V) (Conn t s)) ++ ((Conn t s, u') :: ap U z) ++ ap (z :: Z) (Conn s t)).
    - rewrite !in_app_iff. cbn [In]. intuition congruence.
    - unfold cyc. change (Conn s t :: (v :: V) ++ Conn t s :: U ++ z :: Z) with ((Conn s t :: v :: V) ++ (Conn t s :: U) ++ z :: Z).
      rewrite !ap_app. reflexivity. }
  clear H H' E E'.
  assert (NZ : forall x, In x (z :: Z) -> x <> a /\ x <> b) by (intros x Hx; apply N; rewrite !in_app_iff; tauto).
  assert (NU : forall x, In x U -> x <> a /\ x <> b) by (intros x Hx; apply N; rewrite !in_app_iff; tauto).
  assert (NV : forall x, In x (v :: V) -> x <> a /\ x <> b) by (intros x Hx; apply N; rewrite !in_app_iff; tauto).
  assert (Ntop : forall l0 t0, Edge l0 t0 <> a -> Edge l0 t0 <> b -> Edge l0 (negb t0) <> a /\ Edge l0 (negb t0) <> b).
  { intros l0 t0 Na Nb. unfold a, b in *. split; intro X; injection X as -> X.
    - apply Nb. rewrite <- X, Bool.negb_involutive. reflexivity.
    - apply Na. f_equal. destruct t0, top; cbn in X; congruence. }
  assert (F : forall q r, seesL L q r -> (q = a -> seesL L' z r) /\ (q = b -> seesL L' v r) /\
    (q <> a -> q <> b -> seesL L' q r \/ (q = Sep s /\ seesL L' (Conn s t) r) \/ (q = Sep t /\ seesL L' (Conn t s) r))).
  { assert (St : forall p q r, L p q -> p <> a -> p <> b -> through L' p r ->
      (q = a -> seesL L' z r) /\ (q = b -> seesL L' v r) /\
      (q <> a -> q <> b -> seesL L' q r \/ (q = Sep s /\ seesL L' (Conn s t) r) \/ (q = Sep t /\ seesL L' (Conn t s) r))).
    { intros p q r Hl Na Nb Th. assert (P : forall q', L' p q' -> seesL L' q' r) by (intros q' Hq; apply seesL_through; exists p; auto).
      apply A in Hl. destruct Hl as [I|[I|[I|[I|[I|[I|[I|I]]]]]]].
      - injection I as -> ->. contradiction.
      - assert (Q : q = Sep t \/ In q (v :: V)) by (apply in_ap in I; apply I).
        assert (Q' : q <> a /\ q <> b) by (destruct Q as [->|Q]; [split; discriminate|apply NV, Q]).
        split; [tauto|]. split; [tauto|]. intros _ _.
        destruct (ap_change _ _ (Conn t s) _ _ I) as [I'|[-> I']]; [left; apply P, B; tauto|].
        right. right. split; [reflexivity|]. apply P, B. tauto.
      - injection I as -> ->. split; [intro X; exfalso; apply Nab; auto|]. split; [|tauto]. intros _. cbn in Th. subst r.
        eapply sl_conn. apply B. left. reflexivity.
      - injection I as -> ->. contradiction.
      - assert (Q : q = Sep s \/ In q (z :: Z)) by (apply in_ap in I; apply I).
        assert (Q' : q <> a /\ q <> b) by (destruct Q as [->|Q]; [split; discriminate|apply NZ, Q]).
        split; [tauto|]. split; [tauto|]. intros _ _.
        destruct (ap_change _ _ (Conn s t) _ _ I) as [I'|[-> I']]; [left; apply P, B; tauto|].
        right. left. split; [reflexivity|]. apply P, B. tauto.
      - injection I as -> ->. cbn in Th. subst r. unfold u, u' in *. destruct U as [|u0 U0]; cbn [hd] in *.
        + split; [|split]; [|intro X; contradiction|intro X; exfalso; apply X; reflexivity].
          intros _. eapply sl_conn. apply B. right. right. left. reflexivity.
        + assert (Q := NU u0 (or_introl eq_refl)). split; [tauto|]. split; [tauto|]. intros _ _. left.
          eapply sl_conn. apply B. right. right. left. reflexivity.
      - destruct (ap_change _ _ z _ _ I) as [I'|[-> I']].
        + assert (Q : q <> a /\ q <> b).
          { apply in_ap in I'. destruct I' as [_ [->|I']]; [apply NZ; left; reflexivity|apply NU, I']. }
          split; [tauto|]. split; [tauto|]. intros _ _. left. apply P, B. tauto.
        + split; [|split]; [|intro X; contradiction|tauto]. intros _. apply P, B. tauto.
      - assert (Q := NR _ _ I). split; [tauto|]. split; [tauto|]. intros _ _. left. apply P, B. tauto. }
    induction 1 as [q r I|q r u0 I|q l0 top0 r I _ IH].
    - apply (St _ _ _ I); try discriminate. reflexivity.
    - apply (St _ _ _ I); try discriminate. reflexivity.
    - assert (D : Edge l0 top0 = a \/ Edge l0 top0 = b \/ (Edge l0 top0 <> a /\ Edge l0 top0 <> b)).
      { unfold a, b. destruct (PeanoNat.Nat.eq_dec l0 l) as [->|Nl]; [|right; right; split; congruence].
        destruct top0, top; cbn; auto. }
      destruct IH as (IHa & IHb & IHo). destruct D as [D|[D|[Na Nb]]].
      + (* the item before q is a *)
        assert (Rb : seesL L' v r) by (apply IHb; unfold a, b in *; injection D as -> ->; reflexivity).
        rewrite D in I. apply A in I. destruct I as [I|[I|[I|[I|[I|[I|[I|I]]]]]]]; try discriminate.
        * injection I as ->. assert (Q := NV v (or_introl eq_refl)). split; [tauto|]. split; [tauto|]. intros _ _. left. exact Rb.
        * apply in_ap in I. exfalso. apply (proj1 (NV a (proj1 I))). reflexivity.
        * exfalso. unfold a, b in I. injection I as X _. destruct top; discriminate.
        * apply in_ap in I. exfalso. apply (proj1 (NZ a (proj1 I))). reflexivity.
        * apply in_ap in I. exfalso. apply (proj1 (NU a (proj1 I))). reflexivity.
        * exfalso. apply (proj1 (NR _ _ I)). reflexivity.
      + assert (Ra : seesL L' z r).
        { apply IHa. unfold a, b in *. injection D as -> ->. rewrite Bool.negb_involutive. reflexivity. }
        rewrite D in I. apply A in I. destruct I as [I|[I|[I|[I|[I|[I|[I|I]]]]]]]; try discriminate.
        * exfalso. unfold a, b in I. injection I as X _. destruct top; discriminate.
        * apply in_ap in I. exfalso. apply (proj2 (NV b (proj1 I))). reflexivity.
        * injection I as ->. assert (Q := NZ z (or_introl eq_refl)). split; [tauto|]. split; [tauto|]. intros _ _. left. exact Ra.
        * apply in_ap in I. exfalso. apply (proj2 (NZ b (proj1 I))). reflexivity.
        * apply in_ap in I. exfalso. apply (proj2 (NU b (proj1 I))). reflexivity.
        * exfalso. apply (proj1 (proj2 (NR _ _ I))). reflexivity.
      + apply (St _ _ _ I Na Nb). cbn. destruct (Ntop l0 top0 Na Nb) as [Na' Nb'].
        destruct (IHo Na' Nb') as [X|[[X _]|[X _]]]; [exact X|discriminate|discriminate]. }
  assert (G : forall q r, seesL L' q r -> seesL L q r \/ (q = Conn s t /\ seesL L (Sep s) r) \/ (q = Conn t s /\ seesL L (Sep t) r)).
  { assert (Sb : seesL L b t) by (apply sl_sep, A; tauto).
    assert (Sv : seesL L v t) by (apply (sl_edge _ _ l top); [apply A; left; reflexivity|exact Sb]).
    assert (Sz : forall r, seesL L a r -> seesL L z r).
    { intros r X. apply (sl_edge _ _ l (negb top)); [apply A; fold b; tauto|]. rewrite Pb. exact X. }
    assert (St : forall p q r, L' p q -> through L p r ->
      seesL L q r \/ (q = Conn s t /\ seesL L (Sep s) r) \/ (q = Conn t s /\ seesL L (Sep t) r)).
    { intros p q r Hl Th. assert (P : forall q', L p q' -> seesL L q' r) by (intros q' Hq; apply seesL_through; exists p; auto).
      apply B in Hl. destruct Hl as [I|[I|[I|[I|[I|I]]]]].
      - injection I as -> ->. cbn in Th. subst r. left. exact Sv.
      - destruct (ap_change _ _ (Sep t) _ _ I) as [I'|[-> I']]; [left; apply P, A; tauto|]. right. right. split; [reflexivity|]. apply P, A. tauto.
      - injection I as -> ->. cbn in Th. subst r. left. unfold u, u' in *. destruct U as [|u0 U0]; cbn [hd] in *.
        + apply Sz. apply sl_sep, A. tauto.
        + apply sl_sep, A. tauto.
      - left. destruct (ap_change _ _ a _ _ I) as [I'|[-> I']]; [apply P, A; tauto|]. apply Sz, P, A. tauto.
      - destruct (ap_change _ _ (Sep s) _ _ I) as [I'|[-> I']]; [left; apply P, A; tauto|]. right. left. split; [reflexivity|]. apply P, A. tauto.
      - left. apply P, A. tauto. }
    induction 1 as [q r I|q r u0 I|q l0 top0 r I _ IH]; apply (St _ _ _ I); cbn; auto.
    destruct IH as [IH|[[? _]|[? _]]]; [exact IH|discriminate|discriminate]. }
  intros r r'. split.
  - intros [I|[u0 I]]; apply F in I; destruct I as (_ & _ & I);
      (destruct I as [I|[[X I]|[X I]]]; [discriminate|discriminate|eauto| |]; try discriminate; injection X as ->; eauto).
  - intros [I|[u0 I]]; apply G in I; destruct I as [I|[[X I]|[X I]]]; try discriminate; eauto; injection X as -> ->; eauto.
Qed.

End Moves.
