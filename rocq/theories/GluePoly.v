(** Turning around the vertices of the polygon of an exchange. *)
From Coq Require Import List Arith Permutation Lia.
From Verif Require Import Spec SpecGlue Glue.
Import ListNotations.

Lemma adj_cons (a : lab) B b b' : adjacent (a :: B) b b' <-> (b = a /\ hd_error B = Some b') \/ adjacent B b b'.
Proof.
  unfold adjacent. split.
  - intros (X & Y & E). destruct X as [|x X].
    + injection E as -> ->. left. split; reflexivity.
    + injection E as -> ->. right. eauto.
  - intros [(-> & H)|(X & Y & ->)].
    + destruct B as [|c B]; [discriminate|]. injection H as ->. exists [], B. reflexivity.
    + exists (a :: X), Y. reflexivity.
Qed.

Lemma adj_nil b b' : ~ adjacent [] b b'.
Proof. intros (X & Y & E). destruct X; discriminate. Qed.

Lemma adj_rev B b b' : adjacent (rev B) b b' <-> adjacent B b' b.
Proof.
  unfold adjacent. split; intros (X & Y & E); exists (rev Y), (rev X).
  - rewrite <- (rev_involutive B), E, rev_app_distr. cbn [rev]. rewrite <- !app_assoc. reflexivity.
  - rewrite E, rev_app_distr. cbn [rev]. rewrite <- !app_assoc. reflexivity.
Qed.

Lemma not_last_adj B b : not_last B b <-> exists b', adjacent B b b'.
Proof. unfold not_last, adjacent. split; [intros (X & c & Y & E)|intros (c & X & Y & E)]; eauto. Qed.

Lemma last_cons_iff (a : lab) B b : last_label (a :: B) b <-> (B = [] /\ b = a) \/ last_label B b.
Proof.
  unfold last_label. split.
  - intros (X & E). destruct X as [|x X]; injection E as -> ->; [left; auto|right; eauto].
  - intros [(-> & ->)|(X & ->)]; [exists []; reflexivity|exists (a :: X); reflexivity].
Qed.

Lemma last_rev B b : last_label (rev B) b <-> hd_error B = Some b.
Proof.
  unfold last_label. split.
  - intros (X & E). rewrite <- (rev_involutive B), E, rev_app_distr. reflexivity.
  - intro H. destruct B as [|c B]; [discriminate|]. injection H as ->. exists (rev B). reflexivity.
Qed.

Lemma last_or_not (B : list lab) b : In b B -> last_label B b \/ not_last B b.
Proof.
  intro I. apply in_split in I. destruct I as (X & Y & ->). destruct Y as [|c Y]; [left; exists X; reflexivity|right; exists X, c, Y; reflexivity].
Qed.

Lemma last_not (B : list lab) b : NoDup B -> last_label B b -> not_last B b -> False.
Proof.
  intros N (X & ->) (X' & c & Y & E). destruct (exists_last (l := c :: Y)) as (Z & z & EZ); [discriminate|].
  change (X' ++ b :: c :: Y) with (X' ++ [b] ++ (c :: Y)) in E. rewrite EZ, !app_assoc in E. apply app_inj_tail in E as [-> ->].
  apply NoDup_remove_2 in N. rewrite app_nil_r in N. apply N. rewrite !in_app_iff. left. right. left. reflexivity.
Qed.

Lemma last_unique (B : list lab) b b' : last_label B b -> last_label B b' -> b = b'.
Proof. intros (X & ->) (X' & E). apply app_inj_tail in E. apply E. Qed.

Lemma adj_head (B : list lab) a b : NoDup B -> hd_error B = Some b -> ~ adjacent B a b.
Proof.
  intros N H (X & Y & ->). change (X ++ a :: b :: Y) with (X ++ [a] ++ b :: Y) in *. rewrite app_assoc in N.
  apply NoDup_remove_2 in N. apply N. apply in_app_iff. left. destruct X as [|x X]; injection H as ->; [left; reflexivity|]. left. reflexivity.
Qed.

Lemma adj_unique (B : list lab) a b b' : NoDup B -> adjacent B a b -> adjacent B a b' -> b = b'.
Proof.
  induction B as [|c B IH]; intros N H H'; [destruct (adj_nil _ _ H)|]. inversion N as [|? ? Nc NB]; subst.
  apply adj_cons in H. apply adj_cons in H'.
  assert (Q : forall z, adjacent B c z -> False) by (intros z (X & Y & ->); apply Nc, in_app_iff; right; left; reflexivity).
  destruct H as [(-> & H)|H], H' as [(E & H')|H']; subst.
  - congruence.
  - destruct (Q _ H').
  - destruct (Q _ H).
  - apply IH; assumption.
Qed.

Lemma adj_unique' (B : list lab) a a' b : NoDup B -> adjacent B a b -> adjacent B a' b -> a = a'.
Proof.
  intros N H H'. apply adj_rev in H. apply adj_rev in H'. eapply adj_unique; [|exact H|exact H']. apply NoDup_rev, N.
Qed.

Lemma adj_before (B : list lab) b a : In b B -> hd_error B = Some a -> b <> a -> exists c, adjacent B c b.
Proof.
  intros I H N. apply in_split in I. destruct I as (X & Y & ->). destruct X as [|x X] using rev_ind; [injection H as ->; contradiction|].
  exists x, X, Y. rewrite <- app_assoc. reflexivity.
Qed.

Section Poly.
Context {S : Type} (up down : lab -> S).
Notation item := (item S).

Lemma bot_pairs B y (p q : item) : B <> [] ->
  In (p, q) (ap (removelast (flat_map (fun l => [Edge l false; Sep (up l)]) B)) y) <->
  (exists b, not_last B b /\ p = Edge b false /\ q = Sep (up b)) \/
  (exists b b', adjacent B b b' /\ p = Sep (up b) /\ q = Edge b' false) \/
  (exists b, last_label B b /\ p = Edge b false /\ q = y).
Proof.
  induction B as [|a B IH]; intro N; [contradiction|]. destruct B as [|b B].
  - cbn. split.
    + intros [H|[]]. injection H as <- <-. right. right. exists a. split; [exists []; reflexivity|auto].
    + intros [(b & (X & c & Y & E) & _)|[(b & b' & (X & Y & E) & _)|(b & (X & E) & -> & ->)]].
      * destruct X as [|x [|x' X]]; discriminate.
      * destruct X as [|x [|x' X]]; discriminate.
      * destruct X as [|x [|x' X]]; [injection E as ->; auto|discriminate|discriminate].
  - assert (E : removelast (flat_map (fun l => [Edge l false; Sep (up l)]) (a :: b :: B)) =
      Edge a false :: Sep (up a) :: removelast (flat_map (fun l => [Edge l false; Sep (up l)]) (b :: B))) by reflexivity.
    rewrite E. clear E. set (w := removelast (flat_map (fun l => [Edge l false; Sep (up l)]) (b :: B))) in *.
    assert (Hw : hd y w = Edge b false) by (unfold w; cbn; destruct (flat_map (fun l => [Edge l false; Sep (up l)]) B); reflexivity).
    cbn [ap hd In]. rewrite Hw. rewrite IH by discriminate. split.
    + intros [H|[H|[(c & H & H')|[(c & c' & H & H')|(c & H & H')]]]].
      * injection H as <- <-. left. exists a. split; [exists [], b, B; reflexivity|auto].
      * injection H as <- <-. right. left. exists a, b. split; [exists [], B; reflexivity|auto].
      * left. exists c. split; [|exact H']. rewrite not_last_adj in *. destruct H as (c' & H). exists c'. apply adj_cons. right. exact H.
      * right. left. exists c, c'. split; [|exact H']. apply adj_cons. right. exact H.
      * right. right. exists c. split; [|exact H']. apply last_cons_iff. right. exact H.
    + intros [(c & H & -> & ->)|[(c & c' & H & -> & ->)|(c & H & -> & ->)]].
      * apply not_last_adj in H. destruct H as (c' & H). apply adj_cons in H. destruct H as [(-> & _)|H]; [left; reflexivity|].
        right. right. left. exists c. split; [apply not_last_adj; eauto|auto].
      * apply adj_cons in H. destruct H as [(-> & H)|H]; [injection H as <-; right; left; reflexivity|].
        right. right. right. left. eauto.
      * apply last_cons_iff in H. destruct H as [(H & _)|H]; [discriminate|]. right. right. right. right. eauto.
Qed.

Lemma top_pairs R y (p q : item) : R <> [] ->
  In (p, q) (ap (tl (flat_map (fun l => [Sep (down l); Edge l true]) R)) y) <->
  (exists r r', adjacent R r r' /\ p = Edge r true /\ q = Sep (down r')) \/
  (exists r r', adjacent R r r' /\ p = Sep (down r') /\ q = Edge r' true) \/
  (exists r, last_label R r /\ p = Edge r true /\ q = y).
Proof.
  induction R as [|a R IH]; intro N; [contradiction|]. destruct R as [|b R].
  - cbn. split.
    + intros [H|[]]. injection H as <- <-. right. right. exists a. split; [exists []; reflexivity|auto].
    + intros [(b & b' & (X & Y & E) & _)|[(b & b' & (X & Y & E) & _)|(b & (X & E) & -> & ->)]].
      * destruct X as [|x [|x' X]]; discriminate.
      * destruct X as [|x [|x' X]]; discriminate.
      * destruct X as [|x [|x' X]]; [injection E as ->; auto|discriminate|discriminate].
  - assert (E : tl (flat_map (fun l => [Sep (down l); Edge l true]) (a :: b :: R)) =
      Edge a true :: Sep (down b) :: tl (flat_map (fun l => [Sep (down l); Edge l true]) (b :: R))) by reflexivity.
    rewrite E. clear E. set (w := tl (flat_map (fun l => [Sep (down l); Edge l true]) (b :: R))) in *.
    assert (Hw : hd y w = Edge b true) by reflexivity.
    cbn [ap hd In]. rewrite Hw. rewrite IH by discriminate. split.
    + intros [H|[H|[(c & c' & H & H')|[(c & c' & H & H')|(c & H & H')]]]].
      * injection H as <- <-. left. exists a, b. split; [exists [], R; reflexivity|auto].
      * injection H as <- <-. right. left. exists a, b. split; [exists [], R; reflexivity|auto].
      * left. exists c, c'. split; [|exact H']. apply adj_cons. right. exact H.
      * right. left. exists c, c'. split; [|exact H']. apply adj_cons. right. exact H.
      * right. right. exists c. split; [|exact H']. apply last_cons_iff. right. exact H.
    + intros [(c & c' & H & -> & ->)|[(c & c' & H & -> & ->)|(c & H & -> & ->)]].
      * apply adj_cons in H. destruct H as [(-> & H)|H]; [injection H as <-; left; reflexivity|]. right. right. left. eauto.
      * apply adj_cons in H. destruct H as [(-> & H)|H]; [injection H as <-; right; left; reflexivity|]. right. right. right. left. eauto.
      * apply last_cons_iff in H. destruct H as [(H & _)|H]; [discriminate|]. right. right. right. right. eauto.
Qed.

Lemma poly_pairs top bot (p q : item) : top <> [] -> bot <> [] ->
  In (p, q) (cyc (polygon up down top bot)) <->
  (exists b, not_last bot b /\ p = Edge b false /\ q = Sep (up b)) \/
  (exists b b', adjacent bot b b' /\ p = Sep (up b) /\ q = Edge b' false) \/
  (exists b t, last_label bot b /\ last_label top t /\ p = Edge b false /\ q = Edge t true) \/
  (exists t t', adjacent top t t' /\ p = Edge t' true /\ q = Sep (down t)) \/
  (exists t t', adjacent top t t' /\ p = Sep (down t) /\ q = Edge t true) \/
  (exists t b, hd_error top = Some t /\ hd_error bot = Some b /\ p = Edge t true /\ q = Edge b false).
Proof.
  intros Nt Nb. unfold polygon.
  assert (HB : exists b0 B, bot = b0 :: B) by (destruct bot as [|b0 B]; [contradiction|eauto]). destruct HB as (b0 & B & HB).
  assert (HT : exists z T, rev top = z :: T).
  { destruct (rev top) as [|z T] eqn:E; [|eauto]. exfalso. apply Nt. rewrite <- (rev_involutive top), E. reflexivity. }
  destruct HT as (z & T & HT).
  assert (C : forall u v : list item, u <> [] -> cyc (u ++ v) = ap u (hd (hd (Edge 0 true) u) v) ++ ap v (hd (Edge 0 true) u)).
  { intros [|x u] v Q; [contradiction|]. change (cyc ((x :: u) ++ v)) with (ap ((x :: u) ++ v) x). rewrite ap_app. reflexivity. }
  assert (Hw : forall y : item, hd y (removelast (flat_map (fun l => [Edge l false; Sep (up l)]) bot)) = Edge b0 false).
  { intro y. rewrite HB. cbn. destruct (flat_map (fun l => [Edge l false; Sep (up l)]) B); reflexivity. }
  rewrite C by (intro Q; specialize (Hw (Edge 0 true)); rewrite Q in Hw; discriminate).
  rewrite Hw. replace (hd (Edge b0 false) (tl (flat_map (fun l => [Sep (down l); Edge l true]) (rev top)))) with (Edge z true : item) by (rewrite HT; reflexivity).
  rewrite in_app_iff, bot_pairs by exact Nb. rewrite top_pairs by (rewrite HT; discriminate).
  assert (Lz : last_label top z) by (rewrite <- (rev_involutive top); apply last_rev; rewrite HT; reflexivity).
  setoid_rewrite adj_rev. setoid_rewrite last_rev. split.
  - intros [[H|[H|(b & H & -> & ->)]]|[(r & r' & H & H')|[(r & r' & H & H')|(r & H & -> & ->)]]]; auto.
    + right. right. left. exists b, z. auto.
    + right. right. right. left. eauto.
    + right. right. right. right. left. eauto.
    + right. right. right. right. right. exists r, b0. rewrite HB. auto.
  - intros [H|[H|[(b & t & H & H' & -> & ->)|[(t & t' & H & H')|[(t & t' & H & H')|(t & b & H & H' & -> & ->)]]]]]; auto.
    + left. right. right. exists b. rewrite (last_unique top t z H' Lz). auto.
    + right. left. eauto.
    + right. right. left. eauto.
    + right. right. right. exists t. rewrite HB in H'. injection H' as <-. auto.
Qed.

Theorem poly_next top bot : NoDup top -> Permutation top bot -> top <> [] -> forall s s', next [polygon up down top bot] s s' <-> turn up down top bot s s'.
Proof.
  intros N P Ne s s'. assert (Nb : NoDup bot) by (eapply Permutation_NoDup; eassumption).
  assert (Ne' : bot <> []) by (intros ->; apply Ne, Permutation_nil, Permutation_sym, P).
  set (L := linked [polygon up down top bot]).
  assert (HL : forall p q, L p q <-> In (p, q) (cyc (polygon up down top bot))).
  { intros p q. unfold L, linked. split; [intros (w & [<-|[]] & H); exact H|intro H; exists (polygon up down top bot); split; [left; reflexivity|exact H]]. }
  assert (HP : forall p q, L p q <-> _) by (intros p q; rewrite HL; apply poly_pairs; assumption).
  assert (Pt : forall b z, seesL L (Edge b true) z -> (not_last top b /\ z = down b) \/
     (last_label top b /\ exists b', last_label bot b' /\ seesL L (Edge b' true) z)).
  { intros b z H. inversion H as [y z' H1|y z' t H1|y l t z' H1 H2]; subst; apply HP in H1;
      destruct H1 as [(c & Q1 & Q2 & Q3)|[(c & c' & Q1 & Q2 & Q3)|[(c & c' & Q1 & Q4 & Q2 & Q3)|[(c & c' & Q1 & Q2 & Q3)|[(c & c' & Q1 & Q2 & Q3)|(c & c' & Q1 & Q4 & Q2 & Q3)]]]]]; try discriminate.
    - injection Q2 as ->. injection Q3 as ->. left. split; [apply not_last_adj; eauto|reflexivity].
    - injection Q2 as -> ->. injection Q3 as ->. right. split; [exact Q4|]. exists c. split; [exact Q1|exact H2]. }
  assert (Pb : forall b z, seesL L (Edge b false) z -> (exists c, adjacent bot c b /\ z = up c) \/
     (hd_error bot = Some b /\ exists t, hd_error top = Some t /\ seesL L (Edge t false) z)).
  { intros b z H. inversion H as [y z' H1|y z' t H1|y l t z' H1 H2]; subst; apply HP in H1;
      destruct H1 as [(c & Q1 & Q2 & Q3)|[(c & c' & Q1 & Q2 & Q3)|[(c & c' & Q1 & Q4 & Q2 & Q3)|[(c & c' & Q1 & Q2 & Q3)|[(c & c' & Q1 & Q2 & Q3)|(c & c' & Q1 & Q4 & Q2 & Q3)]]]]]; try discriminate.
    - injection Q2 as ->. injection Q3 as ->. left. eauto.
    - injection Q2 as -> ->. injection Q3 as ->. right. split; [exact Q4|]. exists c. split; [exact Q1|exact H2]. }
  unfold next. rewrite sees_linked. fold L. split.
  - intros [H|(t & H)].
    + inversion H as [y z' H1|y z' t H1|y l t z' H1 H2]; subst; apply HP in H1;
        destruct H1 as [(c & Q1 & Q2 & Q3)|[(c & c' & Q1 & Q2 & Q3)|[(c & c' & Q1 & Q4 & Q2 & Q3)|[(c & c' & Q1 & Q2 & Q3)|[(c & c' & Q1 & Q2 & Q3)|(c & c' & Q1 & Q4 & Q2 & Q3)]]]]]; try discriminate.
      * injection Q2 as -> ->. injection Q3 as ->. apply Pt in H2. destruct H2 as [(A & ->)|(A & b' & B & H2)]; [apply turn_up; assumption|].
        apply Pt in H2. destruct H2 as [(A' & ->)|(A' & _)]; [apply turn_up_end; assumption|].
        exfalso. rewrite <- (last_unique top c b' A A') in B. exact (last_not bot c Nb B Q1).
      * injection Q2 as -> ->. injection Q3 as ->. apply Pb in H2. destruct H2 as [(b & A & ->)|(A & t0 & B & H2)]; [eapply turn_down; eassumption|].
        apply Pb in H2. destruct H2 as [(b & A' & ->)|(A' & _)]; [eapply turn_down_start; eassumption|].
        exfalso. rewrite A in A'. injection A' as <-. exact (adj_head top c c' N B Q1).
    + rewrite sees_linked in H. fold L in H. inversion H as [y z' H1|y z' t' H1|y l t' z' H1 H2]; subst; apply HP in H1;
        destruct H1 as [(c & Q1 & Q2 & Q3)|[(c & c' & Q1 & Q2 & Q3)|[(c & c' & Q1 & Q4 & Q2 & Q3)|[(c & c' & Q1 & Q2 & Q3)|[(c & c' & Q1 & Q2 & Q3)|(c & c' & Q1 & Q4 & Q2 & Q3)]]]]]; discriminate.
  - intro H. left.
    assert (St : forall b, not_last top b -> seesL L (Edge b true) (down b)).
    { intros b Q. apply not_last_adj in Q. destruct Q as (c & Q). apply sl_sep. apply HP. right. right. right. right. left. exists b, c. auto. }
    assert (Sb : forall b c, adjacent bot c b -> seesL L (Edge b false) (up c)).
    { intros b c Q. apply sl_sep. apply HP. right. left. exists c, b. auto. }
    destruct H as [b Q1 Q2|b b' Q1 Q2 Q3|t t' b Q1 Q2|t t' t0 b Q1 Q2 Q3 Q4].
    + apply (sl_edge _ _ b false); [apply HP; left; eauto|]. apply St, Q2.
    + apply (sl_edge _ _ b false); [apply HP; left; eauto|]. apply (sl_edge _ _ b' false); [apply HP; right; right; left; exists b', b; auto|].
      apply St. destruct (last_or_not top b') as [A|A]; [|exfalso|exact A].
      * destruct Q3 as (X & ->). apply (Permutation_in _ (Permutation_sym P)), in_app_iff. right. left. reflexivity.
      * rewrite <- (last_unique top b b' Q2 A) in Q3. exact (last_not bot b Nb Q3 Q1).
    + apply (sl_edge _ _ t' true); [apply HP; right; right; right; left; exists t, t'; auto|]. apply Sb, Q2.
    + apply (sl_edge _ _ t' true); [apply HP; right; right; right; left; exists t, t'; auto|].
      apply (sl_edge _ _ t0 true); [apply HP; do 5 right; exists t0, t'; auto|]. apply Sb, Q4.
Qed.

Hypothesis up_inj : forall a b, up a = up b -> a = b.
Hypothesis down_inj : forall a b, down a = down b -> a = b.
Hypothesis up_down : forall a b, up a <> down b.

Variables top bot : list lab.
Hypothesis N : NoDup top.
Hypothesis P : Permutation top bot.

Let Nb : NoDup bot.
Proof. eapply Permutation_NoDup; eassumption. Qed.

Lemma adj_in (l : list lab) a b : adjacent l a b -> In a l /\ In b l.
Proof. intros (X & Y & ->). rewrite !in_app_iff. cbn. auto. Qed.

Lemma not_last_in (l : list lab) a : not_last l a -> In a l.
Proof. intros (X & c & Y & ->). rewrite !in_app_iff. cbn. auto. Qed.

Lemma last_in' (l : list lab) a : last_label l a -> In a l.
Proof. intros (X & ->). rewrite !in_app_iff. cbn. auto. Qed.

Lemma hd_in (l : list lab) a : hd_error l = Some a -> In a l.
Proof. destruct l; [discriminate|]. intro H. injection H as ->. left. reflexivity. Qed.

Lemma turn_total s : direction up down top bot s -> exists s', turn up down top bot s s'.
Proof.
  intros [(b & H & ->)|(t & H & ->)].
  - destruct (last_or_not top b) as [L|L]; [apply (Permutation_in _ (Permutation_sym P)), not_last_in, H| |exists (down b); apply turn_up; assumption].
    destruct (exists_last (l := bot)) as (X & b' & E); [intros ->; destruct H as (X & c & Y & E); destruct X; discriminate|].
    exists (down b'). apply turn_up_end; auto. exists X. exact E.
  - apply not_last_adj in H. destruct H as (t' & H). pose proof (adj_in _ _ _ H) as [_ I]. apply (Permutation_in _ P) in I.
    assert (Hb : exists b0, hd_error bot = Some b0) by (destruct bot as [|b0 B]; [destruct I|exists b0; reflexivity]). destruct Hb as (b0 & Hb).
    destruct (Nat.eq_dec t' b0) as [->|Q].
    + assert (Ht : exists t0, hd_error top = Some t0) by (destruct top as [|t0 B]; [destruct (adj_nil _ _ H)|exists t0; reflexivity]). destruct Ht as (t0 & Ht).
      destruct (adj_before bot t0 b0) as (c & A); [apply (Permutation_in _ P), hd_in, Ht|exact Hb|intros ->; exact (adj_head top t b0 N Ht H)|].
      exists (up c). eapply turn_down_start; eassumption.
    + destruct (adj_before bot t' b0 I Hb Q) as (c & A). exists (up c). eapply turn_down; eassumption.
Qed.

Lemma turn_direction s s' : turn up down top bot s s' -> direction up down top bot s /\ direction up down top bot s'.
Proof.
  intros [b H1 H2|b b' H1 H2 H3|t t' b H1 H2|t t' t0 b H1 H2 H3 H4]; split.
  - left. eauto.
  - right. eauto.
  - left. eauto.
  - right. exists b'. split; [|reflexivity]. destruct (last_or_not top b') as [L|L]; [apply (Permutation_in _ (Permutation_sym P)), last_in', H3| |exact L].
    rewrite (last_unique top b b' H2 L) in H1. destruct (last_not bot b' Nb H3 H1).
  - right. exists t. split; [apply not_last_adj; eauto|reflexivity].
  - left. exists b. split; [apply not_last_adj; eauto|reflexivity].
  - right. exists t. split; [apply not_last_adj; eauto|reflexivity].
  - left. exists b. split; [apply not_last_adj; eauto|reflexivity].
Qed.

Lemma turn_unique s s1 s2 : turn up down top bot s s1 -> turn up down top bot s s2 -> s1 = s2.
Proof.
  intros H H'. destruct H as [b H1 H2|b b' H1 H2 H3|t t' b H1 H2|t t' t0 b H1 H2 H3 H4];
    inversion H' as [c G1 G2 E1 E2|c c' G1 G2 G3 E1 E2|u u' c G1 G2 E1 E2|u u' u0 c G1 G2 G3 G4 E1 E2];
    try (apply up_inj in E1; subst c); try (apply down_inj in E1; subst u); try (destruct (up_down _ _ E1)); try (symmetry in E1; destruct (up_down _ _ E1)); subst.
  - reflexivity.
  - destruct (last_not top b N G2 H2).
  - destruct (last_not top b N H2 G2).
  - f_equal. eapply last_unique; eassumption.
  - f_equal. pose proof (adj_unique top t t' u' N H1 G1) as <-. eapply adj_unique'; eassumption.
  - pose proof (adj_unique top t t' u' N H1 G1) as <-. destruct (adj_head bot b t' Nb G2 H2).
  - pose proof (adj_unique top t t' u' N H1 G1) as <-. destruct (adj_head bot c t' Nb H2 G2).
  - f_equal. rewrite H3 in G3. injection G3 as <-. eapply adj_unique'; eassumption.
Qed.

Lemma turn_injective s1 s2 s : turn up down top bot s1 s -> turn up down top bot s2 s -> s1 = s2.
Proof.
  intros H H'. destruct H as [b H1 H2|b b' H1 H2 H3|t t' b H1 H2|t t' t0 b H1 H2 H3 H4];
    inversion H' as [c G1 G2 E1 E2|c c' G1 G2 G3 E1 E2|u u' c G1 G2 E1 E2|u u' u0 c G1 G2 G3 G4 E1 E2];
    try (apply up_inj in E2; subst c); try (apply down_inj in E2; subst); try (destruct (up_down _ _ E2)); try (symmetry in E2; destruct (up_down _ _ E2)); try reflexivity.
  - exfalso. eapply (last_not bot); eassumption.
  - exfalso. eapply (last_not bot); eassumption.
  - f_equal. eapply last_unique; eassumption.
  - f_equal. pose proof (adj_unique bot b t' u' Nb H2 G2) as <-. exact (adj_unique' top t u t' N H1 G1).
  - pose proof (adj_unique bot b t' u0 Nb H2 G4) as <-. destruct (adj_head top t t' N G3 H1).
  - pose proof (adj_unique bot b t0 u' Nb H4 G2) as <-. destruct (adj_head top u t0 N H3 G1).
  - f_equal. rewrite H2 in G2. injection G2 as <-. exact (adj_unique' top t u t' N H1 G1).
Qed.

Lemma turn_onto s : direction up down top bot s -> exists s', turn up down top bot s' s.
Proof.
  intros [(b & H & ->)|(t & H & ->)].
  - apply not_last_adj in H. destruct H as (c & H). pose proof (adj_in _ _ _ H) as [_ I]. apply (Permutation_in _ (Permutation_sym P)) in I.
    assert (Ht : exists t0, hd_error top = Some t0) by (destruct top as [|t0 B]; [destruct I|exists t0; reflexivity]). destruct Ht as (t0 & Ht).
    destruct (Nat.eq_dec c t0) as [->|Q].
    + assert (Hb : exists b0, hd_error bot = Some b0) by (destruct bot as [|b0 B]; [destruct (adj_nil _ _ H)|exists b0; reflexivity]). destruct Hb as (b0 & Hb).
      destruct (adj_before top b0 t0) as (u & A); [apply (Permutation_in _ (Permutation_sym P)), hd_in, Hb|exact Ht|intros ->; exact (adj_head bot b t0 Nb Hb H)|].
      exists (down u). eapply turn_down_start; eassumption.
    + destruct (adj_before top c t0 I Ht Q) as (u & A). exists (down u). eapply turn_down; eassumption.
  - destruct (last_or_not bot t) as [L|L]; [apply (Permutation_in _ P), not_last_in, H| |exists (up t); apply turn_up; assumption].
    destruct (exists_last (l := top)) as (X & b' & E); [intros ->; destruct H as (X & c & Y & E); destruct X; discriminate|].
    assert (L' : last_label top b') by (exists X; exact E).
    exists (up b'). apply turn_up_end; auto. destruct (last_or_not bot b') as [L2|L2]; [apply (Permutation_in _ P), last_in', L'| |exact L2].
    rewrite (last_unique bot t b' L L2) in H. destruct (last_not top b' N L' H).
Qed.

End Poly.
