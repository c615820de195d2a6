(** The order of the separatrices around the singularities is kept by all steps of a
    decomposition. *)
From Coq Require Import Reals List Lia Permutation.
From Verif Require Import Base LenT Lengths IET Spec Dyn Saddle Path SpecGlue Glue Decomp DecompSim DecompInv DecompCons.
Import ListNotations.
Open Scope list_scope.
Open Scope nat_scope.

Notation item := (item separatrix).

(** A connection as a side. *)
Definition cv (k : connection) : item := Conn (cn_source k) (cn_target k).

(** The separatrix at the end of the connections right of a label at the bottom. *)
Fixpoint tip (l : label) (cs : list connection) : separatrix :=
  match cs with
  | [] => mksep l PARALLEL
  | k :: cs' => tip (sp_label (cn_target k)) cs'
  end.

Lemma skip_tip cs : forall l r, skip_bottom l cs = Ok r -> r = tip l cs.
Proof.
  induction cs as [|k cs IH]; intros l r; cbn [skip_bottom tip].
  - intro H. injection H as <-. reflexivity.
  - destruct (sep_eqb _ _); cbn [assert_]; [|discriminate]. apply IH.
Qed.

Lemma tip_app cs k cs' : forall l, tip l (cs ++ k :: cs') = tip (sp_label (cn_target k)) cs'.
Proof. induction cs as [|c cs IH]; intro l; [reflexivity|]. cbn [app tip]. apply IH. Qed.

Definition bcross (f : label -> conns) (l : label) : list item :=
  rev (map cv (bottomLeft (f l))) ++ Edge l false :: map cv (bottomRight (f l)).
Definition tcross (f : label -> conns) (l : label) : list item :=
  map cv (topRight (f l)) ++ Edge l true :: rev (map cv (topLeft (f l))).
Definition bm (f : label -> conns) (l : label) : list item := bcross f l ++ [Sep (tip l (bottomRight (f l)))].
Definition tm (f : label -> conns) (l : label) : list item := Sep (mksep l ANTIPARALLEL) :: tcross f l.

Lemma bm_eq f l : bm f l = rev (map cv (bottomLeft (f l))) ++ Edge l false :: map cv (bottomRight (f l)) ++ [Sep (tip l (bottomRight (f l)))].
Proof. unfold bm, bcross. rewrite <- app_assoc. reflexivity. Qed.

(** The boundary of a piece. *)
Definition word (f : label -> conns) (e : exch) : list item :=
  removelast (flat_map (bm f) (e_bot e)) ++ tl (flat_map (tm f) (rev (e_top e))).

Lemma removelast_tail {A} (l m : list A) : m <> [] -> removelast (l ++ m) = l ++ removelast m.
Proof. apply removelast_app. Qed.

Lemma tl_head {A} (l m : list A) : l <> [] -> tl (l ++ m) = tl l ++ m.
Proof. destruct l; [contradiction|reflexivity]. Qed.

Lemma bm_nonempty f l : bm f l <> [].
Proof. unfold bm. destruct (bcross f l); discriminate. Qed.

Lemma flat_nonempty {A B} (g : A -> list B) l : (forall x, g x <> []) -> l <> [] -> flat_map g l <> [].
Proof. intros H N. destruct l as [|a l]; [contradiction|]. cbn. specialize (H a). destruct (g a); [contradiction|discriminate]. Qed.

Lemma word_ext f f' e e' : e_top e' = e_top e -> e_bot e' = e_bot e -> (forall l, In l (e_top e) \/ In l (e_bot e) -> f' l = f l) -> word f' e' = word f e.
Proof.
  intros H1 H2 H. unfold word. rewrite H1, H2. f_equal; f_equal; apply flat_map_same; intros x Hx.
  - unfold bm, bcross. rewrite H by auto. reflexivity.
  - apply in_rev in Hx. unfold tm, tcross. rewrite H by auto. reflexivity.
Qed.

(** ** Which edges occur *)

Definition free (a : label) (w : list item) : Prop := forall t, ~ In (Edge a t) w.

Lemma free_app a u v : free a (u ++ v) <-> free a u /\ free a v.
Proof.
  unfold free. split.
  - intro H. split; intros t I; apply (H t), in_app_iff; auto.
  - intros [H H'] t I. apply in_app_iff in I. destruct I as [I|I]; [apply (H t I)|apply (H' t I)].
Qed.

Lemma free_rev a u : free a (rev u) <-> free a u.
Proof. unfold free. split; intros H t I; apply (H t); [rewrite <- in_rev|apply in_rev]; exact I. Qed.

Lemma free_conns a cs : free a (map cv cs).
Proof. intros t I. apply in_map_iff in I. destruct I as (k & E & _). discriminate. Qed.

Lemma free_cons a x u : (forall t, x <> Edge a t) -> free a u -> free a (x :: u).
Proof. intros H H' t [->|I]; [apply (H t); reflexivity|apply (H' t I)]. Qed.

Lemma free_sub a u v : incl u v -> free a v -> free a u.
Proof. intros I H t J. apply (H t), I, J. Qed.

Lemma removelast_incl {A} (l : list A) : incl (removelast l) l.
Proof. intros x. apply removelast_in. Qed.

Lemma tl_incl {A} (l : list A) : incl (tl l) l.
Proof. destruct l; [apply incl_refl|]. apply incl_tl, incl_refl. Qed.

Lemma free_bm a f l : l <> a -> free a (bm f l).
Proof.
  intro N. unfold bm, bcross. rewrite <- app_assoc. apply free_app. split; [apply free_rev, free_conns|].
  apply free_cons; [intros t E; injection E as E _; contradiction|]. apply free_app. split; [apply free_conns|].
  apply free_cons; [discriminate|]. intros t [].
Qed.

Lemma free_tm a f l : l <> a -> free a (tm f l).
Proof.
  intro N. unfold tm, tcross. apply free_cons; [discriminate|]. apply free_app. split; [apply free_conns|].
  apply free_cons; [intros t E; injection E as E _; contradiction|]. apply free_rev, free_conns.
Qed.

Lemma free_bms a f ls : ~ In a ls -> free a (flat_map (bm f) ls).
Proof.
  intros N t I. apply in_flat_map in I. destruct I as (l & Hl & I). apply (free_bm a f l) in I; [exact I|]. intros ->. contradiction.
Qed.

Lemma free_tms a f ls : ~ In a ls -> free a (flat_map (tm f) ls).
Proof.
  intros N t I. apply in_flat_map in I. destruct I as (l & Hl & I). apply (free_tm a f l) in I; [exact I|]. intros ->. contradiction.
Qed.

Lemma free_word a f e : ~ In a (e_top e) -> ~ In a (e_bot e) -> free a (word f e).
Proof.
  intros N N'. unfold word. apply free_app. split.
  - eapply free_sub; [apply removelast_incl|]. apply free_bms, N'.
  - eapply free_sub; [apply tl_incl|]. apply free_tms. rewrite <- in_rev. exact N.
Qed.

Lemma in_cyc {A} (w : list A) x y : In (x, y) (cyc w) -> In x w /\ In y w.
Proof.
  destruct w as [|a w]; [intros []|]. unfold cyc. intro H. apply in_ap in H. destruct H as [H [->|H']]; split; auto. left. reflexivity.
Qed.

(** ** One piece changes *)

Lemma linked_mid f E1 e E2 x y :
  linked (map (word f) (E1 ++ e :: E2)) x y <-> In (x, y) (cyc (word f e)) \/ linked (map (word f) (E1 ++ E2)) x y.
Proof.
  unfold linked. rewrite !map_app. cbn [map]. split.
  - intros (w & I & H). rewrite in_app_iff in I. cbn [In] in I. destruct I as [I|[<-|I]]; [right|left|right].
    + exists w. rewrite in_app_iff. auto.
    + exact H.
    + exists w. rewrite in_app_iff. auto.
  - intros [H|(w & I & H)].
    + exists (word f e). split; [|exact H]. rewrite in_app_iff. right. left. reflexivity.
    + exists w. split; [|exact H]. rewrite in_app_iff in *. cbn [In]. tauto.
Qed.

Lemma rest_ext f f' E x y : (forall e l, In e E -> In l (e_top e) \/ In l (e_bot e) -> f' l = f l) ->
  linked (map (word f) E) x y <-> linked (map (word f') E) x y.
Proof.
  intro H. replace (map (word f') E) with (map (word f) E); [reflexivity|]. apply map_ext_in. intros e He. symmetry.
  apply word_ext; auto. intros l. apply H, He.
Qed.

Lemma rest_free a f E x y : (forall e, In e E -> ~ In a (e_top e) /\ ~ In a (e_bot e)) -> linked (map (word f) E) x y ->
  forall t, x <> Edge a t /\ y <> Edge a t.
Proof.
  intros H (w & I & J) t. apply in_map_iff in I. destruct I as (e & <- & He). destruct (H e He) as [N N'].
  pose proof (free_word a f e N N' t) as F. apply in_cyc in J. destruct J as [J J']. split; intros ->; contradiction.
Qed.

Ltac fl := repeat (progress (cbn [app]; rewrite <- ?app_assoc)).

(** ** Rauzy steps *)

Lemma step_word f f1 e e1 a b : (forall l, topRight (f l) = []) -> proper e -> a <> b ->
  rauzy_step e e1 -> hd_error (e_top e) = Some a -> hd_error (e_bot e) = Some b -> (forall l, f1 l = conn_move true a b f l) ->
  exists V Z U, free a (V ++ Z ++ U) /\
    (forall p, In p (cyc (word f e)) <-> In p (cyc (Edge a false :: V ++ Edge a true :: Z ++ U))) /\
    (forall p, In p (cyc (word f1 e1)) <-> In p (cyc (Edge a false :: V ++ Edge a true :: U ++ Z))).
Proof.
  intros TR (N & Pm & _) Nab (a' & b' & X & Y1 & Y2 & Et & Eb & _ & Et' & Eb' & _) Ha Hb F.
  rewrite Et in Ha. rewrite Eb in Hb. cbn in Ha, Hb. injection Ha as ->. injection Hb as ->. rewrite Et in Et'.
  assert (Nb : NoDup (e_bot e)) by (eapply Permutation_NoDup; eassumption).
  rewrite Et in N. inversion N as [|? ? Na NX]; subst.
  assert (Nb' : ~ In a (Y1 ++ Y2)).
  { rewrite Eb in Nb. change (b :: Y1 ++ a :: Y2) with ((b :: Y1) ++ a :: Y2) in Nb. apply NoDup_remove_2 in Nb. cbn in Nb. tauto. }
  assert (Nbb : ~ In b (Y1 ++ Y2)).
  { rewrite Eb in Nb. inversion Nb as [|? ? Q _]; subst. intro I. apply Q. rewrite in_app_iff in *. cbn [In]. tauto. }
  assert (HX : X <> []).
  { intros ->. rewrite Et, Eb in Pm. apply Permutation_length in Pm. cbn in Pm. rewrite app_length in Pm. cbn in Pm. lia. }
  set (Ta := removelast (map cv (bottomRight (f a)) ++ Sep (tip a (bottomRight (f a))) :: flat_map (bm f) Y2)).
  set (TX := tl (flat_map (tm f) (rev X))).
  set (FY := flat_map (bm f) Y1).
  assert (Nx : rev X <> []) by (intro Q; apply HX; rewrite <- (rev_involutive X), Q; reflexivity).
  assert (Nt : flat_map (tm f) (rev X) <> []) by (apply flat_nonempty; [discriminate|exact Nx]).
  assert (W : word f e = bm f b ++ FY ++ rev (map cv (bottomLeft (f a))) ++ Edge a false :: Ta ++ TX ++ Sep (mksep a ANTIPARALLEL) :: Edge a true :: rev (map cv (topLeft (f a)))).
  { unfold word. rewrite Et, Eb. cbn [rev]. rewrite flat_map_app. rewrite tl_head by exact Nt. fold TX.
    cbn [flat_map]. rewrite flat_map_app. cbn [flat_map]. fold FY. rewrite app_nil_r.
    replace (bm f b ++ FY ++ bm f a ++ flat_map (bm f) Y2) with ((bm f b ++ FY ++ rev (map cv (bottomLeft (f a))) ++ [Edge a false]) ++
      map cv (bottomRight (f a)) ++ Sep (tip a (bottomRight (f a))) :: flat_map (bm f) Y2).
    - rewrite removelast_tail by (destruct (map cv _); discriminate). fold Ta. unfold tm, tcross. rewrite (TR a). cbn [map app].
      fl. reflexivity.
    - rewrite (bm_eq f a). fl. reflexivity. }
  assert (Fb : forall l, l <> a -> l <> b -> f1 l = f l) by (intros l N1 N2; rewrite F; apply conn_move_out; auto).
  assert (Fm : bm f1 b = rev (map cv (bottomLeft (f a))) ++ rev (map cv (topLeft (f a))) ++ bm f b).
  { unfold bm, bcross. rewrite F. unfold conn_move, upd. destruct (Nat.eqb_spec b a); [congruence|]. rewrite Nat.eqb_refl. cbn [bottomLeft bottomRight].
    rewrite !map_app, !rev_app_distr. fl. reflexivity. }
  assert (Fa : f1 a = mkconns [] (topRight (f a)) [] (bottomRight (f a))).
  { rewrite F. unfold conn_move, upd. rewrite Nat.eqb_refl. reflexivity. }
  assert (FT : forall l, l <> a -> tm f1 l = tm f l).
  { intros l Hl. destruct (Nat.eq_dec l b) as [->|Hb]; [|unfold tm, tcross; rewrite Fb by auto; reflexivity].
    unfold tm, tcross. rewrite F. unfold conn_move, upd. destruct (Nat.eqb_spec b a); [congruence|]. rewrite Nat.eqb_refl. reflexivity. }
  assert (FB : forall l, l <> a -> l <> b -> bm f1 l = bm f l) by (intros l Hl Hb; unfold bm, bcross; rewrite Fb by auto; reflexivity).
  assert (W' : word f1 e1 = FY ++ rev (map cv (bottomLeft (f a))) ++ rev (map cv (topLeft (f a))) ++ bm f b ++ Edge a false :: Ta ++ TX ++ Sep (mksep a ANTIPARALLEL) :: [Edge a true]).
  { unfold word. rewrite Et', Eb'. cbn [rev]. rewrite !flat_map_app. cbn [flat_map]. rewrite app_nil_r.
    rewrite (flat_map_same (tm f1) (tm f) (rev X)) by (intros x Hx; apply FT; intros ->; apply Na, in_rev, Hx).
    rewrite tl_head by exact Nt. fold TX.
    rewrite (flat_map_same (bm f1) (bm f) Y1) by (intros x Hx; apply FB; intros ->; [apply Nb'|apply Nbb]; rewrite in_app_iff; auto). fold FY.
    rewrite (flat_map_same (bm f1) (bm f) Y2) by (intros x Hx; apply FB; intros ->; [apply Nb'|apply Nbb]; rewrite in_app_iff; auto).
    rewrite Fm. replace (bm f1 a) with (Edge a false :: map cv (bottomRight (f a)) ++ [Sep (tip a (bottomRight (f a)))]) by (unfold bm, bcross; rewrite Fa; reflexivity).
    replace (tm f1 a) with (Sep (mksep a ANTIPARALLEL) :: [Edge a true]) by (unfold tm, tcross; rewrite Fa; cbn [topRight topLeft]; rewrite (TR a); reflexivity).
    match goal with |- removelast ?l ++ _ = _ =>
      replace l with ((FY ++ rev (map cv (bottomLeft (f a))) ++ rev (map cv (topLeft (f a))) ++ bm f b ++ [Edge a false]) ++
        map cv (bottomRight (f a)) ++ Sep (tip a (bottomRight (f a))) :: flat_map (bm f) Y2) end.
    - rewrite removelast_tail by (destruct (map cv _); discriminate). fold Ta. fl. reflexivity.
    - fl. reflexivity. }
  exists (Ta ++ TX ++ [Sep (mksep a ANTIPARALLEL)]), (rev (map cv (topLeft (f a))) ++ bm f b), (FY ++ rev (map cv (bottomLeft (f a)))).
  split; [|split].
  - rewrite !free_app. repeat split; try (apply free_rev, free_conns).
    + eapply free_sub; [apply removelast_incl|]. apply free_app. split; [apply free_conns|]. apply free_cons; [discriminate|]. apply free_bms. rewrite in_app_iff in Nb'. tauto.
    + eapply free_sub; [apply tl_incl|]. apply free_tms. rewrite <- in_rev. exact Na.
    + apply free_cons; [discriminate|]. intros t [].
    + apply free_bm. auto.
    + apply free_bms. rewrite in_app_iff in Nb'. tauto.
  - intro p. rewrite W.
    replace (bm f b ++ FY ++ rev (map cv (bottomLeft (f a))) ++ Edge a false :: Ta ++ TX ++ Sep (mksep a ANTIPARALLEL) :: Edge a true :: rev (map cv (topLeft (f a))))
      with ((bm f b ++ FY ++ rev (map cv (bottomLeft (f a)))) ++ (Edge a false :: Ta ++ TX ++ Sep (mksep a ANTIPARALLEL) :: Edge a true :: rev (map cv (topLeft (f a)))))
      by (fl; reflexivity).
    rewrite cyc_rot. fl. reflexivity.
  - intro p. rewrite W'.
    replace (FY ++ rev (map cv (bottomLeft (f a))) ++ rev (map cv (topLeft (f a))) ++ bm f b ++ Edge a false :: Ta ++ TX ++ Sep (mksep a ANTIPARALLEL) :: [Edge a true])
      with ((FY ++ rev (map cv (bottomLeft (f a))) ++ rev (map cv (topLeft (f a))) ++ bm f b) ++ (Edge a false :: Ta ++ TX ++ Sep (mksep a ANTIPARALLEL) :: [Edge a true]))
      by (fl; reflexivity).
    rewrite cyc_rot. fl. reflexivity.
Qed.

Lemma step_word_bot f f1 e e1 a b : (forall l, topRight (f l) = []) -> proper e -> a <> b ->
  rauzy_step (flip e) (flip e1) -> hd_error (e_bot e) = Some a -> hd_error (e_top e) = Some b -> (forall l, f1 l = conn_move false a b f l) ->
  exists V Z U, free a (V ++ Z ++ U) /\
    (forall p, In p (cyc (word f e)) <-> In p (cyc (Edge a false :: V ++ Edge a true :: Z ++ U))) /\
    (forall p, In p (cyc (word f1 e1)) <-> In p (cyc (Edge a false :: V ++ Edge a true :: U ++ Z))).
Proof.
  intros TR (N & Pm & _) Nab (a' & b' & X & Y1 & Y2 & Eb & Et & _ & Eb' & Et' & _) Ha Hb F.
  cbn [flip e_top e_bot] in *.
  rewrite Eb in Ha. rewrite Et in Hb. cbn in Ha, Hb. injection Ha as ->. injection Hb as ->. rewrite Eb in Eb'.
  assert (Nb : NoDup (e_bot e)) by (eapply Permutation_NoDup; eassumption).
  rewrite Eb in Nb. inversion Nb as [|? ? Na NX]; subst.
  assert (Nb' : ~ In a (Y1 ++ Y2)).
  { rewrite Et in N. change (b :: Y1 ++ a :: Y2) with ((b :: Y1) ++ a :: Y2) in N. apply NoDup_remove_2 in N. cbn in N. tauto. }
  assert (Nbb : ~ In b (Y1 ++ Y2)).
  { rewrite Et in N. inversion N as [|? ? Q _]; subst. intro I. apply Q. rewrite in_app_iff in *. cbn [In]. tauto. }
  set (Ra := removelast (map cv (bottomRight (f a)) ++ Sep (tip a (bottomRight (f a))) :: flat_map (bm f) X)).
  set (T2 := tl (flat_map (tm f) (rev Y2) ++ [Sep (mksep a ANTIPARALLEL)])).
  set (T1 := flat_map (tm f) (rev Y1)).
  assert (Nt : flat_map (tm f) (rev Y2) ++ [Sep (mksep a ANTIPARALLEL)] <> []) by (destruct (flat_map (tm f) (rev Y2)); discriminate).
  assert (W : word f e = rev (map cv (bottomLeft (f a))) ++ Edge a false :: Ra ++ T2 ++ Edge a true :: rev (map cv (topLeft (f a))) ++ T1 ++ tm f b).
  { unfold word. rewrite Et, Eb. cbn [rev flat_map]. rewrite rev_app_distr. cbn [rev]. rewrite !flat_map_app. cbn [flat_map]. rewrite !app_nil_r. fold T1.
    replace (((flat_map (tm f) (rev Y2) ++ tm f a) ++ T1) ++ tm f b) with
      ((flat_map (tm f) (rev Y2) ++ [Sep (mksep a ANTIPARALLEL)]) ++ Edge a true :: rev (map cv (topLeft (f a))) ++ T1 ++ tm f b)
      by (unfold tm at 4, tcross; rewrite (TR a); cbn [map]; fl; reflexivity).
    rewrite tl_head by exact Nt. fold T2.
    replace (bm f a ++ flat_map (bm f) X) with ((rev (map cv (bottomLeft (f a))) ++ [Edge a false]) ++
      map cv (bottomRight (f a)) ++ Sep (tip a (bottomRight (f a))) :: flat_map (bm f) X) by (rewrite bm_eq; fl; reflexivity).
    rewrite removelast_tail by (destruct (map cv _); discriminate). fold Ra. fl. reflexivity. }
  assert (Fb : forall l, l <> a -> l <> b -> f1 l = f l) by (intros l N1 N2; rewrite F; apply conn_move_out; auto).
  assert (Fm : tm f1 b = tm f b ++ rev (map cv (bottomLeft (f a))) ++ rev (map cv (topLeft (f a)))).
  { unfold tm, tcross. rewrite F. unfold conn_move, upd. destruct (Nat.eqb_spec b a); [congruence|]. rewrite Nat.eqb_refl. cbn [topLeft topRight].
    rewrite !map_app, !rev_app_distr. fl. reflexivity. }
  assert (Fa : f1 a = mkconns [] (topRight (f a)) [] (bottomRight (f a))).
  { rewrite F. unfold conn_move, upd. rewrite Nat.eqb_refl. reflexivity. }
  assert (FB : forall l, l <> a -> bm f1 l = bm f l).
  { intros l Hl. destruct (Nat.eq_dec l b) as [->|Hb]; [|unfold bm, bcross; rewrite Fb by auto; reflexivity].
    unfold bm, bcross. rewrite F. unfold conn_move, upd. destruct (Nat.eqb_spec b a); [congruence|]. rewrite Nat.eqb_refl. reflexivity. }
  assert (FT : forall l, l <> a -> l <> b -> tm f1 l = tm f l) by (intros l Hl Hb; unfold tm, tcross; rewrite Fb by auto; reflexivity).
  assert (W' : word f1 e1 = Edge a false :: Ra ++ T2 ++ Edge a true :: tm f b ++ rev (map cv (bottomLeft (f a))) ++ rev (map cv (topLeft (f a))) ++ T1).
  { unfold word. rewrite Et', Eb'. rewrite rev_app_distr. cbn [rev flat_map]. rewrite !flat_map_app. cbn [flat_map]. rewrite !app_nil_r.
    rewrite (flat_map_same (tm f1) (tm f) (rev Y1)) by (intros x Hx; apply in_rev in Hx; apply FT; intros ->; [apply Nb'|apply Nbb]; rewrite in_app_iff; auto). fold T1.
    rewrite (flat_map_same (tm f1) (tm f) (rev Y2)) by (intros x Hx; apply in_rev in Hx; apply FT; intros ->; [apply Nb'|apply Nbb]; rewrite in_app_iff; auto).
    rewrite (flat_map_same (bm f1) (bm f) X) by (intros x Hx; apply FB; intros ->; contradiction).
    rewrite Fm. replace (bm f1 a) with (Edge a false :: map cv (bottomRight (f a)) ++ [Sep (tip a (bottomRight (f a)))]) by (unfold bm, bcross; rewrite Fa; reflexivity).
    replace (tm f1 a) with (Sep (mksep a ANTIPARALLEL) :: [Edge a true]) by (unfold tm, tcross; rewrite Fa; cbn [topRight topLeft]; rewrite (TR a); reflexivity).
    match goal with |- removelast ?l ++ tl ?m = _ =>
      replace l with ([Edge a false] ++ map cv (bottomRight (f a)) ++ Sep (tip a (bottomRight (f a))) :: flat_map (bm f) X) by (fl; reflexivity);
      replace m with ((flat_map (tm f) (rev Y2) ++ [Sep (mksep a ANTIPARALLEL)]) ++ Edge a true :: tm f b ++ rev (map cv (bottomLeft (f a))) ++ rev (map cv (topLeft (f a))) ++ T1)
        by (fl; reflexivity) end.
    rewrite tl_head by exact Nt. fold T2. rewrite removelast_tail by (destruct (map cv _); discriminate). fold Ra. fl. reflexivity. }
  exists (Ra ++ T2), (rev (map cv (topLeft (f a))) ++ T1), (tm f b ++ rev (map cv (bottomLeft (f a)))).
  split; [|split].
  - rewrite !free_app. repeat split; try (apply free_rev, free_conns).
    + eapply free_sub; [apply removelast_incl|]. apply free_app. split; [apply free_conns|]. apply free_cons; [discriminate|]. apply free_bms. exact Na.
    + eapply free_sub; [apply tl_incl|]. apply free_app. split; [|apply free_cons; [discriminate|intros t []]].
      apply free_tms. rewrite <- in_rev. rewrite in_app_iff in Nb'. tauto.
    + apply free_tms. rewrite <- in_rev. rewrite in_app_iff in Nb'. tauto.
    + apply free_tm. auto.
  - intro p. rewrite W, cyc_rot. fl. reflexivity.
  - intro p. rewrite W'. fl. reflexivity.
Qed.

(** ** Merging *)

Lemma merge_word f f' e e' a b first src tgt : (forall l, topRight (f l) = []) -> proper e -> a <> b ->
  merge_step e e' -> hd_error (e_top e) = Some a -> hd_error (e_bot e) = Some b -> hd_error (e_top e') = Some first ->
  src = tip b (bottomRight (f b)) -> tgt = mksep a ANTIPARALLEL -> (forall l, f' l = merge_conns b a first (mkconn src tgt) f l) ->
  exists v V z Z U, free a (v :: V ++ z :: Z ++ U) /\
    (forall p, In p (cyc (word f e)) <-> In p (cyc (Edge a false :: (v :: V) ++ Sep tgt :: Edge a true :: (z :: Z) ++ Sep src :: U))) /\
    (forall p, In p (cyc (word f' e')) <-> In p (cyc (Conn src tgt :: (v :: V) ++ Conn tgt src :: U ++ z :: Z))).
Proof.
  intros TR (N & Pm & _) Nab (a' & b' & X & Y1 & Y2 & Et & Eb & _ & Et' & Eb' & _) Ha Hb Hf Es Ett F.
  rewrite Et in Ha. rewrite Eb in Hb. cbn in Ha, Hb. injection Ha as ->. injection Hb as ->.
  assert (Nb : NoDup (e_bot e)) by (eapply Permutation_NoDup; eassumption).
  rewrite Et in N. inversion N as [|? ? Na NX]; subst x l.
  assert (Nb' : ~ In a (Y1 ++ Y2)).
  { rewrite Eb in Nb. change (b :: Y1 ++ a :: Y2) with ((b :: Y1) ++ a :: Y2) in Nb. apply NoDup_remove_2 in Nb. cbn in Nb. tauto. }
  assert (Nbb : ~ In b (Y1 ++ Y2)).
  { rewrite Eb in Nb. inversion Nb as [|? ? Q _]; subst. intro I. apply Q. rewrite in_app_iff in *. cbn [In]. tauto. }
  destruct X as [|first' X']; [rewrite Et' in Hf; discriminate|]. rewrite Et' in Hf. injection Hf as ->.
  assert (Nfa : first <> a) by (intros ->; apply Na; left; reflexivity).
  assert (Nf : ~ In first X') by (inversion NX; assumption).
  set (X := first :: X') in *.
  set (Ta := removelast (map cv (bottomRight (f a)) ++ Sep (tip a (bottomRight (f a))) :: flat_map (bm f) Y2)).
  set (TX := tl (flat_map (tm f) (rev X))).
  set (FY := flat_map (bm f) Y1).
  assert (Nt : flat_map (tm f) (rev X) <> []).
  { apply flat_nonempty; [discriminate|]. intro Q. apply (f_equal (@List.length _)) in Q. rewrite rev_length in Q. discriminate. }
  assert (W : word f e = (bcross f b ++ [Sep src]) ++ FY ++ rev (map cv (bottomLeft (f a))) ++ Edge a false :: Ta ++ TX ++ Sep tgt :: Edge a true :: rev (map cv (topLeft (f a)))).
  { unfold word. rewrite Et, Eb. cbn [rev]. rewrite flat_map_app. rewrite tl_head by exact Nt. fold TX.
    cbn [flat_map]. rewrite flat_map_app. cbn [flat_map]. fold FY. rewrite app_nil_r.
    replace (bm f b ++ FY ++ bm f a ++ flat_map (bm f) Y2) with ((bm f b ++ FY ++ rev (map cv (bottomLeft (f a))) ++ [Edge a false]) ++
      map cv (bottomRight (f a)) ++ Sep (tip a (bottomRight (f a))) :: flat_map (bm f) Y2) by (rewrite (bm_eq f a); fl; reflexivity).
    rewrite removelast_tail by (destruct (map cv _); discriminate). fold Ta. unfold tm, tcross. rewrite (TR a). cbn [map app].
    unfold bm. rewrite <- Es, <- Ett. fl. reflexivity. }
  assert (Fo : forall l, l <> a -> l <> b -> l <> first -> f' l = f l) by (intros l N1 N2 N3; rewrite F; apply merge_conns_out; auto).
  assert (FB : forall l, l <> a -> l <> b -> bm f' l = bm f l).
  { intros l Hl Hb. unfold bm, bcross. rewrite F. unfold merge_conns, upd. destruct (Nat.eqb_spec l a); [contradiction|]. destruct (Nat.eqb_spec l b); [contradiction|].
    destruct (Nat.eqb_spec l first) as [->|]; [|reflexivity]. destruct (Nat.eqb_spec first b); [contradiction|]. reflexivity. }
  assert (FT : forall l, l <> a -> l <> first -> tm f' l = tm f l).
  { intros l Hl Hf. unfold tm, tcross. rewrite F. unfold merge_conns, upd. destruct (Nat.eqb_spec l a); [contradiction|].
    destruct (Nat.eqb_spec l b) as [->|].
    - destruct (Nat.eqb_spec b first); [contradiction|]. rewrite Nat.eqb_refl. reflexivity.
    - destruct (Nat.eqb_spec l first); [contradiction|]. reflexivity. }
  assert (FF : tm f' first = tm f first ++ [Conn tgt src]).
  { unfold tm, tcross. rewrite F. unfold merge_conns, upd. destruct (Nat.eqb_spec first a); [contradiction|].
    destruct (Nat.eqb_spec first b) as [->|].
    - rewrite Nat.eqb_refl. cbn [topLeft topRight map rev]. fl. reflexivity.
    - rewrite Nat.eqb_refl. cbn [topLeft topRight map rev]. fl. reflexivity. }
  assert (Fm : bm f' b = rev (map cv (bottomLeft (f a))) ++ rev (map cv (topLeft (f a))) ++ bcross f b ++ Conn src tgt :: map cv (bottomRight (f a)) ++ [Sep (tip a (bottomRight (f a)))]).
  { assert (Q : bottomLeft (f' b) = bottomLeft (f b) ++ topLeft (f a) ++ bottomLeft (f a) /\ bottomRight (f' b) = bottomRight (f b) ++ mkconn src tgt :: bottomRight (f a)).
    { rewrite F. unfold merge_conns, upd. rewrite Nat.eqb_refl. destruct (Nat.eqb_spec b a); [congruence|]. destruct (Nat.eqb_spec a b); [congruence|].
      destruct (Nat.eqb_spec a first); [congruence|]. rewrite (TR a). cbn [bottomLeft bottomRight app].
      destruct (Nat.eqb_spec b first) as [<-|]; cbn [bottomLeft bottomRight]; rewrite ?Nat.eqb_refl; cbn [bottomLeft bottomRight]; fl; split; reflexivity. }
    destruct Q as [Q1 Q2]. rewrite bm_eq, Q1, Q2, tip_app. cbn [cn_target]. rewrite Ett. cbn [sp_label]. unfold bcross.
    rewrite !map_app, !rev_app_distr. cbn [map]. fl. reflexivity. }
  assert (W' : word f' e' = FY ++ rev (map cv (bottomLeft (f a))) ++ rev (map cv (topLeft (f a))) ++ bcross f b ++ Conn src tgt :: Ta ++ TX ++ [Conn tgt src]).
  { unfold word. rewrite Et', Eb'. subst X. cbn [rev]. rewrite !flat_map_app. cbn [flat_map]. rewrite app_nil_r.
    rewrite (flat_map_same (tm f') (tm f) (rev X')) by (intros x Hx; apply in_rev in Hx; apply FT; intros ->; [apply Na; right; exact Hx|exact (Nf Hx)]).
    rewrite (flat_map_same (bm f') (bm f) Y1) by (intros x Hx; apply FB; intros ->; [apply Nb'|apply Nbb]; rewrite in_app_iff; auto). fold FY.
    rewrite (flat_map_same (bm f') (bm f) Y2) by (intros x Hx; apply FB; intros ->; [apply Nb'|apply Nbb]; rewrite in_app_iff; auto).
    rewrite FF, Fm. subst TX. cbn [rev] in *. rewrite flat_map_app in *. cbn [flat_map] in *. rewrite app_nil_r in *.
    rewrite (app_assoc (flat_map (tm f) (rev X'))). rewrite tl_head by exact Nt.
    match goal with |- removelast ?l ++ _ = _ =>
      replace l with ((FY ++ rev (map cv (bottomLeft (f a))) ++ rev (map cv (topLeft (f a))) ++ bcross f b ++ [Conn src tgt]) ++
        map cv (bottomRight (f a)) ++ Sep (tip a (bottomRight (f a))) :: flat_map (bm f) Y2) by (fl; reflexivity) end.
    rewrite removelast_tail by (destruct (map cv _); discriminate). fold Ta. fl. reflexivity. }
  assert (HV : exists v V, Ta ++ TX = v :: V).
  { assert (In (Edge first true) (Ta ++ TX)).
    { apply in_app_iff. right. subst TX X. cbn [rev]. rewrite flat_map_app. cbn [flat_map]. rewrite app_nil_r.
      unfold tm at 2. destruct (flat_map (tm f) (rev X')) as [|u us]; cbn [app tl]; unfold tcross; rewrite ?in_app_iff; cbn [In]; rewrite ?in_app_iff; cbn [In]; auto 7. }
    destruct (Ta ++ TX) as [|v V]; [contradiction|]. eauto. }
  assert (HZ : exists z Z, rev (map cv (topLeft (f a))) ++ bcross f b = z :: Z).
  { assert (In (Edge b false) (rev (map cv (topLeft (f a))) ++ bcross f b)) by (unfold bcross; rewrite !in_app_iff; cbn [In]; auto).
    destruct (rev (map cv (topLeft (f a))) ++ bcross f b) as [|z Z]; [contradiction|]. eauto. }
  destruct HV as (v & V & HV). destruct HZ as (z & Z & HZ).
  exists v, V, z, Z, (FY ++ rev (map cv (bottomLeft (f a)))).
  split; [|split].
  - change (free a ((v :: V) ++ (z :: Z) ++ (FY ++ rev (map cv (bottomLeft (f a)))))). rewrite <- HV, <- HZ.
    rewrite !free_app. repeat split; try (apply free_rev, free_conns).
    + eapply free_sub; [apply removelast_incl|]. apply free_app. split; [apply free_conns|]. apply free_cons; [discriminate|]. apply free_bms. rewrite in_app_iff in Nb'. tauto.
    + eapply free_sub; [apply tl_incl|]. apply free_tms. rewrite <- in_rev. exact Na.
    + assert (Q : free a (bm f b)) by (apply free_bm; auto). unfold bm in Q. apply free_app in Q. apply Q.
    + apply free_bms. rewrite in_app_iff in Nb'. tauto.
  - intro p. rewrite W, <- HV, <- HZ.
    replace ((bcross f b ++ [Sep src]) ++ FY ++ rev (map cv (bottomLeft (f a))) ++ Edge a false :: Ta ++ TX ++ Sep tgt :: Edge a true :: rev (map cv (topLeft (f a))))
      with (((bcross f b ++ [Sep src]) ++ FY ++ rev (map cv (bottomLeft (f a)))) ++ (Edge a false :: Ta ++ TX ++ Sep tgt :: Edge a true :: rev (map cv (topLeft (f a)))))
      by (fl; reflexivity).
    rewrite cyc_rot. fl. reflexivity.
  - intro p. rewrite W', <- HV, <- HZ.
    replace (FY ++ rev (map cv (bottomLeft (f a))) ++ rev (map cv (topLeft (f a))) ++ bcross f b ++ Conn src tgt :: Ta ++ TX ++ [Conn tgt src])
      with ((FY ++ rev (map cv (bottomLeft (f a))) ++ rev (map cv (topLeft (f a))) ++ bcross f b) ++ (Conn src tgt :: Ta ++ TX ++ [Conn tgt src]))
      by (fl; reflexivity).
    rewrite cyc_rot. fl. reflexivity.
Qed.

(** ** Splitting *)

Lemma split_word f f' e k b t b' src tgt : (forall l, topRight (f l) = []) -> proper e ->
  invariant_prefix e k ->
  hd_error (rev (firstn k (e_bot e))) = Some b -> hd_error (rev (firstn k (e_top e))) = Some t ->
  hd_error (skipn k (e_bot e)) = Some b' ->
  src = tip b (bottomRight (f b)) -> tgt = mksep t ANTIPARALLEL -> (forall l, f' l = register b b' (mkconn src tgt) f l) ->
  exists x X y Y z Z,
    (forall p, In p (cyc (word f e)) <-> In p (cyc ((x :: X) ++ Sep src :: (y :: Y) ++ Sep tgt :: z :: Z))) /\
    (forall p, In p (cyc (word f' (left_of e k))) <-> In p (cyc ((x :: X) ++ Conn src tgt :: z :: Z))) /\
    (forall p, In p (cyc (word f' (right_of e k))) <-> In p (cyc (Conn tgt src :: y :: Y))).
Proof.
  intros TR (N & Pm & _) (Hk & _) Hb Ht Hb' Es Et F.
  assert (Nb : NoDup (e_bot e)) by (eapply Permutation_NoDup; eassumption).
  assert (HB1 : exists B1, firstn k (e_bot e) = B1 ++ [b]).
  { destruct (rev (firstn k (e_bot e))) as [|u us] eqn:Q; [discriminate|]. injection Hb as ->.
    exists (rev us). rewrite <- (rev_involutive (firstn k (e_bot e))), Q. reflexivity. }
  assert (HT1 : exists T1, firstn k (e_top e) = T1 ++ [t]).
  { destruct (rev (firstn k (e_top e))) as [|u us] eqn:Q; [discriminate|]. injection Ht as ->.
    exists (rev us). rewrite <- (rev_involutive (firstn k (e_top e))), Q. reflexivity. }
  assert (HB2 : exists B2, skipn k (e_bot e) = b' :: B2).
  { destruct (skipn k (e_bot e)) as [|u us]; [discriminate|]. injection Hb' as ->. eauto. }
  destruct HB1 as (B1 & HB1). destruct HT1 as (T1 & HT1). destruct HB2 as (B2 & HB2).
  assert (HT2 : skipn k (e_top e) <> []).
  { intro Q. apply (f_equal (@List.length _)) in Q. rewrite skipn_length in Q. cbn in Q. lia. }
  pose proof (firstn_skipn k (e_top e)) as St. pose proof (firstn_skipn k (e_bot e)) as Sb.
  rewrite HT1 in St. rewrite HB1, HB2 in Sb.
  set (T2 := skipn k (e_top e)) in *.
  rewrite <- Sb in Nb. rewrite <- app_assoc in Nb. cbn [app] in Nb.
  assert (Nbb : b <> b' /\ ~ In b B1 /\ ~ In b B2 /\ ~ In b' B1 /\ ~ In b' B2).
  { pose proof (NoDup_remove_2 _ _ _ Nb) as Q1. change (B1 ++ b :: b' :: B2) with (B1 ++ [b] ++ b' :: B2) in Nb. rewrite app_assoc in Nb.
    pose proof (NoDup_remove_2 _ _ _ Nb) as Q2. rewrite !in_app_iff in *. cbn [In] in *.
    repeat split; try tauto. }
  destruct Nbb as (Nbb' & M1 & M2 & M3 & M4).
  assert (Nt : flat_map (tm f) (rev T2) <> []).
  { apply flat_nonempty; [discriminate|]. intro Q. apply HT2. rewrite <- (rev_involutive T2), Q. reflexivity. }
  assert (Nbm : flat_map (bm f) (b' :: B2) <> []) by (apply flat_nonempty; [intro; apply bm_nonempty|discriminate]).
  set (FB := flat_map (bm f) B1). set (RB := removelast (flat_map (bm f) (b' :: B2))).
  set (LT := tl (flat_map (tm f) (rev T2))). set (FT := flat_map (tm f) (rev T1)).
  assert (W : word f e = (FB ++ bcross f b) ++ Sep src :: (RB ++ LT) ++ Sep tgt :: tcross f t ++ FT).
  { unfold word. rewrite <- St, <- Sb. rewrite !rev_app_distr. cbn [rev app]. rewrite (flat_map_app (tm f)). rewrite tl_head by exact Nt. fold LT. cbn [flat_map]. fold FT.
    rewrite flat_map_app. rewrite removelast_tail by exact Nbm. fold RB. rewrite flat_map_app. cbn [flat_map]. fold FB. rewrite app_nil_r.
    unfold bm, tm. rewrite <- Es, <- Et. fl. reflexivity. }
  assert (FT' : forall l, tm f' l = tm f l).
  { intro l. unfold tm, tcross. rewrite F. unfold register, upd.
    destruct (Nat.eqb_spec l b') as [->|]; [destruct (Nat.eqb_spec b' b); [congruence|]; reflexivity|].
    destruct (Nat.eqb_spec l b) as [->|]; reflexivity. }
  assert (FB' : forall l, l <> b -> l <> b' -> bm f' l = bm f l).
  { intros l N1 N2. unfold bm, bcross. rewrite F. unfold register, upd. destruct (Nat.eqb_spec l b'); [contradiction|]. destruct (Nat.eqb_spec l b); [contradiction|]. reflexivity. }
  assert (Fb : bcross f' b = bcross f b ++ [Conn src tgt]).
  { unfold bcross. rewrite F. unfold register, upd. destruct (Nat.eqb_spec b b'); [contradiction|]. rewrite Nat.eqb_refl. cbn [bottomLeft bottomRight].
    rewrite map_app. fl. reflexivity. }
  assert (Fb' : bm f' b' = Conn tgt src :: bm f b').
  { unfold bm, bcross. rewrite F. unfold register, upd. rewrite Nat.eqb_refl. destruct (Nat.eqb_spec b' b); [congruence|]. cbn [bottomLeft bottomRight].
    rewrite map_app, rev_app_distr. reflexivity. }
  assert (W1 : word f' (left_of e k) = (FB ++ bcross f b) ++ Conn src tgt :: tcross f t ++ FT).
  { unfold word, left_of. cbn [e_top e_bot]. rewrite HB1, HT1, rev_app_distr. cbn [rev app flat_map]. rewrite (FT' t).
    rewrite (flat_map_same (tm f') (tm f) (rev T1)) by auto. fold FT. rewrite flat_map_app.
    rewrite (flat_map_same (bm f') (bm f) B1) by (intros x Hx; apply FB'; intros ->; contradiction). fold FB. cbn [flat_map]. rewrite app_nil_r.
    unfold bm. rewrite Fb. rewrite app_assoc, removelast_last. unfold tm. cbn [app tl]. fl. reflexivity. }
  assert (W2 : word f' (right_of e k) = Conn tgt src :: RB ++ LT).
  { unfold word, right_of. cbn [e_top e_bot]. fold T2. rewrite HB2. rewrite (flat_map_same (tm f') (tm f) (rev T2)) by auto. fold LT.
    cbn [flat_map]. rewrite (flat_map_same (bm f') (bm f) B2) by (intros x Hx; apply FB'; intros ->; contradiction). rewrite Fb'.
    change ((Conn tgt src :: bm f b') ++ flat_map (bm f) B2) with ([Conn tgt src] ++ flat_map (bm f) (b' :: B2)).
    rewrite removelast_tail by exact Nbm. fold RB. reflexivity. }
  assert (HX : exists x X, FB ++ bcross f b = x :: X).
  { assert (In (Edge b false) (FB ++ bcross f b)) by (unfold bcross; rewrite !in_app_iff; cbn [In]; auto).
    destruct (FB ++ bcross f b) as [|x X]; [contradiction|]. eauto. }
  assert (HY : exists y Y, RB ++ LT = y :: Y).
  { assert (In (Edge b' false) (RB ++ LT)).
    { apply in_app_iff. left. subst RB. cbn [flat_map]. rewrite bm_eq. fl.
      change (Edge b' false :: map cv (bottomRight (f b')) ++ Sep (tip b' (bottomRight (f b'))) :: flat_map (bm f) B2) with
        ([Edge b' false] ++ map cv (bottomRight (f b')) ++ Sep (tip b' (bottomRight (f b'))) :: flat_map (bm f) B2).
      rewrite app_assoc. rewrite removelast_tail by (destruct (map cv _); discriminate). rewrite !in_app_iff. cbn [In]. auto. }
    destruct (RB ++ LT) as [|x X]; [contradiction|]. eauto. }
  assert (HZ : exists z Z, tcross f t ++ FT = z :: Z).
  { assert (In (Edge t true) (tcross f t ++ FT)) by (unfold tcross; rewrite !in_app_iff; cbn [In]; auto).
    destruct (tcross f t ++ FT) as [|x X]; [contradiction|]. eauto. }
  destruct HX as (x & X & HX). destruct HY as (y & Y & HY). destruct HZ as (z & Z & HZ).
  exists x, X, y, Y, z, Z. rewrite W, W1, W2, HX, HY, HZ. repeat split; intro Q; exact Q.
Qed.

(** ** All steps *)

Lemma same_next_refl L : same_next (S := separatrix) L L.
Proof. apply same_next_ext. reflexivity. Qed.

Lemma same_next_trans (L L1 L' : item -> item -> Prop) : same_next L L1 -> same_next L1 L' -> same_next L L'.
Proof. intros H H' s s'. rewrite (H s s'). apply H'. Qed.

Definition links_of (f : label -> conns) (E : list exch) : item -> item -> Prop := linked (map (word f) E).

Lemma others_free e0 E1 e E2 f D : conn_inv e0 (E1 ++ e :: E2) f D ->
  forall l x, In l (e_top e) -> In x (E1 ++ E2) -> ~ In l (e_top x) /\ ~ In l (e_bot x).
Proof.
  intros H l x Hl Hx. destruct (ci_parts _ _ _ _ H) as (ND & _).
  pose proof (pieces_disjoint E1 e E2 x l ND Hx Hl) as Q. split; [exact Q|]. intro Q'. apply Q.
  destruct (ci_proper _ _ _ _ H x) as ((_ & P & _) & _); [apply in_middle; auto|]. apply (Permutation_in _ (Permutation_sym P)), Q'.
Qed.

Lemma free_not a w x : free a w -> In x w -> x <> Edge a false /\ x <> Edge a true.
Proof. intros H I. split; intros ->; exact (H _ I). Qed.

Lemma cstep_next e0 E1 e E2 f D e1 f1 a b onTop : conn_inv e0 (E1 ++ e :: E2) f D ->
  In a (e_top e) -> In b (e_top e) -> a <> b -> (forall l, f1 l = conn_move onTop a b f l) ->
  (exists V Z U, free a (V ++ Z ++ U) /\
    (forall p, In p (cyc (word f e)) <-> In p (cyc (Edge a false :: V ++ Edge a true :: Z ++ U))) /\
    (forall p, In p (cyc (word f1 e1)) <-> In p (cyc (Edge a false :: V ++ Edge a true :: U ++ Z)))) ->
  same_next (links_of f (E1 ++ e :: E2)) (links_of f1 (E1 ++ e1 :: E2)).
Proof.
  intros H Ia Ib Nab F (V & Z & U & Fr & W & W').
  apply (slide _ _ (linked (map (word f) (E1 ++ E2))) (word f e) (word f1 e1) a false V Z U W W').
  - intros x y. apply linked_mid.
  - intros x y. unfold links_of. rewrite linked_mid. rewrite (rest_ext f f1); [reflexivity|].
    intros x0 l Hx Hl. rewrite F. apply conn_move_out; intro Q; subst l;
      [destruct (others_free _ _ _ _ _ _ H a x0 Ia Hx)|destruct (others_free _ _ _ _ _ _ H b x0 Ib Hx)]; tauto.
  - intros x. apply free_not. exact Fr.
  - intros x y R. pose proof (fun x0 Hx => others_free _ _ _ _ _ _ H a x0 Ia Hx) as Q.
    destruct (rest_free a f _ x y Q R true), (rest_free a f _ x y Q R false). auto.
Qed.

Lemma cpath_next e0 E1 E2 e f e' f' : cpath e f e' f' -> forall D, conn_inv e0 (E1 ++ e :: E2) f D ->
  same_next (links_of f (E1 ++ e :: E2)) (links_of f' (E1 ++ e' :: E2)).
Proof.
  induction 1 as [e e' f f' S F|e f e1 f1 e' f' a b S Ha Hb F _ IH|e f e1 f1 e' f' a b S Ha Hb F _ IH]; intros D H.
  - apply same_next_ext. intros x y. unfold links_of. rewrite !linked_mid. destruct S as (S1 & S2 & _).
    rewrite (word_ext f f' e e') by auto. rewrite (rest_ext f f') by auto. reflexivity.
  - destruct (ci_proper _ _ _ _ H e) as (P & _); [apply in_middle; auto|].
    assert (Nab : a <> b) by (eapply step_head_neq; [exact P|exact S|exact Ha|exact Hb]).
    destruct (astep_inv _ _ _ _ _ _ H (a_path E1 e E2 f e1 f1 (cp_top e f e1 f1 e1 f1 a b S Ha Hb F (cp_refl _ _ _ _ (same_exch_refl e1) (fun _ => eq_refl))))) as (D1 & H1).
    eapply same_next_trans; [|exact (IH D1 H1)].
    eapply cstep_next; try eassumption.
    + apply hd_error_In. exact Ha.
    + destruct P as (_ & Pp & _). apply (Permutation_in _ (Permutation_sym Pp)). apply hd_error_In. exact Hb.
    + eapply step_word; try eassumption. apply (ci_topR _ _ _ _ H).
  - destruct (ci_proper _ _ _ _ H e) as (P & _); [apply in_middle; auto|].
    assert (Nab : a <> b) by (eapply (step_head_neq (flip e)); [apply flip_proper; exact P|exact S|exact Ha|exact Hb]).
    destruct (astep_inv _ _ _ _ _ _ H (a_path E1 e E2 f e1 f1 (cp_bot e f e1 f1 e1 f1 a b S Ha Hb F (cp_refl _ _ _ _ (same_exch_refl e1) (fun _ => eq_refl))))) as (D1 & H1).
    eapply same_next_trans; [|exact (IH D1 H1)].
    eapply cstep_next; try eassumption.
    + destruct P as (_ & Pp & _). apply (Permutation_in _ (Permutation_sym Pp)). apply hd_error_In. exact Ha.
    + apply hd_error_In. exact Hb.
    + eapply step_word_bot; try eassumption. apply (ci_topR _ _ _ _ H).
Qed.

Lemma agree_words E E' f f' : Forall2 agree E E' -> (forall l, f' l = f l) -> map (word f') E' = map (word f) E.
Proof.
  intros H F. induction H as [|e e' E E' (A1 & A2 & _) _ IH]; [reflexivity|]. cbn [map]. rewrite IH. f_equal. apply word_ext; auto.
Qed.

Lemma linked_perm W W' x y : (forall w : list item, In w W <-> In w W') -> linked W x y <-> linked W' x y.
Proof. intro H. split; intros (w & I & J); exists w; split; auto; apply H; exact I. Qed.

Theorem astep_next e0 E f E' f' D : conn_inv e0 E f D -> astep E f E' f' -> same_next (links_of f E) (links_of f' E').
Proof.
  intros H A. destruct A as [E E' f f' A F|E1 e E2 f e' f' P|E1 e E2 f k b t b' src tgt f' Pk Hb Ht Hb' Hs Htg F|E1 e E2 f a b first e' src tgt f' M Ha Hb Hf Hs Htg F].
  - apply same_next_ext. intros x y. unfold links_of. rewrite (agree_words _ _ _ _ A F). reflexivity.
  - eapply cpath_next; eassumption.
  - destruct (ci_proper _ _ _ _ H e) as (P & _); [apply in_middle; auto|].
    assert (Es : src = tip b (bottomRight (f b))) by (apply skip_tip; exact Hs).
    assert (Et : tgt = mksep t ANTIPARALLEL) by (rewrite (ci_topR _ _ _ _ H) in Htg; cbn in Htg; injection Htg as <-; reflexivity).
    destruct (split_word f f' e k b t b' src tgt (ci_topR _ _ _ _ H) P Pk Hb Ht Hb' Es Et F) as (x & X & y & Y & z & Z & W & W1 & W2).
    apply (cut _ _ (linked (map (word f) (E1 ++ E2))) _ _ _ src tgt x X y Y z Z W W1 W2).
    + intros p q. apply linked_mid.
    + intros p q. unfold links_of. rewrite linked_mid.
      rewrite (linked_perm _ (map (word f') (right_of e k :: E1 ++ E2))) by (intro w; cbn [map In]; rewrite !map_app, !in_app_iff; cbn [map In]; tauto).
      rewrite (linked_mid f' [] (right_of e k) (E1 ++ E2)). cbn [app]. rewrite (rest_ext f f'); [reflexivity|].
      assert (Ib : In b (e_bot e)) by (rewrite <- (firstn_skipn k (e_bot e)); apply in_app_iff; left; apply in_rev; apply hd_error_In; exact Hb).
      assert (Ib' : In b' (e_bot e)) by (rewrite <- (firstn_skipn k (e_bot e)); apply in_app_iff; right; apply hd_error_In; exact Hb').
      pose proof P as (_ & Pp & _). apply (Permutation_in _ (Permutation_sym Pp)) in Ib. apply (Permutation_in _ (Permutation_sym Pp)) in Ib'.
      intros x0 l Hx Hl. rewrite F. unfold register, upd. destruct (Nat.eqb_spec l b') as [->|].
      * destruct (others_free _ _ _ _ _ _ H b' x0 Ib' Hx). tauto.
      * destruct (Nat.eqb_spec l b) as [->|]; [|reflexivity]. destruct (others_free _ _ _ _ _ _ H b x0 Ib Hx). tauto.
  - destruct (ci_proper _ _ _ _ H e) as (P & _); [apply in_middle; auto|].
    assert (Es : src = tip b (bottomRight (f b))) by (apply skip_tip; exact Hs).
    assert (Et : tgt = mksep a ANTIPARALLEL) by (rewrite (ci_topR _ _ _ _ H) in Htg; cbn in Htg; injection Htg as <-; reflexivity).
    assert (Nab : a <> b).
    { intros ->. pose proof M as (a' & b' & X & Y1 & Y2 & Q1 & Q2 & _). rewrite Q1 in Ha. rewrite Q2 in Hb. cbn in Ha, Hb. injection Ha as ->. injection Hb as ->.
      destruct P as (N & Pp & _). apply (Permutation_NoDup Pp) in N. rewrite Q2 in N. inversion N as [|? ? Q _]; subst. apply Q. apply in_app_iff. right. left. reflexivity. }
    destruct (merge_word f f' e e' a b first src tgt (ci_topR _ _ _ _ H) P Nab M Ha Hb Hf Es Et F) as (v & V & z & Z & U & Fr & W & W').
    assert (Ia : In a (e_top e)) by (apply hd_error_In; exact Ha).
    assert (Ib : In b (e_top e)) by (destruct P as (_ & Pp & _); apply (Permutation_in _ (Permutation_sym Pp)), hd_error_In, Hb).
    assert (If : In first (e_top e)).
    { destruct M as (a' & b' & X & Y1 & Y2 & Q1 & _ & _ & Q2 & _). rewrite Q1. right. rewrite <- Q2. apply hd_error_In. exact Hf. }
    apply (open_edge _ _ (linked (map (word f) (E1 ++ E2))) _ _ a false src tgt v V z Z U W W').
    + intros p q. apply linked_mid.
    + intros p q. unfold links_of. rewrite linked_mid. rewrite (rest_ext f f'); [reflexivity|].
      intros x0 l Hx Hl. rewrite F. apply merge_conns_out; intros ->.
      * destruct (others_free _ _ _ _ _ _ H b x0 Ib Hx). tauto.
      * destruct (others_free _ _ _ _ _ _ H a x0 Ia Hx). tauto.
      * destruct (others_free _ _ _ _ _ _ H first x0 If Hx). tauto.
    + intro x. apply free_not. exact Fr.
    + intros p q R. pose proof (fun x0 Hx => others_free _ _ _ _ _ _ H a x0 Ia Hx) as Q.
      destruct (rest_free a f _ p q Q R true), (rest_free a f _ p q Q R false). auto.
Qed.

Theorem asteps_next e0 E f E' f' : asteps E f E' f' -> forall D, conn_inv e0 E f D -> same_next (links_of f E) (links_of f' E').
Proof.
  induction 1 as [|E f E1 f1 E' f' S _ IH]; intros D H; [apply same_next_refl|].
  destruct (astep_inv _ _ _ _ _ _ H S) as (D1 & H1). eapply same_next_trans; [eapply astep_next; eassumption|exact (IH D1 H1)].
Qed.
