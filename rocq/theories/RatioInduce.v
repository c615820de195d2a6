(** Two runs of the induction over lengths with the same ratios. *)
From Coq Require Import List Reals Lra Lia Permutation.
From Verif Require Import Base QcTac LenT FM Subspace Lengths IET Twin Api ZorichProof Saf InduceProof Ratio Mixed ReduceProof RatioIet RatioLink Focus.
Open Scope nat_scope.

Section RatioInduce.
Context {T : Type} {O : LenOps T} {W : MixedLaws T}.
Context {T' : Type} {O' : LenOps T'} {W' : LenLaws T'}.
Variable c : R.
Hypothesis Hc : (0 < c)%R.
Variable A : label -> Prop.

Notation near := (@Ratio.near T O W T' O' W' c A None).
Notation irel := (@RatioIet.irel T T' A).
Notation link := (@RatioLink.link T O W T' O' W' c A).

Context {S S' : Type}.
Variable L : lens T S.
Variable L' : lens T' S'.
Variable Q : S -> S' -> Prop.
Variable Qd : label -> S -> S' -> Prop.

Hypothesis Hstart : forall a s s', Q s s' -> Qd a s s'.
Hypothesis Hpush : forall a l s s', A l -> l <> a -> Qd a s s' -> rres (Qd a) (li_push L l s) (li_push L' l s').
Hypothesis Hpop : forall a s s', Qd a s s' -> rres (Qd a) (li_pop L s) (li_pop L' s').
Hypothesis Hcmp1 : forall a s s' l, A l -> Qd a s s' -> li_cmp1 L s l = li_cmp1 L' s' l.
Hypothesis Hcmp2 : forall s s' l m, A l -> A m -> Q s s' -> li_cmp2 L s l m = li_cmp2 L' s' l m.
Hypothesis Hsub : forall v a s s', A a -> Qd a s s' -> rres Q (li_subtract L v a s) (li_subtract L' v a s').
Hypothesis Hrep : forall v a s s', A a -> Qd a s s' ->
  rres (fun p p' => fst p = fst p' /\ Q (snd p) (snd p')) (li_subrep L v a s) (li_subrep L' v a s').
Hypothesis Hbase : forall s s', Q s s' -> near (li_base L s) (li_base L' s') /\ sl_stack (li_base L s) = [] /\ sl_stack (li_base L' s') = [].

Lemma ratio_zloop v a : A a -> forall rest rpre s s', Forall A rest -> Qd a s s' ->
  rres (fun p p' => fst p = fst p' /\ Q (snd p) (snd p')) (zloop L v a rpre rest s) (zloop L' v a rpre rest s').
Proof.
  intro Ha. induction rest as [|b rest IH]; intros rpre s s' HF HQ; [exact I|]. cbn [zloop].
  apply Forall_cons_iff in HF. destruct HF as [Hb HF]. destruct (Nat.eqb_spec b a) as [E|D].
  - apply (rres_bind _ _ _ _ _ _ (Hrep v a s s' Ha HQ)). intros [p s1] [p' s1']. cbn [fst snd]. intros [<- H1].
    destruct (Nat.eqb a p); [exact I|]. destruct (back_to p rpre); [|exact I]. split; [reflexivity|exact H1].
  - apply (rres_bind _ _ _ _ _ _ (Hpush a b s s' Hb D HQ)). intros s1 s1' H1.
    rewrite (Hcmp1 a _ _ a Ha H1). apply rres_same. intros k _.
    destruct k; [|apply IH; assumption|];
      (apply (rres_bind _ _ _ _ _ _ (Hpop a _ _ H1)); intros s2 s2' H2;
       apply (rres_bind _ _ _ _ _ _ (Hsub v a _ _ Ha H2)); intros s3 s3' H3; split; [reflexivity|exact H3]).
Qed.

Definition ratio_iet {B} (p : B * iet T * S) (p' : B * iet T' * S') : Prop :=
  fst (fst p) = fst (fst p') /\ irel (snd (fst p)) (snd (fst p')) /\ Q (snd p) (snd p').

Lemma splice_perm a l n l' : splice a l n = Ok l' -> Permutation l l'.
Proof.
  unfold splice. destruct (split_at a (skipn n l)) as [[p q]|] eqn:E; [|discriminate]. intro E'. injection E' as <-.
  apply split_at_incl in E. rewrite <- (firstn_skipn n l) at 1. rewrite E. rewrite !app_assoc. apply Permutation_app_tail. apply Permutation_app_comm.
Qed.

Lemma ratio_zorich i i' s s' : irel i i' -> Q s s' -> rres ratio_iet (zorich L i s) (zorich L' i' s').
Proof.
  intros Hi HQ. pose proof (ir_in _ _ _ Hi) as Ht. pose proof (irel_in_bot _ _ _ Hi) as Hb. unfold zorich.
  rewrite (ir_top _ _ _ Hi), (ir_bot _ _ _ Hi).
  destruct (i_top i) as [|a X] eqn:Et; [exact I|]. destruct (i_bottom i) as [|b Y] eqn:Eb; [exact I|].
  destruct (Nat.eqb a b).
  - split; [reflexivity|]. split; [exact Hi|exact HQ].
  - assert (Ha : A a) by (inversion Ht; assumption).
    assert (Ev : i_view i' = i_view i) by (unfold i_view; rewrite (ir_top _ _ _ Hi), (ir_swap _ _ _ Hi); reflexivity). rewrite Ev.
    apply (rres_bind _ _ _ _ _ _ (ratio_zloop (i_view i) a Ha (b :: Y) [] s s' Hb (Hstart a s s' HQ))).
    intros [r s1] [r' s1']. cbn [fst snd]. intros [<- H1].
    apply rres_same. intros l El. pose proof (splice_inside A a (b :: Y) (length r) _ Hb El) as Hl.
    pose proof (splice_perm a (b :: Y) (length r) _ El) as Pl. destruct l as [|b' l]; [exact I|].
    rewrite (Hcmp2 _ _ a b' Ha (Forall_inv Hl) H1). apply rres_same. intros k _. split; [reflexivity|]. split; [|exact H1].
    cbn [fst snd]. unfold set_bottom. rewrite (ir_top _ _ _ Hi), (ir_swap _ _ _ Hi). destruct Hi. apply irel_rows; auto.
    eapply Permutation_trans; [exact ir_perm|]. rewrite Eb. exact Pl.
Qed.

Lemma ratio_iteration i i' s s' : irel i i' -> Q s s' -> rres ratio_iet (iteration L i s) (iteration L' i' s').
Proof.
  intros Hi HQ. unfold iteration. apply (rres_bind _ _ _ _ _ _ (ratio_zorich i i' s s' Hi HQ)).
  intros [[f i2] s2] [[f' i2'] s2'] (E2 & I2 & Q2). cbn [fst snd] in *. subst f'.
  destruct f; [split; [reflexivity|split; assumption]|].
  apply (rres_bind _ _ _ _ _ _ (ratio_zorich (iet_swap i2) (iet_swap i2') s2 s2' (irel_swap _ _ _ I2) Q2)).
  intros [[f i3] s3] [[f' i3'] s3'] (E3 & I3 & Q3). cbn [fst snd] in *. subst f'.
  split; [reflexivity|]. split; [exact (irel_swap _ _ _ I3)|exact Q3].
Qed.

(** What else is known about the second IET. *)
Variable F : iet T' -> S' -> Prop.
Hypothesis Frows : forall i j s, i_top j = i_top i -> i_bottom j = i_bottom i -> i_swap j = i_swap i -> F i s -> F j s.
Hypothesis Fstep : forall i s f i2 s2, wf i (li_base L' s) -> F i s -> iteration L' i s = Ok (f, i2, s2) ->
  iteration sample_lens i (li_base L' s) = Ok (f, i2, li_base L' s2) /\ F i2 s2.
Hypothesis Fcmp : forall s l m, li_cmp2 L' s l m = sl_cmp2 (li_base L' s) l m.

Notation linked st i i' s' := (link st i i' (li_base L' s')).

Lemma tracking_rows {U} {OU : LenOps U} saf0 (i : iet U) b r j : tracking_at saf0 i b = Ok (r, j) -> i_top j = i_top i /\ i_bottom j = i_bottom i /\ i_swap j = i_swap i.
Proof.
  unfold tracking_at. destruct saf0; [|intro E; injection E as _ <-; auto].
  assert (G : forall v j0, iet_saf i b = Ok (v, j0) -> i_top j0 = i_top i /\ i_bottom j0 = i_bottom i /\ i_swap j0 = i_swap i).
  { intros v j0. unfold iet_saf. destruct (i_saf i); [intro E; injection E as _ <-; auto|].
    destruct (saf_raw i b); cbn [bind]; try discriminate. intro E; injection E as _ <-. auto. }
  destruct (iet_saf i b) as [[v j0]| | | |]; cbn [bind]; try discriminate. specialize (G v j0 eq_refl).
  destruct (length v =? 0); [intro E; injection E as _ <-; exact G|]. destruct (tracker_loop _ _ _) as [[r0 k]| | | |]; cbn [bind]; try discriminate.
  intro E; injection E as _ <-. exact G.
Qed.

Lemma ratio_induce_loop saf0 limit : forall fuel n i i' s s', irel i i' -> Q s s' -> linked True i i' s' -> F i' s' ->
  rres (fun p p' => ratio_iet p p' /\ linked (fst (fst p) <> Some true) (snd (fst p)) (snd (fst p')) (snd p'))
    (induce_loop L fuel saf0 limit n i s) (induce_loop L' fuel saf0 limit n i' s').
Proof.
  induction fuel as [|fuel IH]; intros n i i' s s' Hi HQ HL HF; [exact I|]. rewrite !iteration_unfold.
  destruct (negb _); [split; [split; [reflexivity|split; assumption]|apply (link_mono c A True); auto]|].
  destruct (Hbase _ _ HQ) as (HB & _).
  apply (rres_bind _ _ _ _ _ _ (rres_eqn _ _ _ (link_track c Hc A i i' _ _ saf0 Hi HB HL))).
  intros [r j] [r' j'] ((E & J & G) & _ & Et). cbn [fst snd] in *. subst r'.
  destruct r; [split; [split; [reflexivity|split; assumption]|apply (link_mono c A (true = true)); auto]|].
  apply tracking_rows in Et. destruct Et as (R1 & R2 & R3).
  apply (rres_bind _ _ _ _ _ _ (rres_eqn _ _ _ (ratio_iteration j j' s s' J HQ))).
  intros [[f i2] s2] [[f' i2'] s2'] ((E2 & I2 & Q2) & Ei & Ei'). cbn [fst snd] in *. subst f'.
  apply iteration_keeps in Ei. destruct Ei as [K1 K2].
  destruct (Fstep j' s' f i2' s2' (lk_wf _ _ _ _ _ _ G) (Frows _ _ _ R1 R2 R3 HF) Ei') as [Es Fs].
  pose proof (link_iteration c A j j' _ i2 f i2' _ (link_mono c A _ False _ _ _ (fun x => match x with end) G) Es K1 K2) as G2.
  destruct f.
  - split; [split; [reflexivity|split; assumption]|]. refine (link_mono c A _ _ _ _ _ _ G2). cbn. congruence.
  - destruct (Z.eqb n INT_MAX); [exact I|]. apply IH; auto. refine (link_mono c A _ _ _ _ _ _ G2). auto.
Qed.

(** The answers to a call: the same result and connection, related IETs. *)
Record same_istep (st : istep T) (st' : istep T') : Prop := {
  si_result : is_result st' = is_result st;
  si_connection : is_connection st' = is_connection st;
  si_additional : opt_rel irel (is_additional st) (is_additional st');
}.

Definition ratio_step (p : istep T * iet T * S) (p' : istep T' * iet T' * S') : Prop :=
  same_istep (fst (fst p)) (fst (fst p')) /\ irel (snd (fst p)) (snd (fst p')) /\ Q (snd p) (snd p') /\
  linked True (snd (fst p)) (snd (fst p')) (snd p') /\
  forall j j', is_additional (fst (fst p)) = Some j -> is_additional (fst (fst p')) = Some j' -> linked True j j' (snd p').

Lemma same_istep_none r : same_istep (mkistep r None None) (mkistep r None None).
Proof. constructor; cbn; auto. Qed.

Lemma ratio_plain r i i' s s' : irel i i' -> Q s s' -> linked True i i' s' -> ratio_step (mkistep r None None, i, s) (mkistep r None None, i', s').
Proof. intros H1 H2 H3. split; [apply same_istep_none|]. repeat (split; [assumption|]). discriminate. Qed.

Lemma cmp2_heads (i' : iet T') b' a b X Y : wf i' b' -> i_top i' = a :: X -> i_bottom i' = b :: Y -> sl_cmp2 b' a b = Ok Eq -> heads_equal i' b'.
Proof.
  intros (_ & Pe & _ & Po & _) Et Eb E. exists a, b. rewrite Et, Eb. split; [reflexivity|]. split; [reflexivity|].
  destruct (Po a) as (x & Ex & _); [rewrite Et; left; reflexivity|].
  destruct (Po b) as (y & Ey & _); [apply (Permutation_in _ (Permutation_sym Pe)); rewrite Eb; left; reflexivity|].
  unfold sl_cmp2, sl_at in E. rewrite Ex, Ey in E. cbn [bind] in E. injection E as E. pose proof (cmp_val x y) as V. rewrite E in V.
  rewrite (lamR_at _ _ _ Ex), (lamR_at _ _ _ Ey). exact V.
Qed.

Lemma ratio_finish found i i' s s' : irel i i' -> Q s s' -> linked (Some found <> Some true) i i' s' -> rres ratio_step (induce_finish L found i s) (induce_finish L' found i' s').
Proof.
  intros Hi HQ HL. destruct (Hbase _ _ HQ) as (HB & B1 & B2). unfold induce_finish.
  destruct (rel_reduce c Hc A i i' _ _ Hi HB B2) as [R [(k & Ip & E & E')|(Nr & E & E')]]; rewrite E, E' in R |- *; cbn [rres bind] in *; destruct R as [Hr I1]; cbn [fst snd] in *.
  - destruct (link_cut c A _ i i' _ k HL Ip) as [L1 L2].
    rewrite (ir_top _ _ _ I1), (ir_bot _ _ _ I1).
    destruct (rev (i_bottom (left_part i k))) as [|b B]; [exact I|]. destruct (rev (i_top (left_part i k))) as [|t R]; [exact I|].
    split; [constructor; cbn; auto|]. split; [exact I1|]. split; [exact HQ|]. split; [exact L1|].
    intros j j' Ej Ej'. injection Ej as <-. injection Ej' as <-. exact L2.
  - clear Hr. pose proof (ir_in _ _ _ I1) as Ht. pose proof (irel_in_bot _ _ _ I1) as Hb.
    rewrite (ir_top _ _ _ I1), (ir_bot _ _ _ I1).
    destruct (i_top i) as [|a X] eqn:Et; [exact I|]. destruct (i_bottom i) as [|b Y] eqn:Eb; [exact I|].
    rewrite (Hcmp2 _ _ a b (Forall_inv Ht) (Forall_inv Hb) HQ). apply rres_same. intros k Ek.
    assert (G : rres ratio_step
      (assert_ (negb found) ('(z, i0) <- bosh_no_periodic i (li_base L s);; Ok (mkistep (if (z : bool) then WITHOUT_PERIODIC_TRAJECTORY_BOSHERNITZAN else LIMIT_REACHED) None None, i0, s)))
      (assert_ (negb found) ('(z, i0) <- bosh_no_periodic i' (li_base L' s');; Ok (mkistep (if (z : bool) then WITHOUT_PERIODIC_TRAJECTORY_BOSHERNITZAN else LIMIT_REACHED) None None, i0, s')))).
    { destruct found; [exact I|]. cbn [negb assert_].
      apply (rres_bind _ _ _ _ _ _ (rres_eqn _ _ _ (rel_bosh c Hc A i i' _ _ I1 HB B2))).
      intros [z i2] [z' i2'] ((Ez & I2) & Eb1 & Eb2). cbn [fst snd] in *. subst z'.
      assert (L2 : linked True i2 i2' s').
      { apply bosh_shape in Eb1. apply bosh_shape in Eb2. destruct Eb1 as (u & Eu). destruct Eb2 as (v & Ev).
        pose proof (link_saf c Hc A _ i i' _ _ I1 HB HL) as R. rewrite Eu, Ev in R. destruct R as (_ & _ & R & _).
        refine (link_mono c A _ _ _ _ _ _ R). intros _. discriminate. }
      destruct z; apply ratio_plain; assumption. }
    destruct k; [|exact G|exact G].
    apply (rres_bind _ _ _ _ _ _ (rres_eqn _ _ _ (rel_merge A i i' I1))). intros i2 i2' (I2 & M & M'). split; [constructor; cbn; auto|].
    split; [exact I2|]. split; [exact HQ|]. split; [|discriminate].
    refine (link_merge c A _ i i' _ i2 i2' HL _ Nr M M'). rewrite Fcmp in Ek. apply (cmp2_heads i' _ a b X Y).
    + exact (lk_wf _ _ _ _ _ _ HL).
    + rewrite (ir_top _ _ _ I1). exact Et.
    + rewrite (ir_bot _ _ _ I1). exact Eb.
    + exact Ek.
Qed.

Theorem ratio_induce fuel limit i i' s s' : irel i i' -> Q s s' -> linked True i i' s' -> F i' s' ->
  rres ratio_step (induce L fuel limit i s) (induce L' fuel limit i' s').
Proof.
  intros Hi HQ HL HF. unfold induce, i_size. rewrite (ir_top _ _ _ Hi).
  destruct (length (i_top i) =? 1); [apply ratio_plain; assumption|].
  apply (rres_bind (fun p p' => ratio_iet p p' /\ linked (fst (fst p) <> Some true) (snd (fst p)) (snd (fst p')) (snd p'))).
  - destruct (Z.eqb limit 0); [split; [split; [reflexivity|split; assumption]|apply (link_mono c A True); auto]|].
    destruct (Hbase _ _ HQ) as (HB & B1 & B2). unfold iet_saf0.
    pose proof (rres_eqn _ _ _ (link_saf c Hc A True i i' _ _ Hi HB HL)) as R.
    destruct (iet_saf i (li_base L s)) as [[u j]| | | |], (iet_saf i' (li_base L' s')) as [[v j']| | | |] eqn:Ej; cbn [rres] in R; try contradiction; try exact I.
    destruct R as ((V & J & Lj & _) & _). cbn [fst snd bind] in *. rewrite <- V. apply ratio_induce_loop; try assumption.
    apply (Frows i'); [| | |exact HF]; unfold iet_saf in Ej; destruct (i_saf i'); try (injection Ej as _ <-; reflexivity);
      destruct (saf_raw i' _); cbn [bind] in Ej; try discriminate; injection Ej as _ <-; reflexivity.
  - intros [[f i1] s1] [[f' i1'] s1'] ((E1 & I1 & Q1) & L1). cbn [fst snd] in *. subst f'.
    destruct f; [|apply ratio_plain; auto; apply (link_mono c A (None <> Some true)); [discriminate|exact L1]]. apply ratio_finish; assumption.
Qed.
End RatioInduce.
