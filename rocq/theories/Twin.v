(** Two runs of the induction side by side on related lengths objects: they give the same
    answers, whatever the relation, if the operations of the lengths object preserve it. *)
From Coq Require Import List Lia.
From Verif Require Import Base QcTac LenT FM Subspace Lengths IET.

(** * Related outcomes *)

Definition rres {A B} (Q : A -> B -> Prop) (m : res A) (n : res B) : Prop :=
  match m, n with
  | Ok a, Ok b => Q a b
  | Throw, Throw => True
  | AssertFail, AssertFail => True
  | UB, UB => True
  | OutOfFuel, OutOfFuel => True
  | _, _ => False
  end.

Lemma rres_bind {A A' B B'} (Q : A -> A' -> Prop) (P : B -> B' -> Prop) m m' k k' :
  rres Q m m' -> (forall a a', Q a a' -> rres P (k a) (k' a')) -> rres P (bind m k) (bind m' k').
Proof. destruct m, m'; simpl; intros H K; try contradiction; try exact I. apply K. exact H. Qed.

Lemma rres_same {A B B'} (P : B -> B' -> Prop) (m : res A) k k' :
  (forall a, m = Ok a -> rres P (k a) (k' a)) -> rres P (bind m k) (bind m k').
Proof. destruct m; simpl; intro K; try exact I. apply K. reflexivity. Qed.

Lemma rres_assert {B B'} (P : B -> B' -> Prop) b k k' : rres P k k' -> rres P (assert_ b k) (assert_ b k').
Proof. destruct b; simpl; auto. Qed.

Lemma rres_mono {A B} (Q P : A -> B -> Prop) m n : rres Q m n -> (forall a b, Q a b -> P a b) -> rres P m n.
Proof. destruct m, n; simpl; auto. Qed.

(** * The induction *)

Section Twin.
Context {T : Type} {O : LenOps T} {S : Type}.
Variable L : lens T S.
Variable A : label -> Prop.
Variable Q : S -> S -> Prop.
Hypothesis Hpush : forall l s s', A l -> Q s s' -> rres Q (li_push L l s) (li_push L l s').
Hypothesis Hpop : forall s s', Q s s' -> rres Q (li_pop L s) (li_pop L s').
Hypothesis Hcmp1 : forall s s', Q s s' -> forall l, li_cmp1 L s l = li_cmp1 L s' l.
Hypothesis Hcmp2 : forall s s', Q s s' -> forall l m, li_cmp2 L s l m = li_cmp2 L s' l m.
Hypothesis Hsub : forall v m s s', A m -> Q s s' -> rres Q (li_subtract L v m s) (li_subtract L v m s').
Hypothesis Hrep : forall v m s s', A m -> Q s s' ->
  rres (fun p p' => fst p = fst p' /\ Q (snd p) (snd p')) (li_subrep L v m s) (li_subrep L v m s').
Hypothesis Hbase : forall s s', Q s s' -> li_base L s = li_base L s'.

Lemma twin_zloop v a : A a -> forall rest rpre s s', Forall A rest -> Q s s' ->
  rres (fun p p' => fst p = fst p' /\ Q (snd p) (snd p')) (zloop L v a rpre rest s) (zloop L v a rpre rest s').
Proof.
  intro Ha. induction rest as [|b rest IH]; intros rpre s s' HF HQ; [exact I|]. cbn [zloop].
  apply Forall_cons_iff in HF. destruct HF as [Hb HF]. destruct (Nat.eqb b a).
  - apply (rres_bind _ _ _ _ _ _ (Hrep v a s s' Ha HQ)). intros [p s1] [p' s1']. cbn [fst snd]. intros [<- H1].
    destruct (Nat.eqb a p); [exact I|]. destruct (back_to p rpre); [|exact I]. split; [reflexivity|exact H1].
  - apply (rres_bind _ _ _ _ _ _ (Hpush b s s' Hb HQ)). intros s1 s1' H1.
    rewrite (Hcmp1 _ _ H1). apply rres_same. intros c _.
    destruct c; [|apply IH; assumption|];
      (apply (rres_bind _ _ _ _ _ _ (Hpop _ _ H1)); intros s2 s2' H2;
       apply (rres_bind _ _ _ _ _ _ (Hsub v a _ _ Ha H2)); intros s3 s3' H3; split; [reflexivity|exact H3]).
Qed.

Definition inside (i : iet T) : Prop := Forall A (i_top i) /\ Forall A (i_bottom i).

Definition same_iet {B} (p p' : B * iet T * S) : Prop :=
  fst p = fst p' /\ inside (snd (fst p)) /\ Q (snd p) (snd p').

Lemma Forall_skipn {X} (P : X -> Prop) n l : Forall P l -> Forall P (skipn n l).
Proof. revert l. induction n as [|n IH]; intros l H; [exact H|]. destruct l; [constructor|]. inversion H. apply IH. assumption. Qed.

Lemma splice_inside a l n l' : Forall A l -> splice a l n = Ok l' -> Forall A l'.
Proof.
  intros H. unfold splice. destruct (split_at a (skipn n l)) as [[q1 q2]|] eqn:E; [|discriminate]. intro E'. injection E' as <-.
  apply split_at_some in E. destruct E as [E _]. pose proof (Forall_skipn _ n l H) as H'. rewrite E in H'.
  apply Forall_app in H'. destruct H' as [H1 H2]. apply Forall_app. split; [exact H1|]. apply Forall_app. split; [|exact H2].
  rewrite <- (firstn_skipn n l) in H. apply Forall_app in H. apply H.
Qed.

Lemma twin_zorich i s s' : inside i -> Q s s' -> rres same_iet (zorich L i s) (zorich L i s').
Proof.
  intros [Ht Hb] HQ. unfold zorich. destruct (i_top i) as [|a X] eqn:Et; [exact I|]. destruct (i_bottom i) as [|b Y] eqn:Eb; [exact I|].
  destruct (Nat.eqb a b).
  - split; [reflexivity|]. split; [|exact HQ]. split; cbn [fst snd]; [rewrite Et|rewrite Eb]; assumption.
  - assert (Ha : A a) by (inversion Ht; assumption).
    apply (rres_bind _ _ _ _ _ _ (twin_zloop (i_view i) a Ha (b :: Y) [] s s' Hb HQ)).
    intros [r s1] [r' s1']. cbn [fst snd]. intros [<- H1].
    apply rres_same. intros l El. destruct l as [|b' l]; [exact I|].
    rewrite (Hcmp2 _ _ H1). apply rres_same. intros c _. split; [reflexivity|]. split; [|exact H1].
    split; cbn [fst snd set_bottom i_top i_bottom]; [rewrite Et; exact Ht|].
    exact (splice_inside a (b :: Y) (length r) (b' :: l) Hb El).
Qed.

Lemma iet_saf_rows (i : iet T) base v i' : iet_saf i base = Ok (v, i') -> i_top i' = i_top i /\ i_bottom i' = i_bottom i.
Proof.
  unfold iet_saf. destruct (i_saf i); [intro E; injection E as <- <-; auto|].
  destruct (saf_raw i base); try discriminate. intro E. injection E as <- <-. auto.
Qed.

Lemma inside_rows i i' : inside i -> i_top i' = i_top i -> i_bottom i' = i_bottom i -> inside i'.
Proof. intros [H1 H2] E1 E2. split; [rewrite E1|rewrite E2]; assumption. Qed.

Lemma twin_induce_loop saf0 limit : forall fuel n i s s', inside i -> Q s s' ->
  rres same_iet (induce_loop L fuel saf0 limit n i s) (induce_loop L fuel saf0 limit n i s').
Proof.
  induction fuel as [|fuel IH]; intros n i s s' Hi HQ; [exact I|]. cbn [induce_loop].
  destruct (negb _); [split; [reflexivity|split; assumption]|].
  rewrite <- (Hbase _ _ HQ).
  set (m := if saf0 then _ else _).
  assert (Hm : forall r i1, m = Ok (r, i1) -> inside i1).
  { unfold m. destruct saf0; [|intros r i1 E; injection E as <- <-; exact Hi].
    destruct (iet_saf i (li_base L s)) as [[v i0]| | | |] eqn:Es; try discriminate. cbn [bind].
    destruct (iet_saf_rows _ _ _ _ Es) as [R1 R2].
    destruct (length v =? 0); [intros r i1 E; injection E as <- <-; eapply inside_rows; eassumption|].
    destruct (tracker_loop (i_trk i0) i0 (li_base L s)) as [[r0 k]| | | |]; try discriminate. cbn [bind].
    intros r i1 E. injection E as <- <-. eapply inside_rows; eassumption. }
  clearbody m. apply rres_same. intros [similar i1] Em. specialize (Hm _ _ Em).
  destruct similar; [split; [reflexivity|split; assumption]|].
  apply (rres_bind _ _ _ _ _ _ (twin_zorich i1 s s' Hm HQ)).
  intros [[f i2] s2] [[f' i2'] s2'] (E2 & I2 & Q2). cbn [fst snd] in *. injection E2 as <- <-.
  destruct f; [split; [reflexivity|split; assumption]|].
  assert (I3 : inside (iet_swap i2)) by (destruct I2; split; assumption).
  apply (rres_bind _ _ _ _ _ _ (twin_zorich (iet_swap i2) s2 s2' I3 Q2)).
  intros [[f i3] s3] [[f' i3'] s3'] (E3 & I3' & Q3). cbn [fst snd] in *. injection E3 as <- <-.
  assert (I4 : inside (iet_swap i3)) by (destruct I3'; split; assumption).
  destruct f; [split; [reflexivity|split; assumption]|].
  destruct (Z.eqb n INT_MAX); [exact I|]. apply IH; assumption.
Qed.

Lemma Forall_firstn {X} (P : X -> Prop) n l : Forall P l -> Forall P (firstn n l).
Proof. intro H. rewrite <- (firstn_skipn n l) in H. apply Forall_app in H. apply H. Qed.

Lemma reduce_inside i base r i' : inside i -> reduce i base = Ok (r, i') -> inside i'.
Proof.
  intros [Ht Hb]. unfold reduce. destruct (red_loop _ _ _ _ _) as [[t' b']| | | |]; try discriminate. cbn [bind].
  destruct t' as [|x t'].
  - destruct b'; [|discriminate]. intro E. injection E as <- <-. split; assumption.
  - destruct (_ =? _); [|discriminate]. cbn [assert_]. destruct (iet_make _ _ _); try discriminate. cbn [bind].
    intro E. injection E as <- <-. split; apply Forall_firstn; assumption.
Qed.

Lemma merge_inside i i' : inside i -> merge_first i = Ok i' -> inside i'.
Proof.
  intros [Ht Hb]. unfold merge_first. destruct (i_top i) as [|a X]; [discriminate|]. destruct (i_bottom i) as [|b Y]; [discriminate|].
  destruct (split_at a Y) as [[p q]|] eqn:E; [|discriminate]. intro E'. injection E' as <-.
  apply split_at_some in E. destruct E as [-> _]. apply Forall_cons_iff in Ht. destruct Ht as [_ Ht].
  apply Forall_cons_iff in Hb. destruct Hb as [Hb HY]. apply Forall_app in HY. destruct HY as [H1 H2].
  split; [exact Ht|]. apply Forall_app. split; [exact H1|]. constructor; [exact Hb|]. inversion H2. assumption.
Qed.

Lemma bosh_inside i base z i' : inside i -> bosh_no_periodic i base = Ok (z, i') -> inside i'.
Proof.
  intro Hi. unfold bosh_no_periodic, iet_saf0. destruct (iet_saf i base) as [[v i2]| | | |] eqn:Es; try discriminate. cbn [bind].
  destruct (iet_saf_rows _ _ _ _ Es) as [R1 R2]. assert (I2 : inside i2) by (eapply inside_rows; eassumption).
  destruct (vis0 v); [intro E; injection E as <- <-; exact I2|].
  destruct (i_size i2 <=? 1); [intro E; injection E as <- <-; exact I2|].
  destruct (bosh_equations i2 base) as [eqs| | | |]; try discriminate. cbn [bind].
  destruct (ras_equations _ _) as [r| | | |]; try discriminate. cbn [bind].
  destruct (nznn r) as [b| | | |]; try discriminate. intro E. injection E as <- <-. exact I2.
Qed.

Lemma twin_finish found i s s' : inside i -> Q s s' -> rres same_iet (induce_finish L found i s) (induce_finish L found i s').
Proof.
  intros Hi HQ. unfold induce_finish. rewrite <- (Hbase _ _ HQ). apply rres_same. intros [red i1] Er.
  pose proof (reduce_inside _ _ _ _ Hi Er) as I1.
  destruct red as [rgt|].
  - destruct (rev (i_bottom i1)); [exact I|]. destruct (rev (i_top i1)); [exact I|]. split; [reflexivity|split; assumption].
  - destruct (i_top i1) as [|a X] eqn:Et; [exact I|]. destruct (i_bottom i1) as [|b Y] eqn:Eb; [exact I|].
    rewrite (Hcmp2 _ _ HQ). apply rres_same. intros c _.
    destruct c; [apply rres_same; intros i2 Em; split; [reflexivity|split; [|exact HQ]]; exact (merge_inside _ _ I1 Em)| |];
      apply rres_assert, rres_same; intros [z i2] Eb'; (split; [reflexivity|split; [exact (bosh_inside _ _ _ _ I1 Eb')|exact HQ]]).
Qed.

Theorem twin_induce fuel limit i s s' : inside i -> Q s s' ->
  rres same_iet (induce L fuel limit i s) (induce L fuel limit i s').
Proof.
  intros Hi HQ. unfold induce. destruct (i_size i =? 1); [split; [reflexivity|split; assumption]|].
  apply (rres_bind same_iet).
  - destruct (Z.eqb limit 0); [split; [reflexivity|split; assumption]|].
    rewrite <- (Hbase _ _ HQ). apply rres_same. intros [z i1] E1. apply twin_induce_loop; [|exact HQ].
    unfold iet_saf0 in E1. destruct (iet_saf i (li_base L s)) as [[v i2]| | | |] eqn:Es; try discriminate.
    injection E1 as <- <-. destruct (iet_saf_rows _ _ _ _ Es) as [R1 R2]. eapply inside_rows; eassumption.
  - intros [[f i1] s1] [[f' i1'] s1'] (E1 & I1 & Q1). cbn [fst snd] in *. injection E1 as <- <-.
    destruct f; [|split; [reflexivity|split; assumption]]. apply twin_finish; assumption.
Qed.
End Twin.
