(** Two lengths objects over different number types whose lengths have the same ratios: what is
    read off them and what the induction does with them is the same.  The first number type
    may pick a basis for every list ([Mixed]), the second one has a fixed basis. *)
From Coq Require Import List Reals Lra Lia Permutation.
From Verif Require Import Base QcTac LenT FM Subspace Lengths IET Mixed Twin ZorichProof Saf Bosh SpecLin Dual.
From Verif Require Spec.
Open Scope nat_scope.

Section Ratio.
Context {T : Type} {O : LenOps T} {W : MixedLaws T}.
Context {T' : Type} {O' : LenOps T'} {W' : LenLaws T'}.
Variable c : R.
Hypothesis Hc : (0 < c)%R.
Variable A : label -> Prop.

(** * Numbers *)

Definition rv (x : T) (y : T') : Prop := val y = (c * mval x)%R.

Lemma rv_zero : rv l_zero l_zero.
Proof. unfold rv. rewrite val_zero, mval_zero. lra. Qed.
Lemma rv_add x y x' y' : rv x y -> rv x' y' -> rv (l_add x x') (l_add y y').
Proof. unfold rv. rewrite val_add, mval_add. intros -> ->. lra. Qed.
Lemma rv_sub x y x' y' : rv x y -> rv x' y' -> rv (l_sub x x') (l_sub y y').
Proof. unfold rv. rewrite val_sub, mval_sub. intros -> ->. lra. Qed.
Lemma rv_scale n x y : rv x y -> rv (l_scale n x) (l_scale n y).
Proof. unfold rv. rewrite val_scale, mval_scale. intros ->. ring. Qed.

Lemma rv_cmp x y x' y' : rv x y -> rv x' y' -> l_cmp x x' = l_cmp y y'.
Proof.
  unfold rv. intros H H'. pose proof (mcmp_val x x') as E. pose proof (cmp_val y y') as E'. rewrite H, H' in E'.
  destruct (l_cmp x x').
  - rewrite E in E'. destruct (l_cmp y y'); [reflexivity|lra|lra].
  - assert (c * mval x < c * mval x')%R by (apply Rmult_lt_compat_l; assumption). destruct (l_cmp y y'); [lra|reflexivity|lra].
  - assert (c * mval x' < c * mval x)%R by (apply Rmult_lt_compat_l; assumption). destruct (l_cmp y y'); [lra|lra|reflexivity].
Qed.

Lemma rv_bool x y : rv x y -> l_bool x = l_bool y.
Proof. intro H. unfold l_bool. rewrite (rv_cmp x y l_zero l_zero H rv_zero). reflexivity. Qed.
Lemma rv_is_pos x y : rv x y -> is_pos x = is_pos y.
Proof. intro H. unfold is_pos. rewrite (rv_cmp x y l_zero l_zero H rv_zero). reflexivity. Qed.
Lemma rv_nonneg x y : rv x y -> is_nonneg x = is_nonneg y.
Proof. intro H. unfold is_nonneg. rewrite (rv_cmp x y l_zero l_zero H rv_zero). reflexivity. Qed.

Lemma is_pos_val (x : T) : is_pos x = true -> (0 < mval x)%R.
Proof. unfold is_pos. pose proof (mcmp_val x l_zero) as E. rewrite mval_zero in E. destruct (l_cmp x l_zero); try discriminate. lra. Qed.
Lemma is_nonneg_val (x : T) : is_nonneg x = true -> (0 <= mval x)%R.
Proof. unfold is_nonneg. pose proof (mcmp_val x l_zero) as E. rewrite mval_zero in E. destruct (l_cmp x l_zero); try discriminate; lra. Qed.

Lemma bool_val (x : T) : l_bool x = true -> mval x <> 0%R.
Proof. unfold l_bool. pose proof (mcmp_val x l_zero) as E. rewrite mval_zero in E. destruct (l_cmp x l_zero); try discriminate; intros _; lra. Qed.

Lemma rv_div x y t t' : rv x y -> rv t t' -> (0 <= mval x)%R -> (0 < mval t)%R -> l_div x t = l_div y t'.
Proof.
  unfold rv. intros H H' Px Pt.
  assert (Py : (0 <= val y)%R) by (rewrite H; apply Rmult_le_pos; lra).
  assert (Pt' : (0 < val t')%R) by (rewrite H'; apply Rmult_lt_0_compat; lra).
  destruct (mdiv_val x t Px Pt) as (q & -> & Q1 & Q2). destruct (div_val y t' Py Pt') as (q' & -> & Q1' & Q2').
  rewrite H, H' in Q1', Q2'.
  assert (Q3 : (IZR q' * mval t <= mval x)%R) by (apply (Rmult_le_reg_l c); [exact Hc|]; lra).
  assert (Q4 : (mval x < (IZR q' + 1) * mval t)%R) by (apply (Rmult_lt_reg_l c); [exact Hc|]; lra).
  f_equal. apply Z.le_antisymm.
  - assert (IZR q < IZR (q' + 1))%R. { rewrite plus_IZR. apply (Rmult_lt_reg_r (mval t)); [exact Pt|]. lra. } apply lt_IZR in H0. lia.
  - assert (IZR q' < IZR (q + 1))%R. { rewrite plus_IZR. apply (Rmult_lt_reg_r (mval t)); [exact Pt|]. lra. } apply lt_IZR in H0. lia.
Qed.

Lemma bool_iff (a b : bool) : (a = true <-> b = true) -> a = b.
Proof. destruct a, b; intuition congruence. Qed.

Lemma rv_cross x y x1 y1 x2 y2 x3 y3 : rv x y -> rv x1 y1 -> rv x2 y2 -> rv x3 y3 -> l_cross x x1 x2 x3 = l_cross y y1 y2 y3.
Proof.
  unfold rv. intros H H1 H2 H3. apply bool_iff. rewrite cross_val, mcross_val, H, H1, H2, H3. split; intro E.
  - replace (c * mval x * (c * mval x1))%R with (c * c * (mval x * mval x1))%R by ring. rewrite E. ring.
  - apply (Rmult_eq_reg_l (c * c)); [lra|]. apply Rgt_not_eq. apply Rmult_lt_0_compat; exact Hc.
Qed.

(** * Lengths objects *)

(** Only the label [m] may have a length that is not positive. *)
Definition near (m : option label) (b : slen T) (b' : slen T') : Prop :=
  forall l, A l -> exists x y, nth_error (sl_lens b) l = Some x /\ nth_error (sl_lens b') l = Some y /\ rv x y /\
    (m <> Some l -> 0 < mval x)%R.

Lemma near_at m b b' l : near m b b' -> A l -> rres (fun x y => rv x y /\ (m <> Some l -> 0 < mval x)%R) (sl_at b l) (sl_at b' l).
Proof. intros H Hl. destruct (H l Hl) as (x & y & E & E' & R & P). unfold sl_at. rewrite E, E'. split; assumption. Qed.

Record lrel (m : option label) (s : slen T) (s' : slen T') : Prop := {
  lr_near : near m s s';
  lr_stack : sl_stack s' = sl_stack s;
}.

Lemma near_set m l b b' x y : near m b b' -> A l -> rv x y -> (0 < mval x)%R \/ m = Some l ->
  rres (fun s s' => near m s s' /\ sl_stack s = sl_stack b /\ sl_stack s' = sl_stack b' /\
                    nth_error (sl_lens s) l = Some x /\ nth_error (sl_lens s') l = Some y)
       (sl_set b l x) (sl_set b' l y).
Proof.
  intros H Hl R P. destruct (H l Hl) as (x0 & y0 & E & E' & _). unfold sl_set.
  destruct (set_nth_some l x (sl_lens b)) as [ls Els]; [apply nth_error_Some; congruence|].
  destruct (set_nth_some l y (sl_lens b')) as [ls' Els']; [apply nth_error_Some; congruence|].
  rewrite Els, Els'. cbn [rres sl_stack sl_lens]. split; [|repeat split; eapply set_nth_same; eassumption].
  intros k Hk. cbn [sl_lens]. destruct (Nat.eq_dec l k) as [<-|D].
  - exists x, y. repeat split; [eapply set_nth_same; eassumption|eapply set_nth_same; eassumption|exact R|].
    intro Nm. destruct P as [P|P]; [exact P|contradiction].
  - destruct (H k Hk) as (x1 & y1 & E1 & E1' & R1). exists x1, y1.
    rewrite (set_nth_other _ _ _ _ _ Els D), (set_nth_other _ _ _ _ _ Els' D). auto.
Qed.

Lemma near_weaken m b b' : near None b b' -> near m b b'.
Proof. intros H l Hl. destruct (H l Hl) as (x & y & E & E' & R & P). exists x, y. repeat split; auto. intros _. apply P. discriminate. Qed.

Lemma near_strengthen m b b' x : near (Some m) b b' -> nth_error (sl_lens b) m = Some x -> (0 < mval x)%R -> near None b b'.
Proof.
  intros H E P l Hl. destruct (H l Hl) as (x1 & y & E1 & E' & R & Q). exists x1, y. repeat split; auto. intros _.
  destruct (Nat.eq_dec m l) as [<-|D]; [congruence|apply Q; congruence].
Qed.

Lemma near_sum m b b' : near m b b' -> forall st x y, Forall (fun l => A l /\ m <> Some l) st -> rv x y -> (0 <= mval x)%R ->
  rres (fun u v => rv u v /\ (mval x <= mval u)%R /\ (st <> [] -> mval x < mval u)%R) (sl_accumulate b x st) (sl_accumulate b' y st).
Proof.
  intro H. induction st as [|l st IH]; intros x y F R P; [split; [exact R|]; split; [lra|congruence]|]. cbn [sl_accumulate].
  apply Forall_cons_iff in F. destruct F as [[Hl Nl] F].
  apply (rres_bind _ _ _ _ _ _ (near_at m b b' l H Hl)). intros z w [Rz Pz]. specialize (Pz Nl).
  assert (P' : (0 <= mval (l_add x z))%R) by (rewrite mval_add; lra).
  eapply rres_mono; [apply (IH (l_add x z) (l_add y w) F (rv_add _ _ _ _ R Rz) P')|]. cbn beta. rewrite mval_add.
  intros u v (R1 & L1 & _). split; [exact R1|]. split; [lra|]. intros _. lra.
Qed.

Lemma lrel_sum m s s' : lrel m s s' -> Forall (fun l => A l /\ m <> Some l) (sl_stack s) ->
  rres (fun u v => rv u v /\ (0 <= mval u)%R /\ (sl_stack s <> [] -> 0 < mval u)%R) (sl_sum s) (sl_sum s').
Proof.
  intros [H E] F. unfold sl_sum. rewrite E.
  eapply rres_mono; [apply (near_sum m s s' H _ l_zero l_zero F rv_zero); rewrite mval_zero; lra|]. cbn beta. rewrite mval_zero. auto.
Qed.

(** ** The calls of the induction *)

(** The labels on the stack while [a] is being reduced. *)
Definition avoid (a : label) (l : label) : Prop := A l /\ l <> a.

Definition during (a : label) (s : slen T) (s' : slen T') : Prop := lrel None s s' /\ Forall (avoid a) (sl_stack s).
Definition idle (s : slen T) (s' : slen T') : Prop := lrel None s s' /\ sl_stack s = [].

Lemma idle_during a s s' : idle s s' -> during a s s'.
Proof. intros [H E]. split; [exact H|]. rewrite E. constructor. Qed.

Lemma avoid_none a st : Forall (avoid a) st -> Forall (fun l => A l /\ @None label <> Some l) st.
Proof. apply Forall_impl. intros l [H _]. split; [exact H|discriminate]. Qed.
Lemma avoid_some a st : Forall (avoid a) st -> Forall (fun l => A l /\ Some a <> Some l) st.
Proof. apply Forall_impl. intros l [H H2]. split; [exact H|congruence]. Qed.

Lemma during_push a l s s' : avoid a l -> during a s s' -> during a (sl_push l s) (sl_push l s').
Proof.
  intros Hl [[H E] F]. split.
  - constructor; [exact H|]. cbn. rewrite E. reflexivity.
  - cbn. apply Forall_app. split; [exact F|]. constructor; [exact Hl|constructor].
Qed.

Lemma removelast_all {X} (P : X -> Prop) l : Forall P l -> Forall P (removelast l).
Proof.
  induction l as [|a l IH]; intro H; [exact H|]. inversion H; subst. destruct l; [constructor|].
  change (Forall P (a :: removelast (x :: l))). constructor; auto.
Qed.

Lemma during_pop a s s' : during a s s' -> rres (during a) (sl_pop s) (sl_pop s').
Proof.
  intros [[H E] F]. unfold sl_pop. rewrite E. destruct (sl_stack s) as [|x st] eqn:Es; [exact I|].
  split; [constructor; [exact H|reflexivity]|]. cbn [sl_stack]. apply removelast_all. exact F.
Qed.

Lemma idle_cmp2 s s' l m : near None s s' -> A l -> A m -> sl_cmp2 s l m = sl_cmp2 s' l m.
Proof.
  intros H Hl Hm. destruct (H l Hl) as (x & y & E & E' & R & _). destruct (H m Hm) as (x1 & y1 & E1 & E1' & R1 & _).
  unfold sl_cmp2, sl_at. rewrite E, E', E1, E1'. cbn [bind]. rewrite (rv_cmp _ _ _ _ R R1). reflexivity.
Qed.

Lemma rres_eq {X} (m n : res X) : rres eq m n -> m = n.
Proof. destruct m, n; simpl; intro H; try contradiction; congruence. Qed.

Lemma during_cmp1 a s s' l : A l -> during a s s' -> sl_cmp1 s l = sl_cmp1 s' l.
Proof.
  intros Hl [H F]. apply rres_eq. unfold sl_cmp1. apply (rres_bind _ _ _ _ _ _ (lrel_sum None s s' H (avoid_none a _ F))).
  intros u v (R & _). apply (rres_bind _ _ _ _ _ _ (near_at None s s' l (lr_near _ _ _ H) Hl)). intros x y [R1 _].
  simpl. apply rv_cmp; assumption.
Qed.

Lemma during_subtract a s s' : A a -> during a s s' -> rres idle (sl_subtract a s) (sl_subtract a s').
Proof.
  intros Ha [H F]. unfold sl_subtract.
  apply (rres_bind _ _ _ _ _ _ (near_at None s s' a (lr_near _ _ _ H) Ha)). intros x y [R _].
  apply (rres_bind _ _ _ _ _ _ (lrel_sum None s s' H (avoid_none a _ F))). intros t t' (Rt & _).
  eapply rres_bind; [apply (near_set (Some a)); [apply near_weaken; exact (lr_near _ _ _ H)|exact Ha|exact (rv_sub _ _ _ _ R Rt)|right; reflexivity]|].
  intros s1 s1' (H1 & _ & _ & E1 & _). cbn beta. rewrite <- (rv_is_pos _ _ (rv_sub _ _ _ _ R Rt)).
  destruct (is_pos (l_sub x t)) eqn:Ep; [|exact I]. cbn [assert_ rres]. split; [|reflexivity]. constructor; [|reflexivity].
  exact (near_strengthen a s1 s1' _ H1 E1 (is_pos_val _ Ep)).
Qed.

Lemma during_subrep_loop a : A a -> forall st stop s s', near None s s' -> Forall (avoid a) st ->
  rres (fun p p' => fst p = fst p' /\ idle (snd p) (snd p')) (sl_subrep_loop a stop st s) (sl_subrep_loop a stop st s').
Proof.
  intro Ha. induction st as [|l st IH]; intros stop s s' H F; [exact I|]. cbn [sl_subrep_loop].
  apply Forall_cons_iff in F. destruct F as [[Hl _] F].
  apply (rres_bind _ _ _ _ _ _ (near_at None s s' l H Hl)). intros x y [R _].
  apply (rres_bind _ _ _ _ _ _ (near_at None s s' a H Ha)). intros x1 y1 [R1 _].
  rewrite (rv_cmp _ _ _ _ R R1). destruct (l_cmp y y1).
  - split; [reflexivity|]. split; [|reflexivity]. constructor; [exact H|reflexivity].
  - eapply rres_bind; [apply (near_set (Some a)); [apply near_weaken; exact H|exact Ha|exact (rv_sub _ _ _ _ R1 R)|right; reflexivity]|].
    intros s1 s1' (H1 & _ & _ & E1 & _). cbn beta. rewrite <- (rv_is_pos _ _ (rv_sub _ _ _ _ R1 R)).
    destruct (is_pos (l_sub x1 x)) eqn:Ep; [|exact I]. cbn [assert_]. apply IH; [|exact F].
    exact (near_strengthen a s1 s1' _ H1 E1 (is_pos_val _ Ep)).
  - split; [reflexivity|]. split; [|reflexivity]. constructor; [exact H|reflexivity].
Qed.

Lemma during_subrep a s s' : A a -> during a s s' ->
  rres (fun p p' => fst p = fst p' /\ idle (snd p) (snd p')) (sl_subrep a s) (sl_subrep a s').
Proof.
  intros Ha [H F]. pose proof (lr_stack _ _ _ H) as Es. unfold sl_subrep. rewrite Es.
  destruct (sl_stack s) as [|h st] eqn:Est; [exact I|]. rewrite <- Est in *.
  apply (rres_bind _ _ _ _ _ _ (near_at None s s' a (lr_near _ _ _ H) Ha)). intros x y [R Px]. specialize (Px ltac:(discriminate)).
  apply (rres_bind _ _ _ _ _ _ (lrel_sum None s s' H (avoid_none a _ F))). intros t t' (Rt & _ & Pt). specialize (Pt ltac:(congruence)).
  rewrite <- (rv_div x y t t' R Rt ltac:(lra) Pt). destruct (l_div x t) as [quo|] eqn:Eq; [|exact I].
  pose proof (rv_sub _ _ _ _ R (rv_scale quo _ _ Rt)) as Ry.
  eapply rres_bind; [apply (near_set (Some a)); [apply near_weaken; exact (lr_near _ _ _ H)|exact Ha|exact Ry|right; reflexivity]|].
  intros s1 s1' (H1 & S1 & S1' & E1 & E1'). cbn beta.
  replace (sl_at s1 a) with (Ok (l_sub x (l_scale quo t))) by (unfold sl_at; rewrite E1; reflexivity).
  replace (sl_at s1' a) with (Ok (l_sub y (l_scale quo t'))) by (unfold sl_at; rewrite E1'; reflexivity). cbn [bind].
  rewrite <- (rv_nonneg _ _ Ry). destruct (is_nonneg (l_sub x (l_scale quo t))) eqn:En; [|exact I]. cbn [assert_].
  apply is_nonneg_val in En. rewrite <- (rv_bool _ _ Ry).
  assert (F1 : Forall (avoid a) (sl_stack s1)) by (rewrite S1; exact F).
  destruct (l_bool (l_sub x (l_scale quo t))) eqn:Eb.
  - cbn [bind]. rewrite S1', S1, Es. apply during_subrep_loop; [exact Ha| |rewrite <- S1; exact F1].
    apply (near_strengthen a s1 s1' _ H1 E1). apply bool_val in Eb. lra.
  - eapply (rres_bind (fun s s' => near None s s' /\ sl_stack s = sl_stack s1 /\ sl_stack s' = sl_stack s1')).
    + assert (L1 : lrel (Some a) s1 s1') by (constructor; [exact H1|rewrite S1', S1, Es; reflexivity]).
      apply (rres_bind _ _ _ _ _ _ (lrel_sum (Some a) s1 s1' L1 (avoid_some a _ F1))). intros u v (Ru & _ & Pu).
      specialize (Pu ltac:(rewrite S1, Est; discriminate)).
      eapply rres_mono; [apply (near_set (Some a)); [exact H1|exact Ha|exact (rv_add _ _ _ _ Ry Ru)|right; reflexivity]|].
      cbn beta. intros s2 s2' (H2 & S2 & S2' & E2 & _). split; [|split; assumption].
      apply (near_strengthen a s2 s2' _ H2 E2). rewrite mval_add. lra.
    + intros s2 s2' (H2 & S2 & S2'). cbn beta. rewrite S2', S2, S1', S1, Es. apply during_subrep_loop; [exact Ha|exact H2|exact F].
Qed.
End Ratio.
