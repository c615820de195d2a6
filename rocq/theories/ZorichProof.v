(** zorichInduction on [sample::Lengths]: it never fails and performs the maximal run of
    elementary Rauzy steps. *)
From Coq Require Import Reals Lra Permutation.
From Verif Require Import Base QcTac LenT FM Subspace Lengths IET Api.
From Verif Require Spec.

Section Zorich.
Context {T : Type} {O : LenOps T} {W : LenLaws T}.

(** The label has a positive length. *)
Definition posl (s : slen T) (l : label) : Prop :=
  exists x, nth_error (sl_lens s) l = Some x /\ (0 < val x)%R.

(** A well-formed IET together with its store. *)
Definition wf (i : iet T) (s : slen T) : Prop :=
  NoDup (i_top i) /\ Permutation (i_top i) (i_bottom i) /\ i_top i <> [] /\
  (forall l, In l (i_top i) -> posl s l) /\ sl_stack s = [].

Notation total := Spec.total.

Lemma total_app f l1 l2 : total f (l1 ++ l2) = (total f l1 + total f l2)%R.
Proof. induction l1 as [|x l1 IH]; simpl; [lra|]. rewrite IH. lra. Qed.

Lemma total_ext f g l : (forall x, In x l -> f x = g x) -> total f l = total g l.
Proof.
  induction l as [|x l IH]; intros H; simpl; [reflexivity|].
  rewrite (H x) by (left; reflexivity). rewrite IH; [reflexivity|].
  intros y Hy; apply H; right; exact Hy.
Qed.

Lemma total_nonneg f l : (forall x, In x l -> 0 < f x)%R -> (0 <= total f l)%R.
Proof.
  induction l as [|x l IH]; intros H; simpl; [lra|].
  assert (0 < f x)%R by (apply H; left; reflexivity).
  assert (0 <= total f l)%R by (apply IH; intros y Hy; apply H; right; exact Hy). lra.
Qed.

Lemma total_pos f l : (forall x, In x l -> 0 < f x)%R -> l <> [] -> (0 < total f l)%R.
Proof.
  intros H Hl. destruct l as [|x l]; [congruence|]. simpl.
  assert (0 < f x)%R by (apply H; left; reflexivity).
  assert (0 <= total f l)%R by (apply total_nonneg; intros y Hy; apply H; right; exact Hy). lra.
Qed.

Lemma total_perm f l1 l2 : Permutation l1 l2 -> total f l1 = total f l2.
Proof. induction 1; simpl; lra. Qed.

(** ** Store primitives *)

Lemma sl_at_ok (s : slen T) l x : nth_error (sl_lens s) l = Some x -> sl_at s l = Ok x.
Proof. unfold sl_at. intros ->. reflexivity. Qed.

Lemma lamR_at (s : slen T) l x : nth_error (sl_lens s) l = Some x -> lamR s l = val x.
Proof. unfold lamR. intros ->. reflexivity. Qed.

Lemma posl_lamR s l : posl s l -> (0 < lamR s l)%R.
Proof. intros [x [H Hp]]. rewrite (lamR_at _ _ _ H). exact Hp. Qed.

Lemma lamR_ext s s' l : sl_lens s = sl_lens s' -> lamR s l = lamR s' l.
Proof. unfold lamR. intros ->. reflexivity. Qed.

Lemma posl_ext s s' l : sl_lens s = sl_lens s' -> posl s l -> posl s' l.
Proof. unfold posl. intros ->. auto. Qed.

Lemma sl_set_ok (s : slen T) l v x : nth_error (sl_lens s) l = Some x ->
  exists s', sl_set s l v = Ok s' /\ sl_stack s' = sl_stack s /\
    length (sl_lens s') = length (sl_lens s) /\
    nth_error (sl_lens s') l = Some v /\
    forall c, c <> l -> nth_error (sl_lens s') c = nth_error (sl_lens s) c.
Proof.
  intros H. assert (Hl : l < length (sl_lens s)) by (apply nth_error_Some; congruence).
  unfold sl_set. destruct (set_nth_some l v (sl_lens s) Hl) as [ls E]. rewrite E.
  eexists; split; [reflexivity|]. simpl. repeat split.
  - eapply set_nth_length; eassumption.
  - eapply set_nth_same; eassumption.
  - intros c Hc. eapply set_nth_other; [eassumption | congruence].
Qed.

Lemma sl_accumulate_ok s st acc :
  (forall l, In l st -> posl s l) ->
  exists t, sl_accumulate s acc st = Ok t /\ val t = (val acc + total (lamR s) st)%R.
Proof.
  revert acc; induction st as [|l st IH]; intros acc H; simpl.
  - exists acc. split; [reflexivity | lra].
  - destruct (H l) as [x [Hx Hp]]; [left; reflexivity|].
    rewrite (sl_at_ok _ _ _ Hx). simpl.
    destruct (IH (l_add acc x)) as [t [Et Ev]]; [intros y Hy; apply H; right; exact Hy|].
    exists t. split; [exact Et|]. rewrite Ev, val_add, (lamR_at _ _ _ Hx). lra.
Qed.

Lemma sl_sum_ok s : (forall l, In l (sl_stack s) -> posl s l) ->
  exists t, sl_sum s = Ok t /\ val t = total (lamR s) (sl_stack s).
Proof.
  intros H. destruct (sl_accumulate_ok s (sl_stack s) l_zero H) as [t [E V]].
  exists t. split; [exact E|]. rewrite V, val_zero. lra.
Qed.

Lemma is_pos_true x : is_pos x = true <-> (0 < val x)%R.
Proof.
  unfold is_pos. pose proof (cmp_val x l_zero) as H. rewrite val_zero in H.
  destruct (l_cmp x l_zero); split; intros; try discriminate; try lra; reflexivity.
Qed.

Lemma is_nonneg_true x : is_nonneg x = true <-> (0 <= val x)%R.
Proof.
  unfold is_nonneg. pose proof (cmp_val x l_zero) as H. rewrite val_zero in H.
  destruct (l_cmp x l_zero); split; intros; try discriminate; try lra; reflexivity.
Qed.

(** [s'] arises from [s] by changing the length of [a] to [v] and emptying the stack. *)
Definition updated (s s' : slen T) (a : label) (v : R) : Prop :=
  sl_stack s' = [] /\ length (sl_lens s') = length (sl_lens s) /\
  (exists x, nth_error (sl_lens s') a = Some x /\ val x = v) /\
  forall c, c <> a -> nth_error (sl_lens s') c = nth_error (sl_lens s) c.

Lemma updated_lamR s s' a v : updated s s' a v ->
  lamR s' a = v /\ forall c, c <> a -> lamR s' c = lamR s c.
Proof.
  intros [_ [_ [[x [H1 H2]] H3]]]. split.
  - rewrite (lamR_at _ _ _ H1). exact H2.
  - intros c Hc. unfold lamR. rewrite H3 by exact Hc. reflexivity.
Qed.

Lemma updated_posl s s' a v c : updated s s' a v -> (0 < v)%R -> posl s c -> posl s' c.
Proof.
  intros [_ [_ [[x [H1 H2]] H3]]] Hv Hc. unfold posl in *.
  destruct (Nat.eq_dec c a) as [->|Hne].
  - exists x. split; [exact H1 | lra].
  - rewrite H3 by exact Hne. exact Hc.
Qed.

Lemma sl_subtract_ok s a :
  posl s a -> (forall l, In l (sl_stack s) -> posl s l) ->
  (total (lamR s) (sl_stack s) < lamR s a)%R ->
  exists s', sl_subtract a s = Ok s' /\ updated s s' a (lamR s a - total (lamR s) (sl_stack s))%R.
Proof.
  intros [x [Hx Hp]] Hst Hlt. unfold sl_subtract.
  rewrite (sl_at_ok _ _ _ Hx). simpl.
  destruct (sl_sum_ok s Hst) as [t [Et Ev]]. rewrite Et. simpl.
  destruct (sl_set_ok s a (l_sub x t) x Hx) as [s' [Es [Hs1 [Hs2 [Hs3 Hs4]]]]]. rewrite Es. simpl.
  rewrite (lamR_at _ _ _ Hx) in *.
  assert (Hpos : is_pos (l_sub x t) = true).
  { apply is_pos_true. rewrite val_sub. lra. }
  rewrite Hpos. simpl. eexists; split; [reflexivity|].
  unfold updated, sl_clear; simpl. repeat split; auto.
  exists (l_sub x t). split; [exact Hs3|]. rewrite val_sub. lra.
Qed.

(** The loop of [subtractRepeated]: [B] is the stack, already processed up to [B1]. *)
Lemma sl_subrep_loop_ok a st : forall s stop,
  posl s a -> (forall l, In l st -> posl s l) -> ~ In a st ->
  (lamR s a <= total (lamR s) st)%R ->
  exists B1 b B2 s',
    st = B1 ++ b :: B2 /\
    sl_subrep_loop a stop st s = Ok (last B1 stop, s') /\
    updated s s' a (lamR s a - total (lamR s) B1)%R /\
    (0 < lamR s a - total (lamR s) B1 <= lamR s b)%R.
Proof.
  induction st as [|l st IH]; intros s stop Ha Hst Hn Hle; simpl in *.
  - apply posl_lamR in Ha. lra.
  - destruct (Hst l) as [x [Hx Hxp]]; [left; reflexivity|].
    destruct Ha as [y [Hy Hyp]].
    rewrite (sl_at_ok _ _ _ Hx), (sl_at_ok _ _ _ Hy). simpl.
    assert (Hla : l <> a) by (intros ->; apply Hn; left; reflexivity).
    pose proof (cmp_val x y) as Hc.
    rewrite (lamR_at _ _ _ Hx) in Hle. rewrite (lamR_at _ _ _ Hy) in Hle.
    destruct (l_cmp x y) eqn:Ec.
    + exists [], l, st. simpl. eexists; split; [reflexivity|]. split; [reflexivity|]. split.
      * unfold updated, sl_clear; simpl. repeat split; auto.
        exists y. split; [exact Hy|]. rewrite (lamR_at _ _ _ Hy). lra.
      * rewrite (lamR_at _ _ _ Hx), (lamR_at _ _ _ Hy). lra.
    + destruct (sl_set_ok s a (l_sub y x) y Hy) as [s1 [Es [Hs1 [Hs2 [Hs3 Hs4]]]]]. rewrite Es. simpl.
      assert (Hpos : is_pos (l_sub y x) = true) by (apply is_pos_true; rewrite val_sub; lra).
      rewrite Hpos. simpl.
      assert (Hlam : forall c, c <> a -> lamR s1 c = lamR s c).
      { intros c Hc'. unfold lamR. rewrite Hs4 by exact Hc'. reflexivity. }
      assert (Hlama : lamR s1 a = (val y - val x)%R).
      { rewrite (lamR_at _ _ _ Hs3), val_sub. reflexivity. }
      assert (Htot : forall B, ~ In a B -> total (lamR s1) B = total (lamR s) B).
      { intros B HB. apply total_ext. intros c Hc'. apply Hlam. intros ->. exact (HB Hc'). }
      destruct (IH s1 l) as [B1 [b [B2 [s' [E1 [E2 [E3 E4]]]]]]].
      * exists (l_sub y x). split; [exact Hs3 | rewrite val_sub; lra].
      * intros c Hc'. destruct (Hst c) as [z [Hz Hzp]]; [right; exact Hc'|].
        exists z. split; [|exact Hzp]. rewrite Hs4; [exact Hz|]. intros ->. apply Hn. right; exact Hc'.
      * intros Hin. apply Hn. right; exact Hin.
      * rewrite Htot, Hlama by (intros Hin; apply Hn; right; exact Hin). lra.
      * assert (HB1 : ~ In a B1).
        { intros Hin. apply Hn. right. rewrite E1. apply in_or_app. left; exact Hin. }
        assert (Hba : b <> a).
        { intros ->. apply Hn. right. rewrite E1. apply in_or_app. right; left; reflexivity. }
        exists (l :: B1), b, B2, s'. split; [simpl; congruence|]. split.
        { rewrite E2. f_equal. f_equal. destruct B1 as [|c B1]; [reflexivity|].
          change (last (l :: c :: B1) stop) with (last (c :: B1) stop).
          clear. revert c. induction B1 as [|d B1 IH]; intros c; [reflexivity|].
          change (last (c :: d :: B1) l) with (last (d :: B1) l).
          change (last (c :: d :: B1) stop) with (last (d :: B1) stop). apply IH. }
        rewrite Hlama, Htot in E3, E4 by exact HB1. rewrite Hlam in E4 by exact Hba.
        simpl. rewrite (lamR_at _ _ _ Hx), (lamR_at _ _ _ Hy).
        split; [|lra].
        destruct E3 as [F1 [F2 [F3 F4]]]. repeat split; auto; try congruence.
        { destruct F3 as [z [Z1 Z2]]. exists z. split; [exact Z1 | lra]. }
        { intros c Hc'. rewrite F4, Hs4 by exact Hc'. reflexivity. }
    + exists [], l, st. simpl. eexists; split; [reflexivity|]. split; [reflexivity|]. split.
      * unfold updated, sl_clear; simpl. repeat split; auto.
        exists y. split; [exact Hy|]. rewrite (lamR_at _ _ _ Hy). lra.
      * rewrite (lamR_at _ _ _ Hx), (lamR_at _ _ _ Hy). lra.
Qed.

Lemma last_in {A} (l : list A) d : l <> [] -> In (last l d) l.
Proof.
  induction l as [|x l IH]; intros H; [congruence|].
  destruct l as [|y l]; [left; reflexivity|]. right. apply IH. discriminate.
Qed.

(** [subtractRepeated]: full rounds and a partial one. *)
Lemma sl_subrep_ok s a :
  posl s a -> (forall l, In l (sl_stack s) -> posl s l) -> ~ In a (sl_stack s) ->
  sl_stack s <> [] ->
  (total (lamR s) (sl_stack s) < lamR s a)%R ->
  exists (m : nat) B1 b B2 s',
    sl_stack s = B1 ++ b :: B2 /\
    sl_subrep a s = Ok (last B1 (last (sl_stack s) 0), s') /\
    let v := (lamR s a - INR (S m) * total (lamR s) (sl_stack s) - total (lamR s) B1)%R in
    updated s s' a v /\ (0 < v <= lamR s b)%R.
Proof.
  intros [x [Hx Hxp]] Hst Hn Hne Hlt. unfold sl_subrep.
  destruct (sl_stack s) as [|l0 st0] eqn:Est; [congruence|]. rewrite <- Est in *. clear Hne.
  assert (Hne : sl_stack s <> []) by (rewrite Est; discriminate). clear Est l0 st0.
  rewrite (sl_at_ok _ _ _ Hx). simpl.
  destruct (sl_sum_ok s Hst) as [t [Et Ev]]. rewrite Et. simpl.
  assert (Htp : (0 < val t)%R).
  { rewrite Ev. apply total_pos; [intros c Hc; apply posl_lamR, Hst, Hc | exact Hne]. }
  rewrite (lamR_at _ _ _ Hx) in *.
  destruct (div_val x t) as [q [Eq [Hq1 Hq2]]]; [lra | exact Htp|]. rewrite Eq.
  destruct (sl_set_ok s a (l_sub x (l_scale q t)) x Hx) as [s1 [Es [Hs1 [Hs2 [Hs3 Hs4]]]]]. rewrite Es. simpl.
  rewrite (sl_at_ok _ _ _ Hs3). simpl.
  set (y := l_sub x (l_scale q t)) in *.
  assert (Hy : val y = (val x - IZR q * val t)%R) by (unfold y; rewrite val_sub, val_scale; reflexivity).
  assert (Hnn : is_nonneg y = true) by (apply is_nonneg_true; lra). rewrite Hnn. simpl.
  assert (Hlam1 : forall c, c <> a -> lamR s1 c = lamR s c).
  { intros c Hc. unfold lamR. rewrite Hs4 by exact Hc. reflexivity. }
  assert (Htot1 : forall B, ~ In a B -> total (lamR s1) B = total (lamR s) B).
  { intros B HB. apply total_ext. intros c Hc. apply Hlam1. intros ->. exact (HB Hc). }
  assert (Hst1 : forall l, In l (sl_stack s1) -> posl s1 l).
  { intros l Hl. rewrite Hs1 in Hl. destruct (Hst l Hl) as [z [Hz Hzp]]. exists z. split; [|exact Hzp].
    rewrite Hs4; [exact Hz|]. intros ->. exact (Hn Hl). }
  (* the store after possibly undoing the last subtraction *)
  assert (Hs2' : exists (m : nat) s2,
     (if l_bool y then Ok s1 else t' <- sl_sum s1;; sl_set s1 a (l_add y t')) = Ok s2 /\
     sl_stack s2 = sl_stack s /\ length (sl_lens s2) = length (sl_lens s) /\
     (exists z, nth_error (sl_lens s2) a = Some z /\ val z = (val x - INR (S m) * val t)%R) /\
     (forall c, c <> a -> nth_error (sl_lens s2) c = nth_error (sl_lens s) c) /\
     (0 < val x - INR (S m) * val t <= val t)%R).
  { destruct (l_bool y) eqn:Eb.
    - apply l_bool_true in Eb.
      assert (Hq : (1 <= q)%Z).
      { apply le_IZR. destruct (Z_lt_le_dec q 1) as [Hq|Hq]; [|apply IZR_le; exact Hq].
        exfalso. assert (IZR q <= 0)%R by (apply IZR_le; lia). nra. }
      exists (Z.to_nat (q - 1)), s1. split; [reflexivity|].
      assert (Ei : INR (S (Z.to_nat (q - 1))) = IZR q).
      { rewrite INR_IZR_INZ. f_equal. lia. }
      rewrite Ei. repeat split; auto; try lra.
      exists y. split; [exact Hs3 | lra].
    - assert (Hy0 : val y = 0%R).
      { destruct (Req_dec (val y) 0) as [E|E]; [exact E|]. apply l_bool_true in E. congruence. }
      assert (Hq : (2 <= q)%Z).
      { destruct (Z_lt_le_dec q 2) as [Hq|Hq]; [|exact Hq].
        exfalso. assert (IZR q <= 1)%R by (apply IZR_le; lia). nra. }
      destruct (sl_sum_ok s1 Hst1) as [t' [Et' Ev']]. rewrite Et'. cbn [bind].
      rewrite Hs1, Htot1 in Ev' by exact Hn. rewrite <- Ev in Ev'.
      destruct (sl_set_ok s1 a (l_add y t') y Hs3) as [s2 [Es2 [H21 [H22 [H23 H24]]]]].
      exists (Z.to_nat (q - 2)), s2. split; [exact Es2|].
      assert (Ei : INR (S (Z.to_nat (q - 2))) = (IZR q - 1)%R).
      { rewrite INR_IZR_INZ, <- minus_IZR. f_equal. lia. }
      rewrite Ei. repeat split; try congruence; try lra.
      + exists (l_add y t'). split; [exact H23|]. rewrite val_add. lra.
      + intros c Hc. rewrite H24, Hs4 by exact Hc. reflexivity. }
  destruct Hs2' as [m [s2 [E2 [H21 [H22 [[z [Hz Hzv]] [H24 H25]]]]]]]. rewrite E2. simpl.
  rewrite H21.
  assert (Hlam2 : forall c, c <> a -> lamR s2 c = lamR s c).
  { intros c Hc. unfold lamR. rewrite H24 by exact Hc. reflexivity. }
  assert (Htot2 : forall B, ~ In a B -> total (lamR s2) B = total (lamR s) B).
  { intros B HB. apply total_ext. intros c Hc. apply Hlam2. intros ->. exact (HB Hc). }
  destruct (sl_subrep_loop_ok a (sl_stack s) s2 (last (sl_stack s) 0)) as [B1 [b [B2 [s' [F1 [F2 [F3 F4]]]]]]].
  - exists z. split; [exact Hz | lra].
  - intros l Hl. destruct (Hst l Hl) as [w [Hw Hwp]]. exists w. split; [|exact Hwp].
    rewrite H24; [exact Hw|]. intros ->. exact (Hn Hl).
  - exact Hn.
  - rewrite (lamR_at _ _ _ Hz), Htot2 by exact Hn. lra.
  - exists m, B1, b, B2, s'. split; [exact F1|]. split; [exact F2|]. cbv zeta.
    assert (HB1 : ~ In a B1) by (intros Hin; apply Hn; rewrite F1; apply in_or_app; left; exact Hin).
    assert (Hba : b <> a) by (intros ->; apply Hn; rewrite F1; apply in_or_app; right; left; reflexivity).
    rewrite (lamR_at _ _ _ Hz), Htot2 in F3, F4 by exact HB1. rewrite Hlam2 in F4 by exact Hba.
    change (match m with 0%nat => 1 | S _ => INR m + 1 end)%R with (INR (S m)). rewrite <- Ev. rewrite Hzv in F3, F4.
    split; [|exact F4].
    destruct F3 as [G1 [G2 [G3 G4]]]. repeat split; auto; try congruence.
    intros c Hc. rewrite G4, H24 by exact Hc. reflexivity.
Qed.

(** ** Runs of elementary steps *)

Lemma run_trans e1 e2 e3 : Spec.rauzy_run e1 e2 -> Spec.rauzy_run e2 e3 -> Spec.rauzy_run e1 e3.
Proof.
  intros H. revert e3. induction H as [e e' Hs | e e1 e' Hs Hr IH]; intros e3 H3.
  - destruct Hs as [Ht [Hb Hl]]. destruct H3 as [e2 e3 [Gt [Gb Gl]] | e2 e2' e3 G Hr].
    + apply Spec.run_refl. split; [congruence|]. split; [congruence|]. intros c; rewrite Hl; apply Gl.
    + apply Spec.run_step with e2'; [|exact Hr].
      destruct G as [a [b [X [Y1 [Y2 [G1 [G2 [G3 [G4 [G5 [G6 G7]]]]]]]]]]].
      exists a, b, X, Y1, Y2. rewrite Ht, Hb. repeat split; auto.
      * rewrite !Hl. exact G3.
      * rewrite !Hl. exact G6.
      * intros c Hc. rewrite Hl. apply G7, Hc.
  - apply Spec.run_step with e1; [exact Hs | apply IH, H3].
Qed.

Lemma run_rotate a X R : forall B1 B2 e e',
  Spec.e_top e = a :: X -> Spec.e_bot e = B1 ++ B2 ++ a :: R ->
  ~ In a (B1 ++ B2) -> (forall l, In l B1 -> 0 < Spec.e_len e l)%R ->
  (total (Spec.e_len e) B1 < Spec.e_len e a)%R ->
  Spec.e_top e' = a :: X -> Spec.e_bot e' = B2 ++ B1 ++ a :: R ->
  (Spec.e_len e' a = Spec.e_len e a - total (Spec.e_len e) B1)%R ->
  (forall c, c <> a -> Spec.e_len e' c = Spec.e_len e c) ->
  Spec.rauzy_run e e'.
Proof.
  induction B1 as [|b B1 IH]; intros B2 e e' Ht Hb Hn Hp Hlt Ht' Hb' Hl' Hc'.
  - simpl in Hb, Hb'. apply Spec.run_refl. split; [congruence|]. split; [congruence|].
    intros c. destruct (Nat.eq_dec c a) as [->|Hc]; [simpl in Hl'; lra | symmetry; apply Hc', Hc].
  - simpl in Hlt.
    assert (Hbp : (0 < Spec.e_len e b)%R) by (apply Hp; left; reflexivity).
    assert (Hba : b <> a) by (intros ->; apply Hn; left; reflexivity).
    assert (Htp : (0 <= total (Spec.e_len e) B1)%R).
    { apply total_nonneg. intros c Hc. apply Hp. right; exact Hc. }
    set (len1 := fun c => if Nat.eqb c a then (Spec.e_len e a - Spec.e_len e b)%R else Spec.e_len e c).
    assert (Hlen1 : forall c, c <> a -> len1 c = Spec.e_len e c).
    { intros c Hc. unfold len1. destruct (Nat.eqb_spec c a); [contradiction | reflexivity]. }
    assert (Hlena : len1 a = (Spec.e_len e a - Spec.e_len e b)%R).
    { unfold len1. rewrite Nat.eqb_refl. reflexivity. }
    assert (Htot : total len1 B1 = total (Spec.e_len e) B1).
    { apply total_ext. intros c Hc. apply Hlen1. intros ->. apply Hn. right. apply in_or_app. left; exact Hc. }
    set (e1 := Spec.mkexch (a :: X) (B1 ++ (B2 ++ [b]) ++ a :: R) len1).
    apply Spec.run_step with e1.
    + exists a, b, X, (B1 ++ B2), R. unfold e1; simpl. repeat split; auto; try lra.
      * rewrite Hb. simpl. rewrite <- !app_assoc. reflexivity.
      * rewrite <- !app_assoc. reflexivity.
    + apply (IH (B2 ++ [b])); unfold e1; simpl; auto.
      * intros Hin. apply Hn. simpl. rewrite !in_app_iff in Hin. simpl in Hin.
        destruct Hin as [Hin|[Hin|[Hin|[]]]]; [right | right | left; exact Hin]; apply in_or_app; auto.
      * intros l Hl. rewrite Hlen1; [apply Hp; right; exact Hl|].
        intros ->. apply Hn. right. apply in_or_app. left; exact Hl.
      * rewrite Htot, Hlena. lra.
      * rewrite Hb'. rewrite <- !app_assoc. reflexivity.
      * rewrite Htot, Hlena, Hl'. simpl. lra.
      * intros c Hc. rewrite Hc', Hlen1 by exact Hc. reflexivity.
Qed.

Lemma run_rounds a X B R : forall m e e',
  Spec.e_top e = a :: X -> Spec.e_bot e = B ++ a :: R ->
  ~ In a B -> (forall l, In l B -> 0 < Spec.e_len e l)%R ->
  (INR m * total (Spec.e_len e) B < Spec.e_len e a)%R ->
  Spec.e_top e' = a :: X -> Spec.e_bot e' = B ++ a :: R ->
  (Spec.e_len e' a = Spec.e_len e a - INR m * total (Spec.e_len e) B)%R ->
  (forall c, c <> a -> Spec.e_len e' c = Spec.e_len e c) ->
  Spec.rauzy_run e e'.
Proof.
  induction m as [|m IH]; intros e e' Ht Hb Hn Hp Hlt Ht' Hb' Hl' Hc'.
  - simpl in *. apply Spec.run_refl. split; [congruence|]. split; [congruence|].
    intros c. destruct (Nat.eq_dec c a) as [->|Hc]; [lra | symmetry; apply Hc', Hc].
  - rewrite S_INR in *.
    assert (Htp : (0 <= total (Spec.e_len e) B)%R).
    { apply total_nonneg. intros c Hc. apply Hp. exact Hc. }
    assert (Hm : (0 <= INR m)%R) by apply pos_INR.
    set (len1 := fun c => if Nat.eqb c a then (Spec.e_len e a - total (Spec.e_len e) B)%R else Spec.e_len e c).
    assert (Hlen1 : forall c, c <> a -> len1 c = Spec.e_len e c).
    { intros c Hc. unfold len1. destruct (Nat.eqb_spec c a); [contradiction | reflexivity]. }
    assert (Hlena : len1 a = (Spec.e_len e a - total (Spec.e_len e) B)%R).
    { unfold len1. rewrite Nat.eqb_refl. reflexivity. }
    assert (Htot : total len1 B = total (Spec.e_len e) B).
    { apply total_ext. intros c Hc. apply Hlen1. intros ->. exact (Hn Hc). }
    set (e1 := Spec.mkexch (a :: X) (B ++ a :: R) len1).
    apply run_trans with e1.
    + apply (run_rotate a X R B []); unfold e1; simpl; auto.
      * rewrite app_nil_r. exact Hn.
      * nra.
    + apply IH; unfold e1; simpl; auto.
      * intros l Hl. rewrite Hlen1; [apply Hp, Hl|]. intros ->. exact (Hn Hl).
      * rewrite Htot, Hlena. lra.
      * rewrite Htot, Hlena, Hl'. lra.
      * intros c Hc. rewrite Hc', Hlen1 by exact Hc. reflexivity.
Qed.

(** ** The loop of zorichInduction *)

Lemma back_to_app stop r1 r2 : ~ In stop r1 -> back_to stop (r1 ++ stop :: r2) = Some (stop :: r2).
Proof.
  induction r1 as [|x r1 IH]; intros Hn; simpl.
  - rewrite Nat.eqb_refl. reflexivity.
  - destruct (Nat.eqb_spec x stop) as [->|_]; [exfalso; apply Hn; left; reflexivity|].
    apply IH. intros H; apply Hn; right; exact H.
Qed.

Lemma last_app_split {A} (l : list A) d : l <> [] -> l = removelast l ++ [last l d].
Proof. intros H. apply app_removelast_last, H. Qed.

Lemma last_default {A} (l : list A) d d' : l <> [] -> last l d = last l d'.
Proof.
  induction l as [|x l IH]; intros H; [congruence|].
  destruct l as [|y l]; [reflexivity|]. simpl in *. apply IH. discriminate.
Qed.

Lemma zloop_ok v a R2 : forall R1 rpre s,
  ~ In a (rev rpre ++ R1) -> NoDup (rev rpre ++ R1) ->
  rev rpre ++ R1 <> [] ->
  sl_stack s = rev rpre ->
  posl s a -> (forall l, In l (rev rpre ++ R1) -> posl s l) ->
  (total (lamR s) (rev rpre) < lamR s a)%R ->
  exists B1 B2 (m : nat) s' b' rest,
    rev rpre ++ R1 = B1 ++ B2 /\ B2 ++ B1 = b' :: rest /\
    zloop sample_lens v a rpre (R1 ++ a :: R2) s = Ok (rev B1, s') /\
    updated s s' a (lamR s a - INR m * total (lamR s) (B1 ++ B2) - total (lamR s) B1)%R /\
    (0 < lamR s a - INR m * total (lamR s) (B1 ++ B2) - total (lamR s) B1 <= lamR s b')%R.
Proof.
  intros R1; induction R1 as [|b R1 IH]; intros rpre s Hn Hnd Hne Hst Ha Hp Hlt.
  - rewrite app_nil_r in *. cbn [app zloop]. rewrite Nat.eqb_refl.
    destruct (sl_subrep_ok s a) as [m [B1 [b [B2 [s' [E1 [E2 [E3 E4]]]]]]]]; rewrite ?Hst; auto.
    cbn [li_subrep sample_lens]. rewrite E2. cbn [bind].
    rewrite Hst in E1, E3, E4.
    set (stop := last B1 (last (sl_stack s) 0)) in *.
    assert (Hstop : In stop (rev rpre)).
    { unfold stop. destruct B1 as [|c B1].
      - simpl. rewrite Hst. apply last_in. exact Hne.
      - rewrite E1. apply in_or_app. left. apply last_in. discriminate. }
    destruct (Nat.eqb_spec a stop) as [Eas|_]; [exfalso; apply Hn; rewrite Eas; exact Hstop|].
    destruct B1 as [|c B1].
    + (* nothing subtracted in the partial round: the whole prefix is moved *)
      simpl in E1. exists (rev rpre), [], m, s', b, B2.
      split; [rewrite app_nil_r; reflexivity|]. split; [exact E1|].
      assert (Es : stop = last (rev rpre) 0) by (unfold stop; simpl; rewrite Hst; reflexivity).
      split.
      { destruct rpre as [|r0 rpre]; [simpl in E1; discriminate|].
        assert (Er : stop = r0).
        { rewrite Es. simpl. rewrite last_last. reflexivity. }
        rewrite Er. cbn [back_to]. rewrite Nat.eqb_refl. rewrite rev_involutive. reflexivity. }
      rewrite app_nil_r. rewrite S_INR in E3, E4. simpl in E3, E4.
      replace (lamR s a - INR m * total (lamR s) (rev rpre) - total (lamR s) (rev rpre))%R
        with (lamR s a - (INR m + 1) * total (lamR s) (rev rpre) - 0)%R by lra.
      split; assumption.
    + exists (c :: B1), (b :: B2), (S m), s', b, (B2 ++ c :: B1).
      split; [exact E1|]. split; [reflexivity|]. split.
      { assert (Hc : c :: B1 = removelast (c :: B1) ++ [stop]) by (apply last_app_split; discriminate).
        assert (Er : rpre = rev (b :: B2) ++ stop :: rev (removelast (c :: B1))).
        { rewrite <- (rev_involutive rpre), E1. rewrite Hc at 1.
          rewrite rev_app_distr, rev_app_distr. simpl. rewrite <- !app_assoc. reflexivity. }
        rewrite Er, back_to_app.
        - do 2 f_equal. rewrite Hc at 2. rewrite rev_app_distr. reflexivity.
        - intros Hin. apply in_rev in Hin.
          rewrite E1 in Hnd. rewrite Hc, <- app_assoc in Hnd.
          apply NoDup_remove_2 in Hnd. apply Hnd. apply in_or_app. right. exact Hin. }
      rewrite <- E1. split; assumption.
  - cbn [app zloop].
    assert (Hba : b <> a).
    { intros ->. apply Hn. apply in_or_app. right; left; reflexivity. }
    destruct (Nat.eqb_spec b a) as [|_]; [contradiction|].
    cbn [li_push sample_lens bind]. cbn [li_cmp1 sample_lens]. unfold sl_cmp1.
    set (s1 := sl_push b s).
    assert (Hl1 : sl_lens s1 = sl_lens s) by reflexivity.
    assert (Hs1 : sl_stack s1 = rev (b :: rpre)) by (unfold s1, sl_push; simpl; rewrite Hst; reflexivity).
    destruct (sl_sum_ok s1) as [t [Et Ev]].
    { intros l Hl. rewrite Hs1 in Hl. apply (posl_ext s); [reflexivity|]. apply Hp.
      simpl in Hl. rewrite in_app_iff in *. simpl in *. tauto. }
    rewrite Et. cbn [bind]. destruct Ha as [x [Hx Hxp]].
    rewrite (sl_at_ok s1 a x Hx). cbn [bind].
    rewrite Hs1 in Ev. rewrite (total_ext (lamR s1) (lamR s)) in Ev by (intros; apply lamR_ext; reflexivity).
    pose proof (cmp_val t x) as Hc. rewrite Ev in Hc.
    assert (Hax : lamR s a = val x) by (apply lamR_at; exact Hx).
    assert (Hstep : (lamR s a <= total (lamR s) (rev (b :: rpre)))%R ->
      exists B1 B2 (m : nat) s' b' rest,
        rev rpre ++ b :: R1 = B1 ++ B2 /\ B2 ++ B1 = b' :: rest /\
        (s2 <- li_pop sample_lens s1 ;; s3 <- li_subtract sample_lens v a s2 ;; Ok (rpre, s3)) = Ok (rev B1, s') /\
        updated s s' a (lamR s a - INR m * total (lamR s) (B1 ++ B2) - total (lamR s) B1)%R /\
        (0 < lamR s a - INR m * total (lamR s) (B1 ++ B2) - total (lamR s) B1 <= lamR s b')%R).
    { intros Hge. cbn [li_pop sample_lens]. unfold sl_pop.
      destruct (sl_stack s1) as [|z zs] eqn:Ez; [simpl in Hs1; destruct (rev rpre); discriminate|].
      rewrite <- Ez. cbn [bind]. rewrite Ez, Hs1. simpl rev. rewrite removelast_last.
      set (s2 := mkslen (rev rpre) (sl_lens s1)).
      cbn [li_subtract sample_lens].
      assert (Hs2 : s2 = s). { unfold s2. rewrite <- Hst. destruct s; reflexivity. }
      rewrite Hs2.
      destruct (sl_subtract_ok s a) as [s' [E1 E2]].
      - exists x; auto.
      - intros l Hl. rewrite Hst in Hl. apply Hp. apply in_or_app. left; exact Hl.
      - rewrite Hst. exact Hlt.
      - rewrite E1. cbn [bind]. exists (rev rpre), (b :: R1), 0, s', b, (R1 ++ rev rpre).
        split; [reflexivity|]. split; [reflexivity|]. split; [rewrite rev_involutive; reflexivity|].
        rewrite Hst in E2. simpl INR.
        replace (lamR s a - 0 * total (lamR s) (rev rpre ++ b :: R1) - total (lamR s) (rev rpre))%R
          with (lamR s a - total (lamR s) (rev rpre))%R by lra.
        split; [exact E2|]. simpl in Hge. rewrite total_app in Hge. simpl in Hge. lra. }
    destruct (l_cmp t x) eqn:Ec.
    + apply Hstep. lra.
    + assert (Eapp : rev (b :: rpre) ++ R1 = rev rpre ++ b :: R1).
      { simpl. rewrite <- app_assoc. reflexivity. }
      destruct (IH (b :: rpre) s1) as [B1 [B2 [m [s' [b' [rest [F1 [F2 [F3 [F4 F5]]]]]]]]]].
      * rewrite Eapp; exact Hn.
      * rewrite Eapp; exact Hnd.
      * rewrite Eapp; exact Hne.
      * exact Hs1.
      * exists x; auto.
      * rewrite Eapp. exact Hp.
      * rewrite (total_ext (lamR s1) (lamR s)) by (intros; apply lamR_ext; reflexivity).
        replace (lamR s1 a) with (lamR s a) by (apply lamR_ext; reflexivity). lra.
      * exists B1, B2, m, s', b', rest. rewrite Eapp in F1. split; [exact F1|]. split; [exact F2|]. split; [exact F3|].
        assert (Ht1 : forall B, total (lamR s1) B = total (lamR s) B).
        { intros B. apply total_ext. intros; apply lamR_ext; reflexivity. }
        rewrite !Ht1 in F4, F5.
        replace (lamR s1 a) with (lamR s a) in F4, F5 by (apply lamR_ext; reflexivity).
        replace (lamR s1 b') with (lamR s b') in F5 by (apply lamR_ext; reflexivity).
        split; [|exact F5]. destruct F4 as [G1 [G2 [G3 G4]]]. repeat split; auto.
    + apply Hstep. lra.
Qed.

(** ** zorichInduction *)

Lemma sl_cmp2_ok s a b : posl s a -> posl s b ->
  exists c, sl_cmp2 s a b = Ok c /\
    match c with Lt => (lamR s a < lamR s b)%R | Eq => lamR s a = lamR s b | Gt => (lamR s a > lamR s b)%R end.
Proof.
  intros [x [Hx _]] [y [Hy _]]. unfold sl_cmp2.
  rewrite (sl_at_ok _ _ _ Hx), (sl_at_ok _ _ _ Hy). cbn [bind].
  exists (l_cmp x y). split; [reflexivity|].
  rewrite (lamR_at _ _ _ Hx), (lamR_at _ _ _ Hy). apply cmp_val.
Qed.

Definition heads_equal (i : iet T) (s : slen T) : Prop :=
  exists a b, hd_error (i_top i) = Some a /\ hd_error (i_bottom i) = Some b /\ lamR s a = lamR s b.

(** The first top label. *)
Definition first_top (i : iet T) (a : label) : Prop := hd_error (i_top i) = Some a.

Theorem zorich_ok i s : wf i s ->
  exists found bottom s',
    zorich sample_lens i s = Ok (found, set_bottom i bottom, s') /\
    wf (set_bottom i bottom) s' /\
    Spec.rauzy_run (exch_of i s) (exch_of (set_bottom i bottom) s') /\
    Spec.rauzy_stuck (exch_of (set_bottom i bottom) s') /\
    (found = true <-> heads_equal (set_bottom i bottom) s') /\
    length (sl_lens s') = length (sl_lens s) /\
    (forall c, ~ first_top i c -> nth_error (sl_lens s') c = nth_error (sl_lens s) c).
Proof.
  intros [Hnd [Hperm [Hne [Hpos Hst]]]].
  unfold zorich. destruct (i_top i) as [|a X] eqn:Et; [congruence|].
  destruct (i_bottom i) as [|b Y] eqn:Eb.
  { apply Permutation_sym, Permutation_nil in Hperm. discriminate. }
  assert (Hapos : posl s a) by (apply Hpos; left; reflexivity).
  destruct (Nat.eqb_spec a b) as [<-|Hab].
  - exists true, (i_bottom i), s.
    assert (Ei : set_bottom i (i_bottom i) = i) by (destruct i; reflexivity). rewrite Ei.
    split; [reflexivity|]. split.
    { repeat split; try rewrite Et; try rewrite Eb; auto. }
    split; [apply Spec.run_refl; repeat split; auto|]. split.
    { intros [e' [a' [b' [X' [Y1 [Y2 [G1 [G2 [G3 _]]]]]]]]]. unfold exch_of in *; simpl in *.
      rewrite Et in G1. rewrite Eb in G2. injection G1 as <- <-. injection G2 as <- _.
      lra. }
    split.
    { split; [intros _|reflexivity]. exists a, a. rewrite Et, Eb. repeat split. }
    split; reflexivity.
  - assert (Hina : In a (b :: Y)) by (apply (Permutation_in _ Hperm); left; reflexivity).
    assert (HndB : NoDup (b :: Y)) by (eapply Permutation_NoDup; eassumption).
    destruct (in_split _ _ Hina) as [R1 [R2 ER]]. rewrite ER.
    assert (HnR : ~ In a R1 /\ ~ In a R2 /\ NoDup R1).
    { rewrite ER in HndB. pose proof (NoDup_remove_2 _ _ _ HndB) as H2.
      pose proof (NoDup_remove_1 _ _ _ HndB) as H1. rewrite in_app_iff in H2.
      repeat split; try tauto. revert H1. clear. induction R1 as [|c R1 IH]; simpl; intros H; [constructor|].
      inversion H; subst. constructor; [|auto]. intros Hin; apply H2. apply in_or_app; left; exact Hin. }
    destruct HnR as [HnR1 [HnR2 HndR1]].
    assert (HposR : forall l, In l R1 -> posl s l).
    { intros l Hl. apply Hpos. apply (Permutation_in _ (Permutation_sym Hperm)).
      rewrite ER. apply in_or_app. left; exact Hl. }
    destruct (zloop_ok (i_view i) a R2 R1 [] s) as [B1 [B2 [m [s' [b' [rest [F1 [F2 [F3 [F4 F5]]]]]]]]]]; simpl; auto.
    { intros ->. simpl in ER. congruence. }
    { apply posl_lamR; exact Hapos. }
    simpl in F1. rewrite F3. cbn [bind]. rewrite rev_length.
    set (v := (lamR s a - INR m * total (lamR s) (B1 ++ B2) - total (lamR s) B1)%R) in *.
    assert (HB : ~ In a B1 /\ ~ In a B2).
    { rewrite F1, in_app_iff in HnR1. tauto. }
    destruct HB as [HB1 HB2].
    assert (Esp : splice a (R1 ++ a :: R2) (length B1) = Ok (B2 ++ B1 ++ a :: R2)).
    { unfold splice. rewrite F1, <- app_assoc.
      rewrite skipn_app, skipn_all, Nat.sub_diag, skipn_O. simpl app at 1.
      rewrite (split_at_intro a B2 R2 HB2).
      rewrite firstn_app, Nat.sub_diag, firstn_O, app_nil_r, firstn_all. reflexivity. }
    rewrite Esp. cbn [bind].
    rewrite app_assoc, F2. cbn [app].
    set (bot := b' :: rest ++ a :: R2).
    assert (Ebot : bot = B2 ++ B1 ++ a :: R2) by (unfold bot; rewrite app_assoc, F2; reflexivity).
    destruct (updated_lamR _ _ _ _ F4) as [Lva Lvc].
    assert (Hb' : In b' R1).
    { rewrite F1. apply in_or_app. assert (In b' (B2 ++ B1)) by (rewrite F2; left; reflexivity).
      rewrite in_app_iff in H. tauto. }
    assert (Hb'a : b' <> a) by (intros ->; contradiction).
    assert (Hpos' : forall l, In l (i_top i) -> posl s' l).
    { intros l Hl. eapply updated_posl; [exact F4 | lra | apply Hpos; rewrite <- Et; exact Hl]. }
    destruct (sl_cmp2_ok s' a b') as [c [Ec Hc]].
    { apply Hpos'. rewrite Et. left; reflexivity. }
    { apply Hpos'. rewrite Et. apply (Permutation_in _ (Permutation_sym Hperm)). rewrite ER.
      apply in_or_app; left; exact Hb'. }
    cbn [li_cmp2 sample_lens]. rewrite Ec. cbn [bind].
    exists (match c with Eq => true | _ => false end), bot, s'.
    split; [reflexivity|].
    assert (Hperm' : Permutation (a :: X) bot).
    { rewrite Hperm, ER, Ebot, F1, app_assoc. apply Permutation_app_tail, Permutation_app_comm. }
    split.
    { destruct F4 as [G1 _]. repeat split; simpl; try rewrite Et; auto.
      intros l Hl. apply Hpos'. rewrite Et. exact Hl. }
    split.
    { set (len1 := fun c => if Nat.eqb c a then (lamR s a - INR m * total (lamR s) (B1 ++ B2))%R else lamR s c).
      assert (Hlen1 : forall c, c <> a -> len1 c = lamR s c).
      { intros d Hd. unfold len1. destruct (Nat.eqb_spec d a); [contradiction | reflexivity]. }
      assert (Hlena : len1 a = (lamR s a - INR m * total (lamR s) (B1 ++ B2))%R).
      { unfold len1. rewrite Nat.eqb_refl. reflexivity. }
      assert (HB1nn : (0 <= total (lamR s) B1)%R).
      { apply total_nonneg. intros d Hd. apply posl_lamR, HposR. rewrite F1. apply in_or_app; left; exact Hd. }
      assert (Htot : total len1 B1 = total (lamR s) B1).
      { apply total_ext. intros d Hd. apply Hlen1. intros ->. exact (HB1 Hd). }
      apply run_trans with (Spec.mkexch (a :: X) (R1 ++ a :: R2) len1).
      - apply (run_rounds a X R1 R2 m); unfold exch_of; simpl; auto.
        + rewrite Eb. exact ER.
        + intros l Hl. apply posl_lamR, HposR, Hl.
        + rewrite F1. unfold v in F5. lra.
        + rewrite F1. exact Hlena.
      - apply (run_rotate a X R2 B1 B2); unfold exch_of; simpl; auto.
        + rewrite F1, <- app_assoc. reflexivity.
        + rewrite in_app_iff; tauto.
        + intros l Hl. rewrite Hlen1.
          * apply posl_lamR, HposR. rewrite F1. apply in_or_app; left; exact Hl.
          * intros ->. exact (HB1 Hl).
        + rewrite Htot, Hlena. unfold v in F5. lra.
        + rewrite Htot, Hlena, Lva. unfold v. lra.
        + intros d Hd. rewrite Hlen1, Lvc by exact Hd. reflexivity. }
    split.
    { intros [e' [a' [b'' [X' [Y1 [Y2 [G1 [G2 [G3 _]]]]]]]]]. unfold exch_of in *; simpl in *.
      rewrite Et in G1. injection G1 as <- <-. unfold bot in G2. injection G2 as <- _.
      rewrite Lva, (Lvc b' Hb'a) in G3. lra. }
    split.
    { unfold heads_equal. simpl. rewrite Et. simpl. split.
      - intros H. exists a, b'. repeat split. destruct c; try discriminate. exact Hc.
      - intros [x [y [H1 [H2 H3]]]]. injection H1 as <-. injection H2 as <-.
        destruct c; [reflexivity | lra | lra]. }
    destruct F4 as [G1 [G2 [G3 G4]]]. split; [exact G2|].
    intros d Hd. apply G4. intros ->. apply Hd. unfold first_top. rewrite Et. reflexivity.
Qed.

End Zorich.
