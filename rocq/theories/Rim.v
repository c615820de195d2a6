(** The right ends of the floors: they are the ends of the intervals of the original exchange that the
    connections on the right have been found at. *)
From Coq Require Import Reals Permutation Lia Lra Classical.
From Verif Require Import Base Spec SpecDec SpecTower SpecCanon SpecRim Dyn Path Direct Bosh Endless Decomp DecompSim DecompInv DecompDyn Tower Canon.
Open Scope R_scope.

Definition rim (e0 : exch) (t : tower) (a c : lab) : Prop :=
  exists k d, (k < tw_height t a)%nat /\ In c (e_top e0) /\ (forall y, in_base t a y -> iter (maps e0) k y (y + d)) /\
     tw_at t + left_end (e_len (tw_base t)) (e_top (tw_base t)) a + e_len (tw_base t) a + d =
       left_end (e_len e0) (e_top e0) c + e_len e0 c.

(** What is kept when a tower is changed. *)
Definition keeps (e0 : exch) (t t' : tower) : Prop :=
  (forall c, In c (e_top (tw_base t')) -> In c (e_top (tw_base t))) /\
  forall c r, In c (e_top (tw_base t')) -> rim e0 t c r -> rim e0 t' c r.

Lemma keeps_trans e0 t t1 t2 : keeps e0 t t1 -> keeps e0 t1 t2 -> keeps e0 t t2.
Proof. intros (A & B) (A' & B'). split; auto. Qed.

Lemma rim_top e0 e o h e' a b : proper e0 -> a <> b -> In a (e_top e) -> In b (e_top e) ->
  let le := left_end (e_len e) (e_top e) in let le' := left_end (e_len e') (e_top e') in
  let lb := e_len e b in
  0 < lb -> (forall c, In c (e_top e') -> In c (e_top e)) -> (forall c, In c (e_top e) -> c <> a -> In c (e_top e')) ->
  (forall c, In c (e_top e) -> c <> a -> le' c = le c - lb /\ e_len e' c = e_len e c) ->
  le a = 0 -> left_end (e_len e) (e_bot e) b = 0 ->
  (In a (e_top e') /\ le' a = 0 /\ e_len e' a = e_len e a - lb /\ lb <= e_len e a \/ ~ In a (e_top e') /\ e_len e a = lb) ->
  tower_of e0 (mktower e o h) ->
  let t' := mktower e' (o + lb) (raised h a b) in
  keeps e0 (mktower e o h) t' /\ (~ In a (e_top e') -> forall r, rim e0 (mktower e o h) a r -> rim e0 t' b r).
Proof.
  intros P0 Hab Ia Ib le le' lb Lb I1 I2 H3 H4 H5 H6 (T1 & T2 & T3 & T4 & T5 & T6) t'. simpl in T1.
  set (t := mktower e o h) in *.
  assert (On : forall c y, c <> a -> (in_base t' c y <-> in_base t c y)).
  { intros c y Hc. unfold in_base, t, t'; simpl. fold (le c) (le' c). split; intros (X & Y).
    - pose proof (I1 _ X) as X'. destruct (H3 c X' Hc) as (E1 & E2). rewrite E1, E2 in Y. split; [exact X'|lra].
    - destruct (H3 c X Hc) as (E1 & E2). rewrite E1, E2. split; [apply I2; assumption|lra]. }
  assert (Sb : forall y, in_base t b y -> o <= y + shift e b < o + lb).
  { intros y (_ & Hy). simpl in Hy. unfold shift. rewrite H5. fold (le b) in *. unfold lb. lra. }
  assert (Oa : forall y, in_base t a y <-> in_base t' a y \/ (o <= y < o + lb)).
  { intro y. unfold in_base, t, t'; simpl. fold (le a) (le' a). rewrite H4. destruct H6 as [(X & -> & -> & Z)|(X & Z)].
    - split; [intros (_ & Hy)|intros [(_ & Hy)|Hy]; (split; [exact Ia|lra])].
      destruct (Rlt_le_dec y (o + lb)); [right; lra|left; split; [exact X|lra]].
    - split; [intros (_ & Hy); right; lra|]. intros [(Q & _)|Hy]; [contradiction|]. split; [exact Ia|lra]. }
  split; [split; [exact I1|]|].
  - intros c r Ic (k & d & K & Ir & Hd & E). cbn [t t' tw_height tw_base tw_at] in *. fold (le c) in E. exists k, d. cbn [t t' tw_height tw_base tw_at] in *. fold (le' c).
    split; [unfold raised; destruct (Nat.eqb_spec c b) as [->|]; lia|]. split; [exact Ir|]. split.
    + intros y Hy. apply Hd. destruct (Nat.eq_dec c a) as [->|Na]; [apply Oa; auto|apply On; auto].
    + destruct (Nat.eq_dec c a) as [->|Na].
      * destruct H6 as [(_ & -> & -> & _)|(Q & _)]; [|contradiction]. rewrite H4 in E. lra.
      * destruct (H3 c (I1 _ Ic) Na) as (-> & ->). lra.
  - intros Na r (k & d & K & Ir & Hd & E). cbn [t t' tw_height tw_base tw_at] in *. fold (le a) in E. exists (h b + k)%nat, (shift e b + d).
    cbn [t' tw_height tw_base tw_at]. fold (le' b). rewrite raised_b. split; [lia|]. split; [exact Ir|]. split.
    + intros y Hy. assert (B : in_base t b y) by (apply On; auto). replace (y + (shift e b + d)) with (y + shift e b + d) by lra.
      eapply iter_add; [apply (T2 b y B)|apply Hd, Oa; right; apply Sb, B].
    + destruct H6 as [(Q & _)|(_ & El)]; [contradiction|]. destruct (H3 b Ib (not_eq_sym Hab)) as (-> & ->). unfold shift. rewrite H5. fold (le b). rewrite H4 in E. unfold lb in *. lra.
Qed.

Lemma rim_bot e0 e o h e' a b : proper e0 -> a <> b -> In a (e_top e) -> In b (e_top e) ->
  let le := left_end (e_len e) (e_top e) in let le' := left_end (e_len e') (e_top e') in
  let lb := e_len e b in
  0 < lb -> (forall c, In c (e_top e') -> In c (e_top e)) -> (forall c, In c (e_top e) -> c <> a -> In c (e_top e')) ->
  (forall c, In c (e_top e) -> c <> a -> e_len e' c = e_len e c) ->
  (forall c, In c (e_top e) -> c <> a -> c <> b -> le' c = le c - lb) ->
  le b = 0 -> le' b = le a - lb -> left_end (e_len e) (e_bot e) a = 0 ->
  (In a (e_top e') /\ le' a = le a /\ e_len e' a = e_len e a - lb /\ lb <= e_len e a \/ ~ In a (e_top e') /\ e_len e a = lb) ->
  tower_of e0 (mktower e o h) ->
  keeps e0 (mktower e o h) (mktower e' (o + lb) (raised h a b)).
Proof.
  intros P0 Hab Ia Ib le le' lb Lb I1 I2 L1 H3 H4 H4b H5 H6 (T1 & T2 & T3 & T4 & T5 & T6). simpl in T1.
  set (t := mktower e o h) in *. set (t' := mktower e' (o + lb) (raised h a b)).
  assert (On : forall c y, c <> a -> c <> b -> (in_base t' c y <-> in_base t c y)).
  { intros c y Hc Hb. unfold in_base, t, t'; simpl. fold (le c) (le' c). split; intros (X & Y).
    - pose proof (I1 c X) as X'. split; [exact X'|]. rewrite (H3 c X' Hc Hb), (L1 c X' Hc) in Y. lra.
    - split; [apply I2; assumption|]. rewrite (H3 c X Hc Hb), (L1 c X Hc). lra. }
  pose proof (I2 b Ib (not_eq_sym Hab)) as Ib'.
  assert (Oa : forall y, in_base t a y <-> in_base t' a y \/ in_base t' b y).
  { intro y. unfold in_base, t, t'; simpl. fold (le a) (le' a) (le' b). rewrite H4b, (L1 b Ib) by auto. fold lb. destruct H6 as [(X & -> & -> & Z)|(X & Z)]; split.
    - intros (_ & Hy). destruct (Rlt_le_dec (y - o) (le a + lb)); [right|left]; (split; [assumption|lra]).
    - intros [(_ & Hy)|(_ & Hy)]; (split; [assumption|lra]).
    - intros (_ & Hy). right. split; [assumption|lra].
    - intros [(Q & _)|(_ & Hy)]; [contradiction|]. split; [assumption|lra]. }
  assert (Sa : forall y, in_base t' b y -> in_base t b (y + shift e a)).
  { intros y (_ & Hy). split; [exact Ib|]. simpl in *. fold (le' b) in Hy. rewrite H4b, (L1 b Ib) in Hy by auto.
    fold (le b). rewrite H4. unfold shift. rewrite H5. fold (le a). unfold lb in *. lra. }
  split; [exact I1|]. intros c r Ic (k & d & K & Ir & Hd & E). cbn [t t' tw_height tw_base tw_at] in *. pose proof Ic as Ic'. apply I1 in Ic. fold (le c) in E.
  destruct (Nat.eq_dec c b) as [->|N].
  - exists (h a + k)%nat, (shift e a + d). cbn [t' tw_height tw_base tw_at]. fold (le' b). split; [rewrite raised_b; lia|]. split; [exact Ir|]. split.
    + intros y Hy. replace (y + (shift e a + d)) with (y + shift e a + d) by lra.
      eapply iter_add; [apply (T2 a y), Oa; auto|apply Hd, Sa, Hy].
    + rewrite H4b, (L1 b Ib) by auto. rewrite H4 in E. unfold shift. rewrite H5. fold (le a). unfold lb in *. lra.
  - exists k, d. cbn [t' tw_height tw_base tw_at]. fold (le' c). split; [rewrite raised_o; assumption|]. split; [exact Ir|]. split.
    + intros y Hy. apply Hd. destruct (Nat.eq_dec c a) as [->|Na]; [apply Oa; auto|apply On; auto].
    + destruct (Nat.eq_dec c a) as [->|Na]; [destruct H6 as [(_ & -> & -> & _)|(Q & _)]; [lra|contradiction]|]. rewrite (H3 c Ic Na N), (L1 c Ic Na). lra.
Qed.

(** * Steps *)

Lemma rauzy_rim e0 e o h e' : proper e0 -> proper e -> rauzy_step e e' -> tower_of e0 (mktower e o h) ->
  exists o' h', refines e0 (mktower e o h) (mktower e' o' h') /\ keeps e0 (mktower e o h) (mktower e' o' h').
Proof.
  intros P0 P S T. destruct S as (a & b & X & Y1 & Y2 & Et & Eb & Hlt & Et' & Eb' & Ha & Hc).
  pose proof P as [N [Pm Pos]]. pose proof (proper_bot_nodup _ P) as NB. rewrite Eb in NB.
  assert (Hab : a <> b) by (inversion NB as [|? ? Q _]; intros ->; apply Q; apply in_or_app; right; left; reflexivity).
  assert (Ia : In a (e_top e)) by (rewrite Et; left; reflexivity).
  assert (Ib : In b (e_top e)) by (apply (Permutation_in _ (Permutation_sym Pm)); rewrite Eb; left; reflexivity).
  pose proof (Pos b Ib) as Hb.
  destruct (row_move (e_len e) (e_len e') a b Y1 Y2 NB Ha Hc) as (B1 & B2 & B3). rewrite <- Eb, <- Eb' in B1, B2, B3.
  assert (T3 : forall c, In c (e_top e) -> c <> a -> left_end (e_len e') (e_top e') c = left_end (e_len e) (e_top e) c - e_len e b).
  { intros c Hi Ca. rewrite Et', Et. rewrite !left_end_tl by auto. rewrite Et in N. rewrite (row_same (e_len e) (e_len e') a X c N Ca Hc), Ha. lra. }
  assert (Bb0 : left_end (e_len e) (e_bot e) b = 0) by (rewrite Eb; apply left_end_hd).
  assert (Ta0 : left_end (e_len e) (e_top e) a = 0) by (rewrite Et; apply left_end_hd).
  assert (Ta1 : left_end (e_len e') (e_top e') a = 0) by (rewrite Et', Et; apply left_end_hd).
  assert (K1 : forall c, In c (e_top e') -> In c (e_top e)) by (intros c; rewrite Et'; auto).
  assert (K2 : forall c, In c (e_top e) -> c <> a -> In c (e_top e')) by (intros c Hi _; rewrite Et'; exact Hi).
  assert (K3 : In a (e_top e') /\ left_end (e_len e') (e_top e') a = 0 /\ e_len e' a = e_len e a - e_len e b /\ e_len e b <= e_len e a \/
    ~ In a (e_top e') /\ e_len e a = e_len e b) by (left; rewrite Et' at 1; repeat split; auto; lra).
  exists (o + e_len e b), (raised h a b). split; [|apply (rim_top e0 e o h e' a b P0 Hab Ia Ib); auto].
  destruct (tower_top e0 e o h e' a b P0 Hab Ia Ib) as (Q1 & Q2); auto.
  - intros c Hi Cb. rewrite Et' in Hi. unfold shift. destruct (Nat.eq_dec c a) as [->|Ca]; [lra|].
    rewrite (B3 c Ca Cb), (T3 c Hi Ca). lra.
  - unfold shift. rewrite B1, (T3 b Ib) by auto. lra.
  - split; [exact Q1|]. split; [exact Q2|]. unfold area. cbn [tw_base tw_height]. apply (area_keep h); auto. rewrite Et'. reflexivity.
Qed.

Lemma flip_rim e0 e o h e' : proper e0 -> proper e -> rauzy_step (flip e) (flip e') -> tower_of e0 (mktower e o h) ->
  exists o' h', refines e0 (mktower e o h) (mktower e' o' h') /\ keeps e0 (mktower e o h) (mktower e' o' h').
Proof.
  intros P0 P S T. pose proof (rauzy_step_proper _ _ (flip_proper _ P) S) as P'.
  destruct S as (a & b & X & Y1 & Y2 & Et & Eb & Hlt & Et' & Eb' & Ha & Hc). cbn [flip e_top e_bot e_len] in *.
  pose proof P as [NT [Pm Pos]]. pose proof (proper_bot_nodup _ P) as NB. pose proof NT as NT'. rewrite Eb in NT'.
  assert (Hab : a <> b) by (inversion NT' as [|? ? Q _]; intros ->; apply Q; apply in_or_app; right; left; reflexivity).
  assert (Ia : In a (e_top e)) by (apply (Permutation_in _ (Permutation_sym Pm)); rewrite Et; left; reflexivity).
  assert (Ib : In b (e_top e)) by (rewrite Eb; left; reflexivity).
  pose proof (Pos b Ib) as Hb.
  destruct (row_move (e_len e) (e_len e') a b Y1 Y2 NT' Ha Hc) as (B1 & B2 & B3). rewrite <- Eb, <- Eb' in B1, B2, B3.
  assert (T3 : forall c, c <> a -> left_end (e_len e') (e_bot e') c = left_end (e_len e) (e_bot e) c - e_len e b).
  { intros c Ca. rewrite Et', Et. rewrite !left_end_tl by auto. rewrite Et in NB. rewrite (row_same (e_len e) (e_len e') a X c NB Ca Hc), Ha. lra. }
  assert (Bb0 : left_end (e_len e) (e_top e) b = 0) by (rewrite Eb; apply left_end_hd).
  assert (Ta0 : left_end (e_len e) (e_bot e) a = 0) by (rewrite Et; apply left_end_hd).
  assert (Ta1 : left_end (e_len e') (e_bot e') a = 0) by (rewrite Et', Et; apply left_end_hd).
  assert (PP : Permutation (e_top e) (e_top e')).
  { destruct P' as (_ & PP' & _). cbn in PP'. rewrite <- PP', Et'. exact Pm. }
  assert (K1 : forall c, In c (e_top e') -> In c (e_top e)) by (intro c; apply Permutation_in, Permutation_sym, PP).
  assert (K2 : forall c, In c (e_top e) -> c <> a -> In c (e_top e')) by (intros c Hi _; exact (Permutation_in _ PP Hi)).
  assert (K3 : In a (e_top e') /\ left_end (e_len e') (e_top e') a = left_end (e_len e) (e_top e) a /\ e_len e' a = e_len e a - e_len e b /\ e_len e b <= e_len e a \/
    ~ In a (e_top e') /\ e_len e a = e_len e b).
  { left. split; [exact (Permutation_in _ PP Ia)|]. repeat split; auto; lra. }
  exists (o + e_len e b), (raised h a b). split; [|apply (rim_bot e0 e o h e' a b P0 Hab Ia Ib); auto].
  destruct (tower_bot e0 e o h e' a b P0 Hab Ia Ib) as (Q1 & Q2); auto.
  - intros c Hi Cb. unfold shift. destruct (Nat.eq_dec c a) as [->|Ca]; [lra|].
    rewrite (B3 c Ca Cb), (T3 c Ca). lra.
  - unfold shift. rewrite B1, (T3 b) by auto. lra.
  - split; [exact Q1|]. split; [exact Q2|]. unfold area. cbn [tw_base tw_height]. apply (area_keep h); auto.
Qed.

Lemma merge_rim e0 e o h e' a b X Y1 Y2 : proper e0 -> proper e -> e_top e = a :: X -> e_bot e = b :: Y1 ++ a :: Y2 -> e_len e a = e_len e b ->
  e_top e' = X -> e_bot e' = Y1 ++ b :: Y2 -> (forall c, c <> a -> e_len e' c = e_len e c) -> tower_of e0 (mktower e o h) ->
  exists o' h', refines e0 (mktower e o h) (mktower e' o' h') /\ keeps e0 (mktower e o h) (mktower e' o' h') /\
    forall r, rim e0 (mktower e o h) a r -> rim e0 (mktower e' o' h') b r.
Proof.
  intros P0 P Et Eb Hl Et' Eb' Hc T.
  pose proof P as [N [Pm Pos]]. pose proof (proper_bot_nodup _ P) as NB. rewrite Eb in NB. pose proof N as N'. rewrite Et in N'.
  assert (Hab : a <> b) by (inversion NB as [|? ? Q _]; intros ->; apply Q; apply in_or_app; right; left; reflexivity).
  assert (Ia : In a (e_top e)) by (rewrite Et; left; reflexivity).
  assert (Ib : In b (e_top e)) by (apply (Permutation_in _ (Permutation_sym Pm)); rewrite Eb; left; reflexivity).
  pose proof (Pos b Ib) as Hb.
  destruct (row_merge (e_len e) (e_len e') a b Y1 Y2 NB Hl Hc) as (B1 & B3). rewrite <- Eb, <- Eb' in B1, B3.
  assert (T3 : forall c, c <> a -> left_end (e_len e') (e_top e') c = left_end (e_len e) (e_top e) c - e_len e b).
  { intros c Ca. rewrite Et', Et. rewrite left_end_tl by auto. rewrite (row_same (e_len e) (e_len e') a X c N' Ca Hc), Hl. lra. }
  assert (Bb0 : left_end (e_len e) (e_bot e) b = 0) by (rewrite Eb; apply left_end_hd).
  assert (Ta0 : left_end (e_len e) (e_top e) a = 0) by (rewrite Et; apply left_end_hd).
  assert (HaX : ~ In a X) by (inversion N'; assumption).
  assert (IbX : In b X) by (rewrite Et in Ib; destruct Ib; [congruence|assumption]).
  assert (K1 : forall c, In c (e_top e') -> In c (e_top e)) by (intros c; rewrite Et', Et; right; assumption).
  assert (K2 : forall c, In c (e_top e) -> c <> a -> In c (e_top e')) by (intros c Hi Ca; rewrite Et'; rewrite Et in Hi; destruct Hi; [congruence|assumption]).
  assert (Na : ~ In a (e_top e')) by (rewrite Et'; exact HaX).
  exists (o + e_len e b), (raised h a b). destruct (rim_top e0 e o h e' a b P0 Hab Ia Ib) as (R1 & R2); auto.
  split; [|split; [exact R1|exact (R2 Na)]].
  destruct (tower_top e0 e o h e' a b P0 Hab Ia Ib) as (Q1 & Q2); auto.
  - intros c Hi Cb. assert (Ca : c <> a) by (intros ->; contradiction). unfold shift.
    rewrite (B3 c Ca Cb), (T3 c Ca). lra.
  - unfold shift. rewrite B1, (T3 b) by auto. lra.
  - split; [exact Q1|]. split; [exact Q2|]. unfold area. cbn [tw_base tw_height]. rewrite Et', Et. apply (area_merge h); auto.
Qed.

Lemma agree_keeps e0 e e' o h : agree e e' -> keeps e0 (mktower e o h) (mktower e' o h).
Proof.
  intros A. split; [intros c Hc; cbn in *; rewrite (proj1 A); exact Hc|]. intros a r Ha (k & d & K & Ic & Hd & E). exists k, d. cbn [tw_height tw_base tw_at] in *.
  rewrite <- (proj1 A) in Ha. split; [exact K|]. split; [exact Ic|]. split; [intros y Hy; apply Hd, (agree_base e e' o h a y A), Hy|].
  destruct (agree_left_end e e' a A) as (<- & _). destruct A as (_ & _ & Hl). rewrite <- Hl by auto. exact E.
Qed.

Lemma path_rim e0 e o h e' : proper e0 -> proper e -> rauzy_path e e' -> tower_of e0 (mktower e o h) ->
  exists o' h', refines e0 (mktower e o h) (mktower e' o' h') /\ keeps e0 (mktower e o h) (mktower e' o' h').
Proof.
  intros P0 P Q. revert o h P. induction Q as [e e' S|e e1 e' S Q IH|e e1 e' S Q IH]; intros o h P T.
  - exists o, h. apply same_agree in S. split; [apply agree_tower; [exact S|exact T]|apply agree_keeps, S].
  - destruct (rauzy_rim e0 e o h e1 P0 P S T) as (o1 & h1 & R & K). destruct (IH o1 h1 (rauzy_step_proper _ _ P S) (proj1 R)) as (o' & h' & R' & K').
    exists o', h'. split; [exact (refines_trans _ _ _ _ R R')|exact (keeps_trans _ _ _ _ K K')].
  - destruct (flip_rim e0 e o h e1 P0 P S T) as (o1 & h1 & R & K). destruct (bot_step_facts _ _ P S) as (_ & P1). destruct (IH o1 h1 P1 (proj1 R)) as (o' & h' & R' & K').
    exists o', h'. split; [exact (refines_trans _ _ _ _ R R')|exact (keeps_trans _ _ _ _ K K')].
Qed.

Lemma split_keeps e0 e o h k : proper e -> keeps e0 (mktower e o h) (mktower (left_of e k) o h) /\
  keeps e0 (mktower e o h) (mktower (right_of e k) (o + size (left_of e k)) h).
Proof.
  intros P. pose proof P as [N _].
  assert (Et : e_top e = firstn k (e_top e) ++ skipn k (e_top e)) by (symmetry; apply firstn_skipn).
  set (A := firstn k (e_top e)) in *. set (B := skipn k (e_top e)) in *.
  assert (Dj : forall a, In a A -> In a B -> False).
  { intros a Ha Hb. rewrite Et in N. clear -N Ha Hb. induction A as [|x A IH]; [destruct Ha|]. simpl in N. inversion N as [|? ? Q N']; subst.
    destruct Ha as [->|Ha]; [apply Q, in_or_app; auto|]. apply IH; assumption. }
  assert (Lf : forall l1 l2 a, In a l1 -> left_end (e_len e) (l1 ++ l2) a = left_end (e_len e) l1 a).
  { intros l1 l2 a. induction l1 as [|x l1 IH]; intros []; simpl; destruct (Nat.eqb_spec x a); auto; [contradiction|]. rewrite IH by assumption. reflexivity. }
  assert (LA : forall a, In a A -> left_end (e_len e) (e_top e) a = left_end (e_len e) A a) by (intros a I; rewrite Et; apply Lf, I).
  assert (LB : forall a, In a B -> left_end (e_len e) (e_top e) a = total (e_len e) A + left_end (e_len e) B a).
  { intros a I. rewrite Et. apply left_end_app. intro Q. exact (Dj a Q I). }
  assert (IA : forall a, In a A -> In a (e_top e)) by (intros a I; rewrite Et; apply in_or_app; auto).
  assert (IB : forall a, In a B -> In a (e_top e)) by (intros a I; rewrite Et; apply in_or_app; auto).
  split; (split; [cbn; assumption|]); intros a r Ha (j & d & K & Ic & Hd & E); exists j, d; cbn [tw_height tw_base tw_at] in *; (split; [exact K|]); (split; [exact Ic|]); split.
  - intros y (I & Hy). apply Hd. split; [apply IA, I|]. cbn in *. fold A in I, Hy. rewrite (LA a I). exact Hy.
  - cbn in *. fold A in Ha |- *. rewrite (LA a Ha) in E. exact E.
  - intros y (I & Hy). apply Hd. split; [apply IB, I|]. cbn in *. unfold size in Hy; cbn in Hy. fold A B in I, Hy. rewrite (LB a I). lra.
  - cbn in *. fold B in Ha |- *. rewrite (LB a Ha) in E. unfold size; cbn. fold A. lra.
Qed.

(** * The invariant *)

Definition rims1 (e0 : exch) (D : label -> list label) (t : tower) : Prop :=
  forall a c, In a (e_top (tw_base t)) -> In c (a :: D a) -> rim e0 t a c.

Lemma keeps_rims e0 D t t' : keeps e0 t t' -> rims1 e0 D t -> rims1 e0 D t'.
Proof. intros (A & B) H a c Ha Hc. apply B; [exact Ha|]. apply H; [apply A, Ha|exact Hc]. Qed.

Lemma rims_start e0 : rims1 e0 (fun _ => []) (mktower e0 0 (fun _ => 1%nat)).
Proof.
  intros a c Ha [<-|[]]. cbn in Ha. exists 0%nat, 0. split; [cbn; lia|]. split; [exact Ha|]. split; [intros y _; cbn; lra|cbn; lra].
Qed.

Lemma towers_rims_agree e0 D E' : forall Ts0 Ts, towers e0 (Ts0 ++ Ts) -> Forall (rims1 e0 D) (Ts0 ++ Ts) -> Forall2 agree (map tw_base Ts) E' ->
  exists Ts', map tw_base Ts' = E' /\ towers e0 (Ts0 ++ Ts') /\ Forall (rims1 e0 D) (Ts0 ++ Ts').
Proof.
  induction E' as [|e' E' IH]; intros Ts0 [|[e o h] Ts] H G F; inversion F as [|? ? ? ? F1 F2]; subst.
  - exists []. auto.
  - assert (R : refines e0 (mktower e o h) (mktower e' o h)) by (apply agree_tower; [exact F1|apply H, in_middle; auto]).
    pose proof (towers_replace _ _ _ _ _ H R) as H'. assert (G' : Forall (rims1 e0 D) (Ts0 ++ mktower e' o h :: Ts)).
    { apply Forall_app in G as (G1 & G2). inversion G2; subst. apply Forall_app. split; [assumption|]. constructor; [|assumption].
      eapply keeps_rims; [apply agree_keeps, F1|assumption]. }
    destruct (IH (Ts0 ++ [mktower e' o h]) Ts) as (Ts' & <- & Q & Q'); [rewrite <- app_assoc; exact H'|rewrite <- app_assoc; exact G'|exact F2|].
    exists (mktower e' o h :: Ts'). rewrite <- app_assoc in Q, Q'. auto.
Qed.

Lemma astep_rims e0 E f E' f' D Ts : conn_inv e0 E f D -> astep E f E' f' -> map tw_base Ts = E -> towers e0 Ts -> Forall (rims1 e0 D) Ts ->
  exists D' Ts', conn_inv e0 E' f' D' /\ map tw_base Ts' = E' /\ towers e0 Ts' /\ Forall (rims1 e0 D') Ts'.
Proof.
  intros CI S HE HT HR. pose proof (ci_start _ _ _ _ CI) as P0.
  destruct S as [E E' f f' A Hf|E1 e E2 f e' f' C|E1 e E2 f k b t b' src tgt f' Hk Hb Ht Hb' Hs Ht' Hf
    |E1 e E2 f a b first e' src tgt f' M Ha Hb Hfi Hs Ht Hf].
  - exists D. destruct (towers_rims_agree e0 D E' [] Ts HT HR) as (Ts' & Q1 & Q2 & Q3); [rewrite HE; assumption|].
    exists Ts'. split; [eapply inv_agree; eassumption|auto].
  - exists D. destruct (towers_mid Ts E1 e E2 HE) as (T1 & o & h & T2 & -> & <- & <-).
    assert (Pe : proper e) by (apply (ci_proper _ _ _ _ CI), in_middle; auto).
    destruct (path_rim e0 e o h e' P0 Pe) as (o' & h' & R & K); [eapply cpath_path; eassumption|apply HT, in_middle; auto|].
    exists (T1 ++ mktower e' o' h' :: T2). split; [eapply inv_path; eassumption|]. split; [rewrite map_app; reflexivity|].
    split; [exact (towers_replace _ _ _ _ _ HT R)|]. apply Forall_app in HR as (G1 & G2). inversion G2; subst. apply Forall_app. split; [assumption|].
    constructor; [|assumption]. eapply keeps_rims; eassumption.
  - exists D. destruct (split_sep _ _ _ _ _ _ k b t b' CI Hk Hb Ht Hb' src tgt Hs Ht') as [Q _].
    destruct (towers_mid Ts E1 e E2 HE) as (T1 & o & h & T2 & -> & <- & <-).
    assert (Pe : proper e) by (apply (ci_proper _ _ _ _ CI), in_middle; auto).
    eexists. split; [eapply inv_split; try eassumption; intro l; rewrite <- Q; apply Hf|]. split; [|split; [eapply towers_split; eassumption|]].
    + rewrite map_app. simpl. rewrite map_app. reflexivity.
    + destruct (split_keeps e0 e o h k Pe) as (K1 & K2). apply Forall_app in HR as (G1 & G2). inversion G2; subst. apply Forall_app. split; [assumption|].
      constructor; [eapply keeps_rims; eassumption|]. apply Forall_app. split; [assumption|]. constructor; [eapply keeps_rims; eassumption|constructor].
  - pose proof M as (a' & b0 & X & Y1 & Y2 & Q1 & Q2 & Q3 & Q4 & Q5 & Q6).
    rewrite Q1 in Ha. inversion Ha; subst a'. rewrite Q2 in Hb. inversion Hb; subst b0. rewrite Q4 in Hfi.
    assert (Q : mkconn src tgt = right_conn (last (D b) b, a)) by (eapply merge_sep; eassumption).
    destruct (ci_proper _ _ _ _ CI e) as [P _]; [apply in_middle; auto|].
    destruct (towers_mid Ts E1 e E2 HE) as (T1 & o & h & T2 & -> & HE1 & HE2).
    destruct (merge_rim e0 e o h e' a b X Y1 Y2 P0 P Q1 Q2 Q3 Q4 Q5 Q6) as (o' & h' & R & K & Kb); [apply HT, in_middle; auto|].
    exists (chain_merge D a b), (T1 ++ mktower e' o' h' :: T2). split; [|split; [rewrite map_app; cbn; rewrite HE1, HE2; reflexivity|split; [exact (towers_replace _ _ _ _ _ HT R)|]]].
    { eapply (inv_merge e0 E1 e E2 f D e' a b first X Y1 Y2); try eassumption. intro l. rewrite <- Q. apply Hf. }
    destruct (ci_parts _ _ _ _ CI) as (NDl & _).
    assert (Out : forall u, In u (T1 ++ T2) -> rims1 e0 D u -> rims1 e0 (chain_merge D a b) u).
    { intros u Iu Hu l c Hl Hc. apply Hu; [exact Hl|]. unfold chain_merge in Hc. destruct (Nat.eqb_spec l b) as [->|Nb]; [exfalso|exact Hc].
      assert (Iu' : In (tw_base u) (E1 ++ E2)) by (rewrite <- HE1, <- HE2, <- map_app; apply in_map, Iu).
      refine (pieces_disjoint E1 e E2 (tw_base u) b NDl Iu' _ Hl).
      apply bot_in; [exact P|]. rewrite Q2. left. reflexivity. }
    apply Forall_app in HR as (G1 & G2). inversion G2 as [|? ? G3 G4]; subst. rewrite Forall_forall in G1, G4. apply Forall_app. split; [|constructor].
    + rewrite Forall_forall. intros u Iu. apply Out; [apply in_or_app; auto|apply G1, Iu].
    + intros l c Hl Hc. cbn [tw_base] in Hl. unfold chain_merge in Hc. destruct (Nat.eqb_spec l b) as [->|Nb].
      * change (In c ((b :: D b) ++ a :: D a)) in Hc. apply in_app_or in Hc. destruct Hc as [Hc|Hc].
        -- apply (proj2 K b c Hl). apply G3; [apply (proj1 K b), Hl|exact Hc].
        -- apply Kb, G3; [cbn; rewrite Q1; left; reflexivity|exact Hc].
      * apply (proj2 K l c Hl). apply G3; [apply (proj1 K l), Hl|exact Hc].
    + rewrite Forall_forall. intros u Iu. apply Out; [apply in_or_app; auto|apply G4, Iu].
Qed.

Theorem asteps_rims e0 E f E' f' : asteps E f E' f' -> forall D Ts, conn_inv e0 E f D -> map tw_base Ts = E -> towers e0 Ts -> Forall (rims1 e0 D) Ts ->
  exists D' Ts', conn_inv e0 E' f' D' /\ map tw_base Ts' = E' /\ towers e0 Ts' /\ Forall (rims1 e0 D') Ts'.
Proof.
  induction 1 as [|E f E1 f1 E' f' S1 S IH]; intros D Ts CI HE HT HR; [eauto 6|].
  destruct (astep_rims _ _ _ _ _ _ Ts CI S1 HE HT HR) as (D1 & Ts1 & CI1 & HE1 & HT1 & HR1). exact (IH D1 Ts1 CI1 HE1 HT1 HR1).
Qed.

(** * Ends of floors *)

Lemma same_ends lo hi lo' hi' : lo < hi -> (forall x, lo <= x < hi <-> lo' <= x < hi') -> lo = lo' /\ hi = hi'.
Proof.
  intros L H. pose proof (proj1 (H lo)) as A. destruct A as (A1 & A2); [lra|].
  pose proof (proj2 (H lo')) as B. destruct B as (B1 & B2); [lra|]. split; [lra|].
  destruct (Rtotal_order hi hi') as [C|[C|C]]; [|exact C|].
  - pose proof (proj2 (H hi)). lra.
  - pose proof (proj1 (H hi')). lra.
Qed.

Lemma rim_floor e0 t a c : proper e0 -> tower_of e0 t -> proper (tw_base t) -> In a (e_top (tw_base t)) -> (rim e0 t a c <-> floor_ends e0 t a c).
Proof.
  intros P0 T P Ia. pose proof (proj2 (proj2 P) a Ia) as La. split.
  - intros (k & d & K & Ic & Hd & E). split; [exact Ic|]. destruct (floor_interval e0 P0 t a k T Ia K) as (d' & Hd' & F).
    assert (Ey : in_base t a (tw_at t + left_end (e_len (tw_base t)) (e_top (tw_base t)) a)) by (split; [exact Ia|lra]).
    pose proof (iter_fun _ (maps_fun _ P0) _ _ _ _ (Hd _ Ey) (Hd' _ Ey)) as Ed. assert (d = d') by lra. subst d'.
    exists k, (tw_at t + left_end (e_len (tw_base t)) (e_top (tw_base t)) a + d), (left_end (e_len e0) (e_top e0) c + e_len e0 c).
    split; [reflexivity|]. split; [lra|]. rewrite <- E. exact F.
  - intros (Ic & k & lo & hi & Eh & L & F). assert (K : (k < tw_height t a)%nat) by (apply (proj2 (F lo)); lra).
    destruct (floor_interval e0 P0 t a k T Ia K) as (d & Hd & G). exists k, d. split; [exact K|]. split; [exact Ic|]. split; [exact Hd|].
    rewrite <- Eh. symmetry. apply (same_ends lo hi (tw_at t + left_end (e_len (tw_base t)) (e_top (tw_base t)) a + d) _ L).
    intros x. rewrite <- F. apply G.
Qed.

(** Two floors with the same right end have a point in common. *)
Lemma ends_meet e0 t t' a a' c : floor_ends e0 t a c -> floor_ends e0 t' a' c -> exists k k' x, on_floor e0 t a k x /\ on_floor e0 t' a' k' x.
Proof.
  intros (_ & k & lo & hi & E & L & F) (_ & k' & lo' & hi' & E' & L' & F'). exists k, k', (Rmax lo lo').
  pose proof (Rmax_l lo lo'). pose proof (Rmax_r lo lo'). assert (Rmax lo lo' < hi) by (apply Rmax_lub_lt; lra).
  split; [apply F|apply F']; lra.
Qed.

Lemma rims_exact e0 E f D Ts : conn_inv e0 E f D -> map tw_base Ts = E -> towers e0 Ts -> Forall (rims1 e0 D) Ts ->
  forall t a c, In t Ts -> In a (e_top (tw_base t)) -> (In c (a :: D a) <-> floor_ends e0 t a c).
Proof.
  intros CI HE HT HR. pose proof (ci_start _ _ _ _ CI) as P0. rewrite Forall_forall in HR.
  assert (PT : forall t, In t Ts -> proper (tw_base t)) by (intros t It; apply (ci_proper _ _ _ _ CI); rewrite <- HE; apply in_map, It).
  assert (To : forall t a c, In t Ts -> In a (e_top (tw_base t)) -> In c (a :: D a) -> floor_ends e0 t a c).
  { intros t a c It Ia Hc. apply (rim_floor e0 t a c P0 (proj1 HT t It) (PT t It) Ia). exact (HR t It a c Ia Hc). }
  intros t a c It Ia. split; [apply To; assumption|]. intros F.
  pose proof (Permutation_in _ (ci_part _ _ _ _ CI) (proj1 F)) as Hc. apply in_flat_map in Hc as (a' & Ha' & Hc).
  apply in_live in Ha' as (e & He & Ha'). rewrite <- HE in He. apply in_map_iff in He as (t' & <- & It').
  destruct (ends_meet e0 t t' a a' c F (To t' a' c It' Ha' Hc)) as (k & k' & x & F1 & F2).
  destruct (towers_once e0 Ts HT t t' a k a' k' x It It' F1 F2) as (_ & -> & _). exact Hc.
Qed.
