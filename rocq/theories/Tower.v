(** Inducing, merging and splitting turn towers into towers. *)
From Coq Require Import Reals Permutation Lia Lra.
From Verif Require Import Base Spec SpecDec SpecTower Dyn Path Direct Bosh Endless Decomp DecompSim DecompInv DecompDyn.
Open Scope R_scope.

(** * Stacking columns *)

Section Stack.
Context (f : R -> R -> Prop).
Hypothesis Ff : forall x y z, f x y -> f x z -> y = z.
Hypothesis Fi : forall x y z, f x z -> f y z -> x = y.

Definition flo (on : lab -> R -> Prop) (h : lab -> nat) (a : lab) (k : nat) (x : R) : Prop :=
  (k < h a)%nat /\ exists y, on a y /\ iter f k y x.

Definition once on h : Prop := forall a k a' k' x, flo on h a k x -> flo on h a' k' x -> a = a' /\ k = k'.
Definition covers on h on' h' : Prop := forall x, (exists a k, flo on h a k x) <-> (exists a k, flo on' h' a k x).

Definition raised (h : lab -> nat) (a b : lab) : lab -> nat := fun c => if Nat.eqb c b then (h b + h a)%nat else h c.

Lemma raised_b h a b : raised h a b b = (h b + h a)%nat.
Proof. unfold raised. rewrite Nat.eqb_refl. reflexivity. Qed.
Lemma raised_o h a b c : c <> b -> raised h a b c = h c.
Proof. unfold raised. intro H. destruct (Nat.eqb_spec c b); [contradiction|reflexivity]. Qed.

Lemma stack_top on on' h a b (L : R -> Prop) : a <> b ->
  (forall c y, c <> a -> (on' c y <-> on c y)) ->
  (forall y, on a y <-> on' a y \/ L y) -> (forall y, on' a y -> L y -> False) ->
  (forall y, on b y -> exists x, iter f (h b) y x /\ L x) ->
  (forall x, L x -> exists y, on b y /\ iter f (h b) y x) ->
  once on h -> once on' (raised h a b) /\ covers on h on' (raised h a b).
Proof.
  intros Hab H1 H2 H3 H4 H5 U.
  assert (Back : forall c k x, flo on' (raised h a b) c k x ->
    (c <> b /\ flo on h c k x /\ (c = a -> exists y, on' a y /\ iter f k y x)) \/
    (c = b /\ (k < h b)%nat /\ flo on h b k x) \/
    (c = b /\ (h b <= k)%nat /\ flo on h a (k - h b) x /\ exists y, L y /\ iter f (k - h b) y x)).
  { intros c k x (Hk & y & Hy & Hi). destruct (Nat.eq_dec c b) as [->|N].
    - right. rewrite raised_b in Hk. assert (Hy' : on b y) by (apply H1; auto). destruct (lt_dec k (h b)) as [K|K].
      + left. split; [reflexivity|]. split; [exact K|]. split; [exact K|]. exists y. auto.
      + right. split; [reflexivity|]. split; [lia|]. destruct (H4 y Hy') as (z & Hz & HL).
        replace k with (h b + (k - h b))%nat in Hi by lia. apply iter_split in Hi as (z' & Hz' & Hi).
        pose proof (iter_fun f Ff _ _ _ _ Hz Hz') as <-. split; [|exists z; auto]. split; [lia|]. exists z. split; [apply H2; auto|exact Hi].
    - left. split; [exact N|]. rewrite raised_o in Hk by exact N. split.
      + split; [exact Hk|]. exists y. split; [|exact Hi]. destruct (Nat.eq_dec c a) as [->|Na]; [apply H2; auto|apply H1; auto].
      + intros ->. exists y. auto. }
  split.
  - intros c k c' k' x A B. apply Back in A. apply Back in B.
    destruct A as [(A1 & A2 & A3)|[(-> & A2 & A3)|(-> & A2 & A3 & y & A4 & A5)]];
    destruct B as [(B1 & B2 & B3)|[(-> & B2 & B3)|(-> & B2 & B3 & y' & B4 & B5)]].
    + apply (U _ _ _ _ _ A2 B2).
    + destruct (U _ _ _ _ _ A2 B3). contradiction.
    + destruct (U _ _ _ _ _ A2 B3) as [-> ->]. exfalso. destruct (A3 eq_refl) as (z & Z1 & Z2).
      pose proof (iter_inj f Fi _ _ _ _ Z2 B5) as ->. exact (H3 _ Z1 B4).
    + destruct (U _ _ _ _ _ B2 A3). contradiction.
    + destruct (U _ _ _ _ _ A3 B3). auto.
    + destruct (U _ _ _ _ _ A3 B3). congruence.
    + destruct (U _ _ _ _ _ B2 A3) as [-> ->]. exfalso. destruct (B3 eq_refl) as (z & Z1 & Z2).
      pose proof (iter_inj f Fi _ _ _ _ Z2 A5) as ->. exact (H3 _ Z1 A4).
    + destruct (U _ _ _ _ _ A3 B3). congruence.
    + destruct (U _ _ _ _ _ A3 B3) as [_ E]. split; [reflexivity|lia].
  - intro x. split.
    + intros (c & k & Hk & y & Hy & Hi). destruct (Nat.eq_dec c b) as [->|N].
      * exists b, k. split; [rewrite raised_b; lia|]. exists y. split; [apply H1; auto|exact Hi].
      * destruct (Nat.eq_dec c a) as [->|Na].
        -- apply H2 in Hy. destruct Hy as [Hy|Hy].
           ++ exists a, k. split; [rewrite raised_o by auto; exact Hk|]. exists y. auto.
           ++ destruct (H5 y Hy) as (z & Hz & Hj). exists b, (h b + k)%nat. split; [rewrite raised_b; lia|].
              exists z. split; [apply H1; auto|]. eapply iter_add; eassumption.
        -- exists c, k. split; [rewrite raised_o by auto; exact Hk|]. exists y. split; [apply H1; auto|exact Hi].
    + intros (c & k & F). apply Back in F. destruct F as [(_ & F & _)|[(_ & _ & F)|(_ & _ & F & _)]]; eauto.
Qed.

Lemma stack_bot on on' h a b : a <> b ->
  (forall c y, c <> a -> c <> b -> (on' c y <-> on c y)) ->
  (forall y, on a y <-> on' a y \/ on' b y) -> (forall y, on' a y -> on' b y -> False) ->
  (forall y, on' b y -> exists x, iter f (h a) y x /\ on b x) ->
  (forall x, on b x -> exists y, on' b y /\ iter f (h a) y x) ->
  once on h -> once on' (raised h a b) /\ covers on h on' (raised h a b).
Proof.
  intros Hab H1 H2 H3 H4 H5 U.
  assert (Back : forall c k x, flo on' (raised h a b) c k x ->
    (c <> b /\ flo on h c k x /\ (c = a -> exists y, on' a y /\ iter f k y x)) \/
    (c = b /\ (k < h a)%nat /\ flo on h a k x /\ exists y, on' b y /\ iter f k y x) \/
    (c = b /\ (h a <= k)%nat /\ flo on h b (k - h a) x)).
  { intros c k x (Hk & y & Hy & Hi). destruct (Nat.eq_dec c b) as [->|N].
    - right. rewrite raised_b in Hk. destruct (lt_dec k (h a)) as [K|K].
      + left. split; [reflexivity|]. split; [exact K|]. split; [|exists y; auto]. split; [exact K|]. exists y. split; [apply H2; auto|exact Hi].
      + right. split; [reflexivity|]. split; [lia|]. destruct (H4 y Hy) as (z & Hz & HL).
        replace k with (h a + (k - h a))%nat in Hi by lia. apply iter_split in Hi as (z' & Hz' & Hi).
        pose proof (iter_fun f Ff _ _ _ _ Hz Hz') as <-. split; [lia|]. exists z. auto.
    - left. split; [exact N|]. rewrite raised_o in Hk by exact N. split.
      + split; [exact Hk|]. exists y. split; [|exact Hi]. destruct (Nat.eq_dec c a) as [->|Na]; [apply H2; auto|apply H1; auto].
      + intros ->. exists y. auto. }
  split.
  - intros c k c' k' x A B. apply Back in A. apply Back in B.
    destruct A as [(A1 & A2 & A3)|[(-> & A2 & A3 & y & A4 & A5)|(-> & A2 & A3)]];
    destruct B as [(B1 & B2 & B3)|[(-> & B2 & B3 & y' & B4 & B5)|(-> & B2 & B3)]].
    + apply (U _ _ _ _ _ A2 B2).
    + destruct (U _ _ _ _ _ A2 B3) as [-> ->]. exfalso. destruct (A3 eq_refl) as (z & Z1 & Z2).
      pose proof (iter_inj f Fi _ _ _ _ Z2 B5) as ->. exact (H3 _ Z1 B4).
    + destruct (U _ _ _ _ _ A2 B3). contradiction.
    + destruct (U _ _ _ _ _ B2 A3) as [-> ->]. exfalso. destruct (B3 eq_refl) as (z & Z1 & Z2).
      pose proof (iter_inj f Fi _ _ _ _ Z2 A5) as ->. exact (H3 _ Z1 A4).
    + destruct (U _ _ _ _ _ A3 B3). auto.
    + destruct (U _ _ _ _ _ A3 B3). congruence.
    + destruct (U _ _ _ _ _ B2 A3). contradiction.
    + destruct (U _ _ _ _ _ A3 B3). congruence.
    + destruct (U _ _ _ _ _ A3 B3) as [_ E]. split; [reflexivity|lia].
  - intro x. split.
    + intros (c & k & Hk & y & Hy & Hi). destruct (Nat.eq_dec c b) as [->|N].
      * destruct (H5 y Hy) as (z & Hz & Hj). exists b, (h a + k)%nat. split; [rewrite raised_b; lia|].
        exists z. split; [exact Hz|]. eapply iter_add; eassumption.
      * destruct (Nat.eq_dec c a) as [->|Na].
        -- apply H2 in Hy. destruct Hy as [Hy|Hy].
           ++ exists a, k. split; [rewrite raised_o by auto; exact Hk|]. exists y. auto.
           ++ exists b, k. split; [rewrite raised_b; lia|]. exists y. auto.
        -- exists c, k. split; [rewrite raised_o by auto; exact Hk|]. exists y. split; [apply H1; auto|exact Hi].
    + intros (c & k & F). apply Back in F. destruct F as [(_ & F & _)|[(_ & _ & F & _)|(_ & _ & F)]]; eauto.
Qed.
End Stack.

(** * Rows *)

Lemma left_end_hd f a l : left_end f (a :: l) a = 0.
Proof. simpl. rewrite Nat.eqb_refl. reflexivity. Qed.
Lemma left_end_tl f a l c : c <> a -> left_end f (a :: l) c = f a + left_end f l c.
Proof. intro H. simpl. destruct (Nat.eqb_spec a c); [congruence|reflexivity]. Qed.

Lemma row_same f f' a X c : NoDup (a :: X) -> c <> a -> (forall x, x <> a -> f' x = f x) ->
  left_end f' X c = left_end f X c.
Proof. intros N H E. apply left_end_ext_in. intros x Hx. apply E. intros ->. inversion N; contradiction. Qed.

(** [b] is moved in front of [a], which loses its length. *)
Lemma row_move f f' a b Y1 Y2 : NoDup (b :: Y1 ++ a :: Y2) -> f' a = f a - f b -> (forall x, x <> a -> f' x = f x) ->
  left_end f' (Y1 ++ b :: a :: Y2) b = left_end f (b :: Y1 ++ a :: Y2) a - f b /\
  left_end f' (Y1 ++ b :: a :: Y2) a = left_end f (b :: Y1 ++ a :: Y2) a /\
  (forall c, c <> a -> c <> b -> left_end f' (Y1 ++ b :: a :: Y2) c = left_end f (b :: Y1 ++ a :: Y2) c - f b).
Proof.
  intros N Ea E. inversion N as [|? ? Nb N1]; subst. rewrite in_app_iff in Nb. simpl in Nb.
  assert (Na : ~ In a Y1) by (intro H; apply NoDup_remove_2 in N1; apply N1; rewrite in_app_iff; auto).
  assert (Na2 : ~ In a Y2) by (intro H; apply NoDup_remove_2 in N1; apply N1; rewrite in_app_iff; auto).
  assert (Hab : a <> b) by (intros ->; tauto).
  assert (T : total f' Y1 = total f Y1) by (apply total_ext; intros x Hx; apply E; intros ->; contradiction).
  split; [|split].
  - rewrite left_end_tl by auto. rewrite !left_end_app by tauto. rewrite !left_end_hd. rewrite T. lra.
  - rewrite left_end_tl by auto. rewrite !left_end_app by tauto. rewrite left_end_tl by auto. rewrite !left_end_hd. rewrite T, (E b) by auto. lra.
  - intros c Ca Cb. rewrite left_end_tl by auto. destruct (in_dec Nat.eq_dec c Y1) as [I|I].
    + assert (Ap : forall g Z, left_end g (Y1 ++ Z) c = left_end g Y1 c).
      { intros g Z. clear -I. induction Y1 as [|y Y1 IH]; [destruct I|]. simpl. destruct (Nat.eqb_spec y c); [reflexivity|]. rewrite IH; [reflexivity|]. destruct I; [contradiction|assumption]. }
      rewrite !Ap. rewrite (left_end_ext_in f' f Y1 c); [lra|]. intros x Hx. apply E. intros ->. contradiction.
    + rewrite !left_end_app by exact I. rewrite !(left_end_tl _ _ _ c) by auto. rewrite T, Ea, (E b) by auto.
      rewrite (left_end_ext_in f' f Y2 c); [lra|]. intros x Hx. apply E. intros ->. contradiction.
Qed.

(** [b] takes the place of [a], of the same length. *)
Lemma row_merge f f' a b Y1 Y2 : NoDup (b :: Y1 ++ a :: Y2) -> f a = f b -> (forall x, x <> a -> f' x = f x) ->
  left_end f' (Y1 ++ b :: Y2) b = left_end f (b :: Y1 ++ a :: Y2) a - f b /\
  (forall c, c <> a -> c <> b -> left_end f' (Y1 ++ b :: Y2) c = left_end f (b :: Y1 ++ a :: Y2) c - f b).
Proof.
  intros N Ea E. inversion N as [|? ? Nb N1]; subst. rewrite in_app_iff in Nb. simpl in Nb.
  assert (Na : ~ In a Y1) by (intro H; apply NoDup_remove_2 in N1; apply N1; rewrite in_app_iff; auto).
  assert (Na2 : ~ In a Y2) by (intro H; apply NoDup_remove_2 in N1; apply N1; rewrite in_app_iff; auto).
  assert (Hab : a <> b) by (intros ->; tauto).
  assert (T : total f' Y1 = total f Y1) by (apply total_ext; intros x Hx; apply E; intros ->; contradiction).
  split.
  - rewrite left_end_tl by auto. rewrite !left_end_app by tauto. rewrite !left_end_hd. rewrite T. lra.
  - intros c Ca Cb. rewrite left_end_tl by auto. destruct (in_dec Nat.eq_dec c Y1) as [I|I].
    + assert (Ap : forall g Z, left_end g (Y1 ++ Z) c = left_end g Y1 c).
      { intros g Z. clear -I. induction Y1 as [|y Y1 IH]; [destruct I|]. simpl. destruct (Nat.eqb_spec y c); [reflexivity|]. rewrite IH; [reflexivity|]. destruct I; [contradiction|assumption]. }
      rewrite !Ap. rewrite (left_end_ext_in f' f Y1 c); [lra|]. intros x Hx. apply E. intros ->. contradiction.
    + rewrite !left_end_app by exact I. rewrite !(left_end_tl _ _ _ c) by auto. rewrite T, Ea, (E b) by auto.
      rewrite (left_end_ext_in f' f Y2 c); [lra|]. intros x Hx. apply E. intros ->. contradiction.
Qed.

(** * Towers *)

Definition refines (e0 : exch) (t t' : tower) : Prop :=
  tower_of e0 t' /\ (forall x, (exists a k, on_floor e0 t a k x) <-> (exists a k, on_floor e0 t' a k x)) /\ area t' = area t.

Lemma refines_trans e0 t t1 t2 : refines e0 t t1 -> refines e0 t1 t2 -> refines e0 t t2.
Proof. intros (A & B & C) (A' & B' & C'). split; [exact A'|]. split; [intro x; rewrite B; apply B'|congruence]. Qed.

Lemma flo_floor e0 t a k x : on_floor e0 t a k x <-> flo (maps e0) (in_base t) (tw_height t) a k x.
Proof. reflexivity. Qed.

(** Everything about a step in which the first top interval [a] is not shorter. *)
Lemma tower_top e0 e o h e' a b : proper e0 -> a <> b -> In a (e_top e) -> In b (e_top e) ->
  let le := left_end (e_len e) (e_top e) in let le' := left_end (e_len e') (e_top e') in
  let lb := e_len e b in
  0 < lb -> (forall c, In c (e_top e') -> In c (e_top e)) -> (forall c, In c (e_top e) -> c <> a -> In c (e_top e')) ->
  (forall c, In c (e_top e) -> c <> a -> le' c = le c - lb /\ e_len e' c = e_len e c) ->
  le a = 0 -> left_end (e_len e) (e_bot e) b = 0 ->
  (In a (e_top e') /\ le' a = 0 /\ e_len e' a = e_len e a - lb /\ lb <= e_len e a \/ ~ In a (e_top e') /\ e_len e a = lb) ->
  (forall c, In c (e_top e') -> c <> b -> shift e' c = shift e c) -> shift e' b = shift e b + shift e a ->
  tower_of e0 (mktower e o h) ->
  let t' := mktower e' (o + lb) (raised h a b) in
  tower_of e0 t' /\ (forall x, (exists a k, on_floor e0 (mktower e o h) a k x) <-> (exists a k, on_floor e0 t' a k x)).
Proof.
  intros P0 Hab Ia Ib le le' lb Lb I1 I2 H3 H4 H5 H6 H7 H8 (T1 & T2 & T3 & T4 & T5 & T6) t'. simpl in T1.
  set (t := mktower e o h) in *.
  assert (On : forall c y, c <> a -> (in_base t' c y <-> in_base t c y)).
  { intros c y Hc. unfold in_base, t, t'; simpl. fold (le c) (le' c). split; intros (X & Y).
    - pose proof (I1 _ X) as X'. destruct (H3 c X' Hc) as (E1 & E2). rewrite E1, E2 in Y. split; [exact X'|lra].
    - destruct (H3 c X Hc) as (E1 & E2). rewrite E1, E2. split; [apply I2; assumption|lra]. }
  assert (La : lb <= e_len e a) by (destruct H6 as [(_ & _ & _ & H)|(_ & H)]; lra).
  assert (Sb : forall y, in_base t b y -> o <= y + shift e b < o + lb).
  { intros y (_ & Hy). simpl in Hy. unfold shift. rewrite H5. fold (le b) in *. unfold lb. lra. }
  assert (Oa : forall y, in_base t a y <-> in_base t' a y \/ (o <= y < o + lb)).
  { intro y. unfold in_base, t, t'; simpl. fold (le a) (le' a). rewrite H4. destruct H6 as [(X & -> & -> & Z)|(X & Z)].
    - split; [intros (_ & Hy)|intros [(_ & Hy)|Hy]; (split; [exact Ia|lra])].
      destruct (Rlt_le_dec y (o + lb)); [right; lra|left; split; [exact X|lra]].
    - split; [intros (_ & Hy); right; lra|]. intros [(Q & _)|Hy]; [contradiction|]. split; [exact Ia|lra]. }
  assert (Sa : forall y, o <= y < o + lb -> iter (maps e0) (h a) y (y + shift e a)).
  { intros y Hy. apply (T2 a y). apply Oa. auto. }
  destruct (stack_top (maps e0) (maps_fun _ P0) (maps_inj _ P0) (in_base t) (in_base t') h a b (fun y => o <= y < o + lb)) as (U & C).
  - exact Hab.
  - exact On.
  - exact Oa.
  - intros y (X & Y) Z. simpl in Y. fold (le' a) in Y. destruct H6 as [(_ & E & _)|(Q & _)]; [|contradiction]. rewrite E in Y. lra.
  - intros y Hy. exists (y + shift e b). split; [apply (T2 b y Hy)|apply Sb, Hy].
  - intros x Hx. exists (x - shift e b). assert (B : in_base t b (x - shift e b)).
    { split; [exact Ib|]. simpl. unfold shift. rewrite H5. fold (le b). unfold lb in *. lra. }
    split; [exact B|]. pose proof (T2 b _ B) as Q. simpl in Q. replace (x - shift e b + shift e b) with x in Q by lra. exact Q.
  - exact T3.
  - split; [|exact C]. split; [|split; [|split; [exact U|split; [|split]]]].
    + intros c Hc. simpl in *. unfold raised. destruct (Nat.eqb c b); [pose proof (T1 b Ib); lia|apply T1, I1, Hc].
    + intros c y Hy. simpl. destruct (Nat.eq_dec c b) as [->|N].
      * rewrite raised_b, H8. assert (B : in_base t b y) by (apply On; auto).
        replace (y + (shift e b + shift e a)) with (y + shift e b + shift e a) by lra.
        eapply iter_add; [apply (T2 b y B)|apply Sa, Sb, B].
      * rewrite raised_o by exact N. rewrite H7; [|apply Hy|exact N]. apply (T2 c y).
        destruct (Nat.eq_dec c a) as [->|Na]; [apply Oa; auto|apply On; auto].
    + intros c k Hk. cbn [t' tw_height] in Hk. destruct (Nat.eq_dec c b) as [->|N].
      * rewrite raised_b in Hk. destruct (le_lt_dec k (h b)) as [K|K].
        -- destruct (T4 b k K) as (d & Hd). exists d. intros y Hy. apply Hd, On; auto.
        -- destruct (T4 a (k - h b)%nat) as (d & Hd); [cbn; lia|]. exists (shift e b + d). intros y Hy.
           assert (B : in_base t b y) by (apply On; auto). replace k with (h b + (k - h b))%nat by lia.
           replace (y + (shift e b + d)) with (y + shift e b + d) by lra.
           eapply iter_add; [apply (T2 b y B)|apply Hd, Oa; right; apply Sb, B].
      * rewrite raised_o in Hk by exact N. destruct (T4 c k Hk) as (d & Hd). exists d. intros y Hy. apply Hd.
        destruct (Nat.eq_dec c a) as [->|Na]; [apply Oa; auto|apply On; auto].
    + intros c k Ic Hk. cbn [t' tw_height tw_base] in Hk, Ic. destruct (Nat.eq_dec c b) as [->|N].
      * rewrite raised_b in Hk. destruct (le_lt_dec (h b) k) as [K|K].
        -- destruct (T5 a (k - h b)%nat) as (d & Hd); [exact Ia|cbn; lia|]. exists d. intros y x Hy Hi.
           assert (B : in_base t b y) by (apply On; auto). replace k with (h b + (k - h b))%nat in Hi by lia.
           apply iter_split in Hi as (z & Hz & Hi). rewrite (iter_fun _ (maps_fun _ P0) _ _ _ _ Hz (T2 b y B)) in Hi.
           refine (Hd _ _ _ Hi). apply Oa. right. apply Sb, B.
        -- destruct (T5 b k Ib K) as (d & Hd). exists d. intros y x Hy. apply Hd, On; auto.
      * rewrite raised_o in Hk by exact N. destruct (T5 c k (I1 _ Ic) Hk) as (d & Hd). exists d. intros y x Hy. apply Hd.
        destruct (Nat.eq_dec c a) as [->|Na]; [apply Oa; auto|apply On; auto].
    + intros c Ic. cbn [t' tw_height tw_base tw_at] in *. destruct (T6 c (I1 _ Ic)) as (k & d & r & K & Ir & Hd & E).
      cbn [t tw_height tw_base tw_at] in K, E. fold (le c) in E. fold (le' c). exists k, d, r.
      split; [unfold raised; destruct (Nat.eqb_spec c b) as [->|]; lia|]. split; [exact Ir|]. split.
      * intros y Hy. apply Hd. destruct (Nat.eq_dec c a) as [->|Na]; [apply Oa; auto|apply On; auto].
      * destruct (Nat.eq_dec c a) as [->|Na].
        -- destruct H6 as [(_ & -> & -> & _)|(Q & _)]; [|contradiction]. rewrite H4 in E. lra.
        -- destruct (H3 c (I1 _ Ic) Na) as (-> & ->). lra.
Qed.

Lemma tower_bot e0 e o h e' a b : proper e0 -> a <> b -> In a (e_top e) -> In b (e_top e) ->
  let le := left_end (e_len e) (e_top e) in let le' := left_end (e_len e') (e_top e') in
  let lb := e_len e b in
  0 < lb -> (forall c, In c (e_top e') -> In c (e_top e)) -> (forall c, In c (e_top e) -> c <> a -> In c (e_top e')) ->
  (forall c, In c (e_top e) -> c <> a -> e_len e' c = e_len e c) ->
  (forall c, In c (e_top e) -> c <> a -> c <> b -> le' c = le c - lb) ->
  le b = 0 -> le' b = le a - lb -> left_end (e_len e) (e_bot e) a = 0 ->
  (In a (e_top e') /\ le' a = le a /\ e_len e' a = e_len e a - lb /\ lb <= e_len e a \/ ~ In a (e_top e') /\ e_len e a = lb) ->
  (forall c, In c (e_top e') -> c <> b -> shift e' c = shift e c) -> shift e' b = shift e b + shift e a ->
  tower_of e0 (mktower e o h) ->
  let t' := mktower e' (o + lb) (raised h a b) in
  tower_of e0 t' /\ (forall x, (exists a k, on_floor e0 (mktower e o h) a k x) <-> (exists a k, on_floor e0 t' a k x)).
Proof.
  intros P0 Hab Ia Ib le le' lb Lb I1 I2 L1 H3 H4 H4b H5 H6 H7 H8 (T1 & T2 & T3 & T4 & T5 & T6) t'. simpl in T1.
  set (t := mktower e o h) in *.
  assert (On : forall c y, c <> a -> c <> b -> (in_base t' c y <-> in_base t c y)).
  { intros c y Hc Hb. unfold in_base, t, t'; simpl. fold (le c) (le' c). split; intros (X & Y).
    - pose proof (I1 c X) as X'. split; [exact X'|]. rewrite (H3 c X' Hc Hb), (L1 c X' Hc) in Y. lra.
    - split; [apply I2; assumption|]. rewrite (H3 c X Hc Hb), (L1 c X Hc). lra. }
  pose proof (I2 b Ib (not_eq_sym Hab)) as Ib'.
  assert (Oa : forall y, in_base t a y <-> in_base t' a y \/ in_base t' b y).
  { intro y. unfold in_base, t, t'; simpl. fold (le a) (le' a) (le' b). rewrite H4b, (L1 b Ib) by auto. fold lb. destruct H6 as [(X & -> & -> & Z)|(X & Z)]; split.
    - intros (_ & Hy). destruct (Rlt_le_dec (y - o) (le a + lb)); [right|left]; (split; [assumption|lra]).
    - intros [(_ & Hy)|(_ & Hy)]; (split; [assumption|lra]).
    - intros (_ & Hy). right. split; [assumption|lra].
    - intros [(Q & _)|(_ & Hy)]; [contradiction|]. split; [assumption|lra]. }
  assert (Sa : forall y, in_base t' b y -> in_base t b (y + shift e a)).
  { intros y (_ & Hy). split; [exact Ib|]. simpl in *. fold (le' b) in Hy. rewrite H4b, (L1 b Ib) in Hy by auto.
    fold (le b). rewrite H4. unfold shift. rewrite H5. fold (le a). unfold lb in *. lra. }
  destruct (stack_bot (maps e0) (maps_fun _ P0) (maps_inj _ P0) (in_base t) (in_base t') h a b) as (U & C).
  - exact Hab.
  - exact On.
  - exact Oa.
  - intros y (Q & X) (_ & Y). simpl in Q, X, Y. fold (le' a) in X. fold (le' b) in Y. destruct H6 as [(_ & H4a & _)|(Q' & _)]; [|contradiction]. rewrite H4a in X. rewrite H4b, (L1 b Ib) in Y by auto. fold lb in Y. lra.
  - intros y Hy. exists (y + shift e a). split; [apply (T2 a y), Oa; auto|apply Sa, Hy].
  - intros x (_ & Hx). simpl in Hx. fold (le b) in Hx. rewrite H4 in Hx. exists (x - shift e a). assert (B : in_base t' b (x - shift e a)).
    { split; [exact Ib'|]. simpl. fold (le' b). rewrite H4b, (L1 b Ib) by auto. unfold shift. rewrite H5. fold (le a). unfold lb in *. lra. }
    split; [exact B|]. assert (B' : in_base t a (x - shift e a)) by (apply Oa; auto). pose proof (T2 a _ B') as Q. simpl in Q.
    replace (x - shift e a + shift e a) with x in Q by lra. exact Q.
  - exact T3.
  - split; [|exact C]. split; [|split; [|split; [exact U|split; [|split]]]].
    + intros c Hc. simpl in *. unfold raised. destruct (Nat.eqb c b); [pose proof (T1 b Ib); lia|apply T1, I1, Hc].
    + intros c y Hy. simpl. destruct (Nat.eq_dec c b) as [->|N].
      * rewrite raised_b, H8. replace (y + (shift e b + shift e a)) with (y + shift e a + shift e b) by lra.
        rewrite Nat.add_comm. eapply iter_add; [apply (T2 a y), Oa; auto|apply (T2 b), Sa, Hy].
      * rewrite raised_o by exact N. rewrite H7; [|apply Hy|exact N]. apply (T2 c y).
        destruct (Nat.eq_dec c a) as [->|Na]; [apply Oa; auto|apply On; auto].
    + intros c k Hk. cbn [t' tw_height] in Hk. destruct (Nat.eq_dec c b) as [->|N].
      * rewrite raised_b in Hk. destruct (le_lt_dec k (h a)) as [K|K].
        -- destruct (T4 a k K) as (d & Hd). exists d. intros y Hy. apply Hd, Oa; auto.
        -- destruct (T4 b (k - h a)%nat) as (d & Hd); [cbn; lia|]. exists (shift e a + d). intros y Hy.
           replace k with (h a + (k - h a))%nat by lia.
           replace (y + (shift e a + d)) with (y + shift e a + d) by lra.
           eapply iter_add; [apply (T2 a y), Oa; auto|apply Hd, Sa, Hy].
      * rewrite raised_o in Hk by exact N. destruct (T4 c k Hk) as (d & Hd). exists d. intros y Hy. apply Hd.
        destruct (Nat.eq_dec c a) as [->|Na]; [apply Oa; auto|apply On; auto].
    + intros c k Ic Hk. cbn [t' tw_height tw_base] in Hk, Ic. apply I1 in Ic. destruct (Nat.eq_dec c b) as [->|N].
      * rewrite raised_b in Hk. destruct (le_lt_dec (h a) k) as [K|K].
        -- destruct (T5 b (k - h a)%nat) as (d & Hd); [exact Ib|cbn; lia|]. exists d. intros y x Hy Hi.
           assert (B : in_base t a y) by (apply Oa; auto). replace k with (h a + (k - h a))%nat in Hi by lia.
           apply iter_split in Hi as (z & Hz & Hi). rewrite (iter_fun _ (maps_fun _ P0) _ _ _ _ Hz (T2 a y B)) in Hi.
           exact (Hd _ _ (Sa y Hy) Hi).
        -- destruct (T5 a k Ia K) as (d & Hd). exists d. intros y x Hy. apply Hd, Oa; auto.
      * rewrite raised_o in Hk by exact N. destruct (T5 c k Ic Hk) as (d & Hd). exists d. intros y x Hy. apply Hd.
        destruct (Nat.eq_dec c a) as [->|Na]; [apply Oa; auto|apply On; auto].
    + intros c Ic. cbn [t' tw_height tw_base tw_at] in *. pose proof Ic as Ic'. apply I1 in Ic. destruct (T6 c Ic) as (k & d & r & K & Ir & Hd & E).
      cbn [t tw_height tw_base tw_at] in K, E. fold (le c) in E. fold (le' c). destruct (Nat.eq_dec c b) as [->|N].
      * exists (h a + k)%nat, (shift e a + d), r. split; [rewrite raised_b; lia|]. split; [exact Ir|]. split.
        -- intros y Hy. replace (y + (shift e a + d)) with (y + shift e a + d) by lra.
           eapply iter_add; [apply (T2 a y), Oa; auto|apply Hd, Sa, Hy].
        -- rewrite H4b, (L1 b Ib) by auto. rewrite H4 in E. unfold shift. rewrite H5. fold (le a). unfold lb in *. lra.
      * exists k, d, r. split; [rewrite raised_o; assumption|]. split; [exact Ir|]. split.
        -- intros y Hy. apply Hd. destruct (Nat.eq_dec c a) as [->|Na]; [apply Oa; auto|apply On; auto].
        -- destruct (Nat.eq_dec c a) as [->|Na]; [destruct H6 as [(_ & -> & -> & _)|(Q & _)]; [lra|contradiction]|]. rewrite (H3 c Ic Na N), (L1 c Ic Na). lra.
Qed.

(** * Areas *)

Lemma perm_ab (l : list lab) a b : a <> b -> In a l -> In b l -> exists Z, Permutation l (a :: b :: Z).
Proof.
  intros N Ia Ib. apply in_split in Ia as (X & Y & ->). rewrite in_app_iff in Ib. simpl in Ib.
  assert (Ib' : In b (X ++ Y)) by (rewrite in_app_iff; destruct Ib as [H|[H|H]]; [auto|congruence|auto]).
  apply in_split in Ib' as (X' & Y' & E). exists (X' ++ Y'). rewrite <- Permutation_middle. rewrite E. rewrite <- Permutation_middle. reflexivity.
Qed.

Lemma area_keep h (l l' : list lab) (f f' : lab -> R) a b : NoDup l -> Permutation l l' -> a <> b -> In a l -> In b l ->
  f' a = f a - f b -> (forall c, c <> a -> f' c = f c) ->
  total (fun c => INR (raised h a b c) * f' c) l' = total (fun c => INR (h c) * f c) l.
Proof.
  intros N P Hab Ia Ib E1 E2. rewrite <- (total_perm _ _ _ P). destruct (perm_ab l a b Hab Ia Ib) as (Z & PZ).
  rewrite !(total_perm _ _ _ PZ). pose proof (Permutation_NoDup PZ N) as NZ. inversion NZ as [|? ? Na NZ1]; subst. inversion NZ1 as [|? ? Nb NZ2]; subst.
  cbn [total]. rewrite raised_b, raised_o by auto. rewrite E1, (E2 b), plus_INR by auto.
  rewrite (total_ext (fun c => INR (raised h a b c) * f' c) (fun c => INR (h c) * f c) Z); [lra|].
  intros c Hc. rewrite raised_o by (intros ->; contradiction). rewrite E2; [reflexivity|]. intros ->. apply Na. right. exact Hc.
Qed.

Lemma area_merge h (X : list lab) (f f' : lab -> R) a b : NoDup (a :: X) -> a <> b -> In b X ->
  f a = f b -> (forall c, c <> a -> f' c = f c) ->
  total (fun c => INR (raised h a b c) * f' c) X = total (fun c => INR (h c) * f c) (a :: X).
Proof.
  intros N Hab Ib E1 E2. inversion N as [|? ? Na N1]; subst. apply in_split in Ib as (X1 & X2 & ->).
  cbn [total]. rewrite !(total_perm _ _ _ (Permutation_sym (Permutation_middle X1 X2 b))). cbn [total].
  apply NoDup_remove_2 in N1. rewrite raised_b, (E2 b), plus_INR, E1 by auto.
  rewrite (total_ext (fun c => INR (raised h a b c) * f' c) (fun c => INR (h c) * f c) (X1 ++ X2)); [lra|].
  intros c Hc. rewrite raised_o by (intros ->; contradiction). rewrite E2; [reflexivity|].
  intros ->. apply Na. rewrite in_app_iff in *. simpl. tauto.
Qed.

(** * Steps *)

Lemma rauzy_tower e0 e o h e' : proper e0 -> proper e -> rauzy_step e e' -> tower_of e0 (mktower e o h) ->
  exists o' h', refines e0 (mktower e o h) (mktower e' o' h').
Proof.
  intros P0 P S T. destruct S as (a & b & X & Y1 & Y2 & Et & Eb & Hlt & Et' & Eb' & Ha & Hc).
  pose proof P as [N [Pm Pos]]. pose proof (proper_bot_nodup _ P) as NB. rewrite Eb in NB.
  assert (Hab : a <> b) by (inversion NB as [|? ? Q _]; intros ->; apply Q; apply in_or_app; right; left; reflexivity).
  assert (Ia : In a (e_top e)) by (rewrite Et; left; reflexivity).
  assert (Ib : In b (e_top e)) by (apply (Permutation_in _ (Permutation_sym Pm)); rewrite Eb; left; reflexivity).
  pose proof (Pos b Ib) as Hb.
  destruct (row_move (e_len e) (e_len e') a b Y1 Y2 NB Ha Hc) as (B1 & B2 & B3). rewrite <- Eb, <- Eb' in B1, B2, B3.
  assert (T3 : forall c, In c (e_top e) -> c <> a -> left_end (e_len e') (e_top e') c = left_end (e_len e) (e_top e) c - e_len e b).
  { intros c Hi Ca. rewrite Et', Et. rewrite !left_end_tl by auto. rewrite Et in N. rewrite (row_same (e_len e) (e_len e') a X c N Ca Hc), Ha. lra. }
  assert (Bb0 : left_end (e_len e) (e_bot e) b = 0) by (rewrite Eb; apply left_end_hd).
  assert (Ta0 : left_end (e_len e) (e_top e) a = 0) by (rewrite Et; apply left_end_hd).
  assert (Ta1 : left_end (e_len e') (e_top e') a = 0) by (rewrite Et', Et; apply left_end_hd).
  exists (o + e_len e b), (raised h a b). destruct (tower_top e0 e o h e' a b P0 Hab Ia Ib) as (Q1 & Q2); auto.
  - intros c. rewrite Et'. auto.
  - intros c Hi _. rewrite Et'. exact Hi.
  - left. rewrite Et' at 1. repeat split; auto; lra.
  - intros c Hi Cb. rewrite Et' in Hi. unfold shift. destruct (Nat.eq_dec c a) as [->|Ca]; [lra|].
    rewrite (B3 c Ca Cb), (T3 c Hi Ca). lra.
  - unfold shift. rewrite B1, (T3 b Ib) by auto. lra.
  - split; [exact Q1|]. split; [exact Q2|]. unfold area. cbn [tw_base tw_height]. apply (area_keep h); auto. rewrite Et'. reflexivity.
Qed.

Lemma flip_tower e0 e o h e' : proper e0 -> proper e -> rauzy_step (flip e) (flip e') -> tower_of e0 (mktower e o h) ->
  exists o' h', refines e0 (mktower e o h) (mktower e' o' h').
Proof.
  intros P0 P S T. pose proof (rauzy_step_proper _ _ (flip_proper _ P) S) as P'.
  destruct S as (a & b & X & Y1 & Y2 & Et & Eb & Hlt & Et' & Eb' & Ha & Hc). cbn [flip e_top e_bot e_len] in *.
  pose proof P as [NT [Pm Pos]]. pose proof (proper_bot_nodup _ P) as NB. pose proof NT as NT'. rewrite Eb in NT'.
  assert (Hab : a <> b) by (inversion NT' as [|? ? Q _]; intros ->; apply Q; apply in_or_app; right; left; reflexivity).
  assert (Ia : In a (e_top e)) by (apply (Permutation_in _ (Permutation_sym Pm)); rewrite Et; left; reflexivity).
  assert (Ib : In b (e_top e)) by (rewrite Eb; left; reflexivity).
  pose proof (Pos b Ib) as Hb.
  destruct (row_move (e_len e) (e_len e') a b Y1 Y2 NT' Ha Hc) as (B1 & B2 & B3). rewrite <- Eb, <- Eb' in B1, B2, B3.
  assert (T3 : forall c, c <> a -> left_end (e_len e') (e_bot e') c = left_end (e_len e) (e_bot e) c - e_len e b).
  { intros c Ca. rewrite Et', Et. rewrite !left_end_tl by auto. rewrite Et in NB. rewrite (row_same (e_len e) (e_len e') a X c NB Ca Hc), Ha. lra. }
  assert (Bb0 : left_end (e_len e) (e_top e) b = 0) by (rewrite Eb; apply left_end_hd).
  assert (Ta0 : left_end (e_len e) (e_bot e) a = 0) by (rewrite Et; apply left_end_hd).
  assert (Ta1 : left_end (e_len e') (e_bot e') a = 0) by (rewrite Et', Et; apply left_end_hd).
  assert (PP : Permutation (e_top e) (e_top e')).
  { destruct P' as (_ & PP' & _). cbn in PP'. rewrite <- PP', Et'. exact Pm. }
  exists (o + e_len e b), (raised h a b). destruct (tower_bot e0 e o h e' a b P0 Hab Ia Ib) as (Q1 & Q2); auto.
  - intro c. apply Permutation_in, Permutation_sym, PP.
  - intros c Hi _. exact (Permutation_in _ PP Hi).
  - left. split; [exact (Permutation_in _ PP Ia)|]. repeat split; auto; lra.
  - intros c Hi Cb. unfold shift. destruct (Nat.eq_dec c a) as [->|Ca]; [lra|].
    rewrite (B3 c Ca Cb), (T3 c Ca). lra.
  - unfold shift. rewrite B1, (T3 b) by auto. lra.
  - split; [exact Q1|]. split; [exact Q2|]. unfold area. cbn [tw_base tw_height]. apply (area_keep h); auto.
Qed.

Lemma merge_tower e0 e o h e' : proper e0 -> proper e -> merge_step e e' -> tower_of e0 (mktower e o h) ->
  exists o' h', refines e0 (mktower e o h) (mktower e' o' h').
Proof.
  intros P0 P S T. destruct S as (a & b & X & Y1 & Y2 & Et & Eb & Hl & Et' & Eb' & Hc).
  pose proof P as [N [Pm Pos]]. pose proof (proper_bot_nodup _ P) as NB. rewrite Eb in NB. pose proof N as N'. rewrite Et in N'.
  assert (Hab : a <> b) by (inversion NB as [|? ? Q _]; intros ->; apply Q; apply in_or_app; right; left; reflexivity).
  assert (Ia : In a (e_top e)) by (rewrite Et; left; reflexivity).
  assert (Ib : In b (e_top e)) by (apply (Permutation_in _ (Permutation_sym Pm)); rewrite Eb; left; reflexivity).
  pose proof (Pos b Ib) as Hb.
  destruct (row_merge (e_len e) (e_len e') a b Y1 Y2 NB Hl Hc) as (B1 & B3). rewrite <- Eb, <- Eb' in B1, B3.
  assert (T3 : forall c, c <> a -> left_end (e_len e') (e_top e') c = left_end (e_len e) (e_top e) c - e_len e b).
  { intros c Ca. rewrite Et', Et. rewrite left_end_tl by auto. rewrite (row_same (e_len e) (e_len e') a X c N' Ca Hc), Hl. lra. }
  assert (Bb0 : left_end (e_len e) (e_bot e) b = 0) by (rewrite Eb; apply left_end_hd).
  assert (Ta0 : left_end (e_len e) (e_top e) a = 0) by (rewrite Et; apply left_end_hd).
  assert (HaX : ~ In a X) by (inversion N'; assumption).
  assert (IbX : In b X) by (rewrite Et in Ib; destruct Ib; [congruence|assumption]).
  exists (o + e_len e b), (raised h a b). destruct (tower_top e0 e o h e' a b P0 Hab Ia Ib) as (Q1 & Q2); auto.
  - intros c. rewrite Et', Et. right. assumption.
  - intros c Hi Ca. rewrite Et'. rewrite Et in Hi. destruct Hi; [congruence|assumption].
  - right. rewrite Et'. auto.
  - intros c Hi Cb. assert (Ca : c <> a) by (intros ->; rewrite Et' in Hi; contradiction). unfold shift.
    rewrite (B3 c Ca Cb), (T3 c Ca). lra.
  - unfold shift. rewrite B1, (T3 b) by auto. lra.
  - split; [exact Q1|]. split; [exact Q2|]. unfold area. cbn [tw_base tw_height]. rewrite Et', Et. apply (area_merge h); auto.
Qed.

Lemma merge_flip_tower e0 e o h e' : proper e0 -> proper e -> merge_step (flip e) (flip e') -> tower_of e0 (mktower e o h) ->
  exists o' h', refines e0 (mktower e o h) (mktower e' o' h').
Proof.
  intros P0 P S T. destruct S as (a & b & X & Y1 & Y2 & Et & Eb & Hl & Et' & Eb' & Hc). cbn [flip e_top e_bot e_len] in *.
  pose proof P as [NT [Pm Pos]]. pose proof (proper_bot_nodup _ P) as NB. pose proof NT as NT'. rewrite Eb in NT'. pose proof NB as NB'. rewrite Et in NB'.
  assert (Hab : a <> b) by (inversion NT' as [|? ? Q _]; intros ->; apply Q; apply in_or_app; right; left; reflexivity).
  assert (Ia : In a (e_top e)) by (apply (Permutation_in _ (Permutation_sym Pm)); rewrite Et; left; reflexivity).
  assert (Ib : In b (e_top e)) by (rewrite Eb; left; reflexivity).
  pose proof (Pos b Ib) as Hb.
  destruct (row_merge (e_len e) (e_len e') a b Y1 Y2 NT' Hl Hc) as (B1 & B3). rewrite <- Eb, <- Eb' in B1, B3.
  assert (T3 : forall c, c <> a -> left_end (e_len e') (e_bot e') c = left_end (e_len e) (e_bot e) c - e_len e b).
  { intros c Ca. rewrite Et', Et. rewrite left_end_tl by auto. rewrite (row_same (e_len e) (e_len e') a X c NB' Ca Hc), Hl. lra. }
  assert (Bb0 : left_end (e_len e) (e_top e) b = 0) by (rewrite Eb; apply left_end_hd).
  assert (Ta0 : left_end (e_len e) (e_bot e) a = 0) by (rewrite Et; apply left_end_hd).
  assert (PP : Permutation (e_top e) (a :: e_top e')).
  { rewrite Eb, Eb'. rewrite <- !Permutation_middle. apply perm_swap. }
  assert (Na : ~ In a (e_top e')) by (pose proof (Permutation_NoDup PP NT) as N; inversion N; assumption).
  exists (o + e_len e b), (raised h a b). destruct (tower_bot e0 e o h e' a b P0 Hab Ia Ib) as (Q1 & Q2); auto.
  - intros c Hi. apply (Permutation_in _ (Permutation_sym PP)). right. exact Hi.
  - intros c Hi Ca. apply (Permutation_in _ PP) in Hi. destruct Hi; [congruence|assumption].
  - intros c Hi Cb. assert (Ca : c <> a) by (intros ->; contradiction). unfold shift. rewrite (B3 c Ca Cb), (T3 c Ca). lra.
  - unfold shift. rewrite B1, (T3 b) by auto. lra.
  - split; [exact Q1|]. split; [exact Q2|]. unfold area. cbn [tw_base tw_height]. rewrite (total_perm _ _ _ PP). apply (area_merge h); auto.
    + exact (Permutation_NoDup PP NT).
    + apply (Permutation_in _ PP) in Ib. destruct Ib; [congruence|assumption].
Qed.

(** A description of the same exchange. *)
Lemma agree_left_end e e' a : agree e e' -> left_end (e_len e) (e_top e) a = left_end (e_len e') (e_top e') a /\
  left_end (e_len e) (e_bot e) a = left_end (e_len e') (e_bot e') a.
Proof. intros (Ht & Hb & Hl). rewrite <- Ht, <- Hb. split; apply left_end_ext_in; intros c Hc; apply Hl; auto. Qed.

Lemma agree_base e e' o h a x : agree e e' -> (in_base (mktower e o h) a x <-> in_base (mktower e' o h) a x).
Proof.
  intro A. unfold in_base. cbn. destruct (agree_left_end e e' a A) as (<- & _). destruct A as (Ht & _ & Hl). rewrite <- Ht.
  split; intros (I & H); (split; [exact I|]); [rewrite <- Hl|rewrite Hl]; auto.
Qed.

Lemma agree_floor e0 e e' o h a k x : agree e e' -> (on_floor e0 (mktower e o h) a k x <-> on_floor e0 (mktower e' o h) a k x).
Proof.
  intro A. unfold on_floor. cbn [tw_height]. split; intros (H & y & Hy & Hi); (split; [exact H|]); exists y; (split; [apply (agree_base e e' o h a y A); exact Hy|exact Hi]).
Qed.

Lemma agree_tower e0 e e' o h : agree e e' -> tower_of e0 (mktower e o h) -> refines e0 (mktower e o h) (mktower e' o h).
Proof.
  intros A (T1 & T2 & T3 & T4 & T5 & T6). split; [|split].
  - split; [|split; [|split; [|split; [|split]]]].
    + intros a Ha. apply T1. cbn in *. rewrite (proj1 A). exact Ha.
    + intros a y Hy. assert (Hy' : in_base (mktower e o h) a y) by (apply (agree_base e e' o h a y A), Hy).
      replace (shift (tw_base (mktower e' o h)) a) with (shift e a); [exact (T2 a y Hy')|]. cbn. unfold shift. destruct (agree_left_end e e' a A) as (-> & ->). reflexivity.
    + intros a k a' k' x F F'. apply (T3 a k a' k' x); apply (agree_floor e0 e e' o h _ _ _ A); assumption.
    + intros a k Hk. destruct (T4 a k Hk) as (d & Hd). exists d. intros y Hy. apply Hd, (agree_base e e' o h a y A), Hy.
    + intros a k Ha Hk. cbn [tw_base] in Ha. rewrite <- (proj1 A) in Ha. destruct (T5 a k Ha Hk) as (c & Hc). exists c.
      intros y x Hy. apply Hc, (agree_base e e' o h a y A), Hy.
    + intros a Ha. cbn [tw_base] in Ha. rewrite <- (proj1 A) in Ha. destruct (T6 a Ha) as (k & d & c & K & Ic & Hd & E).
      exists k, d, c. split; [exact K|]. split; [exact Ic|]. split; [intros y Hy; apply Hd, (agree_base e e' o h a y A), Hy|].
      cbn in *. destruct (agree_left_end e e' a A) as (<- & _). destruct A as (_ & _ & Hl). rewrite <- Hl by auto. exact E.
  - intro x. split; intros (a & k & F); exists a, k; apply (agree_floor e0 e e' o h _ _ _ A); assumption.
  - unfold area. cbn. rewrite <- (proj1 A). apply total_ext. intros c Hc. f_equal. symmetry. apply A. auto.
Qed.

Lemma same_agree e e' : same_exch e e' -> agree e e'.
Proof. intros (A & B & C). repeat split; auto. Qed.

Lemma path_tower e0 e o h e' : proper e0 -> proper e -> rauzy_path e e' -> tower_of e0 (mktower e o h) ->
  exists o' h', refines e0 (mktower e o h) (mktower e' o' h').
Proof.
  intros P0 P Q. revert o h P. induction Q as [e e' S|e e1 e' S Q IH|e e1 e' S Q IH]; intros o h P T.
  - exists o, h. apply agree_tower; [apply same_agree, S|exact T].
  - destruct (rauzy_tower e0 e o h e1 P0 P S T) as (o1 & h1 & R). destruct (IH o1 h1 (rauzy_step_proper _ _ P S) (proj1 R)) as (o' & h' & R').
    exists o', h'. exact (refines_trans _ _ _ _ R R').
  - destruct (flip_tower e0 e o h e1 P0 P S T) as (o1 & h1 & R). destruct (bot_step_facts _ _ P S) as (_ & P1). destruct (IH o1 h1 P1 (proj1 R)) as (o' & h' & R').
    exists o', h'. exact (refines_trans _ _ _ _ R R').
Qed.

(** * Splitting *)

Lemma split_towers e0 e o h k : proper e -> invariant_prefix e k -> tower_of e0 (mktower e o h) ->
  let tl := mktower (left_of e k) o h in let tr := mktower (right_of e k) (o + size (left_of e k)) h in
  tower_of e0 tl /\ tower_of e0 tr /\ apart_towers e0 tl tr /\
  (forall x, (exists a j, on_floor e0 (mktower e o h) a j x) <-> (exists a j, on_floor e0 tl a j x) \/ (exists a j, on_floor e0 tr a j x)) /\
  area (mktower e o h) = area tl + area tr.
Proof.
  intros P [Hk Pe] (T1 & T2 & T3 & T4 & T5 & T6) tl tr. pose proof P as [N [Pm Pos]]. pose proof (proper_bot_nodup _ P) as NB.
  assert (Et : e_top e = firstn k (e_top e) ++ skipn k (e_top e)) by (symmetry; apply firstn_skipn).
  assert (Eb : e_bot e = firstn k (e_bot e) ++ skipn k (e_bot e)) by (symmetry; apply firstn_skipn).
  assert (Ps : Permutation (skipn k (e_top e)) (skipn k (e_bot e))).
  { apply (Permutation_app_inv_l (firstn k (e_top e))). rewrite <- Et. rewrite Pe at 1. rewrite <- Eb. exact Pm. }
  set (A := firstn k (e_top e)) in *. set (B := skipn k (e_top e)) in *. set (A' := firstn k (e_bot e)) in *. set (B' := skipn k (e_bot e)) in *.
  assert (Dj : forall a, In a A -> In a B -> False).
  { intros a Ha Hb. rewrite Et in N. clear -N Ha Hb. induction A as [|x A IH]; [destruct Ha|]. simpl in N. inversion N as [|? ? Q N']; subst.
    destruct Ha as [->|Ha]; [apply Q, in_or_app; auto|]. apply IH; assumption. }
  assert (Lf : forall l1 l2 a, In a l1 -> left_end (e_len e) (l1 ++ l2) a = left_end (e_len e) l1 a).
  { intros l1 l2 a. induction l1 as [|x l1 IH]; intros []; simpl; destruct (Nat.eqb_spec x a); auto; [contradiction|]. rewrite IH by assumption. reflexivity. }
  assert (InA : forall a, In a A <-> In a A') by (intro a; split; apply Permutation_in; [exact Pe|apply Permutation_sym, Pe]).
  assert (InB : forall a, In a B <-> In a B') by (intro a; split; apply Permutation_in; [exact Ps|apply Permutation_sym, Ps]).
  assert (SA : total (e_len e) A = total (e_len e) A') by (apply total_perm, Pe).
  assert (LA : forall a, In a A -> left_end (e_len e) (e_top e) a = left_end (e_len e) A a) by (intros a I; rewrite Et; apply Lf, I).
  assert (LB : forall a, In a B -> left_end (e_len e) (e_top e) a = total (e_len e) A + left_end (e_len e) B a).
  { intros a I. rewrite Et. apply left_end_app. intro Q. exact (Dj a Q I). }
  assert (IA : forall a, In a A -> In a (e_top e)) by (intros a I; rewrite Et; apply in_or_app; auto).
  assert (IB : forall a, In a B -> In a (e_top e)) by (intros a I; rewrite Et; apply in_or_app; auto).
  assert (BL : forall a x, in_base tl a x <-> In a A /\ in_base (mktower e o h) a x).
  { intros a x. unfold in_base, tl; cbn. fold A. split.
    - intros (I & H). rewrite (LA a I). auto.
    - intros (I & _ & H). rewrite (LA a I) in H. auto. }
  assert (BR : forall a x, in_base tr a x <-> In a B /\ in_base (mktower e o h) a x).
  { intros a x. unfold in_base, tr, size, left_of; cbn. fold A B. split.
    - intros (I & H). rewrite (LB a I). split; [exact I|]. split; [auto|lra].
    - intros (I & _ & H). rewrite (LB a I) in H. split; [exact I|]. lra. }
  assert (FL : forall a j x, on_floor e0 tl a j x -> In a A /\ on_floor e0 (mktower e o h) a j x).
  { intros a j x (H & y & Hy & Hi). apply BL in Hy as (I & Hy). split; [exact I|]. split; [exact H|]. exists y. auto. }
  assert (FR : forall a j x, on_floor e0 tr a j x -> In a B /\ on_floor e0 (mktower e o h) a j x).
  { intros a j x (H & y & Hy & Hi). apply BR in Hy as (I & Hy). split; [exact I|]. split; [exact H|]. exists y. auto. }
  split; [|split; [|split; [|split]]].
  - split; [|split; [|split; [|split; [|split]]]].
    + intros a Ha. apply T1. cbn in *. rewrite Et. apply in_or_app. auto.
    + intros a y Hy. apply BL in Hy as (I & Hy). pose proof (T2 a y Hy) as Q. cbn [tw_height tw_base tl] in *.
      replace (shift (left_of e k) a) with (shift e a); [exact Q|]. unfold shift, left_of; cbn. fold A A'. rewrite (LA a I). rewrite Eb, (Lf A' B' a (proj1 (InA a) I)). reflexivity.
    + intros a j a' j' x F F'. apply (T3 a j a' j' x); [apply (FL _ _ _ F)|apply (FL _ _ _ F')].
    + intros a j Hj. destruct (T4 a j Hj) as (d & Hd). exists d. intros y Hy. apply Hd, BL, Hy.
    + intros a j Ha Hj. destruct (T5 a j (IA a Ha) Hj) as (c & Hc). exists c. intros y x Hy. apply Hc, BL, Hy.
    + intros a Ha. destruct (T6 a (IA a Ha)) as (j & d & c & K & Ic & Hd & E). exists j, d, c. split; [exact K|]. split; [exact Ic|].
      split; [intros y Hy; apply Hd, BL, Hy|]. cbn in *. rewrite (LA a Ha) in E. exact E.
  - split; [|split; [|split; [|split; [|split]]]].
    + intros a Ha. apply T1. cbn in *. rewrite Et. apply in_or_app. auto.
    + intros a y Hy. apply BR in Hy as (I & Hy). pose proof (T2 a y Hy) as Q. cbn [tw_height tw_base tr] in *.
      replace (shift (right_of e k) a) with (shift e a); [exact Q|]. unfold shift, right_of; cbn. fold B B'. rewrite (LB a I). rewrite Eb.
      rewrite left_end_app by (intro Q'; apply InA in Q'; exact (Dj a Q' I)). lra.
    + intros a j a' j' x F F'. apply (T3 a j a' j' x); [apply (FR _ _ _ F)|apply (FR _ _ _ F')].
    + intros a j Hj. destruct (T4 a j Hj) as (d & Hd). exists d. intros y Hy. apply Hd, BR, Hy.
    + intros a j Ha Hj. destruct (T5 a j (IB a Ha) Hj) as (c & Hc). exists c. intros y x Hy. apply Hc, BR, Hy.
    + intros a Ha. destruct (T6 a (IB a Ha)) as (j & d & c & K & Ic & Hd & E). exists j, d, c. split; [exact K|]. split; [exact Ic|].
      split; [intros y Hy; apply Hd, BR, Hy|]. cbn in *. rewrite (LB a Ha) in E. unfold size; cbn. fold A. fold B. fold B in E. lra.
  - intros a j a' j' x F F'. apply FL in F as (I & F). apply FR in F' as (I' & F'). destruct (T3 _ _ _ _ _ F F') as [-> _]. exact (Dj a' I I').
  - intro x. split.
    + intros (a & j & H & y & Hy & Hi). pose proof (proj1 Hy) as I. cbn in I. rewrite Et in I. apply in_app_or in I as [I|I]; [left|right]; exists a, j; (split; [exact H|]); exists y; (split; [|exact Hi]).
      * apply BL. auto.
      * apply BR. auto.
    + intros [(a & j & F)|(a & j & F)]; exists a, j; [apply (FL _ _ _ F)|apply (FR _ _ _ F)].
  - unfold area, tl, tr; cbn. fold A B. rewrite <- total_app, <- Et. reflexivity.
Qed.

(** * Lists of towers *)

Lemma areas_app l m : areas (l ++ m) = areas l + areas m.
Proof. induction l as [|t l IH]; simpl; [lra|]. rewrite IH. lra. Qed.

Lemma towers_replace e0 T1 t T2 t' : towers e0 (T1 ++ t :: T2) -> refines e0 t t' -> towers e0 (T1 ++ t' :: T2).
Proof.
  intros (A & B & C & D) (R1 & R2 & R3). split; [|split; [|split]].
  - intros x H. apply in_app_or in H as [H|[<-|H]]; [apply A, in_or_app; auto|exact R1|apply A, in_or_app; right; right; exact H].
  - apply fop_app_cons in B as (B1 & B2 & B3). apply fop_app_cons. split; [exact B1|]. split.
    + eapply Forall_impl; [|exact B2]. intros p Hp a j a' j' x F F'. destruct (proj2 (R2 x)) as (c & i & G); [exists a', j'; exact F'|]. exact (Hp _ _ _ _ _ F G).
    + eapply Forall_impl; [|exact B3]. intros p Hp a j a' j' x F F'. destruct (proj2 (R2 x)) as (c & i & G); [exists a, j; exact F|]. exact (Hp _ _ _ _ _ G F').
  - intros x Hx. destruct (C x Hx) as (u & a & j & I & F). apply in_app_or in I as [I|[<-|I]].
    + exists u, a, j. split; [apply in_or_app; auto|exact F].
    + destruct (proj1 (R2 x)) as (c & i & G); [exists a, j; exact F|]. exists t', c, i. split; [apply in_or_app; right; left; reflexivity|exact G].
    + exists u, a, j. split; [apply in_or_app; right; right; exact I|exact F].
  - rewrite areas_app in *. simpl in *. rewrite R3. exact D.
Qed.

Lemma towers_split e0 T1 e o h T2 k : proper e -> invariant_prefix e k -> towers e0 (T1 ++ mktower e o h :: T2) ->
  towers e0 (T1 ++ mktower (left_of e k) o h :: T2 ++ [mktower (right_of e k) (o + size (left_of e k)) h]).
Proof.
  intros P K (A & B & C & D). destruct (split_towers e0 e o h k P K) as (S1 & S2 & S3 & S4 & S5); [apply A, in_middle; auto|].
  set (t := mktower e o h) in *. set (tl := mktower (left_of e k) o h) in *. set (tr := mktower (right_of e k) (o + size (left_of e k)) h) in *.
  split; [|split; [|split]].
  - intros x H. rewrite in_app_iff in H. simpl in H. rewrite in_app_iff in H. simpl in H.
    destruct H as [H|[<-|[H|[<-|[]]]]]; auto; apply A; apply in_or_app; [left|right; right]; exact H.
  - apply fop_app_cons in B as (B1 & B2 & B3). rewrite app_comm_cons, app_assoc.
    assert (LT : forall p, apart_towers e0 p t -> apart_towers e0 p tl).
    { intros p Hp a j a' j' x F F'. destruct (proj2 (S4 x)) as (c & i & G); [left; exists a', j'; exact F'|]. exact (Hp _ _ _ _ _ F G). }
    assert (RT : forall p, apart_towers e0 p t -> apart_towers e0 p tr).
    { intros p Hp a j a' j' x F F'. destruct (proj2 (S4 x)) as (c & i & G); [right; exists a', j'; exact F'|]. exact (Hp _ _ _ _ _ F G). }
    assert (SY : forall p q, apart_towers e0 p q -> apart_towers e0 q p) by (intros p q H a j a' j' x F F'; exact (H _ _ _ _ _ F' F)).
    apply fop_app_cons. split; [|split; [|constructor]].
    + rewrite app_nil_r. apply fop_app_cons. split; [exact B1|]. split; [eapply Forall_impl; [|exact B2]; auto|].
      eapply Forall_impl; [|exact B3]. intros p Hp. apply SY, LT, SY, Hp.
    + apply Forall_app. split; [eapply Forall_impl; [|exact B2]; auto|]. constructor; [exact S3|].
      eapply Forall_impl; [|exact B3]. intros p Hp. apply RT, SY, Hp.
  - intros x Hx. destruct (C x Hx) as (u & a & j & I & F). apply in_app_or in I as [I|[<-|I]].
    + exists u, a, j. split; [apply in_or_app; auto|exact F].
    + destruct (proj1 (S4 x)) as [(c & i & G)|(c & i & G)]; [exists a, j; exact F| |].
      * exists tl, c, i. split; [apply in_or_app; right; left; reflexivity|exact G].
      * exists tr, c, i. split; [apply in_or_app; right; right; apply in_or_app; right; left; reflexivity|exact G].
    + exists u, a, j. split; [apply in_or_app; right; right; apply in_or_app; left; exact I|exact F].
  - rewrite areas_app in *. simpl in *. rewrite areas_app. simpl. rewrite S5 in D. lra.
Qed.

Lemma towers_agree e0 E' : forall Ts0 Ts, towers e0 (Ts0 ++ Ts) -> Forall2 agree (map tw_base Ts) E' ->
  exists Ts', map tw_base Ts' = E' /\ towers e0 (Ts0 ++ Ts').
Proof.
  induction E' as [|e' E' IH]; intros Ts0 [|[e o h] Ts] H F; inversion F as [|? ? ? ? F1 F2]; subst.
  - exists []. auto.
  - assert (R : refines e0 (mktower e o h) (mktower e' o h)) by (apply agree_tower; [exact F1|apply H, in_middle; auto]).
    pose proof (towers_replace _ _ _ _ _ H R) as H'. destruct (IH (Ts0 ++ [mktower e' o h]) Ts) as (Ts' & <- & Q); [rewrite <- app_assoc; exact H'|exact F2|].
    exists (mktower e' o h :: Ts'). split; [reflexivity|]. rewrite <- app_assoc in Q. exact Q.
Qed.

Lemma towers_mid Ts E1 e E2 : map tw_base Ts = E1 ++ e :: E2 ->
  exists T1 o h T2, Ts = T1 ++ mktower e o h :: T2 /\ map tw_base T1 = E1 /\ map tw_base T2 = E2.
Proof.
  revert Ts. induction E1 as [|x E1 IH]; intros [|[y o h] Ts] H; try discriminate.
  - injection H as -> H. exists [], o, h, Ts. auto.
  - injection H as -> H. destruct (IH Ts H) as (T1 & o' & h' & T2 & -> & <- & <-). exists (mktower x o h :: T1), o', h', T2. auto.
Qed.

Lemma astep_towers e0 E f E' f' D Ts : conn_inv e0 E f D -> astep E f E' f' -> map tw_base Ts = E -> towers e0 Ts ->
  exists Ts', map tw_base Ts' = E' /\ towers e0 Ts'.
Proof.
  intros CI S HE HT. pose proof (ci_start _ _ _ _ CI) as P0. destruct S.
  - apply (towers_agree e0 E' [] Ts HT). rewrite HE. assumption.
  - destruct (towers_mid Ts E1 e E2 HE) as (T1 & o & h & T2 & -> & <- & <-).
    assert (Pe : proper e) by (apply (ci_proper _ _ _ _ CI), in_middle; auto).
    destruct (path_tower e0 e o h e' P0 Pe) as (o' & h' & R); [eapply cpath_path; eassumption|apply HT, in_middle; auto|].
    exists (T1 ++ mktower e' o' h' :: T2). split; [rewrite map_app; reflexivity|]. exact (towers_replace _ _ _ _ _ HT R).
  - destruct (towers_mid Ts E1 e E2 HE) as (T1 & o & h & T2 & -> & <- & <-).
    assert (Pe : proper e) by (apply (ci_proper _ _ _ _ CI), in_middle; auto).
    eexists. split; [|eapply towers_split; eassumption]. rewrite map_app. simpl. rewrite map_app. reflexivity.
  - destruct (towers_mid Ts E1 e E2 HE) as (T1 & o & h & T2 & -> & <- & <-).
    assert (Pe : proper e) by (apply (ci_proper _ _ _ _ CI), in_middle; auto).
    destruct (merge_tower e0 e o h e' P0 Pe) as (o' & h' & R); [eassumption|apply HT, in_middle; auto|].
    exists (T1 ++ mktower e' o' h' :: T2). split; [rewrite map_app; reflexivity|]. exact (towers_replace _ _ _ _ _ HT R).
Qed.

Theorem asteps_towers e0 E f E' f' D Ts : conn_inv e0 E f D -> asteps E f E' f' -> map tw_base Ts = E -> towers e0 Ts ->
  exists Ts', map tw_base Ts' = E' /\ towers e0 Ts'.
Proof.
  intros CI S. revert D Ts CI. induction S as [|E f E1 f1 E' f' S1 S IH]; intros D Ts CI HE HT; [eauto|].
  destruct (astep_inv _ _ _ _ _ _ CI S1) as (D1 & CI1). destruct (astep_towers _ _ _ _ _ _ Ts CI S1 HE HT) as (Ts1 & HE1 & HT1).
  exact (IH D1 Ts1 CI1 HE1 HT1).
Qed.

Lemma maps_base e o h a y : proper e -> in_base (mktower e o h) a y -> maps e (y - o) (y - o + shift e a).
Proof.
  intros P (I & H). cbn in *. pose proof P as [N [Pm Pos]]. pose proof (proper_bot_nodup _ P) as NB.
  assert (I' : In a (e_bot e)) by (apply (Permutation_in _ Pm), I).
  apply in_split in I as (X & Y & Et). apply in_split in I' as (X' & Y' & Eb).
  assert (N1 : ~ In a X) by (intro Q; rewrite Et in N; apply NoDup_remove_2 in N; apply N, in_or_app; auto).
  assert (N2 : ~ In a X') by (intro Q; rewrite Eb in NB; apply NoDup_remove_2 in NB; apply NB, in_or_app; auto).
  unfold shift in *. rewrite Et, Eb in *. rewrite !left_end_app in * by assumption. rewrite !left_end_hd in *.
  apply maps_iff. exists a, X, Y, X', Y'. rewrite Et, Eb. repeat split; auto; lra.
Qed.

Lemma base_exists e o h x : proper e -> o <= x < o + size e -> exists a, in_base (mktower e o h) a x.
Proof.
  intros P Hx. destruct (locate_exists (e_len e) (e_top e) (x - o)) as (X & a & Y & Et & H); [unfold size in Hx; lra|].
  pose proof P as [N _]. exists a. unfold in_base; cbn. rewrite Et. split; [apply in_or_app; right; left; reflexivity|].
  assert (N1 : ~ In a X) by (intro Q; rewrite Et in N; apply NoDup_remove_2 in N; apply N, in_or_app; auto).
  rewrite left_end_app by exact N1. rewrite left_end_hd. lra.
Qed.

Lemma towers_start e0 : proper e0 -> towers e0 [mktower e0 0 (fun _ => 1%nat)].
Proof.
  intro P. pose proof P as [N _]. split; [|split; [|split]].
  - intros t [<-|[]]. split; [|split; [|split; [|split; [|split]]]].
    + intros. cbn. lia.
    + intros a y Hy. cbn. exists (y + shift e0 a). split; [|reflexivity]. pose proof (maps_base e0 0 _ a y P Hy) as Q. rewrite Rminus_0_r in Q. exact Q.
    + intros a k a' k' x (K & y & (I & B) & Hi) (K' & y' & (I' & B') & Hi'). cbn in *. assert (k = 0%nat) by lia. assert (k' = 0%nat) by lia. subst k k'. simpl in Hi, Hi'. subst y y'.
      split; [|reflexivity]. apply in_split in I as (X & Y & Et). apply in_split in I' as (X' & Y' & Et').
      assert (N1 : ~ In a X) by (intro Q; rewrite Et in N; apply NoDup_remove_2 in N; apply N, in_or_app; auto).
      assert (N2 : ~ In a' X') by (intro Q; rewrite Et' in N; apply NoDup_remove_2 in N; apply N, in_or_app; auto).
      rewrite Et in B. rewrite left_end_app, left_end_hd in B by exact N1. rewrite Et' in B'. rewrite left_end_app, left_end_hd in B' by exact N2.
      destruct (locate_unique (e_len e0) (e_top e0) X a Y X' a' Y' x) as (_ & E & _); auto; try lra. apply P.
    + intros a k Hk. cbn in Hk. destruct k as [|k]; [exists 0; intros y _; cbn; lra|]. assert (k = 0%nat) by lia. subst k. exists (shift e0 a).
      intros y Hy. exists (y + shift e0 a). split; [|reflexivity]. pose proof (maps_base e0 0 _ a y P Hy) as Q. rewrite Rminus_0_r in Q. exact Q.
    + intros a k _ Hk. cbn in Hk. assert (k = 0%nat) by lia. subst k. exists a. intros y x (I & Hy) E. simpl in E, I, Hy. subst x. split; [exact I|lra].
    + intros a Ha. cbn in Ha. exists 0%nat, 0, a. split; [cbn; lia|]. split; [exact Ha|]. split; [intros y _; cbn; lra|cbn; lra].
  - repeat constructor.
  - intros x Hx. destruct (base_exists e0 0 (fun _ => 1%nat) x P) as (a & Ha); [lra|]. exists (mktower e0 0 (fun _ => 1%nat)), a, 0%nat. split; [left; reflexivity|].
    split; [cbn; lia|]. exists x. split; [exact Ha|reflexivity].
  - simpl. unfold area, size. cbn. rewrite Rplus_0_r. apply total_ext. intros c _. lra.
Qed.

(** * Consequences *)

(** The height is the time after which an orbit is back in a base for the first time. *)
Lemma towers_return e0 Ts : towers e0 Ts -> forall t a y, In t Ts -> proper (tw_base t) -> in_base t a y ->
  maps (tw_base t) (y - tw_at t) (y - tw_at t + shift (tw_base t) a) /\
  iter (maps e0) (tw_height t a) y (y + shift (tw_base t) a) /\
  (forall k z, (1 <= k < tw_height t a)%nat -> iter (maps e0) k y z -> forall t' a', In t' Ts -> ~ in_base t' a' z).
Proof.
  intros (A & B & C & D) t a y I P Hy. destruct (A t I) as (T1 & T2 & T3 & T4 & T5 & T6). split; [|split].
  - destruct t as [e o h]. exact (maps_base e o h a y P Hy).
  - exact (T2 a y Hy).
  - intros k z Hk Hi t' a' I' Hz.
    assert (F : on_floor e0 t a k z) by (split; [lia|]; exists y; auto).
    assert (F' : on_floor e0 t' a' 0 z) by (split; [pose proof (proj1 (A t' I') a' (proj1 Hz)); lia|]; exists z; split; [exact Hz|reflexivity]).
    apply in_split in I as (X & Y & E). rewrite E in I'. apply in_app_or in I'. simpl in I'.
    rewrite E in B. apply fop_app_cons in B as (_ & B2 & B3).
    destruct I' as [I'|[->|I']].
    + rewrite Forall_forall in B2. exact (B2 _ I' _ _ _ _ _ F' F).
    + destruct (T3 _ _ _ _ _ F F') as [_ Q]. lia.
    + rewrite Forall_forall in B3. exact (B3 _ I' _ _ _ _ _ F F').
Qed.

(** An orbit stays in its tower. *)
Lemma towers_stay e0 Ts : proper e0 -> towers e0 Ts -> forall t a k x y, In t Ts -> proper (tw_base t) -> on_floor e0 t a k x -> maps e0 x y ->
  exists a' k', on_floor e0 t a' k' y.
Proof.
  intros P0 (A & B & C & D) t a k x y I P (K & z & Hz & Hi) M. destruct (A t I) as (T1 & T2 & T3 & T4 & T5 & T6).
  assert (Hi' : iter (maps e0) (k + 1) z y) by (eapply iter_add; [exact Hi|]; exists y; split; [exact M|reflexivity]).
  destruct (lt_dec (k + 1) (tw_height t a)) as [L|L].
  - exists a, (k + 1)%nat. split; [exact L|]. exists z. auto.
  - assert (E : (k + 1)%nat = tw_height t a) by lia. rewrite E in Hi'.
    rewrite (iter_fun _ (maps_fun _ P0) _ _ _ _ Hi' (T2 a z Hz)) in *.
    destruct t as [e o h]. pose proof (maps_base e o h a z P Hz) as Q. apply (maps_ran _ P) in Q.
    destruct (base_exists e o h (z + shift e a) P) as (a' & Ha'); [unfold size; cbn in *; lra|].
    exists a', 0%nat. split; [pose proof (T1 a' (proj1 Ha')); cbn in *; lia|]. exists (z + shift e a). split; [exact Ha'|reflexivity].
Qed.

(** In a cylinder every orbit is periodic, and the height is its period. *)
Lemma towers_cylinder e0 Ts : proper e0 -> towers e0 Ts -> forall t a k x, In t Ts -> proper (tw_base t) -> e_top (tw_base t) = [a] ->
  on_floor e0 t a k x -> iter (maps e0) (tw_height t a) x x /\ forall n, (1 <= n < tw_height t a)%nat -> ~ iter (maps e0) n x x.
Proof.
  intros P0 (A & B & C & D) t a k x I P Et (K & z & Hz & Hi). destruct (A t I) as (T1 & T2 & T3 & T4 & T5 & T6).
  assert (Sh : shift (tw_base t) a = 0).
  { unfold shift. destruct P as (_ & Pm & _). rewrite Et in Pm. apply Permutation_length_1_inv in Pm. rewrite Et, Pm, !left_end_hd. lra. }
  pose proof (T2 a z Hz) as Q. rewrite Sh, Rplus_0_r in Q.
  assert (Q' : iter (maps e0) (tw_height t a - k) x z).
  { replace (tw_height t a) with (k + (tw_height t a - k))%nat in Q by lia. apply iter_split in Q as (w & W1 & W2).
    rewrite (iter_fun _ (maps_fun _ P0) _ _ _ _ W1 Hi) in W2. exact W2. }
  split.
  - replace (tw_height t a) with ((tw_height t a - k) + k)%nat by lia. eapply iter_add; eassumption.
  - intros n Hn W. assert (W' : iter (maps e0) (k + n) z x) by (eapply iter_add; eassumption).
    rewrite Nat.add_comm in W'. apply iter_split in W' as (z' & Z1 & Z2).
    rewrite (iter_inj _ (maps_inj _ P0) _ _ _ _ Z2 Hi) in Z1.
    assert (F : on_floor e0 t a n z) by (split; [lia|]; exists z; auto).
    assert (F' : on_floor e0 t a 0 z) by (split; [lia|]; exists z; split; [exact Hz|reflexivity]).
    destruct (T3 _ _ _ _ _ F F') as [_ E]. lia.
Qed.
