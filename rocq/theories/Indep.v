(** Irreducible exchanges with independent lengths: relations between the lengths hold for all
    lengths whatsoever, in particular for lengths for which every interval moves to the
    left. *)
From Coq Require Import Reals QArith Qcanon Qreals List ZArith Lia Lra Permutation Arith.
From Verif Require Import Spec SpecLin SpecIndep Dyn Path.
Import ListNotations.
Open Scope R_scope.

(** * Linear forms with rational coefficients *)
Section Forms.
Variable top : list lab.
Hypothesis N : NoDup top.

Definition form (F : (lab -> R) -> R) : Prop :=
  exists K : lab -> Q, forall f, F f = total (fun c => Q2R (K c) * f c) top.

Lemma total_zero (l : list lab) (g : lab -> R) : (forall a, In a l -> g a = 0) -> total g l = 0.
Proof. intro H. induction l as [|a l IH]; simpl; [reflexivity|]. rewrite H, IH; [lra| |left; reflexivity]. intros; apply H; right; assumption. Qed.
Lemma total_sum f g (l : list lab) : total (fun a => f a + g a) l = total f l + total g l.
Proof. induction l as [|a l IH]; simpl; [lra|]. rewrite IH. lra. Qed.
Lemma total_mult c f (l : list lab) : total (fun a => c * f a) l = c * total f l.
Proof. induction l as [|a l IH]; simpl; [lra|]. rewrite IH. lra. Qed.
Lemma total_change f g (l : list lab) b : NoDup l -> In b l -> (forall c, c <> b -> f c = g c) -> total f l = total g l + (f b - g b).
Proof.
  intros Nl Hb H. apply in_split in Hb as (X & Y & ->). apply NoDup_remove_2 in Nl.
  rewrite !total_app. simpl. rewrite (total_ext f g X), (total_ext f g Y); [lra| |].
  - intros c Hc. apply H. intros ->. apply Nl, in_or_app. auto.
  - intros c Hc. apply H. intros ->. apply Nl, in_or_app. auto.
Qed.

Lemma form_zero : form (fun _ => 0).
Proof. exists (fun _ => 0%Q). intro f. rewrite total_zero; [reflexivity|]. intros. unfold Q2R. simpl. lra. Qed.
Lemma form_at c : In c top -> form (fun f => f c).
Proof.
  intro Hc. exists (fun a => if Nat.eqb a c then 1%Q else 0%Q). intro f.
  rewrite (total_change _ (fun _ => 0) top c N Hc).
  - rewrite (total_zero top (fun _ => 0)) by reflexivity. rewrite Nat.eqb_refl. unfold Q2R. simpl. lra.
  - intros a Ha. destruct (Nat.eqb_spec a c); [contradiction|]. unfold Q2R. simpl. lra.
Qed.
Lemma form_add F G : form F -> form G -> form (fun f => F f + G f).
Proof.
  intros [K HK] [L HL]. exists (fun c => (K c + L c)%Q). intro f. rewrite HK, HL, <- total_sum.
  apply total_ext. intros c _. rewrite Q2R_plus. lra.
Qed.
Lemma form_scale q F : form F -> form (fun f => Q2R q * F f).
Proof.
  intros [K HK]. exists (fun c => (q * K c)%Q). intro f. rewrite HK, <- total_mult.
  apply total_ext. intros c _. rewrite Q2R_mult. lra.
Qed.
Lemma form_ext F G : (forall f, F f = G f) -> form F -> form G.
Proof. intros H [K HK]. exists K. intro f. rewrite <- H. apply HK. Qed.
Lemma form_sub F G : form F -> form G -> form (fun f => F f - G f).
Proof.
  intros HF HG. apply (form_ext (fun f => F f + Q2R (-1) * G f)); [intro f; unfold Q2R; simpl; lra|].
  apply form_add; [exact HF|]. apply form_scale, HG.
Qed.
Lemma form_total X : incl X top -> form (fun f => total f X).
Proof.
  induction X as [|c X IH]; intro H; simpl; [apply form_zero|].
  apply form_add; [apply form_at, H; left; reflexivity|]. apply IH. intros a Ha. apply H. right. exact Ha.
Qed.
Lemma form_left X a : incl X top -> form (fun f => left_end f X a).
Proof.
  induction X as [|c X IH]; intro H; simpl; [apply form_zero|]. destruct (Nat.eqb c a); [apply form_zero|].
  apply form_add; [apply form_at, H; left; reflexivity|]. apply IH. intros b Hb. apply H. right. exact Hb.
Qed.
Lemma form_combine (q : lab -> Q) (G : lab -> (lab -> R) -> R) X : (forall a, In a X -> form (G a)) ->
  form (fun f => total (fun a => Q2R (q a) * G a f) X).
Proof.
  induction X as [|c X IH]; intro H; simpl; [apply form_zero|].
  apply form_add; [apply form_scale, H; left; reflexivity|]. apply IH. intros a Ha. apply H. right. exact Ha.
Qed.

(** A common denominator. *)
Definition denom (K : lab -> Q) (l : list lab) : Z := fold_right (fun a z => (Zpos (Qden (K a)) * z)%Z) 1%Z l.
Lemma denom_pos K l : (0 < denom K l)%Z.
Proof. induction l as [|a l IH]; [reflexivity|]. apply Z.mul_pos_pos; [reflexivity|exact IH]. Qed.
Lemma denom_div K l a : In a l -> (Zpos (Qden (K a)) | denom K l)%Z.
Proof.
  induction l as [|b l IH]; intros []; change (denom K (b :: l)) with (Zpos (Qden (K b)) * denom K l)%Z.
  - subst. apply Z.divide_factor_l.
  - apply Z.divide_mul_r. apply IH. assumption.
Qed.

Lemma independent_form len F : (forall k : lab -> Z, total (fun a => IZR (k a) * len a) top = 0 -> forall a, In a top -> k a = 0%Z) ->
  form F -> F len = 0 -> forall f, F f = 0.
Proof.
  intros HI [K HK] H0 f.
  set (k := fun a => (Qnum (K a) * (denom K top / Zpos (Qden (K a))))%Z).
  assert (Hk : forall a, In a top -> IZR (k a) = IZR (denom K top) * Q2R (K a)).
  { intros a Ha. destruct (denom_div K top a Ha) as [z Hz]. unfold k. rewrite Hz, Z.div_mul by discriminate.
    unfold Q2R. rewrite !mult_IZR. field. apply not_0_IZR. discriminate. }
  assert (Z : total (fun a => IZR (k a) * len a) top = 0).
  { rewrite (total_ext _ (fun a => IZR (denom K top) * (Q2R (K a) * len a))), total_mult, <- HK, H0; [lra|].
    intros a Ha. rewrite Hk by exact Ha. lra. }
  rewrite HK. apply total_zero. intros a Ha. specialize (HI k Z a Ha).
  pose proof (Hk a Ha) as E. rewrite HI in E. pose proof (denom_pos K top) as D. apply IZR_lt in D.
  assert (Q2R (K a) = 0) as -> by (apply (Rmult_eq_reg_l (IZR (denom K top))); lra). lra.
Qed.
End Forms.

(** * Sums of distinct numbers *)
Definition lsum (l : list nat) : nat := fold_right plus 0%nat l.
Lemma lsum_app a b : lsum (a ++ b) = (lsum a + lsum b)%nat.
Proof. induction a; simpl; [reflexivity|]. unfold lsum in *. lia. Qed.

Lemma distinct_sum k : forall l, NoDup l -> length l = k ->
  (k * (k - 1) <= 2 * lsum l)%nat /\ ((2 * lsum l = k * (k - 1))%nat -> forall x, In x l -> (x < k)%nat).
Proof.
  induction k as [|k IH]; intros l Nl Hl.
  - split; [lia|]. destruct l; [intros _ x []|discriminate].
  - assert (exists M, In M l /\ (k <= M)%nat) as (M & HM & Hk).
    { destruct (Exists_dec (fun M => (k <= M)%nat) l (fun M => le_dec k M)) as [E|E]; [apply Exists_exists in E; exact E|exfalso].
      rewrite <- Forall_Exists_neg, Forall_forall in E.
      assert (incl l (seq 0 k)) by (intros x Hx; apply in_seq; specialize (E x Hx); lia).
      pose proof (NoDup_incl_length Nl H) as L. rewrite seq_length in L. lia. }
    apply in_split in HM as (A & B & ->). pose proof (NoDup_remove_1 _ _ _ Nl) as N'.
    rewrite app_length in Hl. simpl in Hl.
    destruct (IH (A ++ B) N') as [I1 I2]; [rewrite app_length; lia|].
    assert (S : (lsum (A ++ M :: B) = M + lsum (A ++ B))%nat) by (rewrite !lsum_app; simpl; fold (lsum B); lia).
    rewrite S. split; [nia|]. intros E x Hx.
    assert (2 * lsum (A ++ B) = k * (k - 1) /\ M = k)%nat as (E1 & E2) by (destruct k; simpl in *; nia).
    apply in_app_or in Hx. destruct Hx as [Hx|[<-|Hx]]; [|lia|]; enough (x < k)%nat by lia; apply (I2 E1), in_or_app; auto.
Qed.

Lemma nodup_front (X Y : list lab) : NoDup (X ++ Y) -> NoDup X.
Proof.
  induction X as [|a X IH]; intro H; [constructor|]. inversion H as [|? ? H1 H2]; subst. constructor; [|exact (IH H2)].
  intro C. apply H1, in_or_app. auto.
Qed.

(** * Positions *)
Fixpoint idx (l : list lab) (a : lab) : nat :=
  match l with [] => 0%nat | c :: l => if Nat.eqb c a then 0%nat else S (idx l a) end.
Lemma idx_app X a Y : ~ In a X -> idx (X ++ a :: Y) a = length X.
Proof.
  induction X as [|c X IH]; intro H; simpl; [rewrite Nat.eqb_refl; reflexivity|].
  destruct (Nat.eqb_spec c a); [exfalso; apply H; left; assumption|]. rewrite IH; [reflexivity|]. intro; apply H; right; assumption.
Qed.
Lemma idx_nth l a : In a l -> nth_error l (idx l a) = Some a.
Proof.
  induction l as [|c l IH]; intros []; simpl.
  - subst. rewrite Nat.eqb_refl. reflexivity.
  - destruct (Nat.eqb_spec c a); [subst; reflexivity|]. apply IH. assumption.
Qed.
Lemma idx_inj l a b : In a l -> In b l -> idx l a = idx l b -> a = b.
Proof. intros Ha Hb E. pose proof (idx_nth l a Ha). pose proof (idx_nth l b Hb). rewrite E in H. congruence. Qed.
Lemma idx_firstn l a k : In a l -> (idx l a < k)%nat -> In a (firstn k l).
Proof.
  revert k. induction l as [|c l IH]; intros k Q H; [destruct Q|destruct Q as [Q|Q]]; simpl in *.
  - subst. rewrite Nat.eqb_refl in H. destruct k; [lia|]. left. reflexivity.
  - destruct (Nat.eqb_spec c a); destruct k; try lia; [left; assumption|]. right. apply IH; [assumption|lia].
Qed.
Lemma idx_nodup l X : NoDup X -> incl X l -> NoDup (map (idx l) X).
Proof.
  induction 1 as [|c X Hc NX IH]; intro H; simpl; constructor.
  - intro C. apply in_map_iff in C as (b & E & Hb). apply Hc.
    rewrite <- (idx_inj l b c); [exact Hb|apply H; right; exact Hb|apply H; left; reflexivity|exact E].
  - apply IH. intros a Ha. apply H. right. exact Ha.
Qed.
Lemma idx_prefix X Y : NoDup (X ++ Y) -> (2 * lsum (map (idx (X ++ Y)) X) = length X * (length X - 1))%nat.
Proof.
  revert Y. induction X as [|a X IH] using rev_ind; intros Y H; [reflexivity|].
  rewrite <- app_assoc in *. simpl in *. rewrite map_app, lsum_app, app_length. specialize (IH (a :: Y) H). simpl.
  rewrite idx_app; [nia|]. apply NoDup_remove_2 in H. intro C. apply H, in_or_app. auto.
Qed.

Lemma total_lsum (g : lab -> nat) X : total (fun c => INR (g c)) X = INR (lsum (map g X)).
Proof. induction X as [|a X IH]; simpl; [reflexivity|]. fold (lsum (map g X)). rewrite IH, <- plus_INR. reflexivity. Qed.

(** * Lengths for which every interval moves to the left *)
Section Witness.
Variables top bot : list lab.
Hypothesis N : NoDup top.
Hypothesis P : Permutation top bot.
Hypothesis I : forall k, (0 < k < length top)%nat -> ~ Permutation (firstn k top) (firstn k bot).

Definition drift (c : lab) : R := INR (idx bot c) - INR (idx top c).

Lemma total_drift X : total drift X = INR (lsum (map (idx bot) X)) - INR (lsum (map (idx top) X)).
Proof.
  rewrite <- !total_lsum. induction X as [|a X IH]; simpl; [lra|]. rewrite IH. unfold drift. lra.
Qed.

Lemma prefix_strict (A B : list lab) X Y : NoDup A -> Permutation A B -> A = X ++ Y -> X <> [] -> Y <> [] ->
  (forall k, (0 < k < length A)%nat -> ~ Permutation (firstn k A) (firstn k B)) ->
  (lsum (map (idx A) X) < lsum (map (idx B) X))%nat.
Proof.
  intros NA PA E Hx Hy H.
  assert (NX : NoDup X) by (rewrite E in NA; exact (nodup_front _ _ NA)).
  assert (IX : incl X B) by (intros a Ha; apply (Permutation_in _ PA); rewrite E; apply in_or_app; auto).
  destruct (distinct_sum (length X) (map (idx B) X) (idx_nodup B X NX IX) (map_length _ _)) as [L S].
  assert (Q : (2 * lsum (map (idx A) X) = length X * (length X - 1))%nat) by (rewrite E in NA |- *; apply idx_prefix, NA).
  destruct (Nat.eq_dec (2 * lsum (map (idx B) X)) (length X * (length X - 1))) as [D|D]; [|lia]. exfalso.
  assert (Lx : (0 < length X < length A)%nat).
  { rewrite E, app_length. destruct X; [contradiction|]. destruct Y; [contradiction|]. simpl. lia. }
  apply (H (length X) Lx). rewrite E at 1. rewrite firstn_app, Nat.sub_diag, firstn_all. simpl. rewrite app_nil_r.
  apply NoDup_Permutation_bis; [exact NX| |].
  - rewrite firstn_length. lia.
  - intros a Ha. apply idx_firstn; [apply IX, Ha|]. apply (S D), in_map, Ha.
Qed.

Lemma drift_top X Y : top = X ++ Y -> X <> [] -> Y <> [] -> 0 < total drift X.
Proof.
  intros E Hx Hy. rewrite total_drift. pose proof (prefix_strict top bot X Y N P E Hx Hy I) as H. apply lt_INR in H. lra.
Qed.
Lemma drift_bot X Y : bot = X ++ Y -> X <> [] -> Y <> [] -> total drift X < 0.
Proof.
  intros E Hx Hy. rewrite total_drift. pose proof (Permutation_length P) as LP.
  pose proof (prefix_strict bot top X Y (Permutation_NoDup P N) (Permutation_sym P) E Hx Hy) as H.
  assert (H' : (lsum (map (idx bot) X) < lsum (map (idx top) X))%nat).
  { apply H. intros k Hk Q. apply (I k); [lia|]. apply Permutation_sym, Q. }
  apply lt_INR in H'. lra.
Qed.

Lemma left_end_at f X a Y : ~ In a X -> left_end f (X ++ a :: Y) a = total f X.
Proof.
  induction X as [|c X IH]; intro H; simpl; [rewrite Nat.eqb_refl; reflexivity|].
  destruct (Nat.eqb_spec c a); [exfalso; apply H; left; assumption|]. rewrite IH; [reflexivity|]. intro; apply H; right; assumption.
Qed.

Lemma drift_shift a : (2 <= length top)%nat -> In a top -> left_end drift bot a - left_end drift top a < 0.
Proof.
  intros L Ha. destruct (in_split a top Ha) as (X & Y & E). destruct (in_split a bot (Permutation_in _ P Ha)) as (X' & Y' & E').
  assert (Hn : ~ In a X) by (rewrite E in N; apply NoDup_remove_2 in N; intro; apply N, in_or_app; auto).
  assert (Hn' : ~ In a X').
  { pose proof (Permutation_NoDup P N) as Nb. rewrite E' in Nb. apply NoDup_remove_2 in Nb. intro; apply Nb, in_or_app; auto. }
  assert (T : left_end drift top a = total drift X) by (rewrite E at 1; apply left_end_at, Hn).
  assert (B : left_end drift bot a = total drift X') by (rewrite E' at 1; apply left_end_at, Hn').
  rewrite T, B.
  destruct X as [|x X]; destruct X' as [|x' X'].
  - exfalso. apply (I 1%nat); [lia|]. rewrite E, E'. simpl. reflexivity.
  - pose proof (drift_bot (x' :: X') (a :: Y') E' ltac:(discriminate) ltac:(discriminate)). simpl in *. lra.
  - pose proof (drift_top (x :: X) (a :: Y) E ltac:(discriminate) ltac:(discriminate)). simpl in *. lra.
  - pose proof (drift_bot (x' :: X') (a :: Y') E' ltac:(discriminate) ltac:(discriminate)).
    pose proof (drift_top (x :: X) (a :: Y) E ltac:(discriminate) ltac:(discriminate)). lra.
Qed.
End Witness.

(** * The criteria *)
Lemma total_nonpos f (l : list lab) : (forall a, In a l -> f a <= 0) -> total f l <= 0.
Proof. intro H. induction l as [|a l IH]; simpl; [lra|]. pose proof (H a (or_introl eq_refl)). specialize (IH ltac:(intros; apply H; right; assumption)). lra. Qed.

Lemma split_unique (U V X Y : list lab) b : U ++ b :: V = X ++ b :: Y -> NoDup (U ++ b :: V) -> U = X /\ V = Y.
Proof.
  revert X. induction U as [|u U IH]; intros [|z X] E Nb; simpl in *.
  - injection E as <-. auto.
  - injection E as -> E. exfalso. inversion Nb as [|? ? H1 H2]; subst. apply H1, in_or_app. right. left. reflexivity.
  - injection E as -> E. exfalso. inversion Nb as [|? ? H1 H2]; subst. apply H1. apply in_or_app. right. left. reflexivity.
  - injection E as -> E. inversion Nb as [|? ? H1 H2]; subst. destruct (IH _ E H2) as [-> ->]. auto.
Qed.

Section Criteria.
Variable e : exch.
Hypothesis Pe : proper e.
Hypothesis Ie : independent e.
Hypothesis Re : ~ reducible e.
Hypothesis Le : (2 <= length (e_top e))%nat.

Let N : NoDup (e_top e) := proj1 Pe.
Lemma irr : forall k, (0 < k < length (e_top e))%nat -> ~ Permutation (firstn k (e_top e)) (firstn k (e_bot e)).
Proof. intros k Hk Q. apply Re. exists k. split; assumption. Qed.
Lemma perm : Permutation (e_top e) (e_bot e).
Proof. apply Pe. Qed.
Lemma incl_bot : incl (e_bot e) (e_top e).
Proof. intros a Ha. apply (Permutation_in _ (Permutation_sym perm)), Ha. Qed.

Definition moved (f : lab -> R) (a : lab) : R := left_end f (e_bot e) a - left_end f (e_top e) a.
Lemma form_moved a : form (e_top e) (fun f => moved f a).
Proof. apply form_sub; apply form_left; try exact N; [apply incl_bot|apply incl_refl]. Qed.
Lemma moved_neg a : In a (e_top e) -> moved (drift (e_top e) (e_bot e)) a < 0.
Proof. intro Ha. apply drift_shift; [exact N|exact perm|exact irr|exact Le|exact Ha]. Qed.

Theorem independent_unbalanced : ~ balanced e.
Proof.
  intros (n & (a & Ha & Hn) & E).
  set (F := fun f => total (fun a => Q2R (inject_Z (Z.of_nat (n a))) * moved f a) (e_top e)).
  assert (Fn : form (e_top e) F) by (apply form_combine; intros; apply form_moved).
  assert (Qn : forall c, Q2R (inject_Z (Z.of_nat (n c))) = INR (n c)).
  { intro c. unfold Q2R. simpl. rewrite INR_IZR_INZ. lra. }
  assert (F0 : F (e_len e) = 0).
  { rewrite <- E. unfold F. apply total_ext. intros c _. rewrite Qn. reflexivity. }
  pose proof (independent_form (e_top e) (e_len e) F Ie Fn F0 (drift (e_top e) (e_bot e))) as Z. unfold F in Z.
  destruct (in_split a _ Ha) as (X & Y & S). 
  assert (Np : forall c, In c (e_top e) -> Q2R (inject_Z (Z.of_nat (n c))) * moved (drift (e_top e) (e_bot e)) c <= 0).
  { intros c Hc. rewrite Qn. pose proof (moved_neg c Hc). pose proof (pos_INR (n c)). nra. }
  assert (Ng : Q2R (inject_Z (Z.of_nat (n a))) * moved (drift (e_top e) (e_bot e)) a < 0).
  { rewrite Qn. pose proof (moved_neg a Ha). assert (0 < INR (n a)) by (apply lt_0_INR; lia). nra. }
  assert (In_X : forall c, In c X -> In c (e_top e)) by (intros; rewrite S; apply in_or_app; auto).
  assert (In_Y : forall c, In c Y -> In c (e_top e)) by (intros; rewrite S; apply in_or_app; right; right; auto).
  set (g := fun c => Q2R (inject_Z (Z.of_nat (n c))) * moved (drift (e_top e) (e_bot e)) c) in *.
  rewrite S, total_app in Z. simpl in Z.
  pose proof (total_nonpos g X (fun c Hc => Np c (In_X c Hc))). pose proof (total_nonpos g Y (fun c Hc => Np c (In_Y c Hc))).
  unfold g in *. lra.
Qed.

Theorem independent_unconnectable b t : not_last (e_bot e) b -> not_last (e_top e) t -> ~ connectable e b t.
Proof.
  intros (X & c & Y & Eb) (X' & c' & Y' & Et) (q & x & y & Hq & (U & V & Ub & Hx) & (U' & V' & Ut & Hy) & E).
  destruct (split_unique U V X (c :: Y) b) as [-> ->]; [congruence|rewrite <- Ub; exact (Permutation_NoDup perm N)|].
  destruct (split_unique U' V' X' (c' :: Y') t) as [-> ->]; [congruence|rewrite <- Ut; exact N|].
  set (F := fun f => (total f (X ++ [b]) + total (fun a => Q2R (this (q a)) * moved f a) (e_top e)) - total f (X' ++ [t])).
  assert (Fn : form (e_top e) F).
  { apply form_sub; [apply form_add|]; try (apply form_total; [exact N|]); try (apply form_combine; intros; apply form_moved).
    - intros a Ha. apply incl_bot. rewrite Eb. apply in_app_or in Ha. apply in_or_app. destruct Ha as [?|[<-|[]]]; [auto|right; left; reflexivity].
    - intros a Ha. rewrite Et. apply in_app_or in Ha. apply in_or_app. destruct Ha as [?|[<-|[]]]; [auto|right; left; reflexivity]. }
  assert (F0 : F (e_len e) = 0).
  { unfold F. rewrite !total_app. simpl. unfold moved. change (fun a => Q2R (q a) * (left_end (e_len e) (e_bot e) a - left_end (e_len e) (e_top e) a)) with (fun a => Q2R (q a) * shift e a). lra. }
  pose proof (independent_form (e_top e) (e_len e) F Ie Fn F0 (drift (e_top e) (e_bot e))) as Z. unfold F in Z.
  assert (A : total (drift (e_top e) (e_bot e)) (X ++ [b]) < 0).
  { apply (drift_bot _ _ N perm irr (X ++ [b]) (c :: Y)); [rewrite Eb, <- app_assoc; reflexivity|destruct X; discriminate|discriminate]. }
  assert (B : 0 < total (drift (e_top e) (e_bot e)) (X' ++ [t])).
  { apply (drift_top _ _ N perm irr (X' ++ [t]) (c' :: Y')); [rewrite Et, <- app_assoc; reflexivity|destruct X'; discriminate|discriminate]. }
  assert (C : total (fun a => Q2R (this (q a)) * moved (drift (e_top e) (e_bot e)) a) (e_top e) <= 0).
  { apply total_nonpos. intros a Ha. pose proof (moved_neg a Ha).
    assert (0 <= Q2R (this (q a))). { replace 0 with (Q2R 0) by (unfold Q2R; simpl; lra). apply Qle_Rle. exact (Hq a). }
    nra. }
  lra.
Qed.
End Criteria.

(** * Induction *)
Lemma flip_independent e : proper e -> independent e -> independent (flip e).
Proof.
  intros P H k E a Ha. cbn [flip e_top e_len] in *. apply H.
  - rewrite (total_perm _ (e_top e) (e_bot e)); [exact E|apply P].
  - apply (Permutation_in _ (Permutation_sym (proj1 (proj2 P)))), Ha.
Qed.
Lemma same_independent e e' : same_exch e e' -> independent e -> independent e'.
Proof.
  intros (E1 & _ & E3) H k E a Ha. rewrite <- E1 in *. apply (H k); [|exact Ha].
  rewrite <- E. apply total_ext. intros c _. rewrite E3. reflexivity.
Qed.
Lemma step_independent e e' : proper e -> rauzy_step e e' -> independent e -> independent e'.
Proof.
  intros P (a & b & X & Y1 & Y2 & Et & Eb & L & Et' & Eb' & La & Lo) H k E c Hc. rewrite Et' in *.
  assert (D : a <> b) by (intros ->; lra).
  pose proof (proj1 P) as N.
  assert (Ha : In a (e_top e)) by (rewrite Et; left; reflexivity).
  assert (Hb : In b (e_top e)).
  { apply (Permutation_in _ (Permutation_sym (proj1 (proj2 P)))). rewrite Eb. left. reflexivity. }
  set (k' := fun c => if Nat.eqb c b then (k b - k a)%Z else k c).
  assert (E' : total (fun c => IZR (k' c) * e_len e c) (e_top e) = 0).
  { rewrite (total_change _ (fun c => IZR (k c) * e_len e c) (e_top e) b N Hb).
    2:{ intros d Hd. unfold k'. destruct (Nat.eqb_spec d b); [contradiction|reflexivity]. }
    rewrite (total_change (fun c => IZR (k c) * e_len e' c) (fun c => IZR (k c) * e_len e c) (e_top e) a N Ha) in E.
    2:{ intros d Hd. rewrite Lo by exact Hd. reflexivity. }
    unfold k'. rewrite Nat.eqb_refl, minus_IZR. rewrite La in E. lra. }
  pose proof (H k' E') as K.
  assert (Ka : k a = 0%Z). { specialize (K a Ha). unfold k' in K. destruct (Nat.eqb_spec a b); [contradiction|exact K]. }
  specialize (K c Hc). unfold k' in K. destruct (Nat.eqb_spec c b); [subst; lia|exact K].
Qed.
Lemma path_independent e e' : proper e -> rauzy_path e e' -> independent e -> independent e'.
Proof.
  intros P R. induction R as [e e' S|e e1 e' S R IH|e e1 e' S R IH]; intros H.
  - exact (same_independent _ _ S H).
  - apply IH; [exact (rauzy_step_proper _ _ P S)|exact (step_independent _ _ P S H)].
  - pose proof (rauzy_step_proper _ _ (flip_proper _ P) S) as P1. apply flip_proper in P1.
    pose proof (step_independent _ _ (flip_proper _ P) S (flip_independent _ P H)) as H1.
    destruct e1 as [t1 b1 l1]. apply IH; [exact P1|]. exact (flip_independent _ (flip_proper _ P1) H1).
Qed.
