(** The surface that is glued from the components of a decomposition is connected. *)
From Coq Require Import Reals List Lia Permutation.
From Verif Require Import Base LenT Lengths IET Spec Dyn Saddle Path SpecGlue Glue Decomp DecompSim DecompInv DecompCons GlueDec.
Import ListNotations.
Open Scope list_scope.
Open Scope nat_scope.

Lemma items_cyc {A} (w : list A) x : In x w <-> exists y, In (x, y) (cyc w).
Proof.
  split; [|intros (y & H); apply (in_cyc _ _ _ H)].
  destruct w as [|a w]; [intros []|]. cbn [cyc]. generalize (a :: w). intro l. clear w. induction l as [|b l IH]; [intros []|].
  intros [->|H]; cbn [ap]; [eexists; left; reflexivity|]. destruct (IH H) as (y & Hy). exists y. right. exact Hy.
Qed.

Lemma same_items {A} (w w' : list A) : (forall p, In p (cyc w) <-> In p (cyc w')) -> forall x, In x w <-> In x w'.
Proof. intros H x. rewrite !items_cyc. split; intros (y & Hy); exists y; apply H; exact Hy. Qed.

Definition has (W : list (list item)) (i : nat) (k : connection) : Prop := exists w, nth_error W i = Some w /\ In (cv k) w.
Definition beside_ (W : list (list item)) (i j : nat) : Prop := exists k, has W i k /\ has W j (conn_neg k).
Definition joined (W : list (list item)) : Prop := forall i j, i < length W -> j < length W -> exists n, iter (beside_ W) n i j.

Lemma iter_add {A} (R : A -> A -> Prop) n m x y z : iter R n x y -> iter R m y z -> iter R (n + m) x z.
Proof. revert x. induction n as [|n IH]; intros x; cbn [iter Nat.add]; [intros ->; auto|]. intros (x1 & H & H') H2. exists x1. split; [exact H|]. exact (IH _ H' H2). Qed.

Lemma has_lt W i k : has W i k -> i < length W.
Proof. intros (w & H & _). apply nth_error_Some. congruence. Qed.

Lemma joined_keep (R : nat -> nat -> Prop) (W W' : list (list item)) :
  (forall j, j < length W' -> exists i, i < length W /\ R i j) ->
  (forall i k, has W i k -> exists j, R i j /\ has W' j k) ->
  (forall i j1 j2, R i j1 -> R i j2 -> j1 < length W' -> j2 < length W' -> exists n, iter (beside_ W') n j1 j2) ->
  joined W -> joined W'.
Proof.
  intros H1 H2 H3 J j j' L L'. destruct (H1 j L) as (i & Li & Ri). destruct (H1 j' L') as (i' & Li' & Ri').
  destruct (J i i' Li Li') as (n & Hn). clear Li Li'. revert i j L Ri Hn. induction n as [|n IH]; intros i j L Ri; cbn [iter].
  - intros ->. exact (H3 _ _ _ Ri Ri' L L').
  - intros (m & (k & K1 & K2) & Hn). destruct (H2 _ _ K1) as (j1 & R1 & H1'). destruct (H2 _ _ K2) as (j2 & R2 & H2').
    destruct (H3 _ _ _ Ri R1 L (has_lt _ _ _ H1')) as (a & Ha). destruct (IH m j2 (has_lt _ _ _ H2') R2 Hn) as (b & Hb).
    exists (a + S b). apply (iter_add _ _ _ _ _ _ Ha). exists j2. split; [exists k; auto|exact Hb].
Qed.

Lemma joined_same (W W' : list (list item)) : length W' = length W -> (forall i k, has W i k -> has W' i k) -> joined W -> joined W'.
Proof.
  intros L H. apply (joined_keep eq).
  - intros j Hj. exists j. split; [lia|reflexivity].
  - intros i k Hk. exists i. auto.
  - intros i j1 j2 <- <- _ _. exists 0. reflexivity.
Qed.

Lemma nth_mid {A} (l1 l2 : list A) x i : nth_error (l1 ++ x :: l2) i = if i =? length l1 then Some x else nth_error (l1 ++ l2) (if i <? length l1 then i else i - 1).
Proof.
  destruct (Nat.eqb_spec i (length l1)) as [->|N]; [rewrite nth_error_app2, Nat.sub_diag by lia; reflexivity|].
  destruct (Nat.ltb_spec i (length l1)) as [L|L]; [rewrite !nth_error_app1 by lia; reflexivity|].
  rewrite !nth_error_app2 by lia. destruct i; [lia|]. replace (S i - length l1) with (S (i - length l1)) by lia. cbn. f_equal. lia.
Qed.

Lemma joined_mid W1 w w' W2 : (forall k, In (cv k) w -> In (cv k) w') -> joined (W1 ++ w :: W2) -> joined (W1 ++ w' :: W2).
Proof.
  intros H. apply joined_same; [rewrite !app_length; reflexivity|].
  intros i k (v & Hv & Hk). unfold has. rewrite nth_mid in Hv |- *. destruct (Nat.eqb_spec i (length W1)) as [->|].
  - injection Hv as <-. exists w'. auto.
  - exists v. auto.
Qed.

Lemma joined_split W1 w w1 w2 W2 s t : (forall k, In (cv k) w -> In (cv k) w1 \/ In (cv k) w2) ->
  In (Conn s t) w1 -> In (Conn t s) w2 -> joined (W1 ++ w :: W2) -> joined (W1 ++ w1 :: W2 ++ [w2]).
Proof.
  intros H C1 C2. set (c := length W1). set (z := length (W1 ++ w :: W2)).
  assert (Z : z = c + S (length W2)) by (unfold z, c; rewrite app_length; reflexivity).
  assert (Lz : length (W1 ++ w1 :: W2 ++ [w2]) = S z) by (rewrite Z; unfold c; rewrite !app_length; cbn [length]; rewrite app_length; cbn; lia).
  assert (N1 : nth_error (W1 ++ w1 :: W2 ++ [w2]) c = Some w1) by (rewrite nth_mid; unfold c; rewrite Nat.eqb_refl; reflexivity).
  assert (N2 : nth_error (W1 ++ w1 :: W2 ++ [w2]) z = Some w2).
  { replace (W1 ++ w1 :: W2 ++ [w2]) with ((W1 ++ w1 :: W2) ++ [w2]) by (rewrite <- app_assoc; reflexivity).
    rewrite nth_error_app2; rewrite app_length; cbn [length]; fold c; [|lia]. replace (z - _) with 0 by lia. reflexivity. }
  set (q := mkconn s t).
  assert (B1 : beside_ (W1 ++ w1 :: W2 ++ [w2]) c z) by (exists q; split; eexists; split; [exact N1|exact C1|exact N2|exact C2]).
  assert (B2 : beside_ (W1 ++ w1 :: W2 ++ [w2]) z c) by (exists (conn_neg q); split; eexists; split; [exact N2|exact C2|exact N1|exact C1]).
  apply (joined_keep (fun i j => i = j \/ i = c /\ j = z)).
  - intros j Hj. fold z. destruct (Nat.eq_dec j z) as [->|]; [exists c; split; [lia|auto]|exists j; split; [lia|auto]].
  - intros i k (v & Hv & Hk). destruct (Nat.eq_dec i c) as [->|Ni].
    + rewrite nth_mid in Hv. unfold c in Hv. rewrite Nat.eqb_refl in Hv. injection Hv as <-. destruct (H k Hk) as [H'|H'].
      * exists c. split; [auto|]. exists w1. auto.
      * exists z. split; [auto|]. exists w2. auto.
    + exists i. split; [auto|]. exists v. split; [|exact Hk].
      replace (W1 ++ w1 :: W2 ++ [w2]) with ((W1 ++ w1 :: W2) ++ [w2]) by (rewrite <- app_assoc; reflexivity).
      assert (Li : i < z) by (unfold z; apply nth_error_Some; congruence).
      rewrite nth_error_app1 by (rewrite app_length; cbn [length]; fold c; lia).
      rewrite nth_mid in Hv |- *. fold c in Hv |- *. destruct (Nat.eqb_spec i c); [contradiction|exact Hv].
  - intros i j1 j2 [<-|[-> ->]] [<-|[E ->]] _ _.
    + exists 0. reflexivity.
    + subst i. exists 1, z. split; [exact B1|reflexivity].
    + exists 1, c. split; [exact B2|reflexivity].
    + exists 0. reflexivity.
Qed.

Lemma cpath_joined e0 E1 E2 e f e' f' : cpath e f e' f' -> forall D, conn_inv e0 (E1 ++ e :: E2) f D ->
  joined (map (word f) (E1 ++ e :: E2)) -> joined (map (word f') (E1 ++ e' :: E2)).
Proof.
  assert (Ext : forall (e : exch) f f1 a b onTop D, conn_inv e0 (E1 ++ e :: E2) f D -> In a (e_top e) -> In b (e_top e) -> (forall l, f1 l = conn_move onTop a b f l) ->
    map (word f1) E1 = map (word f) E1 /\ map (word f1) E2 = map (word f) E2).
  { clear. intros e f f1 a b onTop D H Ia Ib F.
    assert (Q : forall x, In x (E1 ++ E2) -> word f1 x = word f x).
    { intros x Hx. apply word_ext; [reflexivity|reflexivity|]. intros l Hl. rewrite F. apply conn_move_out; intro Q; subst l;
      [destruct (others_free _ _ _ _ _ _ H a x Ia Hx)|destruct (others_free _ _ _ _ _ _ H b x Ib Hx)]; tauto. }
    split; apply map_ext_in; intros x Hx; apply Q; apply in_app_iff; auto. }
  induction 1 as [e e' f f' S F|e f e1 f1 e' f' a b S Ha Hb F _ IH|e f e1 f1 e' f' a b S Ha Hb F _ IH]; intros D H J.
  - assert (Q : map (word f') (E1 ++ e' :: E2) = map (word f) (E1 ++ e :: E2)); [|rewrite Q; exact J].
    rewrite !map_app. cbn [map]. destruct S as (S1 & S2 & _). rewrite (word_ext f f' e e') by auto.
    f_equal; [|f_equal]; apply map_ext_in; intros x Hx; apply word_ext; auto.
  - destruct (ci_proper _ _ _ _ H e) as (P & _); [apply in_middle; auto|].
    assert (Nab : a <> b) by (eapply step_head_neq; [exact P|exact S|exact Ha|exact Hb]).
    destruct (astep_inv _ _ _ _ _ _ H (a_path E1 e E2 f e1 f1 (cp_top e f e1 f1 e1 f1 a b S Ha Hb F (cp_refl _ _ _ _ (same_exch_refl e1) (fun _ => eq_refl))))) as (D1 & H1).
    apply (IH D1 H1). clear IH. rewrite map_app in J |- *. cbn [map] in J |- *.
    assert (Ia : In a (e_top e)) by (apply hd_error_In; exact Ha).
    assert (Ib : In b (e_top e)) by (destruct P as (_ & Pp & _); apply (Permutation_in _ (Permutation_sym Pp)); apply hd_error_In; exact Hb).
    destruct (Ext _ _ _ _ _ _ _ H Ia Ib F) as [-> ->]. revert J. apply joined_mid.
    destruct (step_word f f1 e e1 a b (ci_topR _ _ _ _ H) P Nab S Ha Hb F) as (V & Z & U & _ & W & W').
    intros k Hk. apply (same_items _ _ W'). apply (same_items _ _ W) in Hk. cbn [In] in *. rewrite !in_app_iff in *. cbn [In] in *. rewrite !in_app_iff in *. tauto.
  - destruct (ci_proper _ _ _ _ H e) as (P & _); [apply in_middle; auto|].
    assert (Nab : a <> b) by (eapply (step_head_neq (flip e)); [apply flip_proper; exact P|exact S|exact Ha|exact Hb]).
    destruct (astep_inv _ _ _ _ _ _ H (a_path E1 e E2 f e1 f1 (cp_bot e f e1 f1 e1 f1 a b S Ha Hb F (cp_refl _ _ _ _ (same_exch_refl e1) (fun _ => eq_refl))))) as (D1 & H1).
    apply (IH D1 H1). clear IH. rewrite map_app in J |- *. cbn [map] in J |- *.
    assert (Ia : In a (e_top e)) by (destruct P as (_ & Pp & _); apply (Permutation_in _ (Permutation_sym Pp)); apply hd_error_In; exact Ha).
    assert (Ib : In b (e_top e)) by (apply hd_error_In; exact Hb).
    destruct (Ext _ _ _ _ _ _ _ H Ia Ib F) as [-> ->]. revert J. apply joined_mid.
    destruct (step_word_bot f f1 e e1 a b (ci_topR _ _ _ _ H) P Nab S Ha Hb F) as (V & Z & U & _ & W & W').
    intros k Hk. apply (same_items _ _ W'). apply (same_items _ _ W) in Hk. cbn [In] in *. rewrite !in_app_iff in *. cbn [In] in *. rewrite !in_app_iff in *. tauto.
Qed.

Theorem astep_joined e0 E f E' f' D : conn_inv e0 E f D -> astep E f E' f' -> joined (map (word f) E) -> joined (map (word f') E').
Proof.
  intros H A J. destruct A as [E E' f f' A F|E1 e E2 f e' f' P|E1 e E2 f k b t b' src tgt f' Pk Hb Ht Hb' Hs Htg F|E1 e E2 f a b first e' src tgt f' M Ha Hb Hf Hs Htg F].
  - rewrite (agree_words _ _ _ _ A F). exact J.
  - eapply cpath_joined; eassumption.
  - destruct (ci_proper _ _ _ _ H e) as (P & _); [apply in_middle; auto|].
    assert (Es : src = tip b (bottomRight (f b))) by (apply skip_tip; exact Hs).
    assert (Et : tgt = mksep t ANTIPARALLEL) by (rewrite (ci_topR _ _ _ _ H) in Htg; cbn in Htg; injection Htg as <-; reflexivity).
    destruct (split_word f f' e k b t b' src tgt (ci_topR _ _ _ _ H) P Pk Hb Ht Hb' Es Et F) as (x & X & y & Y & z & Z & W & W1 & W2).
    assert (Ib : In b (e_bot e)) by (rewrite <- (firstn_skipn k (e_bot e)); apply in_app_iff; left; apply in_rev; apply hd_error_In; exact Hb).
    assert (Ib' : In b' (e_bot e)) by (rewrite <- (firstn_skipn k (e_bot e)); apply in_app_iff; right; apply hd_error_In; exact Hb').
    pose proof P as (_ & Pp & _). apply (Permutation_in _ (Permutation_sym Pp)) in Ib. apply (Permutation_in _ (Permutation_sym Pp)) in Ib'.
    assert (Q : forall x0, In x0 (E1 ++ E2) -> word f' x0 = word f x0).
    { intros x0 Hx. apply word_ext; [reflexivity|reflexivity|]. intros l Hl. rewrite F. unfold register, upd. destruct (Nat.eqb_spec l b') as [->|].
      - destruct (others_free _ _ _ _ _ _ H b' x0 Ib' Hx). tauto.
      - destruct (Nat.eqb_spec l b) as [->|]; [|reflexivity]. destruct (others_free _ _ _ _ _ _ H b x0 Ib Hx). tauto. }
    rewrite map_app in J |- *. cbn [map] in J |- *. rewrite map_app. cbn [map].
    rewrite (map_ext_in _ (word f) E1) by (intros; apply Q; apply in_app_iff; auto). rewrite (map_ext_in _ (word f) E2) by (intros; apply Q; apply in_app_iff; auto).
    apply (joined_split _ (word f e) _ _ _ src tgt); [| | |exact J].
    + intros c Hc. apply (same_items _ _ W) in Hc. rewrite (same_items _ _ W1), (same_items _ _ W2).
      unfold cv in *. repeat (cbn [In app] in *; rewrite ?in_app_iff in * ). intuition discriminate.
    + apply (same_items _ _ W1). apply in_app_iff. right. left. reflexivity.
    + apply (same_items _ _ W2). left. reflexivity.
  - destruct (ci_proper _ _ _ _ H e) as (P & _); [apply in_middle; auto|].
    assert (Es : src = tip b (bottomRight (f b))) by (apply skip_tip; exact Hs).
    assert (Et : tgt = mksep a ANTIPARALLEL) by (rewrite (ci_topR _ _ _ _ H) in Htg; cbn in Htg; injection Htg as <-; reflexivity).
    assert (Nab : a <> b).
    { intros ->. pose proof M as (a' & b' & X & Y1 & Y2 & Q1 & Q2 & _). rewrite Q1 in Ha. rewrite Q2 in Hb. cbn in Ha, Hb. injection Ha as ->. injection Hb as ->.
      destruct P as (N & Pp & _). apply (Permutation_NoDup Pp) in N. rewrite Q2 in N. inversion N as [|? ? Q _]; subst. apply Q. apply in_app_iff. right. left. reflexivity. }
    destruct (merge_word f f' e e' a b first src tgt (ci_topR _ _ _ _ H) P Nab M Ha Hb Hf Es Et F) as (v & V & z & Z & U & Fr & W & W').
    assert (Ia : In a (e_top e)) by (apply hd_error_In; exact Ha).
    assert (Ib : In b (e_top e)) by (destruct P as (_ & Pp & _); apply (Permutation_in _ (Permutation_sym Pp)), hd_error_In, Hb).
    assert (If : In first (e_top e)).
    { destruct M as (a' & b' & X & Y1 & Y2 & Q1 & _ & _ & Q2 & _). rewrite Q1. right. rewrite <- Q2. apply hd_error_In. exact Hf. }
    assert (Q : forall x0, In x0 (E1 ++ E2) -> word f' x0 = word f x0).
    { intros x0 Hx. apply word_ext; [reflexivity|reflexivity|]. intros l Hl. rewrite F. apply merge_conns_out; intros ->.
      - destruct (others_free _ _ _ _ _ _ H b x0 Ib Hx). tauto.
      - destruct (others_free _ _ _ _ _ _ H a x0 Ia Hx). tauto.
      - destruct (others_free _ _ _ _ _ _ H first x0 If Hx). tauto. }
    rewrite map_app in J |- *. cbn [map] in J |- *.
    rewrite (map_ext_in _ (word f) E1) by (intros; apply Q; apply in_app_iff; auto). rewrite (map_ext_in _ (word f) E2) by (intros; apply Q; apply in_app_iff; auto).
    revert J. apply joined_mid. intros c Hc. apply (same_items _ _ W) in Hc. apply (same_items _ _ W').
    unfold cv in *. repeat (cbn [In app] in *; rewrite ?in_app_iff in * ). intuition discriminate.
Qed.

Theorem asteps_joined e0 E f E' f' : asteps E f E' f' -> forall D, conn_inv e0 E f D -> joined (map (word f) E) -> joined (map (word f') E').
Proof.
  induction 1 as [|E f E1 f1 E' f' S _ IH]; intros D H J; [exact J|].
  destruct (astep_inv _ _ _ _ _ _ H S) as (D1 & H1). apply (IH D1 H1). exact (astep_joined _ _ _ _ _ _ H S J).
Qed.

Lemma joined_one w : joined [w].
Proof. intros i j Hi Hj. cbn in Hi, Hj. exists 0. cbn. lia. Qed.
