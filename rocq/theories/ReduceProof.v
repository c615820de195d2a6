(** reduce() cuts at the smallest invariant prefix. *)
From Coq Require Import Reals Lra Permutation.
From Verif Require Import Base QcTac LenT FM Subspace Lengths IET Api ZorichProof.
From Verif Require Spec.

(** Number of labels of [l] that are not in [m]. *)
Definition cnt (l m : list label) : Z := Z.of_nat (length (filter (fun c => negb (memb c m)) l)).

Lemma cnt_app l x m : cnt (l ++ [x]) m = (cnt l m + if memb x m then 0 else 1)%Z.
Proof.
  unfold cnt. rewrite filter_app, app_length. simpl. destruct (memb x m); simpl; lia.
Qed.

Lemma memb_app x l m : memb x (l ++ m) = memb x l || memb x m.
Proof. unfold memb. apply existsb_app. Qed.

Lemma memb_cons x c l : memb x (c :: l) = Nat.eqb x c || memb x l.
Proof. reflexivity. Qed.

Lemma cnt_grow l m x : NoDup l -> ~ In x m ->
  cnt l (m ++ [x]) = (cnt l m - if memb x l then 1 else 0)%Z.
Proof.
  intros N Hx. induction l as [|c l IH]; [reflexivity|].
  inversion N as [|c' l' Hc Nl]; subst. specialize (IH Nl). unfold cnt in *. cbn [filter].
  rewrite memb_app, !memb_cons. change (memb c []) with false.
  destruct (Nat.eqb_spec c x) as [->|Hne].
  - rewrite Nat.eqb_refl. cbn [orb]. rewrite orb_true_r. cbn [negb].
    assert (Hm : memb x m = false) by (apply memb_nIn, Hx). rewrite Hm. cbn [negb length].
    assert (Hl : memb x l = false) by (apply memb_nIn, Hc). rewrite Hl in IH. lia.
  - destruct (Nat.eqb_spec x c) as [->|_]; [congruence|]. cbn [orb]. rewrite orb_false_r.
    destruct (memb c m); cbn [negb length]; lia.
Qed.

Lemma cnt_zero l m : cnt l m = 0%Z <-> incl l m.
Proof.
  unfold cnt. split.
  - intros H c Hc. destruct (memb c m) eqn:E; [apply memb_In, E|]. exfalso.
    assert (Hin : In c (filter (fun c => negb (memb c m)) l)) by (apply filter_In; rewrite E; auto).
    destruct (filter (fun c => negb (memb c m)) l); [destruct Hin | simpl in H; lia].
  - intros H. assert (E : filter (fun c => negb (memb c m)) l = []); [|rewrite E; reflexivity].
    induction l as [|c l IH]; [reflexivity|]. simpl.
    assert (Hc : memb c m = true) by (apply memb_In, H; left; reflexivity). rewrite Hc. simpl.
    apply IH. intros x Hx. apply H; right; exact Hx.
Qed.

Lemma cnt_nonneg l m : (0 <= cnt l m)%Z.
Proof. unfold cnt. lia. Qed.

(** The marks are the labels passed in exactly one of the rows. *)
Definition marks_ok (marks T1 B1 : list label) : Prop :=
  forall c, In c marks <-> (In c T1 /\ ~ In c B1) \/ (~ In c T1 /\ In c B1).

Lemma In_unmark c x marks : In c (unmark x marks) <-> c <> x /\ In c marks.
Proof.
  unfold unmark. split.
  - intros H. apply in_remove in H. tauto.
  - intros [H1 H2]. apply in_in_remove; auto.
Qed.

(** One row advances by one label. *)
Lemma mark_step marks T1 B1 x ta ba : ~ In x T1 -> NoDup B1 -> marks_ok marks T1 B1 ->
  ta = cnt T1 B1 -> ba = cnt B1 T1 ->
  exists marks', (if memb x marks then (unmark x marks, ta, (ba - 1)%Z) else (mark x marks, (ta + 1)%Z, ba))
    = (marks', cnt (T1 ++ [x]) B1, cnt B1 (T1 ++ [x])) /\ marks_ok marks' (T1 ++ [x]) B1.
Proof.
  intros Hx NB M -> ->. pose proof (M x) as Mx.
  rewrite cnt_app, (cnt_grow B1 T1 x NB Hx).
  destruct (memb x marks) eqn:E.
  - apply memb_In in E. apply Mx in E. assert (HB : In x B1) by tauto.
    assert (Em : memb x B1 = true) by (apply memb_In, HB). rewrite Em.
    eexists. split; [rewrite Z.add_0_r; reflexivity|].
    intros c. rewrite In_unmark, in_app_iff. simpl. specialize (M c).
    destruct (Nat.eq_dec c x) as [->|Hne]; [tauto|].
    split; intros; intuition congruence.
  - apply memb_nIn in E. assert (HB : ~ In x B1) by tauto.
    assert (Em : memb x B1 = false) by (apply memb_nIn, HB). rewrite Em.
    eexists. split; [rewrite Z.sub_0_r; reflexivity|].
    intros c. unfold mark. simpl. rewrite in_app_iff. simpl. specialize (M c).
    destruct (Nat.eq_dec c x) as [->|Hne]; [tauto|].
    split; intros; intuition congruence.
Qed.

Lemma marks_ok_sym marks T1 B1 : marks_ok marks T1 B1 -> marks_ok marks B1 T1.
Proof. intros M c. specialize (M c). tauto. Qed.

Lemma red_loop_ok : forall t b T1 B1 marks,
  NoDup (T1 ++ t) -> NoDup (B1 ++ b) -> Permutation (T1 ++ t) (B1 ++ b) -> length T1 = length B1 ->
  marks_ok marks T1 B1 -> t <> [] ->
  exists k, (1 <= k <= length t) /\
    red_loop t b marks (cnt T1 B1) (cnt B1 T1) = Ok (skipn k t, skipn k b) /\
    Permutation (T1 ++ firstn k t) (B1 ++ firstn k b) /\
    forall j, 1 <= j < k -> ~ Permutation (T1 ++ firstn j t) (B1 ++ firstn j b).
Proof.
  induction t as [|x t IH]; intros b T1 B1 marks NT NB PP HL M Hne; [congruence|].
  pose proof (Permutation_length PP) as HL2. rewrite !app_length in HL2. simpl in HL2.
  destruct b as [|y b]; [simpl in HL2; lia|]. simpl in HL2.
  cbn [red_loop].
  assert (Hx : ~ In x T1).
  { apply NoDup_remove_2 in NT. rewrite in_app_iff in NT. tauto. }
  assert (Hy : ~ In y B1).
  { apply NoDup_remove_2 in NB. rewrite in_app_iff in NB. tauto. }
  assert (Nl : forall (A B : list label), NoDup (A ++ B) -> NoDup A).
  { clear. induction A as [|c A IH]; simpl; intros B H; [constructor|].
    inversion H; subst. constructor; [|eapply IH; eassumption]. intros Hin; apply H2. apply in_or_app; left; exact Hin. }
  assert (NT' : NoDup ((T1 ++ [x]) ++ t)) by (rewrite <- app_assoc; exact NT).
  assert (NB' : NoDup ((B1 ++ [y]) ++ b)) by (rewrite <- app_assoc; exact NB).
  destruct (mark_step marks T1 B1 x _ _ Hx (Nl _ _ NB) M eq_refl eq_refl) as [m1 [E1 M1]]. rewrite E1.
  destruct (mark_step m1 B1 (T1 ++ [x]) y _ _ Hy (Nl _ _ NT') (marks_ok_sym _ _ _ M1) eq_refl eq_refl) as [m2 [E2 M2]].
  assert (E3 : (if memb y m1 then (unmark y m1, (cnt (T1 ++ [x]) B1 - 1)%Z, cnt B1 (T1 ++ [x]))
                else (mark y m1, cnt (T1 ++ [x]) B1, (cnt B1 (T1 ++ [x]) + 1)%Z))
               = (m2, cnt (T1 ++ [x]) (B1 ++ [y]), cnt (B1 ++ [y]) (T1 ++ [x]))).
  { destruct (memb y m1); congruence. }
  rewrite E3. clear E1 E2 E3. apply marks_ok_sym in M2.
  assert (Hiff : (cnt (T1 ++ [x]) (B1 ++ [y]) =? 0)%Z && (cnt (B1 ++ [y]) (T1 ++ [x]) =? 0)%Z = true
                 <-> Permutation (T1 ++ [x]) (B1 ++ [y])).
  { rewrite andb_true_iff, !Z.eqb_eq, !cnt_zero. split.
    - intros [H1 H2]. apply NoDup_Permutation; [eapply Nl; exact NT' | eapply Nl; exact NB'|].
      intros c. split; [apply H1 | apply H2].
    - intros H. split; intros c Hc; [apply (Permutation_in _ H), Hc | apply (Permutation_in _ (Permutation_sym H)), Hc]. }
  destruct ((cnt (T1 ++ [x]) (B1 ++ [y]) =? 0)%Z && (cnt (B1 ++ [y]) (T1 ++ [x]) =? 0)%Z) eqn:Ez.
  - exists 1. simpl. split; [lia|]. split; [reflexivity|]. split; [apply Hiff; reflexivity|]. intros j Hj; lia.
  - assert (Hnp : ~ Permutation (T1 ++ [x]) (B1 ++ [y])) by (rewrite <- Hiff; discriminate).
    destruct t as [|x' t'].
    { exfalso. apply Hnp. destruct b as [|y' b]; [exact PP | simpl in HL2; lia]. }
    destruct (IH b (T1 ++ [x]) (B1 ++ [y]) m2) as [k [K1 [K2 [K3 K4]]]]; auto.
    + rewrite <- !app_assoc. exact PP.
    + rewrite !app_length; simpl; lia.
    + discriminate.
    + exists (S k). split; [simpl in *; lia|]. split; [exact K2|]. split.
      { cbn [firstn]. rewrite <- !app_assoc in K3. exact K3. }
      intros j Hj. destruct j as [|j]; [lia|]. destruct j as [|j].
      * cbn [firstn]. exact Hnp.
      * specialize (K4 (S j) ltac:(lia)). rewrite <- !app_assoc in K4. exact K4.
Qed.

Section Reduce.
Context {T : Type} {O : LenOps T} {W : LenLaws T}.

(** The result of a cut at position [k]. *)
Definition left_part (i : iet T) (k : nat) : iet T :=
  set_saf (set_labels i (firstn k (i_top i)) (firstn k (i_bottom i))) None.
Definition right_part (i : iet T) (k : nat) : iet T :=
  mkiet (skipn k (i_top i)) (skipn k (i_bottom i)) false None tracker_init.

Lemma iet_make_ok (base : slen T) top bottom :
  NoDup top -> Permutation top bottom -> top <> [] -> (forall l, In l top -> posl base l) ->
  iet_make base top bottom = Ok (mkiet top bottom false None tracker_init).
Proof.
  intros N P Hne Hp. unfold iet_make.
  pose proof (Permutation_length P) as HL. rewrite HL, Nat.eqb_refl. cbn [assert_].
  assert (NB : NoDup bottom) by (eapply Permutation_NoDup; eassumption).
  rewrite (nodup_fixed_point Nat.eq_dec N), (nodup_fixed_point Nat.eq_dec NB), HL, Nat.eqb_refl. cbn [assert_].
  rewrite (mapM_ok _ (fun _ => true)).
  - cbn [bind]. assert (E : forallb (fun b : bool => b) (map (fun _ : nat => true) top) = true).
    { clear. induction top; simpl; auto. }
    rewrite E. cbn [assert_]. destruct bottom as [|b bottom]; [|reflexivity].
    apply Permutation_sym, Permutation_nil in P. contradiction.
  - intros l Hl. destruct (Hp l Hl) as [x [Hx Hxp]]. rewrite (sl_at_ok _ _ _ Hx). cbn [bind].
    f_equal. apply l_bool_true. lra.
Qed.

Lemma reduce_ok (i : iet T) (s : slen T) : wf i s ->
  (exists k, Spec.invariant_prefix (exch_of i s) k /\
     (forall j, Spec.invariant_prefix (exch_of i s) j -> k <= j) /\
     reduce i s = Ok (Some (right_part i k), left_part i k)) \/
  (~ Spec.reducible (exch_of i s) /\ reduce i s = Ok (None, i)).
Proof.
  intros [N [P [Hne [Hp Hst]]]].
  assert (NB : NoDup (i_bottom i)) by (eapply Permutation_NoDup; eassumption).
  pose proof (Permutation_length P) as HL.
  destruct (red_loop_ok (i_top i) (i_bottom i) [] [] []) as [k [K1 [K2 [K3 K4]]]]; auto.
  { intros c. simpl. tauto. }
  simpl in K3, K4. change (cnt [] []) with 0%Z in K2.
  unfold reduce. rewrite K2. cbn [bind].
  assert (Hmin : forall j, Spec.invariant_prefix (exch_of i s) j -> k <= j).
  { intros j [Hj1 Hj2]. simpl in *. destruct (le_lt_dec k j) as [H|H]; [exact H|].
    exfalso. apply (K4 j); [lia | exact Hj2]. }
  destruct (skipn k (i_top i)) as [|x t'] eqn:Es.
  - assert (Hk : k = length (i_top i)).
    { assert (Hl : length (skipn k (i_top i)) = 0) by (rewrite Es; reflexivity). rewrite skipn_length in Hl. lia. }
    rewrite Hk at 1. rewrite HL, skipn_all. cbn [assert_].
    right. split; [|reflexivity]. intros [j Hj]. pose proof (Hmin j Hj). destruct Hj as [Hj1 _]. simpl in *. lia.
  - assert (Hk : k < length (i_top i)).
    { assert (Hl : length (skipn k (i_top i)) <> 0) by (rewrite Es; discriminate). rewrite skipn_length in Hl. lia. }
    rewrite <- Es. rewrite !skipn_length.
    replace (length (i_top i) - (length (i_top i) - k)) with k by lia.
    replace (length (i_bottom i) - (length (i_bottom i) - k)) with k by lia.
    rewrite !firstn_length, !Nat.min_l, Nat.eqb_refl by lia. cbn [assert_].
    left. exists k. split; [split; [simpl; lia | exact K3]|]. split; [exact Hmin|].
    rewrite iet_make_ok.
    + reflexivity.
    + rewrite <- (firstn_skipn k (i_top i)) in N. clear - N. induction (firstn k (i_top i)); [exact N|].
      simpl in N. inversion N; auto.
    + rewrite <- (firstn_skipn k (i_top i)) in P. rewrite <- (firstn_skipn k (i_bottom i)) in P.
      rewrite K3 in P. apply Permutation_app_inv_l in P. exact P.
    + rewrite Es. discriminate.
    + intros l Hl. apply Hp. rewrite <- (firstn_skipn k (i_top i)). apply in_or_app; right; exact Hl.
Qed.

Lemma wf_cut (i : iet T) (s : slen T) k : wf i s -> Spec.invariant_prefix (exch_of i s) k ->
  wf (left_part i k) s /\ wf (right_part i k) s.
Proof.
  intros [N [P [Hne [Hp Hst]]]] [Hk K3]. simpl in *.
  assert (P2 : Permutation (skipn k (i_top i)) (skipn k (i_bottom i))).
  { rewrite <- (firstn_skipn k (i_top i)) in P. rewrite <- (firstn_skipn k (i_bottom i)) in P.
    rewrite K3 in P. apply Permutation_app_inv_l in P. exact P. }
  assert (N1 : NoDup (firstn k (i_top i)) /\ NoDup (skipn k (i_top i))).
  { rewrite <- (firstn_skipn k (i_top i)) in N. revert N. generalize (skipn k (i_top i)). clear.
    induction (firstn k (i_top i)) as [|x l IH]; simpl; intros m N; [split; [constructor | exact N]|].
    inversion N; subst. destruct (IH _ H2). split; [|assumption]. constructor; [|assumption].
    intros Hin. apply H1. apply in_or_app; left; exact Hin. }
  destruct N1 as [N1 N2]. split; (split; [|split; [|split; [|split]]]); simpl; auto.
  - intros E. apply (f_equal (@length _)) in E. rewrite firstn_length in E. simpl in E. lia.
  - intros l Hl. apply Hp. rewrite <- (firstn_skipn k (i_top i)). apply in_or_app; left; exact Hl.
  - intros E. apply (f_equal (@length _)) in E. rewrite skipn_length in E. simpl in E. lia.
  - intros l Hl. apply Hp. rewrite <- (firstn_skipn k (i_top i)). apply in_or_app; right; exact Hl.
Qed.

End Reduce.
