(** Lengths spanned by two numbers: decomposing makes progress until every component is
    settled. *)
From Coq Require Import Reals Lra Lia Permutation List ZArith Classical.
From Verif Require Import RankApi Endless Rank2 RankEnd.
From Verif Require Import Base QcTac LenT FM Subspace Lengths IET Decomp Spec SpecDec SpecRank Api DecApi.
From Verif Require Import ZorichProof Dyn Saddle ReduceProof Saf Bosh Path Direct Similar InduceProof InduceCons World Seq.
From Verif Require Import DecompSim DecompInv DecompNav DecompRef DecompStep DecompAll DecompEnds DecompDyn DecompCons DecompMore Fuel DecompBudget.
From Verif Require Import Rank.
Open Scope nat_scope.

(** * Exchanges that agree on their own labels *)

Lemma agree_trans e f g : agree e f -> agree f g -> agree e g.
Proof. intros (A & B & C) (A' & B' & C'). repeat split; try congruence. intros a Ha. rewrite C by exact Ha. apply C'. rewrite <- A, <- B. exact Ha. Qed.
Lemma agree_able e f : agree e f -> able e -> able f.
Proof.
  intros (A & B & C) (a & b & X & Y & H1 & H2 & H3). exists a, b, X, Y. rewrite <- A, <- B.
  rewrite <- !C; [auto| |]; rewrite H1, H2; [right | left]; left; reflexivity.
Qed.
Lemma agree_reducible e f : agree e f -> reducible e -> reducible f.
Proof. intros (A & B & _) (k & H1 & H2). exists k. split; rewrite <- A, <- ?B; assumption. Qed.
Lemma agree_balanced e f : agree e f -> balanced e -> balanced f.
Proof.
  intros (A & B & C) (n & (a & Ha & Hn) & H). exists n. split; [exists a; rewrite <- A; auto|]. rewrite <- A, <- H.
  apply total_ext. intros c _. unfold shift. rewrite <- A, <- B.
  rewrite (left_end_ext_in (e_len f) (e_len e) (e_bot e)) by (intros x Hx; symmetry; apply C; right; exact Hx).
  rewrite (left_end_ext_in (e_len f) (e_len e) (e_top e)) by (intros x Hx; symmetry; apply C; left; exact Hx). reflexivity.
Qed.

Lemma rz_proper e : proper e -> able e -> proper (rz e).
Proof. intros P A. exact (proj2 (path_induced _ _ P (move_path _ _ _ _ (go_move _ P A)))). Qed.

Lemma put_before_in b a Y x : In x (put_before b a Y) -> x = b \/ In x Y.
Proof.
  induction Y as [|c Y IH]; simpl; [intuition auto|]. destruct (Nat.eqb c a); simpl; [intuition auto|]. intros [H|H]; [auto|]. destruct (IH H); auto.
Qed.

Lemma rz_agree e f : agree e f -> agree (rz e) (rz f).
Proof.
  intros S. pose proof S as (A & B & C). unfold rz, go. rewrite <- A, <- B. destruct (e_top e) as [|a X] eqn:Et; [exact S|].
  destruct (e_bot e) as [|b Y] eqn:Eb; [exact S|].
  assert (Ca : e_len e a = e_len f a) by (apply C; left; left; reflexivity).
  assert (Cb : e_len e b = e_len f b) by (apply C; right; left; reflexivity).
  rewrite <- Ca, <- Cb.
  destruct (Rlt_dec (e_len e b) (e_len e a)); [|destruct (Rlt_dec (e_len e a) (e_len e b))]; [| |exact S].
  - repeat split. simpl. intros c Hc. unfold less. destruct (Nat.eqb c a); [congruence|]. apply C.
    destruct Hc as [Hc|Hc]; [left; exact Hc|]. apply put_before_in in Hc as [->|Hc]; right; [left; reflexivity|right; exact Hc].
  - repeat split. simpl. intros c Hc. unfold less. destruct (Nat.eqb c b); [congruence|]. apply C.
    destruct Hc as [Hc|Hc]; [|right; exact Hc]. apply put_before_in in Hc as [->|Hc]; left; [left; reflexivity|right; exact Hc].
Qed.
Lemma iter_rz_agree n : forall e f, agree e f -> agree (Nat.iter n rz e) (Nat.iter n rz f).
Proof. induction n as [|n IH]; intros e f H; simpl; [exact H|]. apply rz_agree, IH, H. Qed.

(** [e'] is found after [n] steps, as far as its own labels are concerned. *)
Definition later (n : nat) (e e' : exch) : Prop :=
  agree (Nat.iter n rz e) e' /\ forall k, k < n -> able (Nat.iter k rz e).
Lemma later_0 e e' : agree e e' -> later 0 e e'.
Proof. intros H. split; [exact H|]. intros k Hk. lia. Qed.
Lemma after_later n e e' : after n e e' -> later n e e'.
Proof. intros [(A & B & C) H]. split; [|exact H]. repeat split; auto. Qed.
Lemma later_plus m n e e1 e' : later m e e1 -> later n e1 e' -> later (m + n) e e'.
Proof.
  intros (A1 & A2) (B1 & B2). split.
  - rewrite iter_plus. exact (agree_trans _ _ _ (iter_rz_agree n _ _ A1) B1).
  - intros k Hk. destruct (Nat.lt_ge_cases k m) as [H|H]; [exact (A2 k H)|].
    replace k with (m + (k - m)) by lia. rewrite iter_plus.
    apply (agree_able (Nat.iter (k - m) rz e1)); [apply agree_sym, iter_rz_agree, A1|]. apply B2. lia.
Qed.
Lemma settled_later e : proper e -> rank_two e -> exists N, forall n e', N <= n -> later n e e' -> able e' -> reducible e' \/ ~ balanced e'.
Proof.
  intros P R. destruct (settled e P R) as (N & HN). exists N. intros n e' Hn [A B] Ab.
  destruct (HN n (Nat.iter n rz e) Hn) as [G|G].
  - split; [apply same_exch_refl | exact B].
  - exact (agree_able _ _ (agree_sym _ _ A) Ab).
  - left. exact (agree_reducible _ _ A G).
  - right. intros Ba. exact (G (agree_balanced _ _ (agree_sym _ _ A) Ba)).
Qed.

Lemma rank_agree e e' : agree e e' -> rank_two e -> rank_two e'.
Proof.
  intros (A & B & C) (b1 & b2 & H). exists b1, b2. intros a Ha. rewrite <- A in Ha. destruct (H a Ha) as (p & q & E). exists p, q.
  rewrite <- C by (left; exact Ha). exact E.
Qed.
Lemma rank_left e k : proper e -> invariant_prefix e k -> rank_two e -> rank_two (left_of e k).
Proof. intros _ _ (b1 & b2 & H). exists b1, b2. intros a Ha. apply H. simpl in Ha. eapply in_firstn. exact Ha. Qed.
Lemma rank_right e k : proper e -> invariant_prefix e k -> rank_two e -> rank_two (right_of e k).
Proof. intros _ _ (b1 & b2 & H). exists b1, b2. intros a Ha. apply H. simpl in Ha. eapply in_skipn. exact Ha. Qed.
Lemma rank_merge e e' : proper e -> merge_step e e' -> rank_two e -> rank_two e'.
Proof.
  intros (ND & _) (a & b & X & Y1 & Y2 & Et & Eb & El & Et' & Eb' & El') (b1 & b2 & H). exists b1, b2. intros c Hc. rewrite Et' in Hc.
  rewrite Et in ND. apply NoDup_cons_iff in ND as [Na _].
  rewrite El' by (intros ->; contradiction). apply H. rewrite Et. right. exact Hc.
Qed.

Section RankDec.
Context {T : Type} {O : LenOps T} {W : LenLaws T}.

Lemma worked_app d tr d1 tr' d2 : worked d tr d1 -> worked d1 tr' d2 -> worked d (tr ++ tr') d2.
Proof. induction 1; [auto|]. intro. cbn [app]. econstructor; eauto. Qed.

Definition weight (d : decomp T) : nat := list_sum (map (fun x => 2 * i_size (dc_iet x) - 1) (d_comps d)).
Definition connects (st : dstep) : Prop := dst_result st = D_SEPARATING_CONNECTION \/ dst_result st = D_NON_SEPARATING_CONNECTION.

Lemma small_limit limit : (limit = -1 \/ 1 <= limit <= INT_MAX)%Z -> (limit <= INT_MAX)%Z.
Proof. unfold INT_MAX. lia. Qed.

Lemma big_call e0 d fuel limit c st d' : dec_ok e0 d -> (limit <= INT_MAX)%Z -> c < length (d_comps d) ->
  decomposition_step fuel limit c d = Ok (st, d') ->
  exists C1 x C2, d_comps d = C1 ++ x :: C2 /\ length C1 = c /\ step_post e0 d C1 x C2 st d'.
Proof.
  intros H HL Hc E. destruct (big_step _ _ _ _ _ E) as (f & Hf & E'). eapply step_call; eauto.
Qed.

Lemma step_weight e0 d C1 x C2 st d' : dec_ok e0 d -> d_comps d = C1 ++ x :: C2 -> step_post e0 d C1 x C2 st d' ->
  (connects st -> weight d' < weight d) /\ (~ connects st -> weight d' = weight d).
Proof.
  intros H E P. assert (Hx : In x (d_comps d)) by (rewrite E; apply in_middle; auto).
  destruct (dk_good _ _ H x Hx) as [Gx Sw]. pose proof (proj1 Gx) as Wx.
  assert (RS : forall i' s', reach (dc_iet x) (d_len d) i' s' -> i_size i' = i_size (dc_iet x)).
  { intros i' s' R. symmetry. exact (Permutation_length (reach_labels _ _ _ _ Wx R)). }
  assert (Pos : forall y, In y (d_comps d') -> 0 < i_size (dc_iet y)).
  { intros y Hy. destruct (dk_good _ _ (sp_ok _ _ _ _ _ _ _ P) y Hy) as [((_ & _ & Ne & _) & _) _]. unfold i_size.
    destruct (i_top (dc_iet y)); [contradiction|simpl; lia]. }
  unfold connects, weight. rewrite E.
  pose proof (sp_case _ _ _ _ _ _ _ P) as Q. unfold dstep_post in Q. destruct (dst_result st) eqn:Er; try contradiction.
  - destruct Q as (i' & Ed & R & _). rewrite Ed, !map_app, !list_sum_app. cbn [map list_sum fold_right dc_iet iet_set]. rewrite (RS _ _ R).
    split; [intros [?|?]; discriminate | reflexivity].
  - destruct Q as (i' & Hs & Ed & Ht & _). rewrite Ed, !map_app, !list_sum_app. cbn [map list_sum fold_right dc_iet iet_set].
    replace (i_size i') with (i_size (dc_iet x)) by (unfold i_size; congruence). split; [intros [?|?]; discriminate | reflexivity].
  - destruct Q as (i1 & k & b & t & w & R & Hk & _ & Ed & _). split; [intros _ | intros C; exfalso; apply C; left; reflexivity].
    pose proof (Pos (iet_set x (left_part i1 k)) ltac:(rewrite Ed; apply in_middle; auto)) as P1.
    pose proof (Pos (mkdcomp (right_part i1 k) None None None) ltac:(rewrite Ed; apply in_middle; right; rewrite !in_app_iff; right; right; left; reflexivity)) as P2.
    rewrite Ed, !map_app, !list_sum_app. cbn [map list_sum fold_right dc_iet iet_set] in *. rewrite map_app.
    change (fold_right Init.Nat.add 0) with list_sum. rewrite list_sum_app. cbn [map list_sum fold_right dc_iet].
    pose proof (RS _ _ R) as Sz. destruct Hk as [Hk _]. cbn [exch_of e_top] in Hk.
    assert (S1 : i_size (left_part i1 k) = k) by (unfold i_size in *; simpl; apply firstn_length_le; lia).
    assert (S2 : i_size (right_part i1 k) = i_size i1 - k) by (unfold i_size in *; simpl; apply skipn_length).
    unfold i_size in *. lia.
  - destruct Q as (i1 & i' & b & t & w & R & Mg & _ & Ed & _). split; [intros _ | intros C; exfalso; apply C; right; reflexivity].
    pose proof (Pos (iet_set x i') ltac:(rewrite Ed; apply in_middle; auto)) as P1.
    rewrite Ed, !map_app, !list_sum_app. cbn [map list_sum fold_right dc_iet iet_set] in *.
    pose proof (RS _ _ R) as Sz. destruct (merge_labels _ _ Mg) as [_ ML]. simpl in ML. unfold i_size in *. lia.
  - destruct Q as (i' & Ed & R & _). rewrite Ed, !map_app, !list_sum_app. cbn [map list_sum fold_right dc_iet iet_set]. rewrite (RS _ _ R).
    split; [intros [?|?]; discriminate | reflexivity].
  - destruct Q as (i' & Ed & R & _). rewrite Ed, !map_app, !list_sum_app. cbn [map list_sum fold_right dc_iet iet_set]. rewrite (RS _ _ R).
    split; [intros [?|?]; discriminate | reflexivity].
Qed.

Lemma worked_ok e0 d tr d' : dec_ok e0 d -> worked d tr d' -> dec_ok e0 d' /\ weight d' <= weight d /\
  ((exists st, In st tr /\ connects st) -> weight d' < weight d).
Proof.
  intros H Wk. revert H. induction Wk as [d|d fuel limit c st d1 tr d2 HL Hc E Wk IH]; intros H.
  { split; [exact H|]. split; [lia|]. intros (st & [] & _). }
  destruct (big_call e0 d fuel limit c st d1 H (small_limit _ HL) Hc E) as (C1 & x & C2 & Ec & _ & P).
  destruct (IH (sp_ok _ _ _ _ _ _ _ P)) as (H2 & L2 & S2). destruct (step_weight e0 d C1 x C2 st d1 H Ec P) as [W1 W2].
  assert (weight d1 <= weight d) by (destruct (classic (connects st)) as [Q|Q]; [specialize (W1 Q); lia | specialize (W2 Q); lia]).
  split; [exact H2|]. split; [lia|]. intros (st' & [->|Hin] & Cn); [specialize (W1 Cn); lia|].
  specialize (S2 (ex_intro _ st' (conj Hin Cn))). lia.
Qed.

Lemma worked_no_keane e0 d tr d' : dec_ok e0 d -> worked d tr d' -> forall st, In st tr -> dst_result st <> D_KEANE.
Proof.
  intros H Wk. revert H. induction Wk as [d|d fuel limit c st d1 tr d2 HL Hc E Wk IH]; intros H st' Hin; [destruct Hin|].
  destruct (big_call e0 d fuel limit c st d1 H (small_limit _ HL) Hc E) as (C1 & x & C2 & Ec & _ & P).
  destruct Hin as [<-|Hin]; [|exact (IH (sp_ok _ _ _ _ _ _ _ P) st' Hin)].
  pose proof (sp_case _ _ _ _ _ _ _ P) as Q. unfold dstep_post in Q. intros Er. rewrite Er in Q. exact Q.
Qed.

Lemma worked_rank e0 d tr d' : dec_ok e0 d -> worked d tr d' -> allP rank_two d -> allP rank_two d'.
Proof.
  intros H Wk. revert H. induction Wk as [d|d fuel limit c st d1 tr d2 HL Hc E Wk IH]; intros H HP; [exact HP|].
  destruct (big_call e0 d fuel limit c st d1 H (small_limit _ HL) Hc E) as (C1 & x & C2 & Ec & _ & P).
  apply IH; [apply P|]. eapply (step_allP e0 rank_two); try eassumption; eauto using rank_agree, path_rank, rank_left, rank_right, rank_merge.
Qed.

(** The exchange of component [c]. *)
Definition at_ (d : decomp T) (c : nat) (e : exch) : Prop := exists x, nth_error (d_comps d) c = Some x /\ e = exch_of (dc_iet x) (d_len d).

Lemma nth_mid {A} (C1 C2 : list A) x c : c < length (C1 ++ x :: C2) -> c <> length C1 ->
  exists y, nth_error (C1 ++ x :: C2) c = Some y /\ In y (C1 ++ C2) /\ forall x', nth_error (C1 ++ x' :: C2) c = Some y.
Proof.
  intros H D. destruct (Nat.lt_ge_cases c (length C1)) as [L|L].
  - destruct (nth_error C1 c) as [y|] eqn:Ey; [|apply nth_error_None in Ey; lia]. exists y.
    split; [rewrite nth_error_app1 by exact L; exact Ey|]. split; [apply in_or_app; left; eapply nth_error_In; exact Ey|].
    intros x'. rewrite nth_error_app1 by exact L. exact Ey.
  - destruct (c - length C1) as [|k] eqn:Ek; [lia|].
    assert (Hk : k < length C2) by (rewrite app_length in H; simpl in H; lia).
    destruct (nth_error C2 k) as [y|] eqn:Ey; [|apply nth_error_None in Ey; lia]. exists y.
    split; [rewrite nth_error_app2 by lia; rewrite Ek; exact Ey|]. split; [apply in_or_app; right; eapply nth_error_In; exact Ey|].
    intros x'. rewrite nth_error_app2 by lia. rewrite Ek. exact Ey.
Qed.

(** A step without a connection: every component is later in its own induction. *)
Lemma step_later e0 d C1 x C2 st d' : dec_ok e0 d -> d_comps d = C1 ++ x :: C2 -> step_post e0 d C1 x C2 st d' -> ~ connects st ->
  length (d_comps d') = length (d_comps d) /\
  forall c e, at_ d c e -> exists e' m, at_ d' c e' /\ later m e e'.
Proof.
  intros H E P N. assert (Hx : In x (d_comps d)) by (rewrite E; apply in_middle; auto).
  destruct (dk_good _ _ H x Hx) as [Gx Sw]. pose proof (proj1 Gx) as Wx.
  assert (Q : exists y, d_comps d' = C1 ++ y :: C2 /\ (reach (dc_iet x) (d_len d) (dc_iet y) (d_len d') \/
    (i_top (dc_iet y) = i_top (dc_iet x) /\ i_bottom (dc_iet y) = i_bottom (dc_iet x) /\ d_len d' = d_len d))).
  { pose proof (sp_case _ _ _ _ _ _ _ P) as Q. unfold dstep_post in Q. unfold connects in N.
    destruct (dst_result st) eqn:Er; try contradiction; try (exfalso; tauto).
    - destruct Q as (i' & Ed & R & _). eexists. split; [exact Ed|]. left. exact R.
    - destruct Q as (i' & Hs & Ed & Ht & Hb & Hl & _). eexists. split; [exact Ed|]. right. auto.
    - destruct Q as (i' & Ed & R & _). eexists. split; [exact Ed|]. left. exact R.
    - destruct Q as (i' & Ed & R & _). eexists. split; [exact Ed|]. left. exact R. }
  destruct Q as (y & Ed & Q). split; [rewrite Ed, E, !app_length; reflexivity|].
  intros c e (z & Hz & ->). destruct (Nat.eq_dec c (length C1)) as [->|D].
  - assert (z = x) as -> by (rewrite E, nth_error_app2, Nat.sub_diag in Hz by lia; injection Hz; auto).
    exists (exch_of (dc_iet y) (d_len d')). destruct Q as [R|(Ht & Hb & Hl)].
    + destruct (path_after _ _ (wf_proper _ _ Wx) (r_path _ _ _ _ R)) as (m & Hm). exists m. split; [|apply after_later; exact Hm].
      exists y. split; [rewrite Ed, nth_error_app2, Nat.sub_diag by lia; reflexivity | reflexivity].
    + exists 0. split; [exists y; split; [rewrite Ed, nth_error_app2, Nat.sub_diag by lia; reflexivity | reflexivity]|].
      apply later_0. unfold exch_of. rewrite Ht, Hb, Hl. apply agree_refl.
  - assert (Hc : c < length (C1 ++ x :: C2)) by (rewrite <- E; apply nth_error_Some; congruence).
    destruct (nth_mid C1 C2 x c Hc D) as (z' & Z1 & Z2 & Z3). rewrite E, Z1 in Hz. injection Hz as ->.
    exists (exch_of (dc_iet z) (d_len d')), 0. split; [exists z; split; [rewrite Ed; apply Z3 | reflexivity]|].
    assert (Hz : In z (d_comps d)) by (rewrite E; apply in_middle; auto).
    apply later_0, agree_sym, agree_frame; [apply (dk_good _ _ H z Hz)|]. intros l Hl. apply (sp_lens _ _ _ _ _ _ _ P).
    intro C0. eapply (dk_disjoint e0 d C1 x C2 z l); eassumption.
Qed.

(** A step that reaches its limit. *)
Definition stalled (d d' : decomp T) (c : nat) : Prop :=
  exists e e1 e' m1 m2, at_ d c e /\ at_ d' c e' /\ 1 <= m1 /\ later m1 e e1 /\ later m2 e1 e' /\ able e1 /\ ~ reducible e1 /\ balanced e1.

Lemma step_stalled e0 d fuel limit c st d' : dec_ok e0 d -> (limit = -1 \/ 1 <= limit <= INT_MAX)%Z -> c < length (d_comps d) ->
  decomposition_step fuel limit c d = Ok (st, d') -> dst_result st = D_LIMIT_REACHED -> stalled d d' c.
Proof.
  intros H HL Hc E Hr. destruct (nth_error (d_comps d) c) as [x|] eqn:En; [|apply nth_error_None in En; lia].
  destruct (component_mid d c x En) as (C1 & C2 & Ec & <-).
  destruct HL as [->|HL].
  { exfalso. destruct (big_step _ _ _ _ _ E) as (f & Hf & E').
    destruct (decomposition_step_ok e0 f d C1 x C2 (-1) H Ec ltac:(vm_compute; discriminate) Hf) as [[Q _]|[[Q _]|(st' & d1 & Q & _ & L)]];
      cbv zeta in Q; rewrite E' in Q; try discriminate. injection Q as <- <-. destruct (L Hr) as [L' _]. apply L'. reflexivity. }
  destruct (step_is_induce e0 fuel limit d C1 x C2 st d' H Ec ltac:(lia) E) as (v & i0 & k & f & ist & j & y & extra & Es & Hk & Ei & Ed & Hy & _ & Hres & Hlim).
  specialize (Hlim Hr). subst k.
  assert (Hx : In x (d_comps d)) by (rewrite Ec; apply in_middle; auto).
  destruct (dk_good _ _ H x Hx) as [Gx Sw].
  assert (Gi : good i0 (d_len d) /\ exch_of i0 (d_len d) = exch_of (dc_iet x) (d_len d)).
  { destruct (saf_invariant_ok (dc_iet x) (d_len d) (proj1 Gx) (proj1 (proj2 Gx))) as (w & Q & Cw). rewrite Q in Es. injection Es as _ <-.
    split; [|reflexivity]. apply good_set_saf; assumption. }
  destruct Gi as [Gi Ee].
  assert (Hir : is_result ist = LIMIT_REACHED) by (rewrite Hres in Hr; destruct (is_result ist); try discriminate; reflexivity).
  destruct (induce_after limit f i0 (d_len d) ist j (d_len d') Gi ltac:(lia) Ei Hir) as (m & Hm & A & Ab & Nr & Ba & _).
  exists (exch_of (dc_iet x) (d_len d)), (exch_of j (d_len d')), (exch_of j (d_len d')), m, 0.
  split; [exists x; auto|]. split; [exists y; rewrite Hy; split; [rewrite Ed, nth_error_app2, Nat.sub_diag by lia; reflexivity | reflexivity]|].
  split; [lia|]. split; [apply after_later; rewrite <- Ee; exact A|]. split; [apply later_0, agree_refl|]. auto.
Qed.

Lemma worked_later e0 d tr d' : dec_ok e0 d -> worked d tr d' -> (forall st, In st tr -> ~ connects st) ->
  length (d_comps d') = length (d_comps d) /\
  (forall c e, at_ d c e -> exists e' m, at_ d' c e' /\ later m e e') /\
  ((exists st, In st tr /\ dst_result st = D_LIMIT_REACHED) -> exists c, c < length (d_comps d) /\ stalled d d' c).
Proof.
  intros H Wk. revert H. induction Wk as [d|d fuel limit c st d1 tr d2 HL Hc E Wk IH]; intros H N.
  { split; [reflexivity|]. split; [intros c e He; exists e, 0; split; [exact He | apply later_0, agree_refl]|]. intros (st & [] & _). }
  destruct (big_call e0 d fuel limit c st d1 H (small_limit _ HL) Hc E) as (C1 & x & C2 & Ec & _ & P).
  destruct (step_later e0 d C1 x C2 st d1 H Ec P) as [L1 A1]; [apply N; left; reflexivity|].
  destruct (IH (sp_ok _ _ _ _ _ _ _ P)) as (L2 & A2 & S2); [intros st' Hst'; apply N; right; exact Hst'|].
  split; [congruence|]. split.
  - intros c' e He. destruct (A1 c' e He) as (e1 & m1 & He1 & R1). destruct (A2 c' e1 He1) as (e2 & m2 & He2 & R2).
    exists e2, (m1 + m2). split; [exact He2 | exact (later_plus _ _ _ _ _ R1 R2)].
  - intros (st' & [->|Hin] & Hr).
    + exists c. split; [exact Hc|]. destruct (step_stalled e0 d fuel limit c st' d1 H HL Hc E Hr) as (e & e1 & e' & m1 & m2 & B1 & B2 & B3 & B4 & B5 & B6).
      destruct (A2 c e' B2) as (e2 & m3 & B7 & B8). exists e, e1, e2, m1, (m2 + m3).
      split; [exact B1|]. split; [exact B7|]. split; [exact B3|]. split; [exact B4|]. split; [exact (later_plus _ _ _ _ _ B5 B8) | exact B6].
    + destruct (S2 (ex_intro _ st' (conj Hin Hr))) as (c' & Hc' & e & e1 & e' & m1 & m2 & B1 & B2 & B3 & B4 & B5 & B6).
      rewrite L1 in Hc'. exists c'. split; [exact Hc'|]. destruct (nth_error (d_comps d) c') as [z|] eqn:Ez; [|apply nth_error_None in Ez; lia].
      destruct (A1 c' _ (ex_intro _ z (conj Ez eq_refl))) as (f & m0 & F1 & F2).
      assert (f = e) as -> by (destruct F1 as (z1 & Q1 & ->); destruct B1 as (z2 & Q2 & ->); congruence).
      exists (exch_of (dc_iet z) (d_len d)), e1, e', (m0 + m1), m2. split; [exists z; auto|]. split; [exact B2|]. split; [lia|].
      split; [exact (later_plus _ _ _ _ _ F2 B4)|]. auto.
Qed.

(** In an endless history there are only finitely many steps that are not the last word on
    their component. *)
Theorem endless_history e0 (D : nat -> decomp T) (Tr : nat -> list dstep -> Prop) : dec_ok e0 (D 0) -> allP rank_two (D 0) ->
  (forall n, exists tr, Tr n tr) -> (forall n tr, Tr n tr -> worked (D n) tr (D (S n))) ->
  exists N, forall n tr st, N <= n -> Tr n tr -> In st tr -> ~ connects st /\ dst_result st <> D_LIMIT_REACHED.
Proof.
  intros H0 R0 Ext Wk'. assert (Wk : forall n, exists tr, Tr n tr /\ worked (D n) tr (D (S n))) by (intros n; destruct (Ext n) as (tr & Q); exists tr; auto).
  assert (Hn : forall n, dec_ok e0 (D n)) by (induction n as [|n IH]; [exact H0 | destruct (Wk n) as (tr & _ & Q); exact (proj1 (worked_ok _ _ _ _ IH Q))]).
  assert (Rn : forall n, allP rank_two (D n)) by (induction n as [|n IH]; [exact R0 | destruct (Wk n) as (tr & _ & Q); exact (worked_rank _ _ _ _ (Hn n) Q IH)]).
  destruct (eventually_constant (fun n => weight (D n)) 0) as (N0 & _ & HN0).
  { intros n _. destruct (Wk n) as (tr & _ & Q). apply (worked_ok _ _ _ _ (Hn n) Q). }
  assert (NC : forall n tr st, N0 <= n -> Tr n tr -> In st tr -> ~ connects st).
  { intros n tr st Hle Ht Hin C. destruct (worked_ok _ _ _ _ (Hn n) (Wk' n tr Ht)) as (_ & _ & Hlt).
    specialize (Hlt (ex_intro _ st (conj Hin C))). pose proof (HN0 n Hle) as Q1. pose proof (HN0 (S n) ltac:(lia)) as Q2. simpl in Q1, Q2. lia. }
  assert (St : forall n, N0 <= n -> length (d_comps (D (S n))) = length (d_comps (D n)) /\
    (forall c e, at_ (D n) c e -> exists e' m, at_ (D (S n)) c e' /\ later m e e') /\
    ((exists tr st, Tr n tr /\ In st tr /\ dst_result st = D_LIMIT_REACHED) -> exists c, c < length (d_comps (D n)) /\ stalled (D n) (D (S n)) c)).
  { intros n Hle. destruct (Wk n) as (tr & Ht & Q).
    destruct (worked_later e0 (D n) tr (D (S n)) (Hn n) Q (fun st => NC n tr st Hle Ht)) as (A & B & _). split; [exact A|]. split; [exact B|].
    intros (tr1 & st & Ht1 & Hst & Hr).
    destruct (worked_later e0 (D n) tr1 (D (S n)) (Hn n) (Wk' n tr1 Ht1) (fun st => NC n tr1 st Hle Ht1)) as (_ & _ & C). apply C. exists st. auto. }
  set (k := length (d_comps (D N0))).
  assert (Len : forall n, N0 <= n -> length (d_comps (D n)) = k).
  { intros n Hle. induction Hle as [|n Hle IH]; [reflexivity|]. rewrite (proj1 (St n Hle)). exact IH. }
  assert (Run : forall c e n, N0 <= n -> at_ (D N0) c e -> forall n', n <= n' -> forall e' m, at_ (D n) c e' -> later m e e' ->
    exists e'' m', at_ (D n') c e'' /\ later m' e e'' /\ m <= m').
  { intros c e n Hle He n' Hn'. induction Hn' as [|n' Hn' IH]; intros e' m A1 A2; [exists e', m; auto|].
    destruct (IH e' m A1 A2) as (e1 & m1 & B1 & B2 & B3). destruct (proj1 (proj2 (St n' ltac:(lia))) c e1 B1) as (e2 & m2 & C1 & C2).
    exists e2, (m1 + m2). split; [exact C1|]. split; [exact (later_plus _ _ _ _ _ B2 C2) | lia]. }
  destruct (eventually_all (seq 0 k) (fun c n => N0 <= n -> ~ stalled (D n) (D (S n)) c)) as (N1 & HN1).
  { intros c Hc. apply in_seq in Hc. apply NNPP. intros No.
    assert (Inf : forall N, exists n, N <= n /\ N0 <= n /\ stalled (D n) (D (S n)) c).
    { intros N. apply NNPP. intros C. apply No. exists N. intros n Hle Hle' Hs. apply C. exists n. auto. }
    destruct (nth_error (d_comps (D N0)) c) as [x|] eqn:Ex; [|apply nth_error_None in Ex; fold k in Ex; lia].
    set (e := exch_of (dc_iet x) (d_len (D N0))).
    assert (He : at_ (D N0) c e) by (exists x; auto).
    assert (Hx : In x (d_comps (D N0))) by (eapply nth_error_In; exact Ex).
    destruct (settled_later e) as (N2 & HN2).
    { apply wf_proper. apply (dk_good _ _ (Hn N0) x Hx). }
    { apply (Rn N0 x Hx). }
    assert (Far : forall j, exists n e' m, N0 <= n /\ j <= m /\ at_ (D n) c e' /\ later m e e').
    { induction j as [|j (n & e' & m & F1 & F2 & F3 & F4)].
      - exists N0, e, 0. split; [lia|]. split; [lia|]. split; [exact He | apply later_0, agree_refl].
      - destruct (Inf n) as (n1 & I1 & I2 & f & f1 & f' & m1 & m2 & S1 & S2 & S3 & S4 & S5 & _).
        destruct (Run c e n F1 He n1 I1 e' m F3 F4) as (e1 & m3 & G1 & G2 & G3).
        assert (e1 = f) as -> by (destruct G1 as (z1 & Q1 & ->); destruct S1 as (z2 & Q2 & ->); congruence).
        exists (S n1), f', (m3 + (m1 + m2)). split; [lia|]. split; [lia|]. split; [exact S2|].
        exact (later_plus _ _ _ _ _ G2 (later_plus _ _ _ _ _ S4 S5)). }
    destruct (Far N2) as (n & e' & m & F1 & F2 & F3 & F4).
    destruct (Inf n) as (n1 & I1 & I2 & f & f1 & f' & m1 & m2 & S1 & S2 & S3 & S4 & S5 & S6 & S7 & S8).
    destruct (Run c e n F1 He n1 I1 e' m F3 F4) as (e1 & m3 & G1 & G2 & G3).
    assert (e1 = f) as -> by (destruct G1 as (z1 & Q1 & ->); destruct S1 as (z2 & Q2 & ->); congruence).
    destruct (HN2 (m3 + m1) f1 ltac:(lia) (later_plus _ _ _ _ _ G2 S4) S6); contradiction. }
  exists (Nat.max N0 N1). intros n tr st Hle Ht Hin. split; [apply (NC n tr st); [lia | exact Ht | exact Hin]|].
  intros Hr. destruct (proj2 (proj2 (St n ltac:(lia))) (ex_intro _ tr (ex_intro _ st (conj Ht (conj Hin Hr))))) as (c & Hc & Hs).
  rewrite (Len n ltac:(lia)) in Hc. apply (HN1 c n); [apply in_seq; lia | lia | lia | exact Hs].
Qed.

(** * decompose *)

Lemma comp_decompose_worked e0 target limit fuel : (limit = -1 \/ 1 <= limit <= INT_MAX)%Z -> forall rounds c (d : decomp T) ok d',
  dec_ok e0 d -> c < length (d_comps d) -> comp_decompose rounds fuel target limit c d = Ok (ok, d') ->
  exists tr, worked d tr d' /\ length (d_comps d) <= length (d_comps d') /\ (ok = false -> exists st, In st tr /\ dst_result st = D_LIMIT_REACHED).
Proof.
  intros HL. induction rounds as [|rounds IH]; intros c d ok d' H Hc; [discriminate|]. cbn [comp_decompose].
  destruct (comp_view d c) as [v| | | |]; try discriminate. cbn [bind]. destruct (target v).
  { injection 1 as <- <-. exists []. split; [constructor|]. split; [lia | discriminate]. }
  destruct (decomposition_step fuel limit c d) as [[st d1]| | | |] eqn:E; try discriminate. cbn [bind].
  destruct (big_call e0 d fuel limit c st d1 H (small_limit _ HL) Hc E) as (C1 & x & C2 & Ec & El & P).
  pose proof (sp_ok _ _ _ _ _ _ _ P) as H1.
  assert (W1 : worked d [st] d1) by (econstructor; [exact HL | exact Hc | exact E | constructor]).
  assert (Add : length (d_comps d) <= length (d_comps d1) /\ forall c', dst_additional st = Some c' -> c' < length (d_comps d1)).
  { pose proof (sp_case _ _ _ _ _ _ _ P) as Q. unfold dstep_post in Q. destruct (dst_result st); try contradiction.
    - destruct Q as (i' & Ed & _ & _ & _ & _ & _ & ->). rewrite Ed, Ec, !app_length. simpl. split; [lia | discriminate].
    - destruct Q as (i' & _ & Ed & _ & _ & _ & _ & ->). rewrite Ed, Ec, !app_length. simpl. split; [lia | discriminate].
    - destruct Q as (i1 & k & b & t & w & _ & _ & _ & Ed & _ & ->). rewrite Ed, Ec, !app_length. simpl. rewrite !app_length. simpl. split; [lia|].
      intros c' Q. injection Q as <-. lia.
    - destruct Q as (i1 & i' & b & t & w & _ & _ & _ & Ed & _ & ->). rewrite Ed, Ec, !app_length. simpl. split; [lia | discriminate].
    - destruct Q as (i' & Ed & _ & _ & _ & _ & _ & ->). rewrite Ed, Ec, !app_length. simpl. split; [lia | discriminate].
    - destruct Q as (i' & Ed & _ & _ & _ & ->). rewrite Ed, Ec, !app_length. simpl. split; [lia | discriminate]. }
  destruct Add as [Ge Add].
  assert (Rest : bind (match dst_additional st with Some c' => comp_decompose rounds fuel target limit c' d1 | None => Ok (true, d1) end)
      (fun '(ok1, d) => '(ok2, d) <- comp_decompose rounds fuel target limit c d ;; Ok (ok1 && ok2, d)) = Ok (ok, d') ->
    exists tr, worked d tr d' /\ length (d_comps d) <= length (d_comps d') /\ (ok = false -> exists st, In st tr /\ dst_result st = D_LIMIT_REACHED)).
  { intros Q. apply bind_ok in Q as ([ok1 d2] & Q1 & Q2). apply bind_ok in Q2 as ([ok2 d3] & Q2 & Q3). injection Q3 as <- <-.
    assert (A : exists tr, worked d1 tr d2 /\ length (d_comps d1) <= length (d_comps d2) /\
       (ok1 = false -> exists st, In st tr /\ dst_result st = D_LIMIT_REACHED)).
    { destruct (dst_additional st) as [c'|]; [exact (IH c' d1 ok1 d2 H1 (Add c' eq_refl) Q1)|].
      injection Q1 as <- <-. exists []. split; [constructor|]. split; [lia | discriminate]. }
    destruct A as (tr1 & A1 & A2 & A3). pose proof (proj1 (worked_ok _ _ _ _ H1 A1)) as H2.
    destruct (IH c d2 ok2 d3 H2 ltac:(lia) Q2) as (tr2 & B1 & B2 & B3).
    exists ([st] ++ tr1 ++ tr2). split; [exact (worked_app _ _ _ _ _ W1 (worked_app _ _ _ _ _ A1 B1))|]. split; [lia|].
    intros Q. apply andb_false_iff in Q as [Q|Q].
    - destruct (A3 Q) as (st' & I & R). exists st'. split; [apply in_or_app; right; apply in_or_app; left; exact I | exact R].
    - destruct (B3 Q) as (st' & I & R). exists st'. split; [apply in_or_app; right; apply in_or_app; right; exact I | exact R]. }
  destruct (dst_result st) eqn:Er; try exact Rest.
  injection 1 as <- <-. exists [st]. split; [exact W1|]. split; [exact Ge|]. intros _. exists st. split; [left; reflexivity | exact Er].
Qed.

Lemma decompose_worked e0 target limit rounds fuel (d : decomp T) ok d' : (limit = -1 \/ 1 <= limit <= INT_MAX)%Z ->
  dec_ok e0 d -> decompose rounds fuel target limit d = Ok (ok, d') ->
  exists tr, worked d tr d' /\ (ok = false -> exists st, In st tr /\ dst_result st = D_LIMIT_REACHED).
Proof.
  intros HL H. unfold decompose.
  assert (G : forall cs (d : decomp T) ok d', dec_ok e0 d -> (forall c, In c cs -> c < length (d_comps d)) ->
    decompose_all rounds fuel target limit cs d = Ok (ok, d') ->
    exists tr, worked d tr d' /\ (ok = false -> exists st, In st tr /\ dst_result st = D_LIMIT_REACHED)).
  { clear d ok d' H. induction cs as [|c cs IH]; intros d ok d' H Hc; cbn [decompose_all].
    { injection 1 as <- <-. exists []. split; [constructor | discriminate]. }
    intros Q. apply bind_ok in Q as ([ok1 d1] & Q1 & Q2).
    destruct (comp_decompose_worked e0 target limit fuel HL rounds c d ok1 d1 H (Hc c (or_introl eq_refl)) Q1) as (tr1 & A1 & A2 & A3).
    destruct ok1.
    - destruct (IH d1 ok d' (proj1 (worked_ok _ _ _ _ H A1))) as (tr2 & B1 & B2).
      + intros c' Hc'. specialize (Hc c' (or_intror Hc')). lia.
      + exact Q2.
      + exists (tr1 ++ tr2). split; [exact (worked_app _ _ _ _ _ A1 B1)|]. intros Q. destruct (B2 Q) as (st & I & R).
        exists st. split; [apply in_or_app; right; exact I | exact R].
    - injection Q2 as <- <-. exists tr1. split; [exact A1 | exact A3]. }
  apply G; [exact H|]. intros c Hc. apply in_seq in Hc. lia.
Qed.

(** The history of a decomposition preserves the span of the lengths. *)
Lemma history_rank (i : iet T) (s : slen T) tr d : decomposition i s tr d -> rank_two (exch_of i s) -> allP rank_two d.
Proof.
  intros H R. induction H as [d Hi E|tr d fuel limit c st d' H IH HL Hc E].
  - destruct (made_ok i s d Hi E) as (_ & _ & Hl & D & _). intros y Hy. rewrite D in Hy. destruct Hy as [<-|[]].
    cbn [dc_iet]. rewrite Hl. exact R.
  - destruct (step_history_post i s tr d fuel limit c st d' H HL Hc E) as (C1 & x & C2 & Ec & _ & P).
    eapply (step_allP (exch_of i s) rank_two); try eassumption; eauto using rank_agree, path_rank, rank_left, rank_right, rank_merge.
    exact (history_ok _ _ _ _ H).
Qed.

Lemma retried_app rounds fuel limit n d d1 d2 : retried rounds fuel limit n d d1 -> decompose rounds fuel default_target limit d1 = Ok (false, d2) ->
  retried rounds fuel limit (S n) d d2.
Proof. induction 1; intros E; [econstructor; [exact E | constructor]|]. econstructor; [eassumption|]. apply IHretried, E. Qed.

Theorem decompose_decides (i : iet T) (s : slen T) tr d rounds fuel limit : decomposition i s tr d -> rank_two (exch_of i s) ->
  (1 <= limit <= INT_MAX)%Z -> length (i_top i) < rounds -> length (i_top i) < fuel -> (limit < Z.of_nat fuel)%Z ->
  exists n d1 d2, retried rounds fuel limit n d d1 /\ decompose rounds fuel default_target limit d1 = Ok (true, d2) /\
    forall x, In x (d_comps d2) -> dc_cylinder x = Some true \/ dc_wpt x = Some true.
Proof.
  intros H R HL HR HF HF'. pose proof (history_keys _ _ _ _ H) as K. pose proof (history_rank _ _ _ _ H R) as R0. apply history_ok in H.
  apply NNPP. intros No.
  assert (Run : forall d', dec_ok (exch_of i s) d' -> exists ok d2, decompose rounds fuel default_target limit d' = Ok (ok, d2) /\
     (ok = true -> forall x, In x (d_comps d2) -> dc_cylinder x = Some true \/ dc_wpt x = Some true)).
  { intros d' H'. assert (K' : d_keys d' = i_top i) by exact (dk_keys _ _ H').
    destruct (decompose_limited _ rounds fuel limit d' ltac:(lia) ltac:(lia) H') as (ok & d2 & E); rewrite ?K'; try assumption.
    exists ok, d2. split; [exact E|]. intros -> x Hx.
    destruct (decompose_ok _ rounds fuel default_target limit d' ltac:(lia) H') as [Q|[[Q _]|(ok' & d3 & tr' & Q & _ & _ & _ & _ & Tg & _)]];
      [rewrite K'; exact HF| | |]; cbv zeta in Q; rewrite E in Q; try discriminate.
    injection Q as <- <-. destruct (proj1 (default_view d2 x) (Tg eq_refl x Hx)); auto. }
  set (next := fun d' => match decompose rounds fuel default_target limit d' with Ok (_, d2) => d2 | _ => d' end).
  set (D := fun n => Nat.iter n next d).
  assert (All : forall n, dec_ok (exch_of i s) (D n) /\ retried rounds fuel limit n d (D n)).
  { induction n as [|n [A B]]; [split; [exact H | constructor]|]. change (D (S n)) with (next (D n)). unfold next.
    destruct (Run (D n) A) as (ok & d2 & E & F). rewrite E. destruct ok.
    - exfalso. apply No. exists n, (D n), d2. auto.
    - split; [|exact (retried_app _ _ _ _ _ _ _ B E)].
      destruct (decompose_worked _ default_target limit rounds fuel (D n) false d2 (or_intror HL) A E) as (tr' & Wk & _).
      exact (proj1 (worked_ok _ _ _ _ A Wk)). }
  assert (St : forall n, exists tr', worked (D n) tr' (D (S n)) /\ exists st, In st tr' /\ dst_result st = D_LIMIT_REACHED).
  { intros n. destruct (All n) as [A B]. change (D (S n)) with (next (D n)). unfold next.
    destruct (Run (D n) A) as (ok & d2 & E & F). rewrite E. destruct ok.
    - exfalso. apply No. exists n, (D n), d2. auto.
    - destruct (decompose_worked _ default_target limit rounds fuel (D n) false d2 (or_intror HL) A E) as (tr' & Wk & Lm).
      exists tr'. auto. }
  destruct (endless_history (exch_of i s) D (fun n tr' => worked (D n) tr' (D (S n)) /\ exists st, In st tr' /\ dst_result st = D_LIMIT_REACHED) H R0 St)
    as (N & HN); [intros n tr' Q; apply Q|].
  destruct (St N) as (tr' & Q). destruct (proj2 Q) as (st & Hin & Hr). exact (proj2 (HN N tr' st (le_n _) Q Hin) Hr).
Qed.

(** * Unlimited steps *)

(** As long as the limit is reached, the component is later and later in its induction. *)
Lemma unlimited_stalls e0 fuel : (64 < Z.of_nat fuel)%Z -> forall rounds d c limit, dec_ok e0 d -> c < length (d_comps d) -> length (d_keys d) < fuel ->
  (limit = 64)%Z ->
  (exists st d', step_unlimited rounds fuel (Some 64%Z) limit c d = Ok (st, d')) \/ rounds = 0 \/
  exists e e1 m, at_ d c e /\ rounds <= m /\ later m e e1 /\ able e1 /\ ~ reducible e1 /\ balanced e1.
Proof.
  intros HF. induction rounds as [|rounds IH]; intros d c limit H Hc Hf ->; [auto|]. cbn [step_unlimited].
  destruct (nth_error (d_comps d) c) as [x|] eqn:En; [|apply nth_error_None in En; lia].
  destruct (component_mid d c x En) as (C1 & C2 & Ec & El).
  destruct (decomposition_step_ok e0 fuel d C1 x C2 64 H Ec ltac:(vm_compute; discriminate) Hf) as [(E & B)|[(E & Q & B)|(st & d' & E & P & _)]]; cbv zeta in E.
  { exfalso. cbn [Z.eqb Pos.eqb] in B. lia. }
  { discriminate. }
  rewrite El in E. unfold decomposition_step in E. cbn [Z.eqb Pos.eqb] in E. rewrite E. cbn [bind].
  destruct (dst_result st) eqn:Er; try (left; eexists; eexists; reflexivity).
  destruct (2 * (64 + 1) <=? INT_MAX)%Z eqn:Eb; [|vm_compute in Eb; discriminate].
  assert (E' : decomposition_step fuel 64 c d = Ok (st, d')) by exact E.
  destruct (step_stalled e0 d fuel 64 c st d' H ltac:(right; split; [lia | vm_compute; discriminate]) Hc E' Er)
    as (e & e1 & e' & m1 & m2 & A1 & A2 & A3 & A4 & A5 & A6 & A7 & A8).
  pose proof (sp_ok _ _ _ _ _ _ _ P) as H'.
  assert (Hf' : length (d_keys d') < fuel) by (rewrite (dk_keys _ _ H'), <- (dk_keys _ _ H); exact Hf).
  assert (Hc' : c < length (d_comps d')) by (destruct A2 as (y & Hy & _); apply nth_error_Some; congruence).
  destruct (IH d' c 64%Z H' Hc' Hf' eq_refl) as [G|[->|(f & f1 & m & B1 & B2 & B3 & B4)]]; [left; exact G| |].
  - right. right. exists e, e1, m1. auto 10.
  - right. right. exists e, f1, (m1 + m2 + m). split; [exact A1|]. split; [lia|]. split; [|exact B4].
    assert (f = e') as -> by (destruct A2 as (z1 & Q1 & ->); destruct B1 as (z2 & Q2 & ->); congruence).
    exact (later_plus _ _ _ _ _ (later_plus _ _ _ _ _ A4 A5) B3).
Qed.

Theorem unlimited_decides e0 (d : decomp T) c x v j : dec_ok e0 d -> component d c x -> rank_two (exch_of (dc_iet x) (d_len d)) ->
  saf_invariant (dc_iet x) (d_len d) = Ok (v, j) -> vis0 v = false ->
  exists F, forall fuel, F <= fuel -> exists st d', decomposition_step fuel (-1) c d = Ok (st, d').
Proof.
  intros H Hx R Es Hv. destruct (component_mid d c x Hx) as (C1 & C2 & Ec & El).
  destruct (dk_good _ _ H x (nth_error_In _ _ Hx)) as [Gx Sw].
  destruct (settled_later _ (wf_proper _ _ (proj1 Gx)) R) as (N & HN).
  exists (Nat.max (N + 2) (Nat.max 65 (S (length (d_keys d))))). intros fuel HF.
  assert (Hf : length (d_keys d) < fuel) by lia. assert (Hc : c < length (d_comps d)) by (apply nth_error_Some; unfold component in Hx; congruence).
  unfold decomposition_step. cbn [Z.eqb Pos.eqb].
  destruct (step_start_ok e0 d C1 x C2 H Ec) as (cost & w & E1 & Hcost & H1). rewrite <- El, E1. cbn [bind].
  set (d1 := set_comps d (C1 ++ iet_set x (set_saf (dc_iet x) (Some w)) :: C2)) in *.
  assert (cost = Some 64%Z) as ->.
  { rewrite Hcost. destruct (saf_invariant_ok (dc_iet x) (d_len d) (proj1 Gx) (proj1 (proj2 Gx))) as (u & Q & _). rewrite Es in Q. injection Q as <- _.
    rewrite Hv. reflexivity. }
  destruct fuel as [|rounds]; [lia|]. set (fuel := S rounds) in *. change (step_unlimited fuel) with (step_unlimited (S rounds)). cbn [step_unlimited].
  assert (Hf1 : length (d_keys d1) < fuel) by exact Hf.
  assert (Ec1 : d_comps d1 = C1 ++ iet_set x (set_saf (dc_iet x) (Some w)) :: C2) by reflexivity.
  destruct (decomposition_step_ok e0 fuel d1 C1 _ C2 0 H1 Ec1 ltac:(vm_compute; discriminate) Hf1) as [(E & B)|[(E & Q & B)|(st & d' & E & P & _)]]; cbv zeta in E.
  { exfalso. cbn [Z.eqb Pos.eqb] in B. lia. }
  { discriminate. }
  unfold decomposition_step in E. cbn [Z.eqb Pos.eqb] in E. rewrite E. cbn [bind].
  destruct (dst_result st) eqn:Er; try (eexists; eexists; reflexivity).
  destruct (2 * (0 + 1) <=? INT_MAX)%Z eqn:Eb; [|vm_compute in Eb; discriminate].
  pose proof (sp_ok _ _ _ _ _ _ _ P) as H'.
  assert (Hf' : length (d_keys d') < fuel) by (rewrite (dk_keys _ _ H'), <- (dk_keys _ _ H1); exact Hf1).
  destruct (step_later e0 d1 C1 _ C2 st d' H1 Ec1 P) as [L1 A1]; [unfold connects; rewrite Er; intros [?|?]; discriminate|].
  assert (Hc' : length C1 < length (d_comps d')) by (rewrite L1, Ec1, app_length; simpl; lia).
  destruct (A1 (length C1) (exch_of (dc_iet x) (d_len d))) as (e' & m0 & B1 & B2).
  { eexists. split; [rewrite Ec1, nth_error_app2, Nat.sub_diag by lia; reflexivity|]. reflexivity. }
  destruct (unlimited_stalls e0 fuel ltac:(lia) rounds d' (length C1) 64%Z H' Hc' Hf' eq_refl) as [G|[->|(f & f1 & m & D1 & D2 & D3 & D4 & D5 & D6)]].
  - exact G.
  - subst fuel. lia.
  - exfalso. assert (f = e') as -> by (destruct D1 as (z1 & Q1 & ->); destruct B1 as (z2 & Q2 & ->); congruence).
    destruct (HN (m0 + m) f1 ltac:(subst fuel; lia) (later_plus _ _ _ _ _ B2 D3) D4); contradiction.
Qed.
End RankDec.
