(** Termination of decompose() with a limit, and for integer lengths. *)
From Coq Require Import Reals Permutation Lia Lra.
From Verif Require Import Base QcTac LenT FM Subspace Lengths IET Api ZorichProof ReduceProof Saf Bosh InduceProof InduceCons World Seq.
From Verif Require Import Spec Dyn Path Direct Decomp DecompSim DecompInv DecompRef DecompNav DecompStep DecompAll.
Open Scope nat_scope.

(** ** Integer lengths are balanced *)

Lemma weighted_left (f : label -> R) l : NoDup l ->
  (2 * total (fun a => f a * left_end f l a) l = total f l * total f l - total (fun a => f a * f a) l)%R.
Proof.
  induction l as [|c l IH]; intros ND; [simpl; lra|]. apply NoDup_cons_iff in ND as [Nc ND]. specialize (IH ND).
  cbn [Spec.total left_end]. rewrite Nat.eqb_refl.
  rewrite (Dyn.total_ext _ (fun a => f c * f a + f a * left_end f l a)%R).
  2:{ intros a Ha. destruct (Nat.eqb_spec c a) as [->|_]; [contradiction|]. ring. }
  assert (Sum : forall g h : label -> R, forall l, (total (fun a => g a + h a) l = total g l + total h l)%R).
  { intros g h l0. induction l0 as [|b l0 IH0]; simpl; [lra|]. rewrite IH0. lra. }
  rewrite Sum. rewrite total_scale. lra.
Qed.

Lemma weighted_shift e : proper e -> (total (fun a => e_len e a * shift e a) (e_top e) = 0)%R.
Proof.
  intros (ND & Pe & _).
  assert (ND' : NoDup (e_bot e)) by (eapply Permutation_NoDup; eassumption).
  pose proof (weighted_left (e_len e) _ ND) as A. pose proof (weighted_left (e_len e) _ ND') as B.
  rewrite <- !(Dyn.total_perm _ _ _ Pe) in B.
  assert (Q : forall f g h : label -> R, forall l, (total (fun a => f a * (g a - h a)) l = total (fun a => f a * g a) l - total (fun a => f a * h a) l)%R).
  { intros f g h l. induction l as [|b l IH]; simpl; [lra|]. rewrite IH. lra. }
  unfold shift. rewrite Q. lra.
Qed.

Lemma up_IZR z : up (IZR z) = (z + 1)%Z.
Proof. symmetry. apply tech_up; rewrite plus_IZR; simpl; lra. Qed.

Lemma integral_balanced u e : (0 < u)%R -> proper e -> e_top e <> [] -> integral u e -> balanced e.
Proof.
  intros Hu P Ne I. pose proof P as (_ & _ & Hp).
  set (n := fun a => Z.to_nat (up (e_len e a / u) - 1)).
  assert (N : forall a, In a (e_top e) -> e_len e a = (INR (n a) * u)%R /\ n a <> 0).
  { intros a Ha. destruct (I a Ha) as (z & Hz). unfold n. rewrite Hz.
    replace (IZR z * u / u)%R with (IZR z) by (field; lra). rewrite up_IZR, Z.add_simpl_r.
    assert (0 < z)%Z. { apply lt_IZR. apply Rmult_lt_reg_r with u; [exact Hu|]. rewrite <- Hz. specialize (Hp a Ha). lra. }
    rewrite INR_IZR_INZ, Z2Nat.id by lia. split; [reflexivity|]. lia. }
  exists n. split.
  - destruct (e_top e) as [|a l] eqn:E; [contradiction|]. exists a. split; [left; reflexivity|]. apply N. left. reflexivity.
  - pose proof (weighted_shift e P) as Q.
    rewrite (Dyn.total_ext _ (fun a => u * (INR (n a) * shift e a))%R) in Q.
    2:{ intros a Ha. rewrite (proj1 (N a Ha)) at 1. ring. }
    rewrite total_scale in Q. apply Rmult_integral in Q as [Q|Q]; [lra|exact Q].
Qed.

Section Ends.
Context {T : Type} {O : LenOps T} {W : LenLaws T}.

(** ** With a limit *)

Theorem decompose_limited e0 rounds fuel limit (d : decomp T) : (limit <= INT_MAX)%Z -> (limit <> -1)%Z -> dec_ok e0 d ->
  length (d_keys d) < fuel -> (limit < Z.of_nat fuel)%Z -> length (d_keys d) < rounds ->
  exists ok d', decompose rounds fuel default_target limit d = Ok (ok, d').
Proof.
  intros HM Hm H Hf Hl Hr.
  destruct (decompose_ends e0 fuel limit (fun _ => True) HM) with (rounds := rounds) (d := d) as (ok & d' & Q & _); auto.
  - intros d1 C1 x C2 H1 E1 _ Hf1.
    destruct (decomposition_step_ok e0 fuel d1 C1 x C2 limit H1 E1 HM Hf1) as [[Er B]|[(Er & Hl' & _)|(st & d' & Er & _)]]; [|contradiction|eauto].
    exfalso. destruct (Z.eqb_spec limit (-1)); [contradiction|]. lia.
  - intros y _. exact I.
  - eauto.
Qed.

(** ** Integer lengths *)

Definition small (u : R) (N : Z) (e : exch) : Prop := integral u e /\ (total (e_len e) (e_top e) <= IZR N * u)%R.

Lemma total_sub f l k : (forall a, In a l -> 0 < f a)%R -> (total f (firstn k l) <= total f l /\ total f (skipn k l) <= total f l)%R.
Proof.
  intro H. rewrite <- (firstn_skipn k l) at 2 4. rewrite Dyn.total_app.
  assert (0 <= total f (firstn k l))%R by (apply Dyn.total_nonneg; intros a Ha; apply H; eapply in_firstn; exact Ha).
  assert (0 <= total f (skipn k l))%R by (apply Dyn.total_nonneg; intros a Ha; apply H; eapply in_skipn; exact Ha).
  lra.
Qed.

Lemma small_agree u N e e' : agree e e' -> small u N e -> small u N e'.
Proof.
  intros A [I B]. split; [|destruct (agree_total _ _ A) as [<- _]; exact B].
  destruct A as (Et & _ & El). intros a Ha. rewrite <- Et in Ha. rewrite <- El by auto. exact (I a Ha).
Qed.

Lemma small_path u N e e' : proper e -> rauzy_path e e' -> small u N e -> small u N e'.
Proof.
  intros P R [I B]. split; [eapply path_integral; eassumption|].
  destruct (path_total _ _ P R) as [S|L]; [|lra]. destruct (agree_total _ _ (same_agree _ _ S)) as [<- _]. exact B.
Qed.

Lemma small_left u N e k : proper e -> invariant_prefix e k -> small u N e -> small u N (left_of e k).
Proof.
  intros P _ [I B]. split.
  - intros a Ha. apply I. eapply in_firstn. exact Ha.
  - simpl. destruct (total_sub (e_len e) (e_top e) k) as [Q _]; [apply P|]. lra.
Qed.

Lemma small_right u N e k : proper e -> invariant_prefix e k -> small u N e -> small u N (right_of e k).
Proof.
  intros P _ [I B]. split.
  - intros a Ha. apply I. eapply in_skipn. exact Ha.
  - simpl. destruct (total_sub (e_len e) (e_top e) k) as [_ Q]; [apply P|]. lra.
Qed.

Lemma small_merge u N e e' : proper e -> merge_step e e' -> small u N e -> small u N e'.
Proof.
  intros (ND & Pe & Hp) (a & b & X & Y1 & Y2 & Et & Eb & El & Et' & Eb' & El') [I B].
  rewrite Et in ND. apply NoDup_cons_iff in ND as [Na ND].
  assert (Q : forall c, In c X -> e_len e' c = e_len e c) by (intros c Hc; apply El'; intros ->; contradiction).
  split.
  - intros c Hc. rewrite Et' in Hc. rewrite (Q c Hc). apply I. rewrite Et. right. exact Hc.
  - rewrite Et in B. simpl in B. rewrite Et', (Dyn.total_ext _ _ _ Q). specialize (Hp a). rewrite Et in Hp. specialize (Hp (or_introl eq_refl)). lra.
Qed.

Definition cyl_flags (y : dcomp T) : Prop :=
  (dc_wpt y <> Some true) /\ (dc_cylinder y = Some true -> i_size (dc_iet y) = 1).

Lemma integral_step u N e0 d C1 x C2 st d' : (0 < u)%R -> dec_ok e0 d -> d_comps d = C1 ++ x :: C2 -> step_post e0 d C1 x C2 st d' ->
  allP (small u N) d -> dst_result st <> D_WITHOUT_PERIODIC_TRAJECTORY_AUTO_SIMILAR /\ dst_result st <> D_WITHOUT_PERIODIC_TRAJECTORY_BOSHERNITZAN.
Proof.
  intros Hu H E P HP.
  assert (Hx : In x (d_comps d)) by (rewrite E; apply in_middle; auto).
  destruct (dk_good _ _ H x Hx) as [Gx Sw]. pose proof (proj1 Gx) as Wx. pose proof (wf_proper _ _ Wx) as Px.
  destruct (HP x Hx) as [I _].
  pose proof (sp_case _ _ _ _ _ _ _ P) as Q. unfold dstep_post in Q. 
  split; intro Er; rewrite Er in Q.
  - destruct Q as (i' & _ & R & _ & S & _). revert S. eapply integral_not_similar; [exact Hu|apply R|].
    eapply path_integral; [exact Px|exact (r_path _ _ _ _ R)|exact I].
  - destruct Q as (i' & _ & R & _ & _ & _ & NB & _). apply NB.
    pose proof (r_wf _ _ _ _ R) as Wf. apply (integral_balanced u); auto.
    + apply wf_proper, Wf.
    + apply Wf.
    + eapply path_integral; [exact Px|exact (r_path _ _ _ _ R)|exact I].
Qed.

Lemma integral_steps u N e0 d tr d' : (0 < u)%R -> dec_ok e0 d -> steps d tr d' -> allP (small u N) d ->
  (forall y, In y (d_comps d) -> cyl_flags y) -> (forall y, In y (d_comps d') -> cyl_flags y).
Proof.
  intros Hu H S. revert H. induction S as [d|d fuel limit c st d1 tr d2 HM Hf Hc E S IH]; intros H HP HF; [exact HF|].
  destruct (step_call e0 d c fuel limit st d1 H HM Hf Hc E) as (C1 & x & C2 & Ec & _ & P).
  destruct (integral_step u N e0 d C1 x C2 st d1 Hu H Ec P HP) as [N1 N2].
  apply IH; [apply P| |].
  { eapply (step_allP e0 (small u N)); try eassumption; eauto using small_agree, small_path, small_left, small_right, small_merge. }
  assert (Hx : In x (d_comps d)) by (rewrite Ec; apply in_middle; auto).
  destruct (dk_good _ _ H x Hx) as [Gx Sw]. pose proof (proj1 Gx) as Wx.
  assert (RS : forall i' s', reach (dc_iet x) (d_len d) i' s' -> i_size i' = i_size (dc_iet x)).
  { intros i' s' R. symmetry. exact (Permutation_length (reach_labels _ _ _ _ Wx R)). }
  assert (Old : forall y, In y (C1 ++ C2) -> cyl_flags y) by (intros y Hy; apply HF; rewrite Ec; apply in_middle; auto).
  destruct (HF x Hx) as [F1 F2].
  pose proof (sp_case _ _ _ _ _ _ _ P) as Q. unfold dstep_post in Q. destruct (dst_result st) eqn:Er; try contradiction; try congruence.
  - destruct Q as (i' & Ed & R & Hs & _). intros y Hy. rewrite Ed in Hy. apply in_middle in Hy as [->|Hy]; [|apply Old; exact Hy].
    split; [exact F1|]. simpl. intro Q. rewrite (RS _ _ R). auto.
  - destruct Q as (i' & Hs & Ed & Ht & Hb & _). intros y Hy. rewrite Ed in Hy. apply in_middle in Hy as [->|Hy]; [|apply Old; exact Hy].
    split; [discriminate|]. intros _. simpl. unfold i_size. rewrite Ht. exact Hs.
  - destruct Q as (i1 & k & b & t & w & R & Hk & _ & Ed & _). intros y Hy. rewrite Ed in Hy. apply in_middle in Hy as [->|Hy].
    + split; [exact F1|]. simpl. intro Q. specialize (F2 Q). rewrite <- (RS _ _ R) in F2. destruct Hk as [Hk _]. unfold i_size in *. simpl in Hk. lia.
    + rewrite app_assoc in Hy. apply in_app_or in Hy as [Hy|[<-|[]]]; [apply Old; exact Hy|]. split; discriminate.
  - destruct Q as (i1 & i' & b & t & w & R & M & _ & Ed & _). intros y Hy. rewrite Ed in Hy. pose proof Hy as Hy0. apply in_middle in Hy as [->|Hy]; [|apply Old; exact Hy].
    split; [exact F1|]. simpl. intro Q. specialize (F2 Q). rewrite <- (RS _ _ R) in F2. exfalso.
    destruct (merge_labels _ _ M) as [_ ML]. simpl in ML. unfold i_size in *.
    rewrite <- Ed in Hy0. destruct (dk_good _ _ (sp_ok _ _ _ _ _ _ _ P) _ Hy0) as [((_ & _ & Ne & _) & _) _]. apply Ne. simpl. destruct (i_top i'); [reflexivity|simpl in ML; lia].
Qed.

Theorem decompose_integral e0 u N rounds fuel limit (d : decomp T) : (limit <= INT_MAX)%Z -> (0 < u)%R -> (N < 2147483646)%Z -> dec_ok e0 d ->
  allP (small u N) d -> (forall y, In y (d_comps d) -> cyl_flags y) ->
  length (d_keys d) < fuel -> (Z.max 64 (2 * N + 2) < Z.of_nat fuel)%Z -> (limit < Z.of_nat fuel)%Z -> length (d_keys d) < rounds ->
  exists ok d', decompose rounds fuel default_target limit d = Ok (ok, d') /\ (limit = (-1)%Z -> ok = true) /\
    (ok = true -> forall y, In y (d_comps d') -> dc_cylinder y = Some true /\ i_size (dc_iet y) = 1).
Proof.
  intros HM Hu HN H HP HC Hf Hf2 Hl Hr.
  destruct (decompose_ends e0 fuel limit (small u N) HM) with (rounds := rounds) (d := d) as (ok & d' & Q & HP'); auto;
    eauto using small_agree, small_path, small_left, small_right, small_merge.
  - intros d1 C1 x C2 H1 E1 [I B] Hf1.
    destruct (decomposition_step_ok e0 fuel d1 C1 x C2 limit H1 E1 HM Hf1) as [[Er Bd]|[(Er & Hl' & Bd)|(st & d' & Er & _)]]; [| |eauto]; exfalso.
    + destruct (Z.eqb_spec limit (-1)) as [->|]; [|lia]. specialize (Bd u N Hu I B). lia.
    + specialize (Bd u Hu I). apply (Rle_trans _ _ _ Bd) in B. apply Rmult_le_reg_r in B; [|exact Hu]. apply le_IZR in B. lia.
  - exists ok, d'. split; [exact Q|].
    destruct (decompose_ok e0 rounds fuel default_target limit d HM H Hf) as [Q'|[(Q' & _)|(ok' & d1 & tr & Q' & H' & _ & S & _ & Tg & L)]]; rewrite Q in Q'; try discriminate.
    injection Q' as <- <-. split.
    + intro E. destruct ok; [reflexivity|]. contradiction (L eq_refl E).
    + intros E y Hy. destruct (integral_steps u N e0 d tr d' Hu H S HP HC y Hy) as [F1 F2].
      specialize (Tg E y Hy). apply default_view in Tg as [Tg|Tg]; [|contradiction]. auto.
Qed.
End Ends.
