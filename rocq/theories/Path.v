(** Induction paths (specification level): sequences of elementary steps of either type. *)
From Coq Require Import Reals Lra Lia List Permutation.
From Verif Require Import Spec Dyn Saddle.
Import ListNotations.
Open Scope R_scope.

Lemma same_exch_trans e e1 e2 : same_exch e e1 -> same_exch e1 e2 -> same_exch e e2.
Proof.
  intros (A & B & C) (A' & B' & C'). split; [rewrite A; exact A'|].
  split; [rewrite B; exact B'|]. intros c. rewrite C. apply C'.
Qed.

Lemma same_exch_refl e : same_exch e e.
Proof. repeat split. Qed.

Lemma same_exch_flip e e' : same_exch e e' -> same_exch (flip e) (flip e').
Proof. intros (A & B & C). repeat split; assumption. Qed.

Lemma flip_flip e : flip (flip e) = e.
Proof. destruct e; reflexivity. Qed.

Lemma rauzy_step_same e e0 e1 : same_exch e e0 -> rauzy_step e0 e1 -> rauzy_step e e1.
Proof.
  intros (A & B & C) (a & b & X & Y1 & Y2 & H1 & H2 & H3 & H4 & H5 & H6 & H7).
  exists a, b, X, Y1, Y2. rewrite A, B, !C. repeat split; try assumption.
  intros c Hc. rewrite C. apply H7, Hc.
Qed.

Lemma rauzy_path_same e e0 e' : same_exch e e0 -> rauzy_path e0 e' -> rauzy_path e e'.
Proof.
  intros S H. destruct H as [e0 e' H | e0 e1 e' H H' | e0 e1 e' H H'].
  - apply path_refl. exact (same_exch_trans _ _ _ S H).
  - apply path_top with e1; [exact (rauzy_step_same _ _ _ S H) | exact H'].
  - apply path_bot with e1; [exact (rauzy_step_same _ _ _ (same_exch_flip _ _ S) H) | exact H'].
Qed.

Lemma rauzy_path_trans e e1 e2 : rauzy_path e e1 -> rauzy_path e1 e2 -> rauzy_path e e2.
Proof.
  intros H. induction H as [e e' S | e e0 e' H _ IH | e e0 e' H _ IH]; intros H2.
  - exact (rauzy_path_same _ _ _ S H2).
  - apply path_top with e0; auto.
  - apply path_bot with e0; auto.
Qed.

Lemma run_path e e' : rauzy_run e e' -> rauzy_path e e'.
Proof.
  intros H. induction H as [e e' S | e e1 e' H _ IH]; [apply path_refl, S | apply path_top with e1; assumption].
Qed.

Lemma run_path_flip e e' : rauzy_run e e' -> rauzy_path (flip e) (flip e').
Proof.
  intros H. induction H as [e e' S | e e1 e' H _ IH].
  - apply path_refl, same_exch_flip, S.
  - apply path_bot with (flip e1); [rewrite !flip_flip; exact H | exact IH].
Qed.

Lemma bot_step_facts e e1 : proper e -> rauzy_step (flip e) (flip e1) -> induced e e1 /\ proper e1.
Proof.
  intros P H. pose proof (flip_proper _ P) as Pf. 
  pose proof (rauzy_step_proper _ _ Pf H) as P1. pose proof (rauzy_step_induced _ _ Pf H) as I.
  split.
  - apply (induced_flip _ _ Pf P1) in I. rewrite !flip_flip in I. exact I.
  - apply flip_proper in P1. rewrite flip_flip in P1. exact P1.
Qed.

(** Along a path the exchange stays proper and is a first-return map of where it started. *)
Lemma path_induced e e' : proper e -> rauzy_path e e' -> induced e e' /\ proper e'.
Proof.
  intros P H. induction H as [e e' S | e e1 e' H _ IH | e e1 e' H _ IH].
  - split; [apply induced_refl; assumption | exact (same_exch_proper _ _ S P)].
  - pose proof (rauzy_step_proper _ _ P H) as P1. destruct (IH P1) as [I P']. split; [|exact P'].
    apply (induced_trans e e1 e'); auto. apply rauzy_step_induced; assumption.
  - destruct (bot_step_facts _ _ P H) as [I1 P1]. destruct (IH P1) as [I P']. split; [|exact P'].
    apply (induced_trans e e1 e'); auto.
Qed.

(** Saddle connections keep their labels along a path. *)
Lemma path_saddle e e' : proper e -> rauzy_path e e' ->
  forall c t, saddle_connection e' c t <-> saddle_connection e c t.
Proof.
  intros P H. induction H as [e e' S | e e1 e' H _ IH | e e1 e' H _ IH]; intros c t.
  - split; apply same_exch_saddle; [apply same_exch_sym|]; exact S.
  - rewrite (IH (rauzy_step_proper _ _ P H)). apply rauzy_step_saddle; assumption.
  - destruct (bot_step_facts _ _ P H) as [_ P1]. rewrite (IH P1).
    rewrite <- (flip_saddle e1), <- (flip_saddle e). apply rauzy_step_saddle; [apply flip_proper, P | exact H].
Qed.

(** The set of labels does not change along a path. *)
Lemma path_labels e e' : proper e -> rauzy_path e e' -> Permutation (e_top e) (e_top e').
Proof.
  intros P H. induction H as [e e' S | e e1 e' H _ IH | e e1 e' H _ IH].
  - destruct S as (A & _). rewrite A. reflexivity.
  - rewrite <- (IH (rauzy_step_proper _ _ P H)). destruct H as (a & b & X & Y1 & Y2 & _ & _ & _ & E & _). rewrite E. reflexivity.
  - destruct (bot_step_facts _ _ P H) as [_ P1]. rewrite <- (IH P1). clear IH.
    destruct H as (a & b & X & Y1 & Y2 & _ & _ & _ & E & _). simpl in E.
    destruct P as (_ & Pe & _), P1 as (_ & Pe1 & _). rewrite Pe, Pe1, E. reflexivity.
Qed.

(** Lengths never grow along a path, and those of other labels stay. *)
Lemma path_lengths e e' : proper e -> rauzy_path e e' ->
  (forall c, e_len e' c <= e_len e c) /\ (forall c, ~ In c (e_top e) -> e_len e' c = e_len e c).
Proof.
  intros P H. induction H as [e e' S | e e1 e' H _ IH | e e1 e' H _ IH].
  - destruct S as (_ & _ & A). split; intros c; [rewrite A; lra | intros _; rewrite A; reflexivity].
  - pose proof (rauzy_step_proper _ _ P H) as P1. destruct (IH P1) as [I1 I2].
    destruct H as (a & b & X & Y1 & Y2 & Ht & Hb & _ & E & _ & Ha & Hc).
    assert (Hpb : 0 < e_len e b).
    { apply (proper_bot_pos e P). rewrite Hb. left; reflexivity. }
    split.
    + intros c. specialize (I1 c). destruct (Nat.eq_dec c a) as [->|N]; [lra | rewrite (Hc c N) in I1; lra].
    + intros c Hn. rewrite I2 by (rewrite E; exact Hn). apply Hc. intros ->. apply Hn. rewrite Ht. left; reflexivity.
  - destruct (bot_step_facts _ _ P H) as [_ P1]. destruct (IH P1) as [I1 I2].
    assert (L : Permutation (e_top e) (e_top e1)).
    { apply path_labels; [exact P|]. apply path_bot with e1; [exact H | apply path_refl, same_exch_refl]. }
    destruct H as (a & b & X & Y1 & Y2 & Ht & Hb & _ & E & _ & Ha & Hc). simpl in *.
    assert (Hpb : 0 < e_len e b).
    { apply P. rewrite Hb. left; reflexivity. }
    split.
    + intros c. specialize (I1 c). destruct (Nat.eq_dec c a) as [->|N]; [lra | rewrite (Hc c N) in I1; lra].
    + intros c Hn. rewrite I2 by (rewrite <- L; exact Hn). apply Hc. intros ->. apply Hn.
      destruct P as (_ & Pe & _). rewrite Pe, Ht. left; reflexivity.
Qed.

(** The saddle connection seen at a cut. *)
Lemma last_right_end len k l b : (0 < k <= length l)%nat -> hd_error (rev (firstn k l)) = Some b ->
  right_end len l b (total len (firstn k l)).
Proof.
  intros Hk Hb. destruct (rev (firstn k l)) as [|c r] eqn:E; [discriminate|]. injection Hb as ->.
  assert (E' : firstn k l = rev r ++ [b]) by (rewrite <- (rev_involutive (firstn k l)), E; reflexivity).
  exists (rev r), (skipn k l). rewrite E', total_app. simpl. split; [|lra].
  rewrite <- (firstn_skipn k l) at 1. rewrite E', <- app_assoc. reflexivity.
Qed.

Lemma total_firstn_lt e k : proper e -> (k < length (e_top e))%nat ->
  total (e_len e) (firstn k (e_top e)) < total (e_len e) (e_top e).
Proof.
  intros (_ & _ & Hp) Hk. rewrite <- (firstn_skipn k (e_top e)) at 2. rewrite total_app.
  assert (G : 0 < total (e_len e) (skipn k (e_top e))).
  { destruct (skipn k (e_top e)) as [|c r] eqn:E.
    - exfalso. assert (length (skipn k (e_top e)) = 0%nat) by (rewrite E; reflexivity). rewrite skipn_length in H. lia.
    - assert (Hin : forall x, In x (c :: r) -> 0 < e_len e x).
      { intros x Hx. apply Hp. rewrite <- (firstn_skipn k (e_top e)), E. apply in_app_iff; right; exact Hx. }
      simpl. pose proof (Hin c (or_introl eq_refl)).
      pose proof (total_nonneg (e_len e) r (fun x Hx => Hin x (or_intror Hx))). lra. }
  lra.
Qed.

Lemma prefix_saddle e k b t : proper e -> invariant_prefix e k ->
  hd_error (rev (firstn k (e_bot e))) = Some b -> hd_error (rev (firstn k (e_top e))) = Some t ->
  saddle_connection e b t.
Proof.
  intros P [Hk HP] Hb Ht.
  pose proof (Permutation_length (proj1 (proj2 P))) as HL.
  exists (total (e_len e) (firstn k (e_bot e))), (total (e_len e) (firstn k (e_top e))), 0%nat.
  split; [apply last_right_end; [lia | exact Hb]|]. split; [apply last_right_end; [lia | exact Ht]|].
  rewrite <- (total_perm (e_len e) _ _ HP), <- (proper_total e P).
  pose proof (total_firstn_lt e k P (proj2 Hk)). repeat split; try assumption.
Qed.

Lemma merge_saddle e a b X Y : proper e -> e_top e = a :: X -> e_bot e = b :: Y -> e_len e a = e_len e b ->
  X <> [] -> saddle_connection e b a.
Proof.
  intros P Ht Hb He HX.
  pose proof (total_firstn_lt e 1 P) as L. rewrite Ht in L. destruct X as [|c X]; [congruence|].
  specialize (L ltac:(simpl; lia)). 
  exists (e_len e b), (e_len e a), 0%nat. rewrite <- (proper_total e P), Ht. simpl in *.
  split; [exists [], Y; rewrite Hb; simpl; split; [reflexivity | lra]|].
  split; [exists [], (c :: X); simpl; split; [reflexivity | lra]|].
  repeat split; lra.
Qed.
