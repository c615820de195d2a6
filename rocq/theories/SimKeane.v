(** Induction of a self-similar exchange goes on forever, so all its orbits are dense and it
    has no saddle connections (specification level). *)
From Coq Require Import Reals Lra Lia List Permutation Arith Classical.
From Verif Require Import Spec SpecDec SpecTower SpecDense SpecSim Dyn Saddle Path Similar SelfSim Endless Rank2 RankEnd DecompDyn DecompAll RankDec Keane.
Import ListNotations.
Open Scope R_scope.

Lemma rz_flip e : rz (flip e) = flip (rz e).
Proof.
  unfold rz, go, flip. simpl. destruct (e_top e) as [|a X] eqn:Et, (e_bot e) as [|b Y] eqn:Eb; simpl; rewrite ?Et, ?Eb; try reflexivity.
  destruct (Rlt_dec (e_len e a) (e_len e b)), (Rlt_dec (e_len e b) (e_len e a)); simpl; rewrite ?Et, ?Eb; try reflexivity; lra.
Qed.
Lemma able_flip e : able e -> able (flip e).
Proof. intros (a & b & X & Y & A & B & C). exists b, a, Y, X. simpl. split; [exact B|]. split; [exact A|]. congruence. Qed.

Lemma scaled_able c e f : proper e -> 0 < c -> scaled c e f -> able e -> able f.
Proof.
  intros (_ & Pe & _) Hc (A & B & C) (a & b & X & Y & Et & Eb & D). exists a, b, X, Y. rewrite A, B. split; [exact Et|]. split; [exact Eb|].
  rewrite !C; [|rewrite Pe, Eb; left; reflexivity | rewrite Et; left; reflexivity]. nra.
Qed.
Lemma scaled_rz c e f : proper e -> 0 < c -> scaled c e f -> scaled c (rz e) (rz f).
Proof.
  intros P Hc Sc. pose proof P as (_ & Pe & _). pose proof Sc as (A & B & C). unfold rz, go. rewrite A, B.
  destruct (e_top e) as [|a X] eqn:Et; [exact Sc|]. destruct (e_bot e) as [|b Y] eqn:Eb; [exact Sc|].
  assert (Ha : e_len f a = c * e_len e a) by (apply C; left; reflexivity).
  assert (Hb : e_len f b = c * e_len e b) by (apply C; rewrite Pe; left; reflexivity).
  rewrite Ha, Hb.
  destruct (Rlt_dec (e_len e b) (e_len e a)) as [L|L].
  - destruct (Rlt_dec (c * e_len e b) (c * e_len e a)) as [L'|L']; [|exfalso; apply L'; nra].
    repeat split. cbn [snd e_top e_len]. intros x Hx. unfold less. destruct (Nat.eqb x a); [rewrite Ha, Hb; ring | apply C, Hx].
  - destruct (Rlt_dec (c * e_len e b) (c * e_len e a)) as [L'|L']; [exfalso; nra|].
    destruct (Rlt_dec (e_len e a) (e_len e b)) as [K|K].
    + destruct (Rlt_dec (c * e_len e a) (c * e_len e b)) as [K'|K']; [|exfalso; apply K'; nra].
      repeat split. cbn [snd e_top e_len]. intros x Hx. unfold less. destruct (Nat.eqb x b); [rewrite Ha, Hb; ring|].
      apply put_before_in in Hx as [->|Hx]; [exact Ha | apply C; right; exact Hx].
    + destruct (Rlt_dec (c * e_len e a) (c * e_len e b)) as [K'|K']; [exfalso; nra|]. exact Sc.
Qed.

(** Up to scale and up to exchanging the rows. *)
Definition alike (c : R) (e f : exch) : Prop := scaled c e f \/ scaled c e (flip f).
Lemma alike_able c e f : proper e -> 0 < c -> alike c e f -> able e -> able f.
Proof.
  intros P Hc [S|S] A; [exact (scaled_able c e f P Hc S A)|].
  pose proof (able_flip _ (scaled_able c e _ P Hc S A)) as Q. rewrite flip_flip in Q. exact Q.
Qed.
Lemma alike_rz c e f : proper e -> 0 < c -> alike c e f -> alike c (rz e) (rz f).
Proof. intros P Hc [S|S]; [left | right; rewrite <- rz_flip]; apply scaled_rz; assumption. Qed.
Lemma alike_total c e f : proper e -> 0 < c -> alike c e f -> total (e_len f) (e_top f) = c * total (e_len e) (e_top e).
Proof.
  intros (N & Pe & Hp) Hc [(A & _ & C)|(A & B & C)]; [rewrite A; apply total_scale_in; exact C|].
  simpl in A, B, C. rewrite B, (total_perm (e_len f) _ _ (Permutation_sym Pe)). apply total_scale_in. exact C.
Qed.
Lemma alike_agree c e f g : alike c e f -> same_exch f g -> alike c e g.
Proof.
  intros [(A & B & C)|(A & B & C)] (A' & B' & C'); simpl in *; [left|right]; (split; [simpl; congruence|]); (split; [simpl; congruence|]);
    intros x Hx; simpl; rewrite <- C'; apply C; exact Hx.
Qed.

(** The prefix of a reducible exchange is invariant. *)
Lemma prefix_stays e k : proper e -> invariant_prefix e k -> forall n x y, 0 <= x < size (left_of e k) -> iter (maps e) n x y -> y < size (left_of e k).
Proof.
  intros P Hk. destruct (cut_pieces e k P Hk) as (_ & _ & _ & PL & _).
  assert (Et : e_top e = firstn k (e_top e) ++ skipn k (e_top e)) by (symmetry; apply firstn_skipn).
  assert (Eb : e_bot e = firstn k (e_bot e) ++ skipn k (e_bot e)) by (symmetry; apply firstn_skipn).
  induction n as [|n IH]; intros x y Hx Hy; [simpl in Hy; subst; apply Hx|].
  destruct Hy as (z & Hz & Hy). destruct (maps_total (left_of e k) PL x Hx) as (w & Hw).
  assert (Hm : maps e x w) by (apply (cut_left e _ _ _ _ P Et Eb (proj2 Hk)); exact Hw).
  rewrite (maps_fun _ P _ _ _ Hz Hm) in Hy. exact (IH w y (maps_ran _ PL _ _ Hw) Hy).
Qed.

Section Endless.
Variables (e1 e2 : exch) (c : R).
Hypothesis P : proper e1.
Hypothesis Ne : e_top e1 <> [].
Hypothesis Hc : 0 < c < 1.
Hypothesis Al : alike c e1 e2.
Hypothesis Pa : rauzy_path e1 e2.

Let Tt := total (e_len e1) (e_top e1).
Lemma Tt_pos : 0 < Tt.
Proof.
  unfold Tt. destruct P as (_ & _ & Hp). destruct (e_top e1) as [|a X] eqn:E; [contradiction|]. simpl.
  assert (0 < e_len e1 a) by (apply Hp; left; reflexivity).
  assert (0 <= total (e_len e1) X) by (apply total_nonneg; intros x Hx; apply Hp; right; exact Hx). lra.
Qed.

Lemma period : exists m, (1 <= m)%nat /\ (forall k, (k < m)%nat -> able (Nat.iter k rz e1)) /\ alike c e1 (Nat.iter m rz e1).
Proof.
  destruct (path_after _ _ P Pa) as (m & A & B). exists m. split; [|split; [exact B | exact (alike_agree _ _ _ _ Al (same_exch_sym _ _ A))]].
  destruct m as [|m]; [exfalso|lia]. simpl in A. pose proof (alike_total c e1 e1 P (proj1 Hc) (alike_agree _ _ _ _ Al (same_exch_sym _ _ A))) as Q.
  pose proof Tt_pos as Q'. unfold Tt in Q'. nra.
Qed.

Lemma on_and_on n : able (Nat.iter n rz e1) /\ proper (Nat.iter n rz e1).
Proof.
  destruct period as (m & Hm & Hab & Ha).
  induction n as [n IH] using (well_founded_induction Wf_nat.lt_wf).
  assert (Pn : forall k, (k <= n)%nat -> proper (Nat.iter k rz e1)).
  { intros k Hk. destruct k as [|k]; [exact P|]. simpl. destruct (IH k ltac:(lia)) as [A1 A2]. exact (rz_proper _ A2 A1). }
  split; [|apply Pn; lia]. destruct (Nat.lt_ge_cases n m) as [L|L]; [exact (Hab n L)|].
  replace n with (m + (n - m))%nat by lia. rewrite iter_plus.
  enough (Q : forall k, (k <= n - m)%nat -> alike c (Nat.iter k rz e1) (Nat.iter k rz (Nat.iter m rz e1))).
  { apply (alike_able c (Nat.iter (n - m) rz e1)); [apply Pn; lia | lra | apply Q; lia | apply IH; lia]. }
  induction k as [|k IHk]; intros Hk; [exact Ha|]. simpl. apply alike_rz; [apply Pn; lia | lra | apply IHk; lia].
Qed.

Lemma runs n : rauzy_path e1 (Nat.iter n rz e1).
Proof.
  induction n as [|n IH]; [apply path_refl, same_exch_refl|]. simpl. apply (rauzy_path_trans _ _ _ IH).
  destruct (on_and_on n) as [A B]. exact (move_path _ _ _ _ (go_move _ B A)).
Qed.

Lemma shrinks j : exists n, total (e_len (Nat.iter n rz e1)) (e_top (Nat.iter n rz e1)) = c ^ j * Tt.
Proof.
  destruct period as (m & Hm & Hab & Ha).
  assert (Q : forall k, alike c (Nat.iter k rz e1) (Nat.iter k rz (Nat.iter m rz e1))).
  { induction k as [|k IHk]; [exact Ha|]. simpl. apply alike_rz; [apply on_and_on | lra | exact IHk]. }
  induction j as [|j (n & IH)]; [exists 0%nat; simpl; fold Tt; lra|]. exists (m + n)%nat. rewrite iter_plus.
  rewrite (alike_total c _ _ (proj2 (on_and_on n)) (proj1 Hc) (Q n)), IH. simpl. ring.
Qed.

Lemma not_reducible : ~ reducible e1.
Proof.
  intros (k & Hk). destruct (cut_pieces e1 k P Hk) as (_ & _ & Sz & PL & PR).
  assert (SL : 0 < size (left_of e1 k)).
  { unfold size. destruct Hk as [Hk _]. cbn [left_of e_top e_len]. destruct (e_top e1) as [|a X] eqn:E; [contradiction|]. destruct k as [|k]; [lia|]. simpl.
    assert (0 < e_len e1 a) by (apply P; rewrite E; left; reflexivity).
    assert (0 <= total (e_len e1) (firstn k X)); [|lra]. apply total_nonneg. intros x Hx. apply P. rewrite E. right. eapply in_firstn. exact Hx. }
  assert (SR : 0 < size (right_of e1 k)).
  { unfold size. destruct Hk as [Hk _]. cbn [right_of e_top e_len]. destruct (skipn k (e_top e1)) as [|a X] eqn:E.
    { pose proof (skipn_length k (e_top e1)) as Q. rewrite E in Q. simpl in Q. lia. }
    simpl. assert (In' : forall x, In x (a :: X) -> 0 < e_len e1 x) by (intros x Hx; apply P; rewrite <- E in Hx; eapply in_skipn; exact Hx).
    pose proof (In' a (or_introl eq_refl)). assert (0 <= total (e_len e1) X); [|lra]. apply total_nonneg. intros x Hx. apply In'. right. exact Hx. }
  assert (Hc1 : Rabs c < 1) by (rewrite Rabs_right; lra).
  destruct (pow_lt_1_zero c Hc1 (size (right_of e1 k) / Tt)) as (j & Hj); [apply Rdiv_lt_0_compat; [exact SR | exact Tt_pos]|].
  specialize (Hj j (le_n j)). rewrite Rabs_right in Hj by (apply Rle_ge, pow_le; lra).
  destruct (shrinks j) as (n & Hn). destruct (path_induced _ _ P (runs n)) as [(D & _ & V) _]. rewrite Hn in D, V. fold Tt in D, V.
  destruct (V 0) as (q & z & Hq & Hz); [pose proof Tt_pos; lra|].
  pose proof (prefix_stays e1 k P Hk q 0 z ltac:(lra) Hq) as Q. change (size e1) with Tt in Sz.
  pose proof Tt_pos as Tp. assert (c ^ j * Tt < size (right_of e1 k)).
  { apply (Rmult_lt_compat_r Tt) in Hj; [|exact Tp]. replace (size (right_of e1 k) / Tt * Tt) with (size (right_of e1 k)) in Hj by (field; lra). exact Hj. }
  lra.
Qed.
Lemma never_reducible n : ~ reducible (Nat.iter n rz e1).
Proof.
  induction n as [|n IH]; [exact not_reducible|]. simpl. destruct (on_and_on n) as [A B].
  exact (move_irreducible _ _ _ _ B (go_move _ B A) IH).
Qed.
End Endless.

(** Whatever leads to a self-similar exchange has dense orbits and no saddle connection. *)
Theorem similar_minimal e e1 e2 c : proper e -> rauzy_path e e1 -> e_top e1 <> [] -> 0 < c < 1 -> alike c e1 e2 -> rauzy_path e1 e2 ->
  minimal e /\ ~ has_saddle_connection e.
Proof.
  intros P R Ne Hc Al Pa. destruct (path_induced _ _ P R) as [_ P1]. destruct (path_after _ _ P R) as (n0 & A0).
  assert (No : ~ (has_saddle_connection e \/ has_periodic_point e \/ ~ minimal e)).
  { intros Q. destruct (keane_ends e P Q) as (N & HN). apply (never_reducible e1 e2 c P1 Ne Hc Al Pa N).
    apply (HN (n0 + N)%nat); [lia| |apply (on_and_on e1 e2 c P1 Ne Hc Al Pa)]. apply (after_plus _ _ _ _ _ A0).
    split; [apply same_exch_refl | intros k _; apply (on_and_on e1 e2 c P1 Ne Hc Al Pa)]. }
  split; [apply NNPP|]; intros C; apply No; auto.
Qed.

Lemma self_similar_minimal e n p e1 e2 rho c : proper e -> e_top e <> [] -> (0 < p)%nat -> iter round n e e1 -> iter round p e1 e2 ->
  renamed rho c e1 e2 -> minimal e /\ ~ has_saddle_connection e.
Proof.
  intros P Ne Hp R1 R2 M. destruct (rounds_labels _ _ _ P R1) as [P1 L1].
  assert (Ne1 : e_top e1 <> []) by (intros E; apply Ne; apply length_zero_iff_nil; rewrite (Permutation_length L1), E; reflexivity).
  destruct (self_similar_scaled _ _ _ _ _ P1 Ne1 R2 M) as (e3 & c' & Hc & R3 & Sc).
  assert (Hq : (0 < fact (length (e_top e1)) * p)%nat) by (pose proof (lt_O_fact (length (e_top e1))); nia).
  pose proof (scaled_small _ _ _ _ P1 Ne1 Hq R3 Sc) as Hc1.
  exact (similar_minimal e e1 e3 c' P (rounds_path _ _ _ R1) Ne1 (conj Hc Hc1) (or_introl Sc) (rounds_path _ _ _ R3)).
Qed.
