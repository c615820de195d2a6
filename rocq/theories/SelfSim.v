(** Self-similar exchanges under Zorich induction (specification level). *)
From Coq Require Import Reals Lra Lia List Permutation Arith Factorial.
From Verif Require Import Spec SpecSim ZorichProof Dyn Saddle Path Similar ReduceProof InduceProof InduceCons Seq.
Import ListNotations.
Open Scope R_scope.

(** * Rounds *)

Lemma round_same_l e e0 e' : same_exch e e0 -> round e0 e' -> round e e'.
Proof.
  intros S (e1 & e2 & R & H). exists e1, e2. split; [exact (run_same _ _ _ S R) | exact H].
Qed.

Lemma run_labels e e' : proper e -> rauzy_run e e' -> proper e' /\ Permutation (e_top e) (e_top e').
Proof.
  intros P R. apply run_path in R. split; [apply (path_induced _ _ P R) | exact (path_labels _ _ P R)].
Qed.

Lemma round_labels e e' : proper e -> round e e' -> proper e' /\ Permutation (e_top e) (e_top e').
Proof.
  intros P (e1 & e2 & R1 & _ & _ & R2 & _ & _ & S). destruct (run_labels _ _ P R1) as [P1 L1].
  destruct (run_labels _ _ (flip_proper _ P1) R2) as [P2 L2].
  pose proof (flip_proper _ P2) as P2'. pose proof (same_exch_proper _ _ S P2') as P'. split; [exact P'|].
  destruct S as (S1 & _). rewrite <- S1. simpl in *. destruct P1 as (_ & Q1 & _). destruct P2 as (_ & Q2 & _).
  rewrite L1, Q1, L2, Q2. reflexivity.
Qed.

Lemma round_fun e e' e'' : proper e -> round e e' -> round e e'' -> same_exch e' e''.
Proof.
  intros P (e1 & e2 & R1 & T1 & F1 & R2 & T2 & F2 & S) (f1 & f2 & R1' & T1' & F1' & R2' & T2' & F2' & S').
  pose proof (run_unique _ _ _ P R1 T1 R1' T1') as S1. destruct (run_labels _ _ P R1) as [P1 _].
  pose proof (run_same _ _ _ (same_exch_flip _ _ S1) R2') as R2''.
  pose proof (run_unique _ _ _ (flip_proper _ P1) R2 T2 R2'' T2') as S2.
  apply same_exch_trans with (flip e2); [apply same_exch_sym, S|]. apply same_exch_trans with (flip f2); [apply same_exch_flip, S2 | exact S'].
Qed.

Lemma rounds_labels n : forall e e', proper e -> iter round n e e' -> proper e' /\ Permutation (e_top e) (e_top e').
Proof.
  induction n as [|n IH]; intros e e' P H; simpl in H; [subst; auto|].
  destruct H as (f & H1 & H2). destruct (round_labels _ _ P H1) as [P1 L1]. destruct (IH _ _ P1 H2) as [P2 L2].
  split; [exact P2 | rewrite L1; exact L2].
Qed.

Lemma rounds_fun n : forall e f e' e'', proper e -> same_exch e f -> iter round n e e' -> iter round n f e'' -> same_exch e' e''.
Proof.
  induction n as [|n IH]; intros e f e' e'' P S H1 H2; simpl in H1, H2; [subst; exact S|].
  destruct H1 as (a & A1 & A2). destruct H2 as (b & B1 & B2). destruct (round_labels _ _ P A1) as [Pa _].
  exact (IH a b e' e'' Pa (round_fun _ _ _ P A1 (round_same_l _ _ _ S B1)) A2 B2).
Qed.

Lemma rounds_same_l n e f e' : same_exch e f -> iter round n f e' -> exists e'', iter round n e e'' /\ same_exch e'' e'.
Proof.
  intros S H. destruct n as [|n]; simpl in *; [subst; exists e; auto|].
  destruct H as (g & H1 & H2). exists e'. split; [|apply same_exch_refl]. exists g. split; [exact (round_same_l _ _ _ S H1) | exact H2].
Qed.

Lemma iter_app {A} (f : A -> A -> Prop) m n : forall x y z, iter f m x y -> iter f n y z -> iter f (m + n) x z.
Proof.
  induction m as [|m IH]; intros x y z H1 H2; simpl in *; [subst; exact H2|].
  destruct H1 as (w & W1 & W2). exists w. split; [exact W1 | exact (IH _ _ _ W2 H2)].
Qed.

(** * Copies *)

Lemma renamed_flip rho c e e' : proper e -> renamed rho c e e' -> renamed rho c (flip e) (flip e').
Proof.
  intros (_ & Pe & _) (A & B & C). repeat split; [exact B | exact A|]. simpl. intros a Ha. apply C. rewrite Pe. exact Ha.
Qed.

Lemma renamed_same_r rho c e e' e'' : renamed rho c e e' -> same_exch e' e'' -> renamed rho c e e''.
Proof.
  intros (A & B & C) (A' & B' & C'). split; [rewrite <- A'; exact A|]. split; [rewrite <- B'; exact B|].
  intros a Ha. rewrite <- C'. exact (C a Ha).
Qed.

Lemma renamed_same_l rho c e0 e e' : same_exch e e0 -> renamed rho c e e' -> renamed rho c e0 e'.
Proof.
  intros (A' & B' & C') (A & B & C). split; [rewrite <- A'; exact A|]. split; [rewrite <- B'; exact B|].
  intros a Ha. rewrite <- C'. apply C. rewrite A'. exact Ha.
Qed.

Lemma renamed_pos rho c e e' : proper e -> proper e' -> e_top e <> [] -> renamed rho c e e' -> 0 < c.
Proof.
  intros (_ & _ & P) (_ & _ & P') Ne (A & _ & C). destruct (e_top e) as [|a X] eqn:E; [congruence|].
  assert (Ha : In a (a :: X)) by (left; reflexivity).
  pose proof (P a Ha) as H1. pose proof (P' (rho a)) as H2. rewrite A, (C a Ha) in H2.
  specialize (H2 (in_map rho _ _ Ha)). nra.
Qed.

Lemma renamed_inj rho c e e' a b : proper e' -> renamed rho c e e' -> In a (e_top e) -> In b (e_top e) -> rho a = rho b -> a = b.
Proof.
  intros (N & _) (A & _) Ha Hb E. rewrite A in N. clear A.
  induction (e_top e) as [|x l IH]; [destruct Ha|]. simpl in N. inversion N as [|? ? N1 N2]; subst.
  destruct Ha as [->|Ha], Hb as [->|Hb]; auto.
  - exfalso. apply N1. rewrite E. apply in_map, Hb.
  - exfalso. apply N1. rewrite <- E. apply in_map, Ha.
Qed.

Lemma renamed_step rho c e e' e1 : proper e -> proper e' -> 0 < c -> renamed rho c e e' -> rauzy_step e e1 ->
  exists e1', rauzy_step e' e1' /\ renamed rho c e1 e1'.
Proof.
  intros P P' Hc M (a & b & X & Y1 & Y2 & Et & Eb & Hlt & Et1 & Eb1 & Ha & Hx). pose proof M as (A & B & C).
  assert (Ia : In a (e_top e)) by (rewrite Et; left; reflexivity).
  assert (Ib : In b (e_top e)) by (destruct P as (_ & Pe & _); rewrite Pe, Eb; left; reflexivity).
  exists (mkexch (e_top e') (map rho (Y1 ++ b :: a :: Y2))
    (fun x => if Nat.eq_dec x (rho a) then e_len e' (rho a) - e_len e' (rho b) else e_len e' x)). split.
  - exists (rho a), (rho b), (map rho X), (map rho Y1), (map rho Y2). simpl.
    split; [rewrite A, Et; reflexivity|]. split; [rewrite B, Eb; simpl; rewrite map_app; reflexivity|].
    split; [rewrite !C by assumption; nra|]. split; [reflexivity|]. split; [rewrite map_app; reflexivity|].
    split; [destruct (Nat.eq_dec (rho a) (rho a)); congruence|].
    intros x Hne. destruct (Nat.eq_dec x (rho a)); congruence.
  - split; [rewrite Et1; exact A|]. split; [rewrite Eb1; reflexivity|].
    rewrite Et1. intros x Hx'. simpl. destruct (Nat.eq_dec (rho x) (rho a)) as [E|E].
    + apply (renamed_inj rho c e e') in E; auto. subst x. rewrite !C, Ha by assumption. ring.
    + rewrite Hx by congruence. apply C, Hx'.
Qed.

Lemma renamed_run rho c e e' e1 : proper e -> proper e' -> 0 < c -> renamed rho c e e' -> rauzy_run e e1 ->
  exists e1', rauzy_run e' e1' /\ renamed rho c e1 e1'.
Proof.
  intros P P' Hc M R. revert e' P' M. induction R as [e e1 S|e f e1 S R IH]; intros e' P' M.
  - exists e'. split; [apply run_refl, same_exch_refl | exact (renamed_same_l _ _ _ _ _ S M)].
  - destruct (renamed_step rho c e e' f P P' Hc M S) as (f' & S' & M').
    destruct (IH (rauzy_step_proper _ _ P S) f' (rauzy_step_proper _ _ P' S') M') as (e1' & R' & M'').
    exists e1'. split; [exact (run_step _ _ _ S' R') | exact M''].
Qed.

Lemma renamed_stuck rho c e e' : proper e -> 0 < c -> renamed rho c e e' -> rauzy_stuck e -> rauzy_stuck e'.
Proof.
  intros P Hc (A & B & C) St (f & a & b & X & Y1 & Y2 & Et & Eb & Hlt & _). rewrite A in Et. rewrite B in Eb.
  destruct (e_top e) as [|a0 X0] eqn:E; [discriminate|]. destruct (e_bot e) as [|b0 Y0] eqn:E'; [discriminate|].
  simpl in Et, Eb. injection Et as <- _. injection Eb as <- _.
  pose proof (stuck_heads e a0 X0 b0 Y0 P E E' St) as G.
  assert (Ib : In b0 (a0 :: X0)) by (destruct P as (_ & Pe & _); rewrite E, E' in Pe; rewrite Pe; left; reflexivity).
  rewrite !C in Hlt by (auto; left; reflexivity). nra.
Qed.

Lemma renamed_first rho c e e' : proper e -> 0 < c -> renamed rho c e e' -> first_equal e' -> first_equal e.
Proof.
  intros P Hc (A & B & C) (a & b & X & Y & Et & Eb & E). rewrite A in Et. rewrite B in Eb.
  destruct (e_top e) as [|a0 X0] eqn:E1; [discriminate|]. destruct (e_bot e) as [|b0 Y0] eqn:E2; [discriminate|].
  simpl in Et, Eb. injection Et as <- _. injection Eb as <- _. exists a0, b0, X0, Y0. split; [exact E1|]. split; [exact E2|].
  assert (Ib : In b0 (a0 :: X0)) by (destruct P as (_ & Pe & _); rewrite E1, E2 in Pe; rewrite Pe; left; reflexivity).
  rewrite !C in E by (auto; left; reflexivity). apply Rmult_eq_reg_l in E; lra.
Qed.

Lemma renamed_round rho c e e' e1 : proper e -> proper e' -> 0 < c -> renamed rho c e e' -> round e e1 ->
  exists e1', round e' e1' /\ renamed rho c e1 e1'.
Proof.
  intros P P' Hc M (f1 & f2 & R1 & T1 & F1 & R2 & T2 & F2 & S).
  destruct (renamed_run _ _ _ _ _ P P' Hc M R1) as (g1 & R1' & M1).
  destruct (run_labels _ _ P R1) as [P1 _]. destruct (run_labels _ _ P' R1') as [P1' _].
  destruct (renamed_run _ _ _ _ _ (flip_proper _ P1) (flip_proper _ P1') Hc (renamed_flip _ _ _ _ P1 M1) R2) as (g2 & R2' & M2).
  destruct (run_labels _ _ (flip_proper _ P1) R2) as [P2 _].
  exists (flip g2). split.
  - exists g1, g2. split; [exact R1'|]. split; [exact (renamed_stuck _ _ _ _ P1 Hc M1 T1)|].
    split; [intros G; exact (F1 (renamed_first _ _ _ _ P1 Hc M1 G))|]. split; [exact R2'|].
    split; [exact (renamed_stuck _ _ _ _ P2 Hc M2 T2)|]. split; [|apply same_exch_refl].
    intros G; exact (F2 (renamed_first _ _ _ _ P2 Hc M2 G)).
  - exact (renamed_same_l _ _ _ _ _ S (renamed_flip _ _ _ _ P2 M2)).
Qed.

Lemma renamed_rounds rho c n : forall e e' e1, proper e -> proper e' -> 0 < c -> renamed rho c e e' -> iter round n e e1 ->
  exists e1', iter round n e' e1' /\ renamed rho c e1 e1'.
Proof.
  induction n as [|n IH]; intros e e' e1 P P' Hc M H; simpl in H; [subst; exists e'; simpl; auto|].
  destruct H as (f & H1 & H2). destruct (renamed_round _ _ _ _ _ P P' Hc M H1) as (f' & H1' & M').
  destruct (IH f f' e1 (proj1 (round_labels _ _ P H1)) (proj1 (round_labels _ _ P' H1')) Hc M' H2) as (e1' & H2' & M'').
  exists e1'. split; [exists f'; auto | exact M''].
Qed.

Lemma renamed_trans rho rho' c c' e e1 e2 : renamed rho c e e1 -> renamed rho' c' e1 e2 ->
  renamed (fun x => rho' (rho x)) (c' * c) e e2.
Proof.
  intros (A & B & C) (A' & B' & C'). split; [rewrite A', A, map_map; reflexivity|].
  split; [rewrite B', B, map_map; reflexivity|]. intros a Ha.
  rewrite C' by (rewrite A; apply in_map, Ha). rewrite C by exact Ha. ring.
Qed.

(** * Permutations of finitely many labels *)

Fixpoint rpow (rho : nat -> nat) (n : nat) (x : nat) : nat :=
  match n with O => x | S n => rho (rpow rho n x) end.

Lemma rpow_add rho m n x : rpow rho (m + n) x = rpow rho m (rpow rho n x).
Proof. induction m as [|m IH]; simpl; [reflexivity | rewrite IH; reflexivity]. Qed.

Section Perm.
Variable rho : nat -> nat.
Variable l : list nat.
Hypothesis inj : forall a b, In a l -> In b l -> rho a = rho b -> a = b.
Hypothesis stable : forall a, In a l -> In (rho a) l.

Lemma rpow_in n a : In a l -> In (rpow rho n a) l.
Proof. induction n; simpl; auto. Qed.

Lemma rpow_cancel m : forall a b, In a l -> In b l -> rpow rho m a = rpow rho m b -> a = b.
Proof.
  induction m as [|m IH]; intros a b Ha Hb E; simpl in E; [exact E|].
  apply inj in E; [|apply rpow_in, Ha | apply rpow_in, Hb]. exact (IH a b Ha Hb E).
Qed.

Lemma rpow_multiple d a k : rpow rho d a = a -> rpow rho (k * d) a = a.
Proof. intros E. induction k as [|k IH]; simpl; [reflexivity|]. rewrite rpow_add, IH. exact E. Qed.

Lemma dup_index (f : nat -> nat) : forall n, ~ NoDup (map f (seq 0 n)) -> exists i j, (i < j < n)%nat /\ f i = f j.
Proof.
  induction n as [|n IH]; intros H; [exfalso; apply H; constructor|].
  destruct (in_dec Nat.eq_dec (f n) (map f (seq 0 n))) as [Hin|Hin].
  - apply in_map_iff in Hin. destruct Hin as (i & E & Hi). apply in_seq in Hi. exists i, n. split; [lia | exact E].
  - destruct IH as (i & j & Hij & E); [|exists i, j; split; [lia | exact E]].
    intros N. apply H. rewrite seq_S, map_app. simpl. 
    apply NoDup_Add with (a := f n) (l := map f (seq 0 n)); [|split; [exact N | exact Hin]].
    rewrite <- (app_nil_r (map f (seq 0 n))) at 1. apply Add_app.
Qed.

Lemma rpow_fact a : In a l -> rpow rho (fact (length l)) a = a.
Proof.
  intros Ha.
  destruct (dup_index (fun k => rpow rho k a) (S (length l))) as (i & j & Hij & E).
  { intros N. apply NoDup_incl_length with (l' := l) in N; [rewrite map_length, seq_length in N; lia|].
    intros x Hx. apply in_map_iff in Hx. destruct Hx as (k & <- & _). apply rpow_in, Ha. }
  assert (D : rpow rho (j - i) a = a).
  { symmetry. apply (rpow_cancel i); [exact Ha | apply rpow_in, Ha|]. rewrite <- rpow_add, E. f_equal. lia. }
  assert (Hf : exists k, fact (length l) = (k * (j - i))%nat).
  { assert (Hd : (1 <= j - i <= length l)%nat) by lia. revert Hd. generalize (j - i)%nat as d. generalize (length l) as n.
    induction n as [|n IHn]; intros d Hd; [lia|]. destruct (Nat.eq_dec d (S n)) as [->|Hne].
    - exists (fact n). simpl. lia.
    - destruct (IHn d ltac:(lia)) as (k & Hk). exists (S n * k)%nat. change (fact (S n)) with (S n * fact n)%nat. rewrite Hk. lia. }
  destruct Hf as (k & ->). apply rpow_multiple, D.
Qed.
End Perm.

(** * Iterating a self-similarity *)

Lemma renamed_id c e e' : renamed (fun x => x) c e e' <-> scaled c e e'.
Proof. unfold renamed, scaled. rewrite !map_id. reflexivity. Qed.

Lemma self_similar_pow e1 e2 p rho c : proper e1 -> 0 < c -> iter round p e1 e2 -> renamed rho c e1 e2 -> forall k,
  exists e', iter round (k * p) e1 e' /\ renamed (rpow rho k) (c ^ k) e1 e'.
Proof.
  intros P Hc H M. destruct (rounds_labels _ _ _ P H) as [P2 _].
  induction k as [|k (e' & H' & M')].
  - exists e1. split; [reflexivity|]. simpl. apply renamed_id. split; [reflexivity|]. split; [reflexivity|]. intros; ring.
  - destruct (renamed_rounds _ _ _ _ _ _ P P2 Hc M H') as (e'' & H'' & M'').
    exists e''. split; [exact (iter_app _ _ _ _ _ _ H H'')|]. exact (renamed_trans _ _ _ _ _ _ _ M' M'').
Qed.

(** After enough repetitions the labels are back in place. *)
Lemma self_similar_scaled e1 e2 p rho c : proper e1 -> e_top e1 <> [] -> iter round p e1 e2 -> renamed rho c e1 e2 ->
  exists e' c', 0 < c' /\ iter round (fact (length (e_top e1)) * p) e1 e' /\ scaled c' e1 e'.
Proof.
  intros P Ne H M. destruct (rounds_labels _ _ _ P H) as [P2 L]. pose proof (renamed_pos _ _ _ _ P P2 Ne M) as Hc.
  destruct (self_similar_pow _ _ _ _ _ P Hc H M (fact (length (e_top e1)))) as (e' & H' & (A & B & C)).
  assert (Hid : forall a, In a (e_top e1) -> rpow rho (fact (length (e_top e1))) a = a).
  { apply rpow_fact.
    - intros a b Ha Hb E. exact (renamed_inj _ _ _ _ _ _ P2 M Ha Hb E).
    - intros a Ha. destruct M as (A' & _). rewrite L, A'. apply in_map, Ha. }
  exists e', (c ^ fact (length (e_top e1))). split; [apply pow_lt, Hc|]. split; [exact H'|].
  assert (Hm : forall l, incl l (e_top e1) -> map (rpow rho (fact (length (e_top e1)))) l = l).
  { intros l Hl. rewrite <- (map_id l) at 2. apply map_ext_in. intros a Ha. apply Hid, Hl, Ha. }
  split; [rewrite A; apply Hm; intros a Ha; exact Ha|].
  split; [rewrite B; apply Hm; intros a Ha; destruct P as (_ & Pe & _); rewrite Pe; exact Ha|].
  intros a Ha. rewrite <- (C a Ha), Hid by exact Ha. reflexivity.
Qed.

Lemma iter_split_le {A} (f : A -> A -> Prop) m n x z : (m <= n)%nat -> iter f n x z -> exists y, iter f m x y /\ iter f (n - m) y z.
Proof. intros L H. apply iter_split. replace (m + (n - m))%nat with n by lia. exact H. Qed.

Lemma scaled_forever e1 e2 q c : proper e1 -> 0 < c -> (0 < q)%nat -> iter round q e1 e2 -> scaled c e1 e2 ->
  forall m, exists f f', iter round m e1 f /\ iter round q f f' /\ scaled c f f'.
Proof.
  intros P Hc Hq H M m. destruct (rounds_labels _ _ _ P H) as [P2 _].
  assert (Ex : forall m, exists f, iter round m e1 f).
  { intros k. induction k as [k IH] using lt_wf_ind. destruct (le_lt_dec k q) as [L|L].
    - destruct (iter_split_le _ _ _ _ _ L H) as (y & Y & _). exists y. exact Y.
    - destruct (IH (k - q)%nat ltac:(lia)) as (g & G).
      destruct (renamed_rounds _ _ _ _ _ _ P P2 Hc (proj2 (renamed_id _ _ _) M) G) as (g' & G' & _).
      exists g'. replace k with (q + (k - q))%nat by lia. exact (iter_app _ _ _ _ _ _ H G'). }
  destruct (Ex (m + q)%nat) as (g & G). destruct (iter_split _ _ _ _ _ G) as (f & F1 & F2).
  exists f, g. split; [exact F1|]. split; [exact F2|].
  destruct (renamed_rounds _ _ _ _ _ _ P P2 Hc (proj2 (renamed_id _ _ _) M) F1) as (g' & G' & M').
  pose proof (iter_app _ _ _ _ _ _ H G') as G''. rewrite Nat.add_comm in G''.
  apply renamed_id. apply (renamed_same_r _ _ _ g'); [exact M'|].
  exact (rounds_fun _ _ _ _ _ P (same_exch_refl _) G'' G).
Qed.

(** * Rounds shorten the interval *)

Lemma round_path e e' : round e e' -> rauzy_path e e'.
Proof.
  intros (e1 & e2 & R1 & _ & _ & R2 & _ & _ & S). apply rauzy_path_trans with e1; [exact (run_path _ _ R1)|].
  apply rauzy_path_trans with (flip e2); [|exact (path_refl _ _ S)].
  rewrite <- (flip_flip e1). exact (run_path_flip _ _ R2).
Qed.

Lemma rounds_path n : forall e e', iter round n e e' -> rauzy_path e e'.
Proof.
  induction n as [|n IH]; intros e e' H; simpl in H; [subst; apply path_refl, same_exch_refl|].
  destruct H as (f & H1 & H2). exact (rauzy_path_trans _ _ _ (round_path _ _ H1) (IH _ _ H2)).
Qed.

Lemma same_total e e' : same_exch e e' -> total (e_len e') (e_top e') = total (e_len e) (e_top e).
Proof. intros (A & _ & C). rewrite A. apply Dyn.total_ext. intros c _. symmetry. apply C. Qed.

Lemma round_total e e' : proper e -> e_top e <> [] -> round e e' -> total (e_len e') (e_top e') < total (e_len e) (e_top e).
Proof.
  intros P Ne (e1 & e2 & R1 & T1 & F1 & R2 & T2 & F2 & S).
  destruct (run_labels _ _ P R1) as [P1 L1]. destruct (run_labels _ _ (flip_proper _ P1) R2) as [P2 L2].
  rewrite (same_total _ _ S). simpl. rewrite <- (proper_total _ P2).
  pose proof (run_total _ _ P R1) as G1. pose proof (run_total _ _ (flip_proper _ P1) R2) as G2.
  pose proof (proper_total _ P1) as E1. simpl in G2.
  destruct G2 as [G2|G2]; [exfalso|destruct G1 as [G1|G1]; [apply same_total in G1; lra | lra]].
  pose proof (stuck_heads e1) as H1. pose proof (stuck_heads e2) as H2. pose proof G2 as (A & B & C). simpl in A, B, C.
  destruct (e_top e1) as [|a X] eqn:Ea.
  { apply Ne. apply Permutation_nil. symmetry. exact L1. }
  destruct (e_bot e1) as [|b Y] eqn:Eb.
  { destruct P1 as (_ & Pe & _). rewrite Ea, Eb in Pe. apply Permutation_sym, Permutation_nil in Pe. discriminate. }
  specialize (H1 a X b Y P1 eq_refl eq_refl T1). specialize (H2 b Y a X P2 (eq_sym A) (eq_sym B) T2).
  rewrite <- !C in H2. apply F1. exists a, b, X, Y. split; [exact Ea|]. split; [exact Eb | lra].
Qed.

Lemma rounds_total n : forall e e', proper e -> e_top e <> [] -> (0 < n)%nat -> iter round n e e' ->
  total (e_len e') (e_top e') < total (e_len e) (e_top e).
Proof.
  induction n as [|n IH]; intros e e' P Ne Hn H; [lia|]. destruct H as (f & H1 & H2).
  destruct (round_labels _ _ P H1) as [P1 L1]. pose proof (round_total _ _ P Ne H1) as G.
  destruct n as [|n]; [simpl in H2; subst; exact G|].
  pose proof (IH f e' P1 ltac:(intros E; apply Ne; rewrite E in L1; apply Permutation_sym, Permutation_nil in L1; exact L1) ltac:(lia) H2). lra.
Qed.

Lemma scaled_total c e e' : scaled c e e' -> total (e_len e') (e_top e') = c * total (e_len e) (e_top e).
Proof. intros (A & _ & C). rewrite A. apply total_scale_in. exact C. Qed.

Lemma scaled_small c e e' q : proper e -> e_top e <> [] -> (0 < q)%nat -> iter round q e e' -> scaled c e e' -> c < 1.
Proof.
  intros P Ne Hq H Sc. pose proof (rounds_total _ _ _ P Ne Hq H) as G. rewrite (scaled_total _ _ _ Sc) in G.
  assert (0 < total (e_len e) (e_top e)) by (apply total_pos; [apply P | exact Ne]). nra.
Qed.

(** A self-similar exchange has no periodic point. *)
Lemma scaled_aperiodic e e1 e2 n q c : proper e -> e_top e <> [] -> iter round n e e1 -> iter round q e1 e2 -> (0 < q)%nat ->
  0 < c -> scaled c e1 e2 -> ~ has_periodic_point e.
Proof.
  intros P Ne R1 R2 Hq Hc Sc. destruct (rounds_labels _ _ _ P R1) as [P1 L1].
  assert (Ne1 : e_top e1 <> []) by (intros E; apply Ne; rewrite E in L1; apply Permutation_sym, Permutation_nil in L1; exact L1).
  pose proof (scaled_small _ _ _ _ P1 Ne1 Hq R2 Sc) as Hc1.
  destruct (path_induced _ _ P (rounds_path _ _ _ R1)) as [I1 _]. destruct (path_induced _ _ P1 (rounds_path _ _ _ R2)) as [I2 _].
  rewrite (induced_periodic _ _ P P1 I1). apply (self_similar_aperiodic e1 e2 e2 c); auto.
Qed.

(** Commensurable lengths are not self-similar. *)
Lemma scaled_not_integral e e1 e2 n q c u : proper e -> e_top e <> [] -> iter round n e e1 -> iter round q e1 e2 -> (0 < q)%nat ->
  0 < c -> scaled c e1 e2 -> 0 < u -> ~ integral u e.
Proof.
  intros P Ne R1 R2 Hq Hc Sc Hu Hi. destruct (rounds_labels _ _ _ P R1) as [P1 L1].
  assert (Ne1 : e_top e1 <> []) by (intros E; apply Ne; rewrite E in L1; apply Permutation_sym, Permutation_nil in L1; exact L1).
  pose proof (scaled_small _ _ _ _ P1 Ne1 Hq R2 Sc) as Hc1. destruct (rounds_labels _ _ _ P1 R2) as [P2 L2].
  pose proof (path_integral u _ _ P (rounds_path _ _ _ R1) Hi) as Hi1.
  destruct (least_gen u e1 Hu Hi1 P1 Ne1) as (g & Gg & Pg & Hmin).
  assert (Hsc : forall x, gen e1 x -> gen e2 (c * x)).
  { intros x G. destruct Sc as (_ & _ & C). induction G as [|x a G IG Hin|x a G IG Hin].
    - rewrite Rmult_0_r. constructor.
    - rewrite Rmult_plus_distr_l, <- (C a Hin). apply gen_add; [exact IG | rewrite <- L2; exact Hin].
    - rewrite Rmult_minus_distr_l, <- (C a Hin). apply gen_sub; [exact IG | rewrite <- L2; exact Hin]. }
  pose proof (Hmin (c * g) (path_gen _ _ P1 (rounds_path _ _ _ R2) _ (Hsc _ Gg))) as G.
  assert (0 < c * g) by (apply Rmult_lt_0_compat; lra). specialize (G H). nra.
Qed.
