(** Induction of exchanges whose lengths are spanned by two numbers (specification
    level): it stops, or in the end no combination of displacements cancels. *)
From Coq Require Import Reals Lra Lia List Permutation Arith Classical Bool ZArith Psatz.
From Verif Require Import Spec SpecRank Dyn Saddle Path Endless Rank2.
Import ListNotations.
Open Scope R_scope.

Lemma choose_on {A : Type} (d : A) (l : list nat) (Q : nat -> A -> Prop) : (forall a, In a l -> exists x, Q a x) ->
  exists f : nat -> A, forall a, In a l -> Q a (f a).
Proof.
  induction l as [|a l IH]; intros H; [exists (fun _ => d); intros ? []|].
  destruct IH as (f & Hf); [intros x Hx; apply H; right; exact Hx|].
  destruct (H a (or_introl eq_refl)) as (x & Hx).
  exists (fun c => if Nat.eqb c a then x else f c). intros c Hc. destruct (Nat.eqb_spec c a) as [->|D]; [exact Hx|].
  apply Hf. destruct Hc as [->|Hc]; [contradiction|exact Hc].
Qed.

Section Unbalanced.
Variable E : nat -> exch.
Variables W L : nat -> nat.
Hypothesis P0 : proper (E 0%nat).
Hypothesis I0 : ~ reducible (E 0%nat).
Hypothesis M : forall n, move (W n) (L n) (E n) (E (S n)).

Lemma follow_zero n c : follow W L (fun _ => 0%Z) n c = 0%Z.
Proof. revert c. induction n as [|n IH]; intros c; simpl; [reflexivity|]. rewrite !IH. destruct (Nat.eqb c (W n)); reflexivity. Qed.
Lemma zleft_zero z l a : (forall c, z c = 0%Z) -> zleft z l a = 0%Z.
Proof. intros H. induction l as [|c l IH]; simpl; [reflexivity|]. rewrite H, IH. destruct (Nat.eqb c a); reflexivity. Qed.

Lemma no_unit u : 0 < u -> ~ forall c, In c (letters E) -> exists p : Z, e_len (E 0%nat) c = IZR p * u.
Proof.
  intros Hu H. apply (choose_on 0%Z) in H. destruct H as (p & Hp).
  destruct (large E W L P0 I0 M u 0 Hu p (fun _ => 0%Z)) with (X := 0%Z) as (N & HN).
  { intros c Hc. rewrite (Hp c Hc). simpl. ring. }
  destruct (two_letters E W L P0 M) as (a & _ & _ & Ha & _). specialize (HN N a (le_n _) Ha).
  unfold zsh in HN. rewrite !(zleft_zero (follow W L (fun _ => 0%Z) N)) in HN by (intros; apply follow_zero). simpl in HN. lia.
Qed.

Lemma total_coords (n : nat -> nat) (f : nat -> R) (x y : nat -> Z) b1 b2 l : (forall a, In a l -> f a = IZR (x a) * b1 + IZR (y a) * b2) ->
  total (fun a => INR (n a) * f a) l =
    IZR (zsum (fun a => Z.of_nat (n a) * x a)%Z l) * b1 + IZR (zsum (fun a => Z.of_nat (n a) * y a)%Z l) * b2.
Proof.
  induction l as [|a l IH]; intros H; simpl; [ring|].
  rewrite IH by (intros c Hc; apply H; right; exact Hc). rewrite (H a) by (left; reflexivity).
  rewrite !plus_IZR, !mult_IZR, <- INR_IZR_INZ. ring.
Qed.

Lemma zsum_one_sign (n : nat -> nat) (y : nat -> Z) l : (forall a, In a l -> (0 < y a)%Z) -> (exists a, In a l /\ n a <> 0%nat) ->
  (0 < zsum (fun a => Z.of_nat (n a) * y a)%Z l)%Z.
Proof.
  assert (N : forall l, (forall a, In a l -> (0 < y a)%Z) -> (0 <= zsum (fun a => Z.of_nat (n a) * y a)%Z l)%Z).
  { intros k. induction k as [|c k IH]; intros H; simpl; [lia|].
    assert (0 < y c)%Z by (apply H; left; reflexivity).
    specialize (IH (fun a Ha => H a (or_intror Ha))). nia. }
  induction l as [|c l IH]; intros H (a & Ha & Hn); [destruct Ha|]. simpl.
  pose proof (H c (or_introl eq_refl)). pose proof (N l (fun a Ha => H a (or_intror Ha))).
  destruct Ha as [->|Ha]; [nia|]. specialize (IH (fun a Ha => H a (or_intror Ha)) (ex_intro _ a (conj Ha Hn))). nia.
Qed.

Lemma unbalanced_pos b1 b2 (p q : nat -> Z) : 0 < b1 ->
  (forall c, In c (letters E) -> e_len (E 0%nat) c = IZR (p c) * b1 + IZR (q c) * b2) ->
  exists N, forall n, (N <= n)%nat -> ~ balanced (E n).
Proof.
  intros Hb Hc.
  assert (Ind : forall x y, y <> 0%Z -> IZR x * b1 + IZR y * b2 <> 0).
  { intros x y Hy H. assert (Hy' : IZR y <> 0) by (apply not_0_IZR; exact Hy).
    apply (no_unit (b1 / Rabs (IZR y))).
    { apply Rdiv_lt_0_compat; [exact Hb | apply Rabs_pos_lt; exact Hy']. }
    intros c Hin. exists (Z.sgn y * (p c * y - q c * x))%Z. rewrite (Hc c Hin).
    assert (Hs : IZR (Z.sgn y) * IZR y = Rabs (IZR y)).
    { rewrite <- mult_IZR, <- abs_IZR. f_equal. lia. }
    assert (Hr : Rabs (IZR y) <> 0) by (apply Rabs_no_R0; exact Hy').
    rewrite mult_IZR, minus_IZR, !mult_IZR.
    assert (Hb2 : b2 = - (IZR x * b1) / IZR y) by (field_simplify_eq; [lra|exact Hy']).
    rewrite Hb2, <- Hs. assert (IZR (Z.sgn y) <> 0) by (intros C; rewrite C, Rmult_0_l in Hs; congruence). field. auto. }
  destruct (same_sign E W L P0 I0 M b1 b2 Hb p q Hc) as (N & HN). exists N. intros n Hn (k & (a & Ha & Hk) & Hsum).
  assert (Sh : forall c, shift (E n) c = IZR (zsh E W L p n c) * b1 + IZR (zsh E W L q n c) * b2).
  { intros c. rewrite <- sh_shift. apply (sh_coords E W L P0 M b1 b2 p q Hc). }
  rewrite (total_coords k _ (zsh E W L p n) (zsh E W L q n) b1 b2) in Hsum by (intros; apply Sh).
  revert Hsum. apply Ind. destruct HN as [HN|HN].
  - assert (0 < zsum (fun a => Z.of_nat (k a) * zsh E W L q n a)%Z (e_top (E n)))%Z; [|lia].
    apply zsum_one_sign; [|eauto]. intros c Hin. apply HN; [exact Hn|]. exact (E_in' E W L P0 M n c Hin).
  - assert (0 < zsum (fun a => Z.of_nat (k a) * - zsh E W L q n a)%Z (e_top (E n)))%Z.
    { apply zsum_one_sign; [|eauto]. intros c Hin. pose proof (HN n c Hn (E_in' E W L P0 M n c Hin)). lia. }
    assert (Eq : zsum (fun a => Z.of_nat (k a) * - zsh E W L q n a)%Z (e_top (E n)) =
      (- zsum (fun a => Z.of_nat (k a) * zsh E W L q n a) (e_top (E n)))%Z).
    { rewrite <- zsum_opp. generalize (e_top (E n)). clear. intros l. induction l as [|c l IH]; simpl; [reflexivity|]. rewrite IH. lia. }
    lia.
Qed.

Theorem unbalanced : rank_two (E 0%nat) -> exists N, forall n, (N <= n)%nat -> ~ balanced (E n).
Proof.
  intros (b1 & b2 & H).
  assert (H' : exists pq : nat -> Z * Z, forall c, In c (letters E) -> e_len (E 0%nat) c = IZR (fst (pq c)) * b1 + IZR (snd (pq c)) * b2).
  { apply (choose_on (0, 0)%Z (letters E) (fun c pq => e_len (E 0%nat) c = IZR (fst pq) * b1 + IZR (snd pq) * b2)).
    intros c Hc. destruct (H c Hc) as (x & y & Hxy). exists (x, y). exact Hxy. }
  destruct H' as (pq & Hpq). destruct (Rtotal_order 0 b1) as [B|[B|B]].
  - exact (unbalanced_pos b1 b2 (fun c => fst (pq c)) (fun c => snd (pq c)) B Hpq).
  - exfalso. assert (B2 : b2 <> 0).
    { intros ->. destruct (two_letters E W L P0 M) as (a & _ & _ & Ha & _). pose proof (len_pos E W L P0 M 0 a Ha) as Hp.
      unfold len in Hp. rewrite (Hpq a Ha), <- B in Hp. lra. }
    destruct (Rtotal_order 0 b2) as [C|[C|C]]; [| congruence |].
    + apply (no_unit b2 C). intros c Hc. exists (snd (pq c)). rewrite (Hpq c Hc), <- B. ring.
    + apply (no_unit (- b2)); [lra|]. intros c Hc. exists (- snd (pq c))%Z. rewrite (Hpq c Hc), <- B, opp_IZR. ring.
  - apply (unbalanced_pos (- b1) b2 (fun c => - fst (pq c))%Z (fun c => snd (pq c))); [lra|].
    intros c Hc. rewrite (Hpq c Hc), opp_IZR. ring.
Qed.
End Unbalanced.

(** * The induction as a function *)

Fixpoint put_before (b a : nat) (Y : list nat) : list nat :=
  match Y with
  | [] => []
  | c :: Y' => if Nat.eqb c a then b :: c :: Y' else c :: put_before b a Y'
  end.
Lemma put_before_app b a Y1 Y2 : ~ In a Y1 -> put_before b a (Y1 ++ a :: Y2) = Y1 ++ b :: a :: Y2.
Proof.
  induction Y1 as [|c Y1 IH]; intros H; simpl; [rewrite Nat.eqb_refl; reflexivity|].
  destruct (Nat.eqb_spec c a) as [->|D]; [exfalso; apply H; left; reflexivity|]. rewrite IH; [reflexivity|].
  intros Hin. apply H. right. exact Hin.
Qed.
Definition less (f : nat -> R) (a b : nat) : nat -> R := fun c => if Nat.eqb c a then f a - f b else f c.

(** One step; the first components are the labels of the longer and the shorter of the
    first intervals. *)
Definition go (e : exch) : nat * nat * exch :=
  match e_top e, e_bot e with
  | a :: X, b :: Y =>
    if Rlt_dec (e_len e b) (e_len e a) then (a, b, mkexch (a :: X) (put_before b a Y) (less (e_len e) a b))
    else if Rlt_dec (e_len e a) (e_len e b) then (b, a, mkexch (put_before a b X) (b :: Y) (less (e_len e) b a))
    else (a, b, e)
  | _, _ => (0%nat, 0%nat, e)
  end.
Definition rz (e : exch) : exch := snd (go e).
Definition able (e : exch) : Prop := exists a b X Y, e_top e = a :: X /\ e_bot e = b :: Y /\ e_len e a <> e_len e b.

Lemma go_move e : proper e -> able e -> move (fst (fst (go e))) (snd (fst (go e))) e (rz e).
Proof.
  intros (N & Pe & _) (a & b & X & Y & Ht & Hb & D). unfold rz, go. rewrite Ht, Hb.
  assert (Nb : NoDup (e_bot e)) by (apply (Permutation_NoDup Pe N)).
  assert (Dab : a <> b) by congruence.
  assert (Ia : In a Y). { assert (In a (e_bot e)) by (rewrite <- Pe, Ht; left; reflexivity). rewrite Hb in H. destruct H; [congruence|exact H]. }
  assert (Ib : In b X). { assert (In b (e_top e)) by (rewrite Pe, Hb; left; reflexivity). rewrite Ht in H. destruct H; [congruence|exact H]. }
  destruct (Rlt_dec (e_len e b) (e_len e a)) as [H1|H1]; [|destruct (Rlt_dec (e_len e a) (e_len e b)) as [H2|H2]; [|exfalso; lra]].
  - left. simpl. apply in_split in Ia. destruct Ia as (Y1 & Y2 & ->). exists X, Y1, Y2. simpl.
    rewrite put_before_app.
    2:{ intros Hin. rewrite Hb in Nb. apply NoDup_cons_iff in Nb. destruct Nb as [_ Nb]. apply NoDup_remove_2 in Nb. apply Nb, in_app_iff. auto. }
    unfold less. rewrite Nat.eqb_refl. repeat (split; [first [assumption | reflexivity | symmetry; assumption]|]).
    intros c Hc. destruct (Nat.eqb_spec c a); [contradiction | reflexivity].
  - right. simpl. apply in_split in Ib. destruct Ib as (Y1 & Y2 & ->). exists Y, Y1, Y2. simpl.
    rewrite put_before_app.
    2:{ intros Hin. rewrite Ht in N. apply NoDup_cons_iff in N. destruct N as [_ N]. apply NoDup_remove_2 in N. apply N, in_app_iff. auto. }
    unfold less. rewrite Nat.eqb_refl. repeat (split; [first [assumption | reflexivity | symmetry; assumption]|]).
    intros c Hc. destruct (Nat.eqb_spec c b); [contradiction | reflexivity].
Qed.

Lemma rz_same e f : same_exch e f -> same_exch (rz e) (rz f).
Proof.
  intros S. pose proof S as (A & B & C). unfold rz, go. rewrite <- A, <- B. destruct (e_top e) as [|a X] eqn:Et; [exact S|].
  destruct (e_bot e) as [|b Y] eqn:Eb; [exact S|]. rewrite <- !C.
  destruct (Rlt_dec (e_len e b) (e_len e a)); [|destruct (Rlt_dec (e_len e a) (e_len e b))].
  - repeat split. intros c. simpl. unfold less. destruct (Nat.eqb c a); rewrite <- ?C; reflexivity.
  - repeat split. intros c. simpl. unfold less. destruct (Nat.eqb c b); rewrite <- ?C; reflexivity.
  - exact S.
Qed.
Lemma able_same e f : same_exch e f -> able e -> able f.
Proof.
  intros (A & B & C) (a & b & X & Y & H1 & H2 & H3). exists a, b, X, Y. rewrite <- A, <- B, <- !C. auto.
Qed.

Lemma step_rz e e' : proper e -> rauzy_step e e' -> able e /\ same_exch (rz e) e'.
Proof.
  intros P (a & b & X & Y1 & Y2 & Ht & Hb & Hl & Ht' & Hb' & Ha & Hc). split.
  { exists a, b, X, (Y1 ++ a :: Y2). split; [exact Ht|]. split; [exact Hb|]. lra. }
  destruct P as (N & Pe & _). assert (Nb : NoDup (e_bot e)) by (apply (Permutation_NoDup Pe N)).
  unfold rz, go. rewrite Ht, Hb. destruct (Rlt_dec (e_len e b) (e_len e a)); [|contradiction]. simpl.
  rewrite put_before_app.
  2:{ intros Hin. rewrite Hb in Nb. apply NoDup_cons_iff in Nb. destruct Nb as [_ Nb]. apply NoDup_remove_2 in Nb. apply Nb, in_app_iff. auto. }
  repeat split; simpl; try congruence. intros c. unfold less. destruct (Nat.eqb_spec c a) as [->|D]; [auto|symmetry; auto].
Qed.
Lemma step_rz_flip e e' : proper e -> rauzy_step (flip e) (flip e') -> able e /\ same_exch (rz e) e'.
Proof.
  intros P (a & b & X & Y1 & Y2 & Ht & Hb & Hl & Ht' & Hb' & Ha & Hc). simpl in *. split.
  { exists b, a, (Y1 ++ a :: Y2), X. split; [exact Hb|]. split; [exact Ht|]. lra. }
  destruct P as (N & Pe & _).
  unfold rz, go. rewrite Ht, Hb. destruct (Rlt_dec (e_len e a) (e_len e b)); [lra|]. destruct (Rlt_dec (e_len e b) (e_len e a)); [|contradiction]. simpl.
  rewrite put_before_app.
  2:{ intros Hin. rewrite Hb in N. apply NoDup_cons_iff in N. destruct N as [_ N]. apply NoDup_remove_2 in N. apply N, in_app_iff. auto. }
  repeat split; simpl; try congruence. intros c. unfold less. destruct (Nat.eqb_spec c a) as [->|D]; [auto|symmetry; auto].
Qed.

Lemma iter_rz_same n : forall e f, same_exch e f -> same_exch (Nat.iter n rz e) (Nat.iter n rz f).
Proof. induction n as [|n IH]; intros e f H; simpl; [exact H|]. apply rz_same, IH, H. Qed.
Lemma iter_rz_S n e : Nat.iter n rz (rz e) = Nat.iter (S n) rz e.
Proof. induction n as [|n IH]; simpl in *; [reflexivity|]. rewrite IH. reflexivity. Qed.

(** [e'] is found after exactly [n] steps. *)
Definition after (n : nat) (e e' : exch) : Prop :=
  same_exch (Nat.iter n rz e) e' /\ forall k, (k < n)%nat -> able (Nat.iter k rz e).

Lemma after_S n e e1 e' : able e -> same_exch (rz e) e1 -> after n e1 e' -> after (S n) e e'.
Proof.
  intros A S (H1 & H2). split.
  - rewrite <- iter_rz_S. exact (same_exch_trans _ _ _ (iter_rz_same n _ _ S) H1).
  - intros [|k] Hk; [exact A|]. rewrite <- iter_rz_S. apply (able_same (Nat.iter k rz e1)).
    + apply same_exch_sym, iter_rz_same, S.
    + apply H2. lia.
Qed.
Lemma after_same_l n e f e' : same_exch e f -> after n f e' -> after n e e'.
Proof.
  intros S (H1 & H2). split; [exact (same_exch_trans _ _ _ (iter_rz_same n _ _ S) H1)|].
  intros k Hk. exact (able_same _ _ (same_exch_sym _ _ (iter_rz_same k _ _ S)) (H2 k Hk)).
Qed.
Lemma iter_plus {A} (f : A -> A) m n x : Nat.iter (m + n) f x = Nat.iter n f (Nat.iter m f x).
Proof. rewrite Nat.add_comm. induction n as [|n IH]; simpl; [reflexivity|]. rewrite IH. reflexivity. Qed.
Lemma after_plus m n e e1 e' : after m e e1 -> after n e1 e' -> after (m + n) e e'.
Proof.
  intros (A1 & A2) (B1 & B2). split.
  - rewrite iter_plus. exact (same_exch_trans _ _ _ (iter_rz_same n _ _ A1) B1).
  - intros k Hk. destruct (Nat.lt_ge_cases k m) as [H|H]; [exact (A2 k H)|].
    replace k with (m + (k - m))%nat by lia. rewrite iter_plus.
    apply (able_same (Nat.iter (k - m) rz e1)); [apply same_exch_sym, iter_rz_same, A1|]. apply B2. lia.
Qed.

Lemma path_after e e' : proper e -> rauzy_path e e' -> exists n, after n e e'.
Proof.
  intros P H. induction H as [e e' S | e e1 e' S _ IH | e e1 e' S _ IH].
  - exists 0%nat. split; [exact S|]. intros k Hk. lia.
  - destruct IH as (n & Hn); [exact (rauzy_step_proper _ _ P S)|].
    destruct (step_rz e e1 P S) as [A1 A2]. exists (Datatypes.S n). exact (after_S n e e1 e' A1 A2 Hn).
  - destruct IH as (n & Hn).
    { rewrite <- (flip_flip e1). apply flip_proper. exact (rauzy_step_proper _ _ (flip_proper _ P) S). }
    destruct (step_rz_flip e e1 P S) as [A1 A2]. exists (Datatypes.S n). exact (after_S n e e1 e' A1 A2 Hn).
Qed.

Lemma balanced_same e f : same_exch e f -> balanced e -> balanced f.
Proof.
  intros (A & B & C) (n & (a & Ha & Hn) & H). exists n. split; [exists a; rewrite <- A; auto|]. rewrite <- A, <- H.
  apply total_ext. intros c _. unfold shift. rewrite <- A, <- B.
  rewrite (left_end_ext_in (e_len f) (e_len e) (e_bot e)) by (intros; symmetry; apply C).
  rewrite (left_end_ext_in (e_len f) (e_len e) (e_top e)) by (intros; symmetry; apply C). reflexivity.
Qed.
Lemma reducible_same e f : same_exch e f -> reducible e -> reducible f.
Proof. intros (A & B & _) (k & H1 & H2). exists k. split; rewrite <- A, <- ?B; assumption. Qed.

Lemma path_rank e e' : proper e -> rauzy_path e e' -> rank_two e -> rank_two e'.
Proof.
  intros P H (b1 & b2 & R).
  enough (G : forall e e', rauzy_path e e' -> (forall a, In a (e_top e) -> exists p q, e_len e a = IZR p * b1 + IZR q * b2) -> proper e ->
    forall a, In a (e_top e') -> exists p q, e_len e' a = IZR p * b1 + IZR q * b2).
  { exists b1, b2. exact (G e e' H R P). }
  clear. intros e e' H. 
  assert (St : forall w l e e1, proper e -> move w l e e1 -> (forall a, In a (e_top e) -> exists p q, e_len e a = IZR p * b1 + IZR q * b2) ->
    forall a, In a (e_top e1) -> exists p q, e_len e1 a = IZR p * b1 + IZR q * b2).
  { clear. intros w l e e1 P Mv R a Ha. destruct (move_facts w l e e1 P Mv) as (_ & Hw & Hl & _ & Lw & Lo & _).
    pose proof (path_labels _ _ P (move_path _ _ _ _ Mv)) as Pt.
    assert (Ha' : In a (e_top e)) by (rewrite Pt; exact Ha).
    destruct (Nat.eq_dec a w) as [->|D]; [|rewrite (Lo a D); apply R, Ha'].
    rewrite Lw. destruct (R w Hw) as (p & q & ->). destruct (R l Hl) as (p' & q' & ->).
    exists (p - p')%Z, (q - q')%Z. rewrite !minus_IZR. ring. }
  induction H as [e e' S | e e1 e' S _ IH | e e1 e' S _ IH]; intros R P a Ha.
  - destruct S as (A & _ & C). rewrite <- C. apply R. rewrite A. exact Ha.
  - apply IH; [|exact (rauzy_step_proper _ _ P S)|exact Ha].
    destruct S as (x & y & S). apply (St x y e e1 P); [left; exact S | exact R].
  - apply IH; [| |exact Ha].
    + destruct S as (x & y & S). apply (St x y e e1 P); [right; exact S | exact R].
    + rewrite <- (flip_flip e1). apply flip_proper. exact (rauzy_step_proper _ _ (flip_proper _ P) S).
Qed.

(** * It stops, or is decided in the end *)

Theorem settled e : proper e -> rank_two e -> exists N, forall n e', (N <= n)%nat -> after n e e' -> able e' ->
  reducible e' \/ ~ balanced e'.
Proof.
  intros P R.
  destruct (classic (forall n, able (Nat.iter n rz e))) as [All|No].
  2:{ apply not_all_ex_not in No. destruct No as (m & Hm). exists m. intros n e' Hn (A1 & A2) Hab. exfalso.
      apply Hm. destruct (Nat.eq_dec m n) as [->|D]; [exact (able_same _ _ (same_exch_sym _ _ A1) Hab)|]. apply A2. lia. }
  assert (Pn : forall n, proper (Nat.iter n rz e)).
  { induction n as [|n IH]; [exact P|]. simpl. exact (proj2 (path_induced _ _ IH (move_path _ _ _ _ (go_move _ IH (All n))))). }
  assert (Rn : forall n, rauzy_path e (Nat.iter n rz e)).
  { induction n as [|n IH]; [apply path_refl, same_exch_refl|]. simpl.
    apply (rauzy_path_trans _ _ _ IH). exact (move_path _ _ _ _ (go_move _ (Pn n) (All n))). }
  destruct (classic (exists m, ~ reducible (Nat.iter m rz e))) as [(m & Hm)|Red].
  2:{ exists 0%nat. intros n e' _ (A1 & _) _. left. apply (reducible_same _ _ A1). apply NNPP. intros C. apply Red. exists n. exact C. }
  set (F := fun n => Nat.iter n rz (Nat.iter m rz e)).
  destruct (unbalanced F (fun n => fst (fst (go (F n)))) (fun n => snd (fst (go (F n))))) as (N & HN).
  - exact (Pn m).
  - exact Hm.
  - intros n. unfold F. simpl. rewrite <- !iter_plus. exact (go_move _ (Pn (m + n)%nat) (All (m + n)%nat)).
  - exact (path_rank _ _ P (Rn m) R).
  - exists (m + N)%nat. intros n e' Hn (A1 & _) _. right. intros Bal. apply (HN (n - m)%nat); [lia|].
    unfold F. rewrite <- iter_plus. replace (m + (n - m))%nat with n by lia. exact (balanced_same _ _ (same_exch_sym _ _ A1) Bal).
Qed.
