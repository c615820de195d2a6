(** Induction that never stops (specification level): every label wins and loses again and
    again, the total length tends to zero, and every return passes everywhere. *)
From Coq Require Import Reals Lra Lia List Permutation Arith Classical Bool.
From Verif Require Import Spec Dyn Saddle Path.
Import ListNotations.
Open Scope R_scope.

(** An elementary step in which the label [w] is cut by the label [l]. *)
Definition duel (w l : nat) (e e' : exch) : Prop :=
  exists X Y1 Y2,
    e_top e = w :: X /\ e_bot e = l :: Y1 ++ w :: Y2 /\ e_len e l < e_len e w /\
    e_top e' = e_top e /\ e_bot e' = Y1 ++ l :: w :: Y2 /\
    e_len e' w = e_len e w - e_len e l /\ (forall c, c <> w -> e_len e' c = e_len e c).
Definition move (w l : nat) (e e' : exch) : Prop := duel w l e e' \/ duel w l (flip e) (flip e').

Lemma duel_rauzy w l e e' : duel w l e e' -> rauzy_step e e'.
Proof. intros (X & Y1 & Y2 & H). exists w, l, X, Y1, Y2. exact H. Qed.

Lemma move_path w l e e' : move w l e e' -> rauzy_path e e'.
Proof.
  intros [H|H]; apply duel_rauzy in H; [eapply path_top | eapply path_bot]; try exact H;
  apply path_refl; apply same_exch_refl.
Qed.

Lemma duel_facts w l e e' : proper e -> duel w l e e' ->
  w <> l /\ In w (e_top e) /\ In l (e_top e) /\ e_len e l < e_len e w /\
  e_len e' w = e_len e w - e_len e l /\ (forall c, c <> w -> e_len e' c = e_len e c) /\
  total (e_len e') (e_top e') = total (e_len e) (e_top e) - e_len e l.
Proof.
  intros P (X & Y1 & Y2 & T & B & Hl & T' & B' & Lw & Lo).
  pose proof (proper_bot_nodup _ P) as NB. destruct P as (N & Pm & _).
  assert (D : w <> l).
  { intros <-. rewrite B in NB. inversion NB. apply H1, in_app_iff. right; left; reflexivity. }
  assert (Iw : In w (e_top e)) by (rewrite T; left; reflexivity).
  assert (Il : In l (e_top e)) by (apply (Permutation_in _ (Permutation_sym Pm)); rewrite B; left; reflexivity).
  repeat split; try assumption.
  rewrite T', T. simpl. rewrite Lw. rewrite (total_ext (e_len e') (e_len e) X); [ring|].
  intros c Hc. apply Lo. intros ->. rewrite T in N. inversion N; contradiction.
Qed.

Lemma move_facts w l e e' : proper e -> move w l e e' ->
  w <> l /\ In w (e_top e) /\ In l (e_top e) /\ e_len e l < e_len e w /\
  e_len e' w = e_len e w - e_len e l /\ (forall c, c <> w -> e_len e' c = e_len e c) /\
  total (e_len e') (e_top e') = total (e_len e) (e_top e) - e_len e l.
Proof.
  intros P M. pose proof (proj2 (path_induced _ _ P (move_path _ _ _ _ M))) as P'.
  destruct M as [M|M]; [exact (duel_facts _ _ _ _ P M)|].
  pose proof (duel_facts _ _ _ _ (flip_proper _ P) M) as (D & Iw & Il & H & Lw & Lo & Tt). simpl in *.
  assert (Pm := proj1 (proj2 P)).
  rewrite (proper_total _ P), (proper_total _ P').
  split; [exact D|]. split; [exact (Permutation_in _ (Permutation_sym Pm) Iw)|].
  split; [exact (Permutation_in _ (Permutation_sym Pm) Il)|]. repeat split; assumption.
Qed.

(** Irreducibility is preserved. *)
Lemma firstn_after {A} k (U V : list A) : (length U <= k)%nat -> firstn k (U ++ V) = U ++ firstn (k - length U) V.
Proof. intros H. rewrite firstn_app. rewrite firstn_all2 by exact H. reflexivity. Qed.

Lemma duel_prefix w l e e' k : proper e -> duel w l e e' -> invariant_prefix e' k -> invariant_prefix e k.
Proof.
  intros P (X & Y1 & Y2 & T & B & Hl & T' & B' & Lw & Lo) (K & Pk). rewrite T' in K. split; [exact K|].
  rewrite T' in Pk. rewrite B' in Pk. rewrite B.
  pose proof (proper_bot_nodup _ P) as NB. rewrite B in NB.
  assert (Iw : In w (firstn k (Y1 ++ l :: w :: Y2))).
  { apply (Permutation_in _ Pk). rewrite T. destruct k; [lia|]. left; reflexivity. }
  assert (Hk : (length Y1 + 2 <= k)%nat).
  { destruct (le_lt_dec (length Y1 + 2) k) as [H|H]; [exact H|exfalso].
    assert (In w (Y1 ++ [l])).
    { rewrite <- (firstn_skipn k (Y1 ++ [l])). apply in_app_iff. left.
      replace (Y1 ++ l :: w :: Y2) with ((Y1 ++ [l]) ++ w :: Y2) in Iw by (rewrite <- app_assoc; reflexivity).
      rewrite firstn_app in Iw. apply in_app_iff in Iw. destruct Iw as [Iw|Iw]; [exact Iw|].
      rewrite app_length in Iw. simpl in Iw. replace (k - (length Y1 + 1))%nat with 0%nat in Iw by lia. contradiction. }
    apply in_app_iff in H0. inversion NB as [|? ? NB1 NB2]. destruct H0 as [H0|[<-|[]]].
    - apply NoDup_remove_2 in NB2. apply NB2, in_app_iff. left; exact H0.
    - apply NB1, in_app_iff. right; left; reflexivity. }
  destruct k as [|k]; [lia|]. 
  replace (Y1 ++ l :: w :: Y2) with ((Y1 ++ [l; w]) ++ Y2) in Pk by (rewrite <- app_assoc; reflexivity).
  rewrite firstn_after in Pk by (rewrite app_length; simpl; lia).
  replace (l :: Y1 ++ w :: Y2) with ((l :: Y1 ++ [w]) ++ Y2) by (simpl; rewrite <- app_assoc; reflexivity).
  rewrite firstn_after by (simpl; rewrite app_length; simpl; lia).
  replace (length (l :: Y1 ++ [w])) with (length (Y1 ++ [l; w])) by (simpl; rewrite !app_length; simpl; lia).
  rewrite Pk. rewrite !app_comm_cons. apply Permutation_app_tail.
  rewrite <- Permutation_middle. simpl. reflexivity.
Qed.

Lemma invariant_flip e k : proper e -> invariant_prefix (flip e) k -> invariant_prefix e k.
Proof.
  intros (_ & Pm & _) (K & Pk). simpl in *. split; [rewrite (Permutation_length Pm); exact K | symmetry; exact Pk].
Qed.

Lemma move_irreducible w l e e' : proper e -> move w l e e' -> ~ reducible e -> ~ reducible e'.
Proof.
  intros P M I [k Hk]. apply I. pose proof (proj2 (path_induced _ _ P (move_path _ _ _ _ M))) as P'.
  exists k. destruct M as [M|M]; [exact (duel_prefix _ _ _ _ _ P M Hk)|].
  apply (invariant_flip _ _ P). apply (duel_prefix _ _ _ _ _ (flip_proper _ P) M).
  apply (invariant_flip (flip e')); [exact (flip_proper _ P')|]. rewrite flip_flip. exact Hk.
Qed.

(** * Rows *)

(** The part of a row before the first label marked by [f]. *)
Fixpoint before (f : nat -> bool) (R : list nat) : list nat :=
  match R with
  | [] => []
  | x :: R' => if f x then [] else x :: before f R'
  end.

Lemma before_app f U V : (forall x, In x U -> f x = false) -> before f (U ++ V) = U ++ before f V.
Proof.
  induction U as [|x U IH]; intros H; [reflexivity|]. simpl. rewrite (H x) by (left; reflexivity).
  rewrite IH by (intros y Hy; apply H; right; exact Hy). reflexivity.
Qed.
Lemma before_cut f U V x : In x U -> f x = true -> before f (U ++ V) = before f U.
Proof.
  induction U as [|y U IH]; intros H F; [contradiction|]. simpl. destruct (f y) eqn:Fy; [reflexivity|].
  destruct H as [->|H]; [congruence|]. rewrite (IH H F). reflexivity.
Qed.
Lemma before_firstn f R : before f R = firstn (length (before f R)) R.
Proof. induction R as [|x R IH]; [reflexivity|]. simpl. destruct (f x); [reflexivity|]. simpl. rewrite <- IH. reflexivity. Qed.
Lemma before_false f R x : In x (before f R) -> f x = false.
Proof. induction R as [|y R IH]; [contradiction|]. simpl. destruct (f y) eqn:F; [contradiction|]. intros [<-|H]; auto. Qed.
Lemma before_in f R x : In x (before f R) -> In x R.
Proof. induction R as [|y R IH]; [contradiction|]. simpl. destruct (f y); [contradiction|]. intros [<-|H]; auto. Qed.
Lemma before_nodup f R : NoDup R -> NoDup (before f R).
Proof.
  induction 1 as [|x R H N IH]; [constructor|]. simpl. destruct (f x); constructor; [|exact IH].
  intros C. apply H, (before_in f), C.
Qed.
Lemma before_le f R : (length (before f R) <= length R)%nat.
Proof. induction R as [|x R IH]; simpl; [lia|]. destruct (f x); simpl; lia. Qed.

(** Moving the first label [l] before [w]: the part before the marked labels shrinks, or
    keeps its labels and contains [w]. *)
Lemma before_move f l w Y1 Y2 : f l = false -> f w = false ->
  let R := l :: Y1 ++ w :: Y2 in let R' := Y1 ++ l :: w :: Y2 in
  (length (before f R') < length (before f R))%nat \/
  (Permutation (before f R) (before f R') /\ In w (before f R)).
Proof.
  intros Fl Fw. cbv zeta. simpl. rewrite Fl.
  destruct (existsb f Y1) eqn:Ex.
  - left. apply existsb_exists in Ex. destruct Ex as (x & Hx & Fx).
    rewrite (before_cut f Y1 (w :: Y2) x Hx Fx), (before_cut f Y1 (l :: w :: Y2) x Hx Fx). simpl; lia.
  - right. assert (Hn : forall x, In x Y1 -> f x = false).
    { intros x Hx. destruct (f x) eqn:F; [|reflexivity]. rewrite <- Ex. symmetry. apply existsb_exists. exists x; auto. }
    rewrite !(before_app f Y1) by exact Hn. simpl. rewrite Fl, Fw. split.
    + apply Permutation_middle.
    + right. apply in_app_iff. right; left; reflexivity.
Qed.

(** * Sequences *)

Lemma eventually_constant (g : nat -> nat) N : (forall n, (N <= n)%nat -> (g (S n) <= g n)%nat) ->
  exists M, (N <= M)%nat /\ forall n, (M <= n)%nat -> g n = g M.
Proof.
  intros H. remember (g N) as v eqn:Hv. revert N H Hv. induction v as [v IH] using lt_wf_ind. intros N H Hv.
  destruct (classic (exists n, (N <= n)%nat /\ (g n < g N)%nat)) as [(n & Hn & Hg)|No].
  - destruct (IH (g n)) with (N := n) as (M & HM & HC); [lia | intros; apply H; lia | reflexivity |].
    exists M. split; [lia|exact HC].
  - exists N. split; [lia|]. intros n Hn. 
    assert (g n <= g N)%nat.
    { clear No. induction Hn as [|n Hn IHn]; [lia|]. specialize (H n Hn). lia. }
    destruct (Nat.eq_dec (g n) (g N)) as [E|E]; [exact E|]. exfalso. apply No. exists n. split; [exact Hn|lia].
Qed.

(** A property that every label of a list has eventually holds for all at once. *)
Lemma eventually_all (A : list nat) (Q : nat -> nat -> Prop) :
  (forall a, In a A -> exists N, forall n, (N <= n)%nat -> Q a n) -> exists N, forall a n, In a A -> (N <= n)%nat -> Q a n.
Proof.
  induction A as [|a A IH]; intros H; [exists 0%nat; intros ? ? []|].
  destruct IH as [N1 H1]; [intros b Hb; apply H; right; exact Hb|].
  destruct (H a) as [N2 H2]; [left; reflexivity|].
  exists (Nat.max N1 N2). intros b n [<-|Hb] Hn; [apply H2; lia | apply H1; [exact Hb|lia]].
Qed.

Lemma decide_list (A : list nat) (Q : nat -> Prop) : exists f : nat -> bool, forall a, In a A -> (f a = true <-> Q a).
Proof.
  induction A as [|a A [f IH]]; [exists (fun _ => true); intros ? []|].
  destruct (classic (Q a)) as [Qa|Qa].
  - exists (fun x => if Nat.eqb x a then true else f x). intros b [<-|Hb].
    + rewrite Nat.eqb_refl. tauto.
    + destruct (Nat.eqb_spec b a) as [->|]; [tauto|]. apply IH, Hb.
  - exists (fun x => if Nat.eqb x a then false else f x). intros b [<-|Hb].
    + rewrite Nat.eqb_refl. split; [discriminate|tauto].
    + destruct (Nat.eqb_spec b a) as [->|]; [split; [discriminate|tauto]|]. apply IH, Hb.
Qed.

(** * Positions in rows *)

Lemma left_end_notin f l a : ~ In a l -> left_end f l a = total f l.
Proof.
  induction l as [|c l IH]; intros H; [reflexivity|]. simpl. destruct (Nat.eqb_spec c a) as [->|D].
  - exfalso. apply H. left; reflexivity.
  - rewrite IH; [reflexivity|]. intros C. apply H. right; exact C.
Qed.
Lemma left_end_app f X Y a : ~ In a X -> left_end f (X ++ Y) a = total f X + left_end f Y a.
Proof.
  induction X as [|c X IH]; intros H; [simpl; ring|]. simpl. destruct (Nat.eqb_spec c a) as [->|D].
  - exfalso. apply H. left; reflexivity.
  - rewrite IH; [ring|]. intros C. apply H. right; exact C.
Qed.
Lemma left_end_ext_in f g l a : (forall c, In c l -> f c = g c) -> left_end f l a = left_end g l a.
Proof.
  induction l as [|c l IH]; intros H; [reflexivity|]. simpl. destruct (Nat.eqb c a); [reflexivity|].
  rewrite (H c) by (left; reflexivity). rewrite IH by (intros d Hd; apply H; right; exact Hd). reflexivity.
Qed.

(** The row that keeps its labels. *)
Lemma row_kept f f' w l X c : ~ In w X -> f' w = f w - f l -> (forall c, c <> w -> f' c = f c) -> c <> w ->
  left_end f' (w :: X) c = left_end f (w :: X) c - f l.
Proof.
  intros N Fw Fo D. simpl. destruct (Nat.eqb_spec w c) as [->|_]; [contradiction|].
  rewrite Fw, (left_end_ext_in f' f X c); [ring|]. intros d Hd. apply Fo. intros ->. contradiction.
Qed.
(** The row in which the loser moves. *)
Lemma row_moved f f' w l Y1 Y2 c : NoDup (l :: Y1 ++ w :: Y2) -> f' w = f w - f l -> (forall c, c <> w -> f' c = f c) ->
  c <> w -> c <> l ->
  left_end f' (Y1 ++ l :: w :: Y2) c = left_end f (l :: Y1 ++ w :: Y2) c - f l.
Proof.
  intros N Fw Fo Dw Dl. simpl. destruct (Nat.eqb_spec l c) as [->|_]; [contradiction|].
  inversion N as [|? ? Nl N1]; subst.
  assert (Hw : forall d, In d Y1 \/ In d Y2 -> f' d = f d).
  { intros d Hd. apply Fo. intros ->. apply NoDup_remove_2 in N1. apply N1, in_app_iff. exact Hd. }
  assert (Hl : f' l = f l) by (apply Fo; intros ->; apply Nl, in_app_iff; right; left; reflexivity).
  transitivity (left_end f (Y1 ++ w :: Y2) c); [|ring]. clear N N1 Nl. induction Y1 as [|d Y1 IH].
  - simpl. destruct (Nat.eqb_spec l c) as [->|_]; [contradiction|]. destruct (Nat.eqb_spec w c) as [->|_]; [contradiction|].
    rewrite Fw, Hl, (left_end_ext_in f' f Y2 c); [ring|]. intros d Hd. apply Hw. right; exact Hd.
  - simpl. destruct (Nat.eqb_spec d c) as [->|_]; [reflexivity|]. rewrite (Hw d) by (left; left; reflexivity).
    rewrite IH; [reflexivity|]. intros x [Hx|Hx]; apply Hw; [left; right; exact Hx | right; exact Hx].
Qed.
Lemma row_moved_special f f' w l Y1 Y2 : NoDup (l :: Y1 ++ w :: Y2) -> (forall c, c <> w -> f' c = f c) ->
  left_end f' (Y1 ++ l :: w :: Y2) l = left_end f (l :: Y1 ++ w :: Y2) w - f l /\
  left_end f' (Y1 ++ l :: w :: Y2) w = left_end f (l :: Y1 ++ w :: Y2) w.
Proof.
  intros N Fo. inversion N as [|? ? Nl N1]; subst.
  assert (N1l : ~ In l Y1) by (intros C; apply Nl, in_app_iff; left; exact C).
  assert (Dl : l <> w) by (intros ->; apply Nl, in_app_iff; right; left; reflexivity).
  assert (N1w : ~ In w Y1) by (apply NoDup_remove_2 in N1; intros C; apply N1, in_app_iff; left; exact C).
  rewrite !left_end_app by assumption. simpl. rewrite !Nat.eqb_refl.
  destruct (Nat.eqb_spec l w) as [->|_]; [contradiction|]. rewrite (left_end_app f Y1) by assumption. simpl. rewrite Nat.eqb_refl.
  rewrite (total_ext f' f Y1) by (intros d Hd; apply Fo; intros ->; contradiction).
  rewrite (Fo l Dl). split; ring.
Qed.

Section Endless.
Variable E : nat -> exch.
Variables W L : nat -> nat.
Hypothesis P0 : proper (E 0%nat).
Hypothesis I0 : ~ reducible (E 0%nat).
Hypothesis M : forall n, move (W n) (L n) (E n) (E (S n)).

Definition letters : list nat := e_top (E 0%nat).
Definition len (n : nat) : nat -> R := e_len (E n).
Definition tot (n : nat) : R := total (len n) (e_top (E n)).

Lemma E_proper n : proper (E n).
Proof. induction n as [|n IH]; [exact P0|]. apply (path_induced _ _ IH (move_path _ _ _ _ (M n))). Qed.
Lemma E_irreducible n : ~ reducible (E n).
Proof. induction n as [|n IH]; [exact I0|]. exact (move_irreducible _ _ _ _ (E_proper n) (M n) IH). Qed.
Lemma E_top_letters n : Permutation letters (e_top (E n)).
Proof.
  induction n as [|n IH]; [reflexivity|]. rewrite IH. exact (path_labels _ _ (E_proper n) (move_path _ _ _ _ (M n))).
Qed.
Lemma E_bot_letters n : Permutation letters (e_bot (E n)).
Proof. rewrite (E_top_letters n). apply E_proper. Qed.
Lemma E_in n a : In a letters -> In a (e_top (E n)).
Proof. apply (Permutation_in _ (E_top_letters n)). Qed.
Lemma E_in' n a : In a (e_top (E n)) -> In a letters.
Proof. apply (Permutation_in _ (Permutation_sym (E_top_letters n))). Qed.
Lemma len_pos n a : In a letters -> 0 < len n a.
Proof. intros H. apply E_proper, E_in, H. Qed.

Lemma M_facts n : W n <> L n /\ In (W n) letters /\ In (L n) letters /\ len n (L n) < len n (W n) /\
  len (S n) (W n) = len n (W n) - len n (L n) /\ (forall c, c <> W n -> len (S n) c = len n c) /\
  tot (S n) = tot n - len n (L n).
Proof.
  destruct (move_facts _ _ _ _ (E_proper n) (M n)) as (D & Iw & Il & H). split; [exact D|].
  split; [exact (E_in' n _ Iw)|]. split; [exact (E_in' n _ Il)|]. exact H.
Qed.

Lemma tot_pos n : 0 < tot n.
Proof.
  unfold tot. pose proof (E_proper n) as (_ & _ & H). destruct (M_facts n) as (_ & Iw & _). apply (E_in n) in Iw.
  destruct (e_top (E n)) as [|a X]; [contradiction|]. simpl. 
  pose proof (total_nonneg (e_len (E n)) X (fun x Hx => H x (or_intror Hx))). specialize (H a (or_introl eq_refl)).
  unfold len. lra.
Qed.

Lemma len_S_le n a : In a letters -> len (S n) a <= len n a.
Proof.
  intros H. destruct (M_facts n) as (_ & _ & Il & _ & Lw & Lo & _). pose proof (len_pos n _ Il).
  destruct (Nat.eq_dec a (W n)) as [->|D]; [rewrite Lw; lra | rewrite (Lo a D); lra].
Qed.
Lemma len_le n m a : In a letters -> (n <= m)%nat -> len m a <= len n a.
Proof. intros H. induction 1 as [|m Hm IH]; [lra|]. pose proof (len_S_le m a H). lra. Qed.
Lemma tot_le n m : (n <= m)%nat -> tot m <= tot n.
Proof.
  induction 1 as [|m Hm IH]; [lra|]. destruct (M_facts m) as (_ & _ & Il & _ & _ & _ & Tt).
  pose proof (len_pos m _ Il). lra.
Qed.

(** A label of length at least [d] cannot lose for ever. *)
Lemma losses_finite (Q : nat -> Prop) d : 0 < d -> (forall n, Q n -> d <= len n (L n)) ->
  exists N, forall n, (N <= n)%nat -> ~ Q n.
Proof.
  intros Hd HQ. apply NNPP. intros No.
  assert (Inf : forall N, exists n, (N <= n)%nat /\ Q n).
  { intros N. apply NNPP. intros C. apply No. exists N. intros n Hn Hq. apply C. exists n. auto. }
  assert (K : forall k : nat, exists N, tot N <= tot 0 - INR k * d).
  { induction k as [|k [N IH]]; [exists 0%nat; simpl; lra|]. destruct (Inf N) as (n & Hn & Hq).
    exists (S n). destruct (M_facts n) as (_ & _ & _ & _ & _ & _ & Tt). specialize (HQ n Hq).
    pose proof (tot_le N n Hn). rewrite S_INR. lra. }
  destruct (archimed (tot 0 / d)) as [Up _]. 
  assert (Hz : (0 <= up (tot 0 / d))%Z).
  { apply le_IZR. pose proof (tot_pos 0). assert (0 < tot 0 / d) by (apply Rdiv_lt_0_compat; lra). lra. }
  destruct (K (Z.to_nat (up (tot 0 / d)))) as [N HN]. rewrite INR_IZR_INZ, Z2Nat.id in HN by exact Hz.
  assert (tot 0 < IZR (up (tot 0 / d)) * d).
  { apply (Rmult_lt_compat_r d) in Up; [|exact Hd]. unfold Rdiv in Up at 1. rewrite Rmult_assoc, Rinv_l in Up by lra. lra. }
  pose proof (tot_pos N). lra.
Qed.

(** One row is unchanged and begins with the winner; in the other row the loser moves from
    the front to just before the winner. *)
Lemma M_rows n : exists X Y1 Y2,
  (e_top (E n) = W n :: X /\ e_top (E (S n)) = W n :: X /\
   e_bot (E n) = L n :: Y1 ++ W n :: Y2 /\ e_bot (E (S n)) = Y1 ++ L n :: W n :: Y2) \/
  (e_bot (E n) = W n :: X /\ e_bot (E (S n)) = W n :: X /\
   e_top (E n) = L n :: Y1 ++ W n :: Y2 /\ e_top (E (S n)) = Y1 ++ L n :: W n :: Y2).
Proof.
  destruct (M n) as [(X & Y1 & Y2 & T & B & _ & T' & B' & _)|(X & Y1 & Y2 & T & B & _ & T' & B' & _)];
    exists X, Y1, Y2; simpl in *; rewrite T in T'; [left|right]; auto.
Qed.

(** ** Every label wins again and again. *)
Theorem wins a : In a letters -> forall N, exists n, (N <= n)%nat /\ W n = a.
Proof.
  intros Ha N. apply NNPP. intros No.
  set (F := fun x => exists N, forall n, (N <= n)%nat -> W n <> x).
  destruct (decide_list letters F) as [f Hf].
  assert (Fa : f a = true).
  { apply Hf; [exact Ha|]. exists N. intros n Hn C. apply No. exists n. auto. }
  destruct (eventually_all letters (fun x n => f x = true -> W n <> x)) as [N1 H1].
  { intros x Hx. destruct (f x) eqn:Fx; [|exists 0%nat; intros; discriminate].
    destruct (proj1 (Hf x Hx) Fx) as [Nx Hn]. exists Nx. intros n Hle _. exact (Hn n Hle). }
  assert (FW : forall n, (N1 <= n)%nat -> f (W n) = false).
  { intros n Hn. destruct (f (W n)) eqn:Fw; [|reflexivity]. exfalso.
    exact (H1 (W n) n (proj1 (proj2 (M_facts n))) Hn Fw eq_refl). }
  (* lengths of marked labels stay *)
  assert (Const : forall x n, In x letters -> f x = true -> (N1 <= n)%nat -> len n x = len N1 x).
  { intros x n Hx Fx. induction 1 as [|n Hn IH]; [reflexivity|]. rewrite <- IH.
    apply (proj1 (proj2 (proj2 (proj2 (proj2 (proj2 (M_facts n))))))). intros ->. rewrite (FW n Hn) in Fx. discriminate. }
  (* marked labels lose finitely often *)
  destruct (eventually_all letters (fun x n => f x = true -> L n <> x)) as [N2' H2'].
  { intros x Hx. destruct (f x) eqn:Fx; [|exists 0%nat; intros; discriminate].
    destruct (losses_finite (fun n => (N1 <= n)%nat /\ L n = x) (len N1 x)) as [Nx Hn].
    - apply len_pos, Hx.
    - intros n [Hn Hl]. rewrite Hl, (Const x n Hx Fx Hn). lra.
    - exists (Nat.max N1 Nx). intros n Hle _ Hl. apply (Hn n); [lia|]. split; [lia|exact Hl]. }
  set (N2 := Nat.max N1 N2').
  assert (FL : forall n, (N2 <= n)%nat -> f (L n) = false).
  { intros n Hn. destruct (f (L n)) eqn:Fl; [|reflexivity]. exfalso.
    refine (H2' (L n) n (proj1 (proj2 (proj2 (M_facts n)))) _ Fl eq_refl). unfold N2 in Hn; lia. }
  (* the parts before the marked labels *)
  set (g := fun n => (length (before f (e_top (E n))) + length (before f (e_bot (E n))))%nat).
  assert (Step : forall n, (N2 <= n)%nat ->
    (g (S n) < g n)%nat \/
    (g (S n) = g n /\ Permutation (before f (e_top (E n))) (before f (e_top (E (S n)))) /\
     Permutation (before f (e_bot (E n))) (before f (e_bot (E (S n)))) /\
     In (W n) (before f (e_top (E n))) /\ In (W n) (before f (e_bot (E n))))).
  { intros n Hn. assert (Fw : f (W n) = false) by (apply FW; unfold N2 in Hn; lia). specialize (FL n Hn). unfold g.
    destruct (M_rows n) as (X & Y1 & Y2 & [(T & T' & B & B')|(T & T' & B & B')]).
    - rewrite T, T', B, B'. destruct (before_move f (L n) (W n) Y1 Y2 FL Fw) as [Hlt|[Hp Hi]]; [left; lia|right].
      split; [rewrite (Permutation_length Hp); reflexivity|]. split; [reflexivity|]. split; [exact Hp|].
      split; [simpl; rewrite Fw; left; reflexivity | exact Hi].
    - rewrite T, T', B, B'. destruct (before_move f (L n) (W n) Y1 Y2 FL Fw) as [Hlt|[Hp Hi]]; [left; lia|right].
      split; [rewrite (Permutation_length Hp); reflexivity|]. split; [exact Hp|]. split; [reflexivity|].
      split; [exact Hi | simpl; rewrite Fw; left; reflexivity]. }
  destruct (eventually_constant g N2) as (N3 & Hle & HC).
  { intros n Hn. destruct (Step n Hn) as [H|[H _]]; lia. }
  assert (Keep : forall n, (N3 <= n)%nat ->
    Permutation (before f (e_top (E N3))) (before f (e_top (E n))) /\
    Permutation (before f (e_bot (E N3))) (before f (e_bot (E n))) /\
    In (W n) (before f (e_top (E n))) /\ In (W n) (before f (e_bot (E n)))).
  { assert (St : forall n, (N3 <= n)%nat ->
      Permutation (before f (e_top (E n))) (before f (e_top (E (S n)))) /\
      Permutation (before f (e_bot (E n))) (before f (e_bot (E (S n)))) /\
      In (W n) (before f (e_top (E n))) /\ In (W n) (before f (e_bot (E n)))).
    { intros n Hn. destruct (Step n) as [H|H]; [lia| |].
      - pose proof (HC n Hn). pose proof (HC (S n)). lia.
      - tauto. }
    intros n Hn. split; [|split; [|apply (St n Hn)]].
    - induction Hn as [|n Hn IH]; [reflexivity|]. rewrite IH. apply (St n Hn).
    - induction Hn as [|n Hn IH]; [reflexivity|]. rewrite IH. apply (St n Hn). }
  assert (Often : forall x, In x letters -> f x = false -> exists n, (N3 <= n)%nat /\ W n = x).
  { intros x Hx Fx. apply NNPP. intros C. assert (f x = true); [|congruence]. apply Hf; [exact Hx|].
    exists N3. intros n Hn Hw. apply C. exists n. auto. }
  pose proof (E_proper N3) as PN. pose proof (proper_bot_nodup _ PN) as NB. destruct PN as (NT & Pm & _).
  assert (Pp : Permutation (before f (e_top (E N3))) (before f (e_bot (E N3)))).
  { apply NoDup_Permutation; [apply before_nodup, NT | apply before_nodup, NB|].
    intros x. split; intros Hx.
    - destruct (Often x) as (n & Hn & Hw); [|exact (before_false _ _ _ Hx)|].
      + apply (E_in' N3), (before_in f), Hx.
      + destruct (Keep n Hn) as (_ & Kb & _ & Ib). rewrite Hw in Ib. exact (Permutation_in _ (Permutation_sym Kb) Ib).
    - destruct (Often x) as (n & Hn & Hw); [|exact (before_false _ _ _ Hx)|].
      + apply (E_in' N3). apply (Permutation_in _ (Permutation_sym Pm)). apply (before_in f), Hx.
      + destruct (Keep n Hn) as (Kt & _ & It & _). rewrite Hw in It. exact (Permutation_in _ (Permutation_sym Kt) It). }
  apply (E_irreducible N3). exists (length (before f (e_top (E N3)))). split.
  - split.
    + destruct (Keep N3 (le_n _)) as (_ & _ & It & _). destruct (before f (e_top (E N3))); [contradiction|simpl; lia].
    + destruct (Nat.eq_dec (length (before f (e_top (E N3)))) (length (e_top (E N3)))) as [Eq|Ne].
      * exfalso. pose proof (before_firstn f (e_top (E N3))) as Hb. rewrite Eq, firstn_all in Hb.
        pose proof (E_in N3 a Ha) as Hi. rewrite <- Hb in Hi. apply before_false in Hi. congruence.
      * pose proof (before_le f (e_top (E N3))). lia.
  - rewrite <- before_firstn. rewrite (Permutation_length Pp), <- before_firstn. exact Pp.
Qed.

(** The winner takes part in the next step. *)
Lemma next_duel n : W (S n) = W n \/ L (S n) = W n.
Proof.
  destruct (M_rows n) as (X & Y1 & Y2 & [(_ & T' & _)|(_ & T' & _)]);
  destruct (M_rows (S n)) as (X' & Z1 & Z2 & [(T & _ & B & _)|(T & _ & B & _)]); rewrite T' in *.
  - left. congruence.
  - right. congruence.
  - right. congruence.
  - left. congruence.
Qed.

Lemma two_letters : exists a b, a <> b /\ In a letters /\ In b letters.
Proof. destruct (M_facts 0) as (D & Iw & Il & _). exists (W 0%nat), (L 0%nat). auto. Qed.

(** ** Every label loses again and again. *)
Theorem loses a : In a letters -> forall N, exists n, (N <= n)%nat /\ L n = a.
Proof.
  intros Ha N. apply NNPP. intros No.
  destruct (wins a Ha N) as (n & Hn & Hw).
  assert (Always : forall m, (n <= m)%nat -> W m = a).
  { induction 1 as [|m Hm IH]; [exact Hw|]. destruct (next_duel m) as [H|H]; [congruence|].
    exfalso. apply No. exists (S m). split; [lia|congruence]. }
  destruct two_letters as (x & y & D & Hx & Hy).
  destruct (wins x Hx n) as (m & Hm & Wm), (wins y Hy n) as (k & Hk & Wk).
  rewrite (Always m Hm) in Wm. rewrite (Always k Hk) in Wk. congruence.
Qed.

(** ** Lengths tend to zero. *)
Lemma len_small a d : In a letters -> 0 < d -> exists N, forall n, (N <= n)%nat -> len n a < d.
Proof.
  intros Ha Hd. apply NNPP. intros No.
  assert (Big : forall n, d <= len n a).
  { intros n. destruct (Rlt_le_dec (len n a) d) as [H|H]; [|exact H]. exfalso. apply No. exists n. intros m Hm.
    pose proof (len_le n m a Ha Hm). lra. }
  destruct (losses_finite (fun n => L n = a) d Hd) as [N HN]; [intros n <-; apply Big|].
  destruct (loses a Ha N) as (n & Hn & Hl). exact (HN n Hn Hl).
Qed.

Lemma total_bound (f : nat -> R) d l : (forall x, In x l -> f x < d) -> total f l <= INR (length l) * d.
Proof.
  induction l as [|x l IH]; intros H; [simpl; lra|]. cbn [total length]. rewrite S_INR.
  pose proof (H x (or_introl eq_refl)). pose proof (IH (fun y Hy => H y (or_intror Hy))). lra.
Qed.

Theorem tot_small d : 0 < d -> exists N, forall n, (N <= n)%nat -> tot n < d.
Proof.
  intros Hd. set (k := INR (S (length letters))). assert (Hk : 0 < k) by (apply lt_0_INR; lia).
  destruct (eventually_all letters (fun a n => len n a < d / k)) as [N HN].
  { intros a Ha. apply len_small; [exact Ha|]. apply Rdiv_lt_0_compat; assumption. }
  exists N. intros n Hn. unfold tot.
  pose proof (total_bound (len n) (d / k) (e_top (E n)) (fun x Hx => HN x n (E_in' n x Hx) Hn)) as B.
  rewrite <- (Permutation_length (E_top_letters n)) in B. unfold k in *. rewrite S_INR in *.
  set (m := INR (length letters)) in *. assert (0 <= m) by apply pos_INR.
  assert (m * (d / (m + 1)) < d); [|lra].
  apply (Rmult_lt_reg_r (m + 1)); [lra|]. unfold Rdiv. rewrite !Rmult_assoc, Rinv_l by lra. nra.
Qed.

(** ** No periodic points. *)
Lemma E_path n : rauzy_path (E 0%nat) (E n).
Proof.
  induction n as [|n IH]; [apply path_refl, same_exch_refl|].
  exact (rauzy_path_trans _ _ _ IH (move_path _ _ _ _ (M n))).
Qed.

Lemma iter_max (f : R -> R -> Prop) n : forall x y, iter f n x y -> (forall u v, f u v -> v < tot 0) -> x < tot 0 ->
  (forall u v w, f u v -> f u w -> v = w) ->
  exists p, p < tot 0 /\ forall k z, (k <= n)%nat -> iter f k x z -> z <= p.
Proof.
  induction n as [|n IH]; intros x y H R Hx F.
  - exists x. split; [exact Hx|]. intros k z Hk Hz. assert (k = 0%nat) by lia. subst. simpl in Hz. subst. lra.
  - destruct H as (x1 & H1 & H2). destruct (IH x1 y H2 R (R _ _ H1) F) as (p & Hp & Hz).
    exists (Rmax x p). split; [apply Rmax_lub_lt; assumption|]. intros [|k] z Hk Hi.
    + simpl in Hi. subst. apply Rmax_l.
    + destruct Hi as (x2 & Hi1 & Hi2). rewrite (F _ _ _ Hi1 H1) in Hi2.
      apply (Rle_trans _ p); [apply (Hz k); [lia|exact Hi2] | apply Rmax_r].
Qed.

Theorem aperiodic : ~ has_periodic_point (E 0%nat).
Proof.
  intros (x & n & Hn & Hx). pose proof (maps_fun _ P0) as F.
  assert (R : forall u v, maps (E 0%nat) u v -> v < tot 0) by (intros u v H; apply (maps_ran _ P0) in H; apply H).
  assert (Dx : 0 <= x < tot 0).
  { destruct n; [lia|]. destruct Hx as (z & Hz & _). exact (maps_dom _ P0 _ _ Hz). }
  destruct (iter_max (maps (E 0%nat)) n x x Hx R (proj2 Dx) F) as (p & Hp & Hm).
  destruct (tot_small (tot 0 - p)) as [N HN]; [lra|]. specialize (HN N (le_n _)).
  destruct (path_induced _ _ P0 (E_path N)) as [(_ & _ & Hv) _].
  destruct (Hv x Dx) as (k & z & Hk & Hd).
  change (total (e_len (E 0%nat)) (e_top (E 0%nat))) with (tot 0) in Hd.
  change (total (e_len (E N)) (e_top (E N))) with (tot N) in Hd.
  (* reduce k modulo n *)
  assert (Per : forall q, iter (maps (E 0%nat)) (q * n) x x).
  { induction q as [|q IH]; [reflexivity|]. simpl. exact (iter_add _ _ _ _ _ _ Hx IH). }
  assert (exists j, (j <= n)%nat /\ iter (maps (E 0%nat)) j x z) as (j & Hj & Hz).
  { exists (k mod n). split; [pose proof (Nat.mod_upper_bound k n ltac:(lia)); lia|].
    rewrite (Nat.div_mod k n ltac:(lia)) in Hk. rewrite Nat.mul_comm in Hk.
    destruct (iter_split _ _ _ _ _ Hk) as (y & H1 & H2).
    rewrite (iter_fun _ F _ _ _ _ H1 (Per (k / n)%nat)) in H2. exact H2. }
  pose proof (Hm j z Hj Hz). lra.
Qed.

(** ** Every return passes everywhere. *)

Definition fst_top (n : nat) : nat := hd 0%nat (e_top (E n)).
Definition fst_bot (n : nat) : nat := hd 0%nat (e_bot (E n)).

Lemma fst_cases n : (fst_top n = W n /\ fst_bot n = L n) \/ (fst_top n = L n /\ fst_bot n = W n).
Proof.
  unfold fst_top, fst_bot. destruct (M_rows n) as (X & Y1 & Y2 & [(T & _ & B & _)|(T & _ & B & _)]); rewrite T, B; auto.
Qed.

(** The labels of stage [n] that the return of label [c] at stage [n + k] passes. *)
Fixpoint word (n k : nat) (c : nat) : list nat :=
  match k with
  | O => [c]
  | S k' => if Nat.eqb c (L (n + k')) then word n k' (fst_bot (n + k')) ++ word n k' (fst_top (n + k')) else word n k' c
  end.

Lemma word_compose n k j c : word n (k + j) c = flat_map (word n k) (word (n + k) j c).
Proof.
  revert c. induction j as [|j IH]; intros c.
  - rewrite Nat.add_0_r. simpl. rewrite app_nil_r. reflexivity.
  - rewrite Nat.add_succ_r. simpl. rewrite !Nat.add_assoc. destruct (Nat.eqb c (L (n + k + j))).
    + rewrite flat_map_app, !IH. reflexivity.
    + apply IH.
Qed.

Lemma word_in_S n k c x : In x (word n (S k) c) <->
  In x (word n k c) \/ (c = L (n + k) /\ In x (word n k (W (n + k)))).
Proof.
  simpl. destruct (Nat.eqb_spec c (L (n + k))) as [->|D]; [|tauto]. rewrite in_app_iff.
  destruct (fst_cases (n + k)) as [[-> ->]|[-> ->]]; tauto.
Qed.

Lemma word_in_le n k m c x : (k <= m)%nat -> In x (word n k c) -> In x (word n m c).
Proof. induction 1 as [|m Hm IH]; intros H; [exact H|]. apply word_in_S. left. exact (IH H). Qed.

Lemma word_letters n k c x : In c letters -> In x (word n k c) -> In x letters.
Proof.
  revert c. induction k as [|k IH]; intros c Hc H; [destruct H as [<-|[]]; exact Hc|].
  apply word_in_S in H. destruct H as [H|[_ H]]; [exact (IH c Hc H)|]. apply (IH (W (n + k))); [apply M_facts|exact H].
Qed.

Theorem everywhere n x : In x letters -> exists k, forall m c, (k <= m)%nat -> In c letters -> In x (word n m c).
Proof.
  intros Hx. apply NNPP. intros No.
  (* the labels whose returns pass [x] eventually *)
  set (Q := fun c => exists k, In x (word n k c)).
  assert (Some_not : exists c, In c letters /\ ~ Q c).
  { apply NNPP. intros C. apply No.
    destruct (eventually_all letters (fun c m => In x (word n m c))) as [N HN].
    - intros c Hc. assert (Qc : Q c) by (apply NNPP; intros C'; apply C; exists c; auto).
      destruct Qc as [k Hk]. exists k. intros m Hm. exact (word_in_le n k m c x Hm Hk).
    - exists N. intros m c Hm Hc. exact (HN c m Hc Hm). }
  destruct Some_not as (c & Hc & Hq).
  assert (Qx : Q x) by (exists 0%nat; left; reflexivity).
  destruct (eventually_all letters (fun b m => Q b -> In x (word n m b))) as [K HK].
  { intros b _. destruct (classic (Q b)) as [[k Hk]|Nb]; [|exists 0%nat; intros; contradiction].
    exists k. intros m Hm _. exact (word_in_le n k m b x Hm Hk). }
  assert (Lose : forall m, (K <= m)%nat -> Q (W (n + m)) -> Q (L (n + m))).
  { intros m Hm HW. exists (S m). apply word_in_S. right. split; [reflexivity|].
    apply HK; [apply M_facts | exact Hm | exact HW]. }
  destruct (wins c Hc (n + K)) as (m1 & Hm1 & W1).
  destruct (wins x Hx m1) as (m2 & Hm2 & W2).
  assert (Stay : forall m, (m1 <= m)%nat -> ~ Q (W m)).
  { induction 1 as [|m Hm IH]; [rewrite W1; exact Hq|]. intros HQ. apply IH.
    destruct (next_duel m) as [H|H]; [rewrite <- H; exact HQ|]. rewrite <- H.
    replace (S m) with (n + (S m - n))%nat in * by lia. apply Lose; [lia|exact HQ]. }
  apply (Stay m2 Hm2). rewrite W2. exact Qx.
Qed.

(** ** Displacements *)

(** Weights that change like the lengths do. *)
Definition follows (f : nat -> nat -> R) : Prop :=
  forall n, f (S n) (W n) = f n (W n) - f n (L n) /\ forall c, c <> W n -> f (S n) c = f n c.
Definition sh (f : nat -> nat -> R) (n c : nat) : R :=
  left_end (f n) (e_bot (E n)) c - left_end (f n) (e_top (E n)) c.

Lemma len_follows : follows len.
Proof. intros n. destruct (M_facts n) as (_ & _ & _ & _ & H & H' & _). auto. Qed.

Lemma row_nodup n : NoDup (e_top (E n)) /\ NoDup (e_bot (E n)).
Proof. split; [apply E_proper | apply proper_bot_nodup, E_proper]. Qed.

Lemma sh_S f n c : follows f ->
  sh f (S n) c = if Nat.eqb c (L n) then sh f n (fst_bot n) + sh f n (fst_top n) else sh f n c.
Proof.
  intros F. destruct (F n) as [Fw Fo]. destruct (row_nodup n) as [NT NB].
  assert (D := proj1 (M_facts n)).
  assert (Sum : sh f n (fst_bot n) + sh f n (fst_top n) = sh f n (W n) + sh f n (L n))
    by (destruct (fst_cases n) as [[-> ->]|[-> ->]]; ring).
  rewrite Sum. clear Sum. unfold sh.
  destruct (M_rows n) as (X & Y1 & Y2 & [(T & T' & B & B')|(T & T' & B & B')]).
  - rewrite T', B', T, B. rewrite T in NT. rewrite B in NB. inversion NT as [|? ? NX _]; subst.
    destruct (row_moved_special (f n) (f (S n)) (W n) (L n) Y1 Y2 NB Fo) as [Rl Rw].
    destruct (Nat.eqb_spec c (L n)) as [->|Dl].
    + rewrite Rl, (row_kept (f n) (f (S n)) (W n) (L n) X (L n) NX Fw Fo (not_eq_sym D)).
      assert (Z1 : left_end (f n) (L n :: Y1 ++ W n :: Y2) (L n) = 0) by (simpl; rewrite Nat.eqb_refl; reflexivity).
      assert (Z2 : left_end (f n) (W n :: X) (W n) = 0) by (simpl; rewrite Nat.eqb_refl; reflexivity).
      rewrite Z1, Z2. ring.
    + destruct (Nat.eq_dec c (W n)) as [->|Dw].
      * rewrite Rw. simpl. rewrite Nat.eqb_refl. ring.
      * rewrite (row_moved (f n) (f (S n)) _ _ _ _ _ NB Fw Fo Dw Dl), (row_kept (f n) (f (S n)) _ _ _ _ NX Fw Fo Dw). ring.
  - rewrite T', B', T, B. rewrite T in NB. rewrite B in NT. inversion NB as [|? ? NX _]; subst.
    destruct (row_moved_special (f n) (f (S n)) (W n) (L n) Y1 Y2 NT Fo) as [Rl Rw].
    destruct (Nat.eqb_spec c (L n)) as [->|Dl].
    + rewrite Rl, (row_kept (f n) (f (S n)) (W n) (L n) X (L n) NX Fw Fo (not_eq_sym D)).
      assert (Z1 : left_end (f n) (L n :: Y1 ++ W n :: Y2) (L n) = 0) by (simpl; rewrite Nat.eqb_refl; reflexivity).
      assert (Z2 : left_end (f n) (W n :: X) (W n) = 0) by (simpl; rewrite Nat.eqb_refl; reflexivity).
      rewrite Z1, Z2. ring.
    + destruct (Nat.eq_dec c (W n)) as [->|Dw].
      * rewrite Rw. simpl. rewrite Nat.eqb_refl. ring.
      * rewrite (row_moved (f n) (f (S n)) _ _ _ _ _ NT Fw Fo Dw Dl), (row_kept (f n) (f (S n)) _ _ _ _ NX Fw Fo Dw). ring.
Qed.

(** A return moves by the sum of the displacements along its word. *)
Lemma sh_word f n k c : follows f -> total (sh f n) (word n k c) = sh f (n + k) c.
Proof.
  intros F. revert c. induction k as [|k IH]; intros c.
  - simpl. rewrite Nat.add_0_r. ring.
  - rewrite Nat.add_succ_r. rewrite (sh_S f (n + k) c F). simpl. destruct (Nat.eqb c (L (n + k))); [|apply IH].
    rewrite total_app, !IH. reflexivity.
Qed.

(** ** Floors: the intervals a return passes *)

(** Left end of the interval of a label, in the interval of stage 0. *)
Definition pos (n c : nat) : R := tot 0 - tot n + left_end (len n) (e_top (E n)) c.

Lemma left_end_fst n : left_end (len n) (e_top (E n)) (fst_top n) = 0 /\ left_end (len n) (e_bot (E n)) (fst_bot n) = 0.
Proof.
  unfold fst_top, fst_bot. destruct (M_rows n) as (X & Y1 & Y2 & [(T & _ & B & _)|(B & _ & T & _)]); rewrite T, B;
  simpl; rewrite !Nat.eqb_refl; auto.
Qed.

Definition parent (n c : nat) : nat := if Nat.eqb c (L n) then fst_bot n else c.

Lemma pos_S n c : In c letters ->
  pos n (parent n c) <= pos (S n) c /\ pos (S n) c + len (S n) c <= pos n (parent n c) + len n (parent n c).
Proof.
  intros Hc. destruct (M_facts n) as (D & Iw & Il & Hlt & Lw & Lo & Tt). destruct (row_nodup n) as [NT NB].
  pose proof (len_pos n _ Il) as Pl. unfold pos, parent. rewrite Tt.
  destruct (M_rows n) as (X & Y1 & Y2 & [(T & T' & B & B')|(B & B' & T & T')]).
  - assert (Fb : fst_bot n = L n) by (unfold fst_bot; rewrite B; reflexivity). rewrite Fb.
    assert (Hp : (if Nat.eqb c (L n) then L n else c) = c) by (destruct (Nat.eqb_spec c (L n)); congruence). rewrite Hp.
    rewrite T', T. rewrite T in NT. inversion NT as [|? ? NX _]; subst.
    destruct (Nat.eq_dec c (W n)) as [->|Dw].
    + simpl. rewrite Nat.eqb_refl, Lw. lra.
    + rewrite (row_kept (len n) (len (S n)) _ _ _ _ NX Lw Lo Dw), (Lo c Dw). lra.
  - assert (Fb : fst_bot n = W n) by (unfold fst_bot; rewrite B; reflexivity). rewrite Fb.
    rewrite T', T. rewrite T in NT.
    destruct (row_moved_special (len n) (len (S n)) (W n) (L n) Y1 Y2 NT Lo) as [Rl Rw].
    destruct (Nat.eqb_spec c (L n)) as [->|Dl].
    + rewrite Rl, (Lo (L n)) by auto. lra.
    + destruct (Nat.eq_dec c (W n)) as [->|Dw].
      * rewrite Rw, Lw. lra.
      * rewrite (row_moved (len n) (len (S n)) _ _ _ _ _ NT Lw Lo Dw Dl), (Lo c Dw). lra.
Qed.

Lemma pos_second n : pos (S n) (L n) + sh len n (fst_bot n) = pos n (fst_top n) /\ len (S n) (L n) <= len n (fst_top n).
Proof.
  destruct (M_facts n) as (D & Iw & Il & Hlt & Lw & Lo & Tt). destruct (row_nodup n) as [NT NB].
  destruct (left_end_fst n) as [Z1 Z2]. rewrite (Lo (L n)) by auto. unfold pos, sh. rewrite Z1, Z2, Tt.
  destruct (M_rows n) as (X & Y1 & Y2 & [(T & T' & B & B')|(B & B' & T & T')]).
  - assert (Fb : fst_bot n = L n) by (unfold fst_bot; rewrite B; reflexivity).
    assert (Ft : fst_top n = W n) by (unfold fst_top; rewrite T; reflexivity).
    rewrite Fb, Ft, T', T. rewrite T in NT. inversion NT as [|? ? NX _]; subst.
    rewrite (row_kept (len n) (len (S n)) _ _ _ _ NX Lw Lo (not_eq_sym D)). lra.
  - assert (Fb : fst_bot n = W n) by (unfold fst_bot; rewrite B; reflexivity).
    assert (Ft : fst_top n = L n) by (unfold fst_top; rewrite T; reflexivity).
    rewrite Fb, Ft, T', T. rewrite T in NT.
    destruct (row_moved_special (len n) (len (S n)) (W n) (L n) Y1 Y2 NT Lo) as [Rl Rw]. rewrite Rl. lra.
Qed.

Lemma split_app {A} (U V u : list A) d u' : U ++ V = u ++ d :: u' ->
  (exists u2, U = u ++ d :: u2) \/ (exists u2, u = U ++ u2 /\ V = u2 ++ d :: u').
Proof.
  intros H. destruct (app_cut U V u (d :: u') H) as [(Z & -> & HV)|(Z & HU & HV)].
  - right. exists Z. auto.
  - destruct Z as [|z Z].
    + right. exists []. rewrite app_nil_r in *. split; [symmetry; exact HU | symmetry; exact HV].
    + left. exists Z. simpl in HV. injection HV as <- _. exact HU.
Qed.

Lemma floors n : forall c u d u', In c letters -> word 0 n c = u ++ d :: u' ->
  pos 0 d <= pos n c + total (sh len 0) u /\ pos n c + len n c + total (sh len 0) u <= pos 0 d + len 0 d.
Proof.
  induction n as [|n IH]; intros c u d u' Hc Hw.
  - simpl in Hw. destruct u as [|x [|y u]]; try discriminate. injection Hw as <- <-. simpl. lra.
  - simpl in Hw. destruct (pos_S n c Hc) as [G1 G2]. unfold parent in G1, G2.
    assert (HB : In (fst_bot n) letters /\ In (fst_top n) letters).
    { destruct (M_facts n) as (_ & Iw & Il & _). destruct (fst_cases n) as [[-> ->]|[-> ->]]; auto. }
    destruct (Nat.eqb_spec c (L n)) as [->|Dl].
    + destruct (split_app _ _ _ _ _ Hw) as [(u2 & HU)|(u2 & -> & HV)].
      * destruct (IH _ _ _ _ (proj1 HB) HU). lra.
      * destruct (IH _ _ _ _ (proj2 HB) HV) as [I1 I2]. destruct (pos_second n) as [S1 S2].
        rewrite total_app. rewrite (sh_word len 0 n (fst_bot n) len_follows). simpl. lra.
    + destruct (IH _ _ _ _ Hc Hw). lra.
Qed.

Lemma sh_shift n c : sh len n c = shift (E n) c.
Proof. reflexivity. Qed.

Lemma maps_letter d y : In d letters -> pos 0 d <= y < pos 0 d + len 0 d -> maps (E 0%nat) y (y + sh len 0 d).
Proof.
  intros Hd Hy. apply maps_iff. pose proof (E_in 0 d Hd) as HT.
  assert (HB : In d (e_bot (E 0%nat))) by (apply (Permutation_in _ (E_bot_letters 0)), Hd).
  apply in_split in HT. destruct HT as (X & Y & HT). apply in_split in HB. destruct HB as (X' & Y' & HB).
  exists d, X, Y, X', Y'. split; [exact HT|]. split; [exact HB|].
  destruct (row_nodup 0) as [NT NB]. rewrite HT in NT. rewrite HB in NB.
  assert (N1 : ~ In d X) by (apply NoDup_remove_2 in NT; intros C; apply NT, in_app_iff; left; exact C).
  assert (N2 : ~ In d X') by (apply NoDup_remove_2 in NB; intros C; apply NB, in_app_iff; left; exact C).
  unfold pos in Hy. unfold sh. rewrite HT in Hy |- *. rewrite HB. rewrite (left_end_app _ X) in Hy |- * by exact N1.
  rewrite (left_end_app _ X') by exact N2. simpl in *. rewrite Nat.eqb_refl in *. unfold len in *. split; lra.
Qed.

Lemma walk n c : In c letters -> forall v u u', word 0 n c = u ++ v ++ u' ->
  iter (maps (E 0%nat)) (length v) (pos n c + total (sh len 0) u) (pos n c + total (sh len 0) (u ++ v)).
Proof.
  intros Hc. induction v as [|d v IH]; intros u u' Hw.
  - rewrite app_nil_r. reflexivity.
  - simpl. exists (pos n c + total (sh len 0) u + sh len 0 d). split.
    + apply maps_letter.
      * apply (word_letters 0 n c); [exact Hc|]. rewrite Hw. apply in_app_iff. right; left; reflexivity.
      * destruct (floors n c u d (v ++ u') Hc Hw). pose proof (len_pos n c Hc). lra.
    + specialize (IH (u ++ [d]) u'). rewrite <- !app_assoc in IH. specialize (IH Hw).
      replace (pos n c + total (sh len 0) u + sh len 0 d) with (pos n c + total (sh len 0) (u ++ [d])); [exact IH|].
      rewrite total_app. simpl. ring.
Qed.

(** No piece of a return has zero displacement. *)
Lemma no_return n c u v u' : In c letters -> word 0 n c = u ++ v ++ u' -> v <> [] -> total (sh len 0) v <> 0.
Proof.
  intros Hc Hw Hv H0. apply aperiodic. exists (pos n c + total (sh len 0) u), (length v).
  split; [destruct v; [contradiction|simpl; lia]|].
  pose proof (walk n c Hc v u u' Hw) as Hi. rewrite total_app, H0, Rplus_0_r in Hi. exact Hi.
Qed.

Lemma pos_bounds n c : In c letters -> 0 <= pos n c /\ pos n c + len n c <= tot 0.
Proof.
  intros Hc. pose proof (tot_le 0 n ltac:(lia)). pose proof (E_proper n) as (_ & _ & Hp). unfold pos.
  pose proof (E_in n c Hc) as Hi. apply in_split in Hi. destruct Hi as (X & Y & HT).
  destruct (row_nodup n) as [NT _]. 
  destruct (total_piece (len n) (e_top (E n)) X c Y Hp HT) as [B1 B2].
  rewrite HT in NT. assert (N1 : ~ In c X) by (apply NoDup_remove_2 in NT; intros C; apply NT, in_app_iff; left; exact C).
  fold (tot n) in B2. assert (Lx : left_end (len n) (e_top (E n)) c = total (len n) X).
  { rewrite HT, left_end_app by exact N1. simpl. rewrite Nat.eqb_refl. ring. }
  rewrite Lx. lra.
Qed.

(** Pieces from the start of a return stay inside. *)
Lemma prefix_bound n c u u' : In c letters -> word 0 n c = u ++ u' -> u' <> [] -> Rabs (total (sh len 0) u) < tot 0.
Proof.
  intros Hc Hw Hu. destruct u' as [|d u']; [contradiction|].
  destruct (floors n c u d u' Hc Hw) as [F1 F2]. pose proof (pos_bounds n c Hc). pose proof (len_pos n c Hc).
  assert (Hd : In d letters) by (apply (word_letters 0 n c d Hc); rewrite Hw; apply in_app_iff; right; left; reflexivity).
  pose proof (pos_bounds 0 d Hd). apply Rabs_def1; lra.
Qed.

(** At every stage displacements are small, but not zero. *)
Lemma sh_bound n c : In c letters -> Rabs (sh len n c) < tot n /\ sh len n c <> 0.
Proof.
  intros Hc. split.
  - pose proof (E_proper n) as P. pose proof (proper_bot_pos _ P) as Hb. pose proof (proper_total _ P) as Tb.
    destruct P as (NT & Pm & Hp). pose proof (row_nodup n) as [_ NB].
    assert (Lb : forall l, NoDup l -> (forall x, In x l -> 0 < len n x) -> In c l ->
      0 <= left_end (len n) l c /\ left_end (len n) l c < total (len n) l).
    { intros l N Hl Hi. apply in_split in Hi. destruct Hi as (X & Y & ->).
      assert (N1 : ~ In c X) by (apply NoDup_remove_2 in N; intros C; apply N, in_app_iff; left; exact C).
      rewrite left_end_app, total_app by exact N1. simpl. rewrite Nat.eqb_refl.
      pose proof (Hl c ltac:(apply in_app_iff; right; left; reflexivity)).
      pose proof (total_nonneg (len n) X (fun x Hx => Hl x ltac:(apply in_app_iff; left; exact Hx))).
      pose proof (total_nonneg (len n) Y (fun x Hx => Hl x ltac:(apply in_app_iff; right; right; exact Hx))). lra. }
    destruct (Lb (e_top (E n)) NT Hp (E_in n c Hc)).
    destruct (Lb (e_bot (E n)) NB Hb (Permutation_in _ Pm (E_in n c Hc))).
    unfold sh, tot in *. fold (len n) in Tb. apply Rabs_def1; lra.
  - rewrite <- (sh_word len 0 n c len_follows : _ = sh len n c). apply (no_return n c [] (word 0 n c) [] Hc).
    + rewrite app_nil_r. reflexivity.
    + clear. revert c. induction n as [|n IH]; intros c; [discriminate|]. simpl. destruct (Nat.eqb c (L n)); [|apply IH].
      intros H. apply app_eq_nil in H. exact (IH _ (proj1 H)).
Qed.
End Endless.
