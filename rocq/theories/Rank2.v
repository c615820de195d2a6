(** Induction that never stops, for lengths in [Z b1 + Z b2] (specification level): in the
    end all displacements have coordinates of the same sign, so that they cannot cancel. *)
From Coq Require Import Reals Lra Lia List Permutation Arith Classical Bool ZArith Psatz.
From Verif Require Import Spec Dyn Saddle Path Endless.
Import ListNotations.
Open Scope R_scope.

(** * Sums of integers *)

Fixpoint zsum (d : nat -> Z) (u : list nat) : Z :=
  match u with
  | [] => 0%Z
  | c :: u' => (d c + zsum d u')%Z
  end.
Lemma zsum_app d u v : zsum d (u ++ v) = (zsum d u + zsum d v)%Z.
Proof. induction u as [|c u IH]; simpl; [reflexivity|]. rewrite IH. lia. Qed.
Lemma zsum_total d u : IZR (zsum d u) = total (fun c => IZR (d c)) u.
Proof. induction u as [|c u IH]; simpl; [reflexivity|]. rewrite plus_IZR, IH. reflexivity. Qed.
Lemma zsum_flat d f U : zsum d (flat_map f U) = zsum (fun i => zsum d (f i)) U.
Proof. induction U as [|i U IH]; simpl; [reflexivity|]. rewrite zsum_app, IH. reflexivity. Qed.
Lemma zsum_opp d u : zsum (fun c => - d c)%Z u = (- zsum d u)%Z.
Proof. induction u as [|c u IH]; simpl; [reflexivity|]. rewrite IH. lia. Qed.

Lemma zsum_bound d v : exists B, (0 <= B)%Z /\ forall u u', v = u ++ u' -> (Z.abs (zsum d u) <= B)%Z.
Proof.
  exists (zsum (fun c => Z.abs (d c)) v). assert (P : forall w, (0 <= zsum (fun c => Z.abs (d c)) w)%Z).
  { induction w as [|c w IH]; simpl; lia. }
  split; [apply P|]. intros u u' ->. rewrite zsum_app. specialize (P u').
  assert (Z.abs (zsum d u) <= zsum (fun c => Z.abs (d c)) u)%Z; [|lia].
  induction u as [|c u IH]; simpl; lia.
Qed.

Lemma bound_all (A : list nat) (Q : nat -> Z -> Prop) : (forall a B B', Q a B -> (B <= B')%Z -> Q a B') ->
  (forall a, exists B, Q a B) -> exists B, (0 <= B)%Z /\ forall a, In a A -> Q a B.
Proof.
  intros Mono H. induction A as [|a A (B & B0 & IH)]; [exists 0%Z; split; [lia|intros ? []]|].
  destruct (H a) as [B' HB']. exists (Z.max B B'). split; [lia|].
  intros b [<-|Hb]; [apply (Mono _ B'); [exact HB'|lia] | apply (Mono _ B); [exact (IH b Hb)|lia]].
Qed.

(** * Crossings of a level *)

Definition side (l x : Z) : bool := (l <=? x)%Z.
Fixpoint crossings (d : nat -> Z) (l s : Z) (v : list nat) : nat :=
  match v with
  | [] => 0%nat
  | c :: v' => ((if Bool.eqb (side l s) (side l (s + d c)) then 0 else 1) + crossings d l (s + d c) v')%nat
  end.

Lemma crossings_app d l u v : forall s, crossings d l s (u ++ v) = (crossings d l s u + crossings d l (s + zsum d u) v)%nat.
Proof.
  induction u as [|c u IH]; intros s; simpl; [rewrite Z.add_0_r; reflexivity|]. rewrite IH, Z.add_assoc. lia.
Qed.
Lemma side_shift l x t : side (l + t) (x + t) = side l x.
Proof. unfold side. destruct (Z.leb_spec l x), (Z.leb_spec (l + t) (x + t)); try reflexivity; lia. Qed.
Lemma crossings_shift d l t v : forall s, crossings d (l + t) (s + t) v = crossings d l s v.
Proof.
  induction v as [|c v IH]; intros s; simpl; [reflexivity|].
  replace (s + t + d c)%Z with (s + d c + t)%Z by lia. rewrite !side_shift, IH. reflexivity.
Qed.
Lemma crossings_ends d l v : forall s, side l s <> side l (s + zsum d v) -> (1 <= crossings d l s v)%nat.
Proof.
  induction v as [|c v IH]; intros s H; simpl in *; [rewrite Z.add_0_r in H; contradiction|].
  destruct (Bool.eqb (side l s) (side l (s + d c))) eqn:Eq; [|lia].
  apply Bool.eqb_prop in Eq. rewrite Eq, Z.add_assoc in H. apply IH in H. lia.
Qed.

(** Positions before each letter. *)
Fixpoint stops (d : nat -> Z) (s : Z) (v : list nat) : list Z :=
  match v with
  | [] => []
  | c :: v' => s :: stops d (s + d c) v'
  end.

Lemma crossings_stops d l J v : (forall c, In c v -> (Z.abs (d c) <= J)%Z) -> forall s,
  (crossings d l s v <= length (filter (fun x => (l - J <=? x) && (x <=? l + J))%Z (stops d s v)))%nat.
Proof.
  induction v as [|c v IH]; intros H s; simpl; [lia|].
  specialize (IH (fun x Hx => H x (or_intror Hx)) (s + d c)%Z). pose proof (H c (or_introl eq_refl)) as Hc.
  destruct (Bool.eqb (side l s) (side l (s + d c))) eqn:Eq.
  - destruct ((l - J <=? s) && (s <=? l + J))%Z; simpl; lia.
  - assert (Hin : ((l - J <=? s) && (s <=? l + J))%Z = true).
    { apply andb_true_iff. unfold side in Eq.
      destruct (Z.leb_spec l s), (Z.leb_spec l (s + d c)); simpl in Eq; try discriminate; split; apply Z.leb_le; lia. }
    rewrite Hin. simpl. lia.
Qed.

(** * Counting *)

Lemma filter_or {A} (f g : A -> bool) l : (length (filter (fun x => f x || g x) l) <= length (filter f l) + length (filter g l))%nat.
Proof. induction l as [|x l IH]; simpl; [lia|]. destruct (f x), (g x); simpl; lia. Qed.

Lemma filter_window (l : list Z) K (a : Z) n : (forall x, (length (filter (Z.eqb x) l) <= K)%nat) ->
  (length (filter (fun x => (a <=? x) && (x <? a + Z.of_nat n))%Z l) <= n * K)%nat.
Proof.
  intros H. induction n as [|n IH].
  - replace (filter _ l) with (@nil Z); [simpl; lia|]. symmetry. clear H. induction l as [|x l IH]; [reflexivity|]. simpl.
    destruct (Z.leb_spec a x), (Z.ltb_spec x (a + 0)); simpl; try exact IH. lia.
  - transitivity (length (filter (fun x => ((a <=? x) && (x <? a + Z.of_nat n)) || Z.eqb (a + Z.of_nat n) x)%Z l)).
    + apply Nat.eq_le_incl. f_equal. apply filter_ext. intros x.
      destruct (Z.leb_spec a x), (Z.ltb_spec x (a + Z.of_nat (S n))), (Z.ltb_spec x (a + Z.of_nat n)), (Z.eqb_spec (a + Z.of_nat n) x);
        simpl; try reflexivity; lia.
    + rewrite filter_or. specialize (H (a + Z.of_nat n)%Z). simpl. lia.
Qed.

Lemma integers_in (l : list Z) x w : NoDup l -> (forall z, In z l -> x < IZR z < x + w) -> (length l <= Z.to_nat (up w))%nat.
Proof.
  intros N H. destruct (archimed x) as [A1 A2]. destruct (archimed w) as [A3 A4].
  apply (Nat.le_trans _ (length (map (fun k => (up x + Z.of_nat k)%Z) (seq 0 (Z.to_nat (up w)))))).
  - apply NoDup_incl_length; [exact N|]. intros z Hz. specialize (H z Hz).
    assert (G1 : (up x <= z)%Z).
    { assert (up x - 1 < z)%Z; [|lia]. apply lt_IZR. rewrite minus_IZR. lra. }
    assert (G2 : (z - up x < up w)%Z). { apply lt_IZR. rewrite minus_IZR. lra. }
    apply in_map_iff. exists (Z.to_nat (z - up x)). split; [lia|]. apply in_seq. lia.
  - rewrite map_length, seq_length. lia.
Qed.

(** Distance of [c] to the multiples of [b], if not one of them. *)
Lemma gap_one b c : 0 < b -> exists d, 0 < d /\ forall z, IZR z * b + c <> 0 -> d <= Rabs (IZR z * b + c).
Proof.
  intros Hb. set (k := (up (c / b) - 1)%Z). destruct (archimed (c / b)) as [A1 A2].
  set (r := c - IZR k * b).
  assert (Hr : 0 <= r < b).
  { unfold r, k. rewrite minus_IZR. split.
    - assert ((IZR (up (c / b)) - 1) * b <= c); [|lra].
      replace c with (c / b * b) at 2 by (field; lra). apply Rmult_le_compat_r; lra.
    - assert (c < IZR (up (c / b)) * b); [|lra].
      replace c with (c / b * b) at 1 by (field; lra). apply Rmult_lt_compat_r; lra. }
  exists (if Req_EM_T r 0 then b else Rmin r (b - r)). split.
  - destruct (Req_EM_T r 0); [exact Hb|]. apply Rmin_glb_lt; lra.
  - intros z Hz. replace (IZR z * b + c) with (IZR (z + k) * b + r) in * by (unfold r; rewrite plus_IZR; ring).
    destruct (Z_lt_le_dec (z + k) 0) as [Hn|Hn].
    + assert (IZR (z + k) <= -1) by (apply IZR_le; lia).
      assert (IZR (z + k) * b <= - b) by nra. rewrite Rabs_left by lra.
      destruct (Req_EM_T r 0); [lra|]. pose proof (Rmin_r r (b - r)). lra.
    + assert (0 <= IZR (z + k)) by (apply IZR_le; lia). 
      destruct (Req_EM_T r 0) as [->|Dr].
      * rewrite Rplus_0_r in *. assert (z + k <> 0)%Z by (intros C; rewrite C in Hz; apply Hz; ring).
        assert (1 <= IZR (z + k)) by (apply IZR_le; lia). rewrite Rabs_pos_eq by nra. nra.
      * pose proof (Rmin_l r (b - r)). rewrite Rabs_pos_eq by nra. nra.
Qed.

Lemma gap b1 b2 (X : nat) : 0 < b1 -> exists d, 0 < d /\ forall z y, (Z.abs y <= Z.of_nat X)%Z ->
  IZR z * b1 + IZR y * b2 <> 0 -> d <= Rabs (IZR z * b1 + IZR y * b2).
Proof.
  intros Hb. induction X as [|X (d & Hd & IH)].
  - destruct (gap_one b1 (IZR 0 * b2) Hb) as (d & Hd & H). exists d. split; [exact Hd|]. intros z y Hy.
    replace y with 0%Z by lia. apply H.
  - destruct (gap_one b1 (IZR (Z.of_nat (S X)) * b2) Hb) as (d1 & Hd1 & H1).
    destruct (gap_one b1 (IZR (- Z.of_nat (S X)) * b2) Hb) as (d2 & Hd2 & H2).
    exists (Rmin d (Rmin d1 d2)). split; [repeat apply Rmin_glb_lt; assumption|]. intros z y Hy Hz.
    pose proof (Rmin_l d (Rmin d1 d2)). pose proof (Rmin_r d (Rmin d1 d2)).
    pose proof (Rmin_l d1 d2). pose proof (Rmin_r d1 d2).
    assert (Cs : (Z.abs y <= Z.of_nat X \/ y = Z.of_nat (S X) \/ y = - Z.of_nat (S X))%Z) by lia.
    destruct Cs as [C|[C|C]].
    + specialize (IH z y C Hz). lra.
    + rewrite C in *. specialize (H1 z Hz). lra.
    + rewrite C in *. specialize (H2 z Hz). lra.
Qed.

(** * Walking over blocks *)
Lemma reach (D : nat -> Z) Y B U : (0 <= B)%Z -> (forall i, In i U -> (Z.abs (D i) <= B)%Z) -> forall s,
  (- Y < s)%Z -> (s + zsum D U < - Y - B)%Z ->
  exists U1 i U2, U = U1 ++ i :: U2 /\ (- Y - B <= s + zsum D U1 <= - Y)%Z.
Proof.
  intros HB. induction U as [|i U IH]; intros H s Hs Ht.
  - exfalso. simpl in Ht. lia.
  - simpl in Ht. pose proof (H i (or_introl eq_refl)) as Hi. destruct (Z_lt_le_dec (- Y) (s + D i)) as [Hg|Hg].
    + destruct (IH (fun x Hx => H x (or_intror Hx)) (s + D i)%Z Hg) as (U1 & j & U2 & -> & Hj); [lia|].
      exists (i :: U1), j, U2. split; [reflexivity|]. simpl. lia.
    + destruct U as [|j U].
      * simpl in Ht. lia.
      * exists [i], j, U. split; [reflexivity|]. simpl. lia.
Qed.

Section Rank2.
Variable E : nat -> exch.
Variables W L : nat -> nat.
Hypothesis P0 : proper (E 0%nat).
Hypothesis I0 : ~ reducible (E 0%nat).
Hypothesis M : forall n, move (W n) (L n) (E n) (E (S n)).
Variables b1 b2 : R.
Hypothesis b1_pos : 0 < b1.
Variables p0 q0 : nat -> Z.
Hypothesis coords : forall c, In c (letters E) -> e_len (E 0%nat) c = IZR (p0 c) * b1 + IZR (q0 c) * b2.

Notation word := (word E L).
Notation sh := (sh E).
Notation len := (len E).
Notation tot := (tot E).
Notation letters := (letters E).

(** The coordinates of the lengths at each stage. *)
Fixpoint follow (z : nat -> Z) (n : nat) : nat -> Z :=
  match n with
  | O => z
  | S n' => fun c => if Nat.eqb c (W n') then (follow z n' c - follow z n' (L n'))%Z else follow z n' c
  end.
Definition wt (z : nat -> Z) (n c : nat) : R := IZR (follow z n c).

Lemma follow_follows z : follows W L (wt z).
Proof.
  intros n. unfold wt. simpl. split.
  - rewrite Nat.eqb_refl, minus_IZR. reflexivity.
  - intros c D. destruct (Nat.eqb_spec c (W n)); [contradiction|reflexivity].
Qed.

Lemma len_coords n c : In c letters -> len n c = wt p0 n c * b1 + wt q0 n c * b2.
Proof.
  revert c. induction n as [|n IH]; intros c Hc; [exact (coords c Hc)|].
  destruct (M_facts E W L P0 M n) as (_ & Iw & Il & _ & Lw & Lo & _).
  destruct (follow_follows p0 n) as [F1 F2]. destruct (follow_follows q0 n) as [G1 G2].
  destruct (Nat.eq_dec c (W n)) as [->|D].
  - rewrite Lw, F1, G1, (IH _ Iw), (IH _ Il). ring.
  - rewrite (Lo c D), (F2 c D), (G2 c D). apply IH, Hc.
Qed.

(** Displacements of integral weights. *)
Fixpoint zleft (z : nat -> Z) (l : list nat) (a : nat) : Z :=
  match l with
  | [] => 0%Z
  | c :: l' => if Nat.eqb c a then 0%Z else (z c + zleft z l' a)%Z
  end.
Definition zsh (z : nat -> Z) (n c : nat) : Z :=
  (zleft (follow z n) (e_bot (E n)) c - zleft (follow z n) (e_top (E n)) c)%Z.

Lemma zleft_left z l a : IZR (zleft z l a) = left_end (fun c => IZR (z c)) l a.
Proof. induction l as [|c l IH]; simpl; [reflexivity|]. destruct (Nat.eqb c a); [reflexivity|]. rewrite plus_IZR, IH. reflexivity. Qed.
Lemma zsh_sh z n c : IZR (zsh z n c) = sh (wt z) n c.
Proof. unfold zsh, Endless.sh. rewrite minus_IZR, !zleft_left. reflexivity. Qed.

Lemma zsh_word z n c : zsum (zsh z 0) (word 0 n c) = zsh z n c.
Proof.
  apply eq_IZR. rewrite zsum_total, zsh_sh. pose proof (sh_word E W L P0 M (wt z) 0 n c (follow_follows z)) as H. simpl in H. rewrite <- H.
  apply total_ext. intros x _. apply zsh_sh.
Qed.

Lemma left_end_lin f g h x y l a : (forall c, In c l -> f c = g c * x + h c * y) ->
  left_end f l a = left_end g l a * x + left_end h l a * y.
Proof.
  induction l as [|c l IH]; intros H; simpl; [ring|]. destruct (Nat.eqb c a); [ring|].
  rewrite (H c) by (left; reflexivity). rewrite IH by (intros d Hd; apply H; right; exact Hd). ring.
Qed.
Lemma sh_coords n c : sh len n c = IZR (zsh p0 n c) * b1 + IZR (zsh q0 n c) * b2.
Proof.
  rewrite !zsh_sh. unfold Endless.sh.
  rewrite (left_end_lin (len n) (wt p0 n) (wt q0 n) b1 b2 (e_bot (E n))).
  2:{ intros d Hd. apply len_coords. apply (Permutation_in _ (Permutation_sym (E_bot_letters E W L P0 M n))), Hd. }
  rewrite (left_end_lin (len n) (wt p0 n) (wt q0 n) b1 b2 (e_top (E n))).
  2:{ intros d Hd. apply len_coords. apply (E_in' E W L P0 M n), Hd. }
  ring.
Qed.
Lemma word_coords u : total (sh len 0) u = IZR (zsum (zsh p0 0) u) * b1 + IZR (zsum (zsh q0 0) u) * b2.
Proof.
  induction u as [|c u IH]; simpl; [ring|]. rewrite IH, !plus_IZR, (sh_coords 0 c). ring.
Qed.

(** ** Each level is met a bounded number of times. *)
Definition dp : nat -> Z := zsh p0 0.
Definition dq : nat -> Z := zsh q0 0.

Fixpoint stops2 (s : Z * Z) (v : list nat) : list (Z * Z) :=
  match v with
  | [] => []
  | c :: v' => s :: stops2 (fst s + dp c, snd s + dq c)%Z v'
  end.
Lemma stops2_snd v : forall s, map snd (stops2 s v) = stops dq (snd s) v.
Proof. induction v as [|c v IH]; intros s; simpl; [reflexivity|]. rewrite IH. reflexivity. Qed.
Lemma stops2_in v : forall s x, In x (stops2 s v) ->
  exists u u', v = u ++ u' /\ u' <> [] /\ x = (fst s + zsum dp u, snd s + zsum dq u)%Z.
Proof.
  induction v as [|c v IH]; intros s x H; [contradiction|]. destruct H as [<-|H].
  - exists [], (c :: v). split; [reflexivity|]. split; [discriminate|]. simpl. rewrite !Z.add_0_r. destruct s; reflexivity.
  - destruct (IH _ _ H) as (u & u' & -> & Hu & ->). exists (c :: u), u'. split; [reflexivity|]. split; [exact Hu|].
    simpl. f_equal; lia.
Qed.

Definition rigid (v : list nat) : Prop := forall u w u', v = u ++ w ++ u' -> w <> [] -> (zsum dp w, zsum dq w) <> (0, 0)%Z.
Lemma stops2_nodup v : rigid v -> forall s, NoDup (stops2 s v).
Proof.
  induction v as [|c v IH]; intros R s; simpl; constructor.
  - intros H. apply stops2_in in H. destruct H as (u & u' & -> & Hu & Hs). simpl in Hs.
    apply (R [] (c :: u) u'); [reflexivity | discriminate |]. simpl. destruct s as [a b]. simpl in Hs.
    injection Hs as H1 H2. f_equal; lia.
  - apply IH. intros u w u' Hv Hw. apply (R (c :: u) w u'); [rewrite Hv; reflexivity | exact Hw].
Qed.

Lemma word_rigid n c : In c letters -> rigid (word 0 n c).
Proof.
  intros Hc u w u' Hv Hw C. apply (no_return E W L P0 I0 M n c u w u' Hc Hv Hw).
  rewrite word_coords. injection C as C1 C2. unfold dp, dq in *. rewrite C1, C2. simpl. ring.
Qed.

Definition K : nat := Z.to_nat (up (2 * tot 0 / b1)).

Lemma NoDup_map_filter (l : list (Z * Z)) x : NoDup l -> NoDup (map fst (filter (fun s => Z.eqb x (snd s)) l)).
Proof.
  induction 1 as [|s l Hn N IH]; simpl; [constructor|]. destruct (Z.eqb_spec x (snd s)) as [->|]; [|exact IH].
  simpl. constructor; [|exact IH]. intros H. apply Hn. apply in_map_iff in H. destruct H as (t & Ht & Hi).
  apply filter_In in Hi. destruct Hi as [Hi Hs]. apply Z.eqb_eq in Hs. destruct s, t. simpl in *. congruence.
Qed.

Lemma level_count n c x : In c letters -> (length (filter (Z.eqb x) (stops dq 0 (word 0 n c))) <= K)%nat.
Proof.
  intros Hc. change 0%Z with (snd (0, 0)%Z) at 1. rewrite <- stops2_snd.
  assert (Eq : forall l : list (Z * Z), length (filter (Z.eqb x) (map snd l)) = length (map fst (filter (fun s => Z.eqb x (snd s)) l))).
  { induction l as [|s l IH]; simpl; [reflexivity|]. destruct (Z.eqb x (snd s)); simpl; rewrite IH; reflexivity. }
  rewrite Eq. unfold K. apply (integers_in _ ((- tot 0 - IZR x * b2) / b1)).
  - apply NoDup_map_filter, stops2_nodup, word_rigid, Hc.
  - intros z Hz. apply in_map_iff in Hz. destruct Hz as ([z' y] & Hz & Hi). simpl in Hz. subst z'.
    apply filter_In in Hi. destruct Hi as [Hi Hy]. simpl in Hy. apply Z.eqb_eq in Hy. subst y.
    apply stops2_in in Hi. destruct Hi as (u & u' & Hv & Hu & Hs). simpl in Hs. injection Hs as H1 H2.
    pose proof (prefix_bound E W L P0 M n c u u' Hc Hv Hu) as Hb. rewrite word_coords in Hb.
    unfold dp, dq in *. rewrite <- H1, <- H2 in Hb. apply Rabs_def2 in Hb.
    split.
    + apply (Rmult_lt_reg_r b1); [exact b1_pos|]. unfold Rdiv. rewrite Rmult_assoc, Rinv_l by lra. lra.
    + apply (Rmult_lt_reg_r b1); [exact b1_pos|].
      replace (((- tot 0 - IZR x * b2) / b1 + 2 * tot 0 / b1) * b1) with (tot 0 - IZR x * b2) by (field; lra). lra.
Qed.

Lemma crossings_bound : exists C, forall n c l, In c letters -> (crossings dq l 0 (word 0 n c) <= C)%nat.
Proof.
  destruct (bound_all letters (fun a B => (Z.abs (dq a) <= B)%Z)) as (J & J0 & HJ); [intros; lia | intros a; exists (Z.abs (dq a)); lia |].
  exists (Z.to_nat (2 * J + 1) * K)%nat. intros n c l Hc.
  rewrite (crossings_stops dq l J).
  2:{ intros x Hx. apply HJ. exact (word_letters E W L P0 M 0 n c x Hc Hx). }
  transitivity (length (filter (fun x => (l - J <=? x) && (x <? l - J + Z.of_nat (Z.to_nat (2 * J + 1))))%Z (stops dq 0 (word 0 n c)))).
  - apply Nat.eq_le_incl. f_equal. apply filter_ext. intros x. rewrite Z2Nat.id by lia.
    destruct (Z.leb_spec (l - J) x), (Z.leb_spec x (l + J)), (Z.ltb_spec x (l - J + (2 * J + 1))); simpl; try reflexivity; lia.
  - apply filter_window. intros x. apply level_count, Hc.
Qed.

(** ** Displacements become large in the second coordinate. *)
Lemma large X : exists N, forall n c, (N <= n)%nat -> In c letters -> (X < Z.abs (zsh q0 n c))%Z.
Proof.
  destruct (gap b1 b2 (Z.to_nat X) b1_pos) as (d & Hd & G).
  destruct (tot_small E W L P0 I0 M d Hd) as [N HN]. exists N. intros n c Hn Hc.
  destruct (Z_lt_le_dec X (Z.abs (zsh q0 n c))) as [H|H]; [exact H|exfalso].
  destruct (sh_bound E W L P0 I0 M n c Hc) as [S1 S2]. rewrite sh_coords in S1, S2.
  specialize (HN n Hn). specialize (G (zsh p0 n c) (zsh q0 n c)).
  assert (Z.abs (zsh q0 n c) <= Z.of_nat (Z.to_nat X))%Z by lia. specialize (G H0 S2). lra.
Qed.

(** ** Both signs for ever would cross some level too often. *)
Lemma zigzag : (forall N, exists n, (N <= n)%nat /\ (exists c, In c letters /\ (zsh q0 n c < 0)%Z) /\ exists c, In c letters /\ (0 < zsh q0 n c)%Z) ->
  forall m, exists n c l, In c letters /\ (m <= crossings dq l 0 (word 0 n c))%nat.
Proof.
  intros Both. induction m as [|m (n1 & i1 & l & Hi1 & Hm)].
  - destruct (two_letters E W L P0 M) as (a & _ & _ & Ha & _). exists 0%nat, a, 0%Z. split; [exact Ha|lia].
  - set (Zw := word 0 n1 i1) in *.
    destruct (everywhere E W L P0 I0 M n1 i1 Hi1) as [k2 Hk2]. set (n2 := (n1 + k2)%nat).
    assert (Blk : forall i, In i letters -> exists u1 u2, word 0 n2 i = u1 ++ Zw ++ u2).
    { intros i Hi. specialize (Hk2 k2 i (le_n _) Hi). apply in_split in Hk2. destruct Hk2 as (v1 & v2 & Hv).
      unfold n2. rewrite (word_compose E L 0 n1 k2 i). simpl. rewrite Hv, flat_map_app. simpl.
      exists (flat_map (word 0 n1) v1), (flat_map (word 0 n1) v2). reflexivity. }
    destruct (bound_all letters (fun i B => (Z.abs l <= B)%Z /\ forall u u', word 0 n2 i = u ++ u' -> (Z.abs (zsum dq u) <= B)%Z))
      as (B & B0 & HB).
    { intros a B B' [H1 H2] H. split; [lia|]. intros u u' Hu. specialize (H2 u u' Hu). lia. }
    { intros a. destruct (zsum_bound dq (word 0 n2 a)) as (B & _ & H). exists (Z.max (Z.abs l) B).
      split; [lia|]. intros u u' Hu. specialize (H u u' Hu). lia. }
    assert (Hl : (Z.abs l <= B)%Z) by (apply (HB i1 Hi1)).
    destruct (large (10 * B + 10)) as [N HN]. destruct (Both (Nat.max N n2)) as (n3 & Hn3 & (jn & Hjn & Sn) & (jp & Hjp & Sp)).
    (* a block in the middle of a long return *)
    assert (Mid : forall j, In j letters -> exists x u2 v1, (Z.abs x <= 6 * B + 4)%Z /\ (B < Z.abs x)%Z /\ Z.sgn x = Z.sgn (zsh q0 n3 j) /\
       word 0 n3 j = v1 ++ Zw ++ u2 /\ zsum dq v1 = (x - l)%Z).
    { intros j Hj. specialize (HN n3 j ltac:(lia) Hj).
      assert (Hw : word 0 n3 j = flat_map (word 0 n2) (word n2 (n3 - n2) j)).
      { replace n3 with (n2 + (n3 - n2))%nat at 1 by lia. rewrite (word_compose E L 0 n2 (n3 - n2) j). reflexivity. }
      pose proof (zsh_word q0 n3 j) as Ht. rewrite Hw, zsum_flat in Ht. fold dq in Ht.
      set (U := word n2 (n3 - n2) j) in *.
      assert (HU : forall i, In i U -> In i letters) by (intros i Hi; exact (word_letters E W L P0 M _ _ _ _ Hj Hi)).
      assert (HD : forall i, In i U -> (Z.abs (zsum dq (word 0 n2 i)) <= B)%Z).
      { intros i Hi. apply (proj2 (HB i (HU i Hi)) (word 0 n2 i) []). rewrite app_nil_r. reflexivity. }
      assert (Cut : exists U1 i U2, U = U1 ++ i :: U2 /\ (3 * B + 2 <= Z.abs (zsum (fun i => zsum dq (word 0 n2 i)) U1) <= 4 * B + 2)%Z /\
        Z.sgn (zsum (fun i => zsum dq (word 0 n2 i)) U1) = Z.sgn (zsh q0 n3 j)).
      { destruct (Z_lt_le_dec (zsh q0 n3 j) 0) as [Hneg|Hpos].
        - destruct (reach (fun i => zsum dq (word 0 n2 i)) (3 * B + 2) B U B0 HD 0) as (U1 & i & U2 & HU1 & Hr); [lia|lia|].
          exists U1, i, U2. split; [exact HU1|]. split; lia.
        - destruct (reach (fun i => - zsum dq (word 0 n2 i))%Z (3 * B + 2) B U B0) with (s := 0%Z) as (U1 & i & U2 & HU1 & Hr).
          + intros i Hi. specialize (HD i Hi). lia.
          + lia.
          + rewrite zsum_opp. lia.
          + rewrite zsum_opp in Hr. exists U1, i, U2. split; [exact HU1|]. split; lia. }
      destruct Cut as (U1 & i & U2 & HU1 & Hr & Hs).
      assert (Hi : In i letters) by (apply HU; rewrite HU1; apply in_app_iff; right; left; reflexivity).
      destruct (Blk i Hi) as (u1 & u2 & Hb). pose proof (proj2 (HB i Hi) u1 (Zw ++ u2) Hb) as Hu1.
      set (S1 := zsum (fun i => zsum dq (word 0 n2 i)) U1) in *.
      exists (S1 + zsum dq u1 + l)%Z, (u2 ++ flat_map (word 0 n2) U2), (flat_map (word 0 n2) U1 ++ u1).
      split; [lia|]. split; [lia|]. split; [lia|]. split.
      - rewrite Hw, HU1, flat_map_app. simpl. rewrite Hb, <- !app_assoc. reflexivity.
      - rewrite zsum_app, zsum_flat. fold S1. lia. }
    (* count the crossings *)
    assert (Count : forall j x u2 v1, word 0 n3 j = v1 ++ Zw ++ u2 -> zsum dq v1 = (x - l)%Z ->
      (crossings dq x 0 (word 0 n3 j) = crossings dq x 0 v1 + crossings dq l 0 Zw + crossings dq x (x - l + zsum dq Zw) u2)%nat).
    { intros j x u2 v1 Hw Hv. rewrite Hw, !crossings_app, Hv. simpl.
      replace (crossings dq x (x - l) Zw) with (crossings dq l 0 Zw); [lia|].
      rewrite <- (crossings_shift dq l (x - l) Zw 0). f_equal; lia. }
    assert (Fin : forall j x u2 v1, word 0 n3 j = v1 ++ Zw ++ u2 -> zsum dq v1 = (x - l)%Z ->
      (x - l + zsum dq Zw + zsum dq u2)%Z = zsh q0 n3 j).
    { intros j x u2 v1 Hw Hv. rewrite <- (zsh_word q0 n3 j). fold dq. rewrite Hw, !zsum_app. lia. }
    destruct (side l 0) eqn:S0; [destruct (side l (0 + zsum dq Zw)) eqn:S2|].
    + (* the piece ends above: go down *)
      destruct (Mid jn Hjn) as (x & u2 & v1 & X1 & X2 & X3 & Hw & Hv). specialize (HN n3 jn ltac:(lia) Hjn).
      exists n3, jn, x. split; [exact Hjn|]. rewrite (Count _ _ _ _ Hw Hv).
      assert (1 <= crossings dq x (x - l + zsum dq Zw) u2)%nat; [|lia].
      apply crossings_ends. rewrite (Fin _ _ _ _ Hw Hv). rewrite <- (side_shift l (0 + zsum dq Zw) (x - l)) in S2.
      replace (l + (x - l))%Z with x in S2 by lia. replace (0 + zsum dq Zw + (x - l))%Z with (x - l + zsum dq Zw)%Z in S2 by lia.
      rewrite S2. unfold side. destruct (Z.leb_spec x (zsh q0 n3 jn)); [lia|discriminate].
    + (* the piece goes down: go up *)
      destruct (Mid jp Hjp) as (x & u2 & v1 & X1 & X2 & X3 & Hw & Hv). specialize (HN n3 jp ltac:(lia) Hjp).
      exists n3, jp, x. split; [exact Hjp|]. rewrite (Count _ _ _ _ Hw Hv).
      assert (1 <= crossings dq x 0 v1)%nat; [|lia].
      apply crossings_ends. rewrite Hv. simpl. rewrite <- (side_shift l 0 (x - l)) in S0.
      replace (l + (x - l))%Z with x in S0 by lia. simpl in S0. rewrite S0.
      unfold side. destruct (Z.leb_spec x 0); [lia|discriminate].
    + (* the piece starts below: go down *)
      destruct (Mid jn Hjn) as (x & u2 & v1 & X1 & X2 & X3 & Hw & Hv). specialize (HN n3 jn ltac:(lia) Hjn).
      exists n3, jn, x. split; [exact Hjn|]. rewrite (Count _ _ _ _ Hw Hv).
      assert (1 <= crossings dq x 0 v1)%nat; [|lia].
      apply crossings_ends. rewrite Hv. simpl. rewrite <- (side_shift l 0 (x - l)) in S0.
      replace (l + (x - l))%Z with x in S0 by lia. simpl in S0. rewrite S0.
      unfold side. destruct (Z.leb_spec x 0); [discriminate|lia].
Qed.

(** ** In the end all displacements have the same sign. *)
Lemma zsh_S z n c : zsh z (S n) c = if Nat.eqb c (L n) then (zsh z n (fst_bot E n) + zsh z n (fst_top E n))%Z else zsh z n c.
Proof.
  apply eq_IZR. rewrite zsh_sh, (sh_S E W L P0 M (wt z) n c (follow_follows z)). destruct (Nat.eqb c (L n)).
  - rewrite plus_IZR, !zsh_sh. reflexivity.
  - rewrite zsh_sh. reflexivity.
Qed.
Lemma fst_letters n : In (fst_bot E n) letters /\ In (fst_top E n) letters.
Proof.
  destruct (M_facts E W L P0 M n) as (_ & Iw & Il & _). destruct (fst_cases E W L M n) as [[-> ->]|[-> ->]]; auto.
Qed.

Theorem same_sign : exists N,
  (forall n c, (N <= n)%nat -> In c letters -> (0 < zsh q0 n c)%Z) \/
  (forall n c, (N <= n)%nat -> In c letters -> (zsh q0 n c < 0)%Z).
Proof.
  apply NNPP. intros No.
  destruct crossings_bound as [C HC].
  assert (Pos : forall n, ~ forall c, In c letters -> (0 < zsh q0 n c)%Z).
  { intros n H. apply No. exists n. left. intros m c Hm. revert c. induction Hm as [|m Hm IH]; intros c Hc; [exact (H c Hc)|].
    rewrite zsh_S. destruct (fst_letters m) as [F1 F2]. pose proof (IH _ F1). pose proof (IH _ F2).
    destruct (Nat.eqb c (L m)); [lia|exact (IH c Hc)]. }
  assert (Neg : forall n, ~ forall c, In c letters -> (zsh q0 n c < 0)%Z).
  { intros n H. apply No. exists n. right. intros m c Hm. revert c. induction Hm as [|m Hm IH]; intros c Hc; [exact (H c Hc)|].
    rewrite zsh_S. destruct (fst_letters m) as [F1 F2]. pose proof (IH _ F1). pose proof (IH _ F2).
    destruct (Nat.eqb c (L m)); [lia|exact (IH c Hc)]. }
  destruct (zigzag) with (m := S C) as (n & c & l & Hc & Hm).
  - intros N. destruct (large 0) as [N0 HN0]. exists (Nat.max N N0). split; [lia|]. set (n := Nat.max N N0).
    assert (Hn : forall c, In c letters -> (0 < Z.abs (zsh q0 n c))%Z) by (intros c Hc; apply HN0; [unfold n; lia|exact Hc]).
    split; apply NNPP; intros Ct.
    + apply (Pos n). intros c Hc. specialize (Hn c Hc). destruct (Z_lt_le_dec (zsh q0 n c) 0); [|lia]. exfalso. apply Ct. exists c. auto.
    + apply (Neg n). intros c Hc. specialize (Hn c Hc). destruct (Z_lt_le_dec 0 (zsh q0 n c)); [|lia]. exfalso. apply Ct. exists c. auto.
  - specialize (HC n c l Hc). lia.
Qed.
End Rank2.
