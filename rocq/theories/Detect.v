(** The similarity tracker recognizes self-similar IETs. *)
From Coq Require Import Reals Lra Lia Permutation Factorial NArith.
From Verif Require Import Base QcTac LenT FM Subspace Lengths IET Spec SpecLin SpecSim Api.
From Verif Require Import ZorichProof Dyn Saddle ReduceProof SubspaceProof Saf Bosh Path Similar InduceProof InduceCons World Seq SelfSim.
Open Scope nat_scope.

Section Detect.
Context {T : Type} {O : LenOps T} {W : LenLaws T}.

(** * Rounds of the model *)

Lemma heads_first_equal (i : iet T) (s : slen T) : heads_equal i s <-> first_equal (exch_of i s).
Proof.
  unfold heads_equal, first_equal, exch_of. simpl. split.
  - intros (a & b & Ha & Hb & E). destruct (i_top i) as [|a' X]; [discriminate|]. destruct (i_bottom i) as [|b' Y]; [discriminate|].
    injection Ha as ->. injection Hb as ->. exists a, b, X, Y. auto.
  - intros (a & b & X & Y & -> & -> & E). exists a, b. auto.
Qed.

Lemma iteration_round (i : iet T) (s : slen T) e' : wf i s -> cache_ok i s -> round (exch_of i s) e' ->
  exists i' s', iteration sample_lens i s = Ok (false, i', s') /\ same_exch (exch_of i' s') e'.
Proof.
  intros H C (e1 & e2 & R1 & T1 & F1 & R2 & T2 & F2 & S). unfold iteration.
  destruct (zorich_reach i s H C) as (f1 & b1 & s1 & E1 & Re1 & Ru1 & St1 & Hf1). rewrite E1. simpl.
  set (i1 := set_bottom i b1) in *.
  pose proof (run_unique _ _ _ (wf_proper _ _ H) Ru1 St1 R1 T1) as S1.
  assert (Sf : forall e e', same_exch e e' -> first_equal e -> first_equal e').
  { intros e f (A & B & D) (a & b & X & Y & G1 & G2 & G3). exists a, b, X, Y. rewrite <- A, <- B, <- !D. auto. }
  destruct f1.
  { exfalso. apply F1. apply (Sf _ _ S1). apply heads_first_equal, Hf1. reflexivity. }
  pose proof (r_wf _ _ _ _ Re1) as W1.
  assert (W1' : wf (iet_swap i1) s1) by (apply swap_wf, W1).
  destruct (zorich_reach (iet_swap i1) s1 W1' ltac:(apply swap_cache; [exact W1 | exact (r_cache _ _ _ _ Re1)]))
    as (f2 & b2 & s2 & E2 & Re2 & Ru2 & St2 & Hf2). rewrite E2. simpl.
  set (i2 := set_bottom (iet_swap i1) b2) in *.
  pose proof (run_same _ _ _ (same_exch_flip _ _ S1) R2) as R2'.
  pose proof (run_unique _ _ _ (wf_proper _ _ W1') Ru2 St2 R2' T2) as S2.
  destruct f2.
  { exfalso. apply F2. apply (Sf _ _ S2). apply heads_first_equal, Hf2. reflexivity. }
  exists (iet_swap i2), s2. split; [reflexivity|].
  apply same_exch_trans with (flip e2); [exact (same_exch_flip _ _ S2) | exact S].
Qed.

(** * One pass through the loop *)

Definition ticked (k : tracker T) : tracker T :=
  mktracker (tk_top k) (tk_bottom k) (tk_lengths k) (tk_bound k) (tk_ttl k - 1).

(** The tracker after a pass that did not report similarity. *)
Definition trk_next (i : iet T) (s : slen T) : tracker T :=
  if (tk_ttl (i_trk i) =? 0)%N then tracker_reset (i_trk i) i s else ticked (i_trk i).

Lemma tracker_loop_next (i : iet T) (s : slen T) r k : tracker_loop (i_trk i) i s = Ok (r, k) -> k = trk_next i s.
Proof.
  unfold tracker_loop, trk_next. destruct (tk_ttl (i_trk i) =? 0)%N; [intros E; injection E; auto|]. fold (ticked (i_trk i)).
  destruct (negb _); [intros E; injection E; auto|].
  destruct (same_permutation _ _ _) as [[|]| | | |]; simpl; try discriminate; [|intros E; injection E; auto].
  destruct (similar_lengths _ _ _) as [r'| | | |]; simpl; try discriminate. intros E; injection E; auto.
Qed.

Definition going (limit n : Z) : Prop := (limit = -1 \/ n < limit)%Z /\ (n < INT_MAX)%Z.

Definition recognized (r : res (option bool * iet T * slen T)) : Prop := exists j t, r = Ok (None, j, t).

Lemma pass fuel limit n i s e' : l_deg T <> 1 -> good i s -> going limit n -> round (exch_of i s) e' ->
  (exists r, tracker_loop (i_trk i) i s = Ok (r, trk_next i s) /\
    ((r = true /\ recognized (induce_loop sample_lens (S fuel) true limit n i s)) \/
     (r = false /\ exists j t,
      induce_loop sample_lens (S fuel) true limit n i s = induce_loop sample_lens fuel true limit (n + 1) j t /\
      good j t /\ same_exch (exch_of j t) e' /\ i_trk j = trk_next i s))).
Proof.
  intros Hdeg Hg [Hl Hn] Hr. pose proof Hg as (H & C & K). rewrite iteration_unfold.
  destruct (negb ((limit =? -1)%Z || (n <? limit)%Z)) eqn:En.
  { exfalso. apply negb_true_iff, orb_false_iff in En. rewrite Z.eqb_neq, Z.ltb_ge in En. lia. }
  destruct (tracking_ok true i s Hg) as (b & i1 & E1 & R1 & Et1 & Eb1 & K1 & K1' & _).
  destruct (track_ok i s H K) as (r & k & Ek & _).
  pose proof (tracker_loop_next _ _ _ _ Ek) as Hk. subst k. exists r. split; [exact Ek|].
  cbn [sample_lens li_base]. pose proof E1 as E1'.
  rewrite (iet_saf_ok i s H C) in E1'. simpl in E1'.
  set (v := if i_swap i then vneg (saf_now i s) else saf_now i s) in *.
  destruct (Nat.eqb_spec (length v) 0) as [E|E].
  { exfalso. assert (Hlen : length v = length (saf_now i s)).
    { unfold v. destruct (i_swap i); [|reflexivity]. generalize (saf_now i s). intros u; induction u; simpl; congruence. }
    rewrite Hlen in E. apply Hdeg. revert E. unfold saf_now, saf_of, saf_vector. rewrite map_length.
    pose proof (pairs_length (l_deg T)) as Q. pose proof deg_pos as D. nia. }
  change (tracker_loop (i_trk i) (set_saf i (Some v)) s) with (tracker_loop (i_trk i) i s) in E1'. rewrite Ek in E1'. simpl in E1'.
  injection E1' as <- <-. rewrite E1. cbn [bind]. destruct r; [left; split; [reflexivity | eexists; eexists; reflexivity]|].
  right. split; [reflexivity|].
  pose proof (r_wf _ _ _ _ R1) as H1. pose proof (r_cache _ _ _ _ R1) as C1.
  set (i1 := set_trk _ _) in *.
  destruct (iteration_round i1 s e' H1 C1 Hr) as (j & t & Ej & Sj).
  destruct (iteration_ok i1 s H1 C1) as (f & j' & t' & E2 & R2 & Et & _ & Hf & Hdec). rewrite Ej in E2. injection E2 as <- <- <-.
  rewrite Ej. cbn [bind]. destruct (Z.eqb_spec n INT_MAX) as [Ei|_]; [lia|].
  exists j, t. split; [reflexivity|]. split; [|split; [exact Sj | exact Et]].
  split; [exact (r_wf _ _ _ _ R2)|]. split; [exact (r_cache _ _ _ _ R2)|].
  exact (trk_extend False True i1 s j t H1 K1 R2 Et ltac:(intros _; right; apply Hdec; reflexivity)).
Qed.

(** * What the tracker remembers *)

Definition saved (k : tracker T) (e : exch) : Prop :=
  tk_top k = e_top e /\ tk_bottom k = map (fun b => find_pos b (e_top e)) (e_bot e) /\
  forall a, In a (e_top e) -> lamR (tk_lengths k) a = e_len e a.

Lemma reset_saved k (i : iet T) (s : slen T) : wf i s -> saved (tracker_reset k i s) (exch_of i s).
Proof.
  intros (N & Pe & _). split; [reflexivity|]. split.
  - simpl. apply positions_all; [exact N|]. intros b Hb. rewrite Pe. exact Hb.
  - intros a Ha. simpl. unfold lamR. rewrite only_at by exact Ha. reflexivity.
Qed.

Lemma saved_same k e e' : same_exch e e' -> saved k e -> saved k e'.
Proof.
  intros (A & B & C) (H1 & H2 & H3). unfold saved. rewrite <- A, <- B. split; [exact H1|]. split; [exact H2|].
  intros a Ha. rewrite <- C. apply H3, Ha.
Qed.

Lemma similar_lengths_complete (k : tracker T) (s : slen T) c top :
  (forall a, In a top -> posl (tk_lengths k) a /\ posl s a /\ lamR s a = (c * lamR (tk_lengths k) a)%R) ->
  similar_lengths k s top = Ok true.
Proof.
  induction top as [|a top IH]; intros H; [reflexivity|]. destruct top as [|b top]; [reflexivity|].
  destruct (H a (or_introl eq_refl)) as (H1 & H2 & H3). destruct (H b (or_intror (or_introl eq_refl))) as (H4 & H5 & H6).
  destruct (cross_ratio (tk_lengths k) s a b H1 H4 H2 H5) as (r' & E' & Hr').
  change (similar_lengths k s (a :: b :: top)) with
    (r0 <- sl_similar (tk_lengths k) a b s a b ;; (if r0 then similar_lengths k s (b :: top) else Ok false)).
  rewrite E'. simpl bind. replace r' with true by (symmetry; apply Hr'; rewrite H3, H6; ring).
  apply IH. intros x Hx. apply H. right. exact Hx.
Qed.

Lemma map_nth_find top bot : NoDup top -> incl bot top ->
  bot = map (fun p => nth p top 0) (map (fun b => find_pos b top) bot).
Proof.
  intros N I. rewrite map_map. rewrite <- (map_id bot) at 1. apply map_ext_in. intros b Hb. symmetry. apply find_pos_nth, I, Hb.
Qed.

Lemma seen (k : tracker T) (i : iet T) (s : slen T) e c r k' : wf i s -> proper e -> saved k e -> tk_ttl k <> 0%N ->
  scaled c e (exch_of i s) -> tracker_loop k i s = Ok (r, k') -> r = true.
Proof.
  intros Hw (N & Pe & Pp) (S1 & S2 & S3) Ht (A & B & C). cbn [exch_of e_top e_bot e_len] in A, B, C. unfold tracker_loop.
  destruct (N.eqb_spec (tk_ttl k) 0) as [E|_]; [congruence|]. cbn [tk_top tk_bottom].
  rewrite S1, S2. unfold i_size. rewrite A, Nat.eqb_refl. cbn [negb].
  rewrite <- A, <- B in *.
  destruct (same_permutation_ok (i_top i) (i_bottom i) (map (fun b => find_pos b (i_top i)) (i_bottom i))) as (p & Ep & Hp).
  - apply map_length.
  - intros q Hq. apply in_map_iff in Hq. destruct Hq as (b & <- & Hb). apply find_pos_nth. rewrite Pe. exact Hb.
  - rewrite Ep. replace p with true; [|symmetry; apply Hp, map_nth_find; [exact N | intros b Hb; rewrite Pe; exact Hb]].
    cbn [bind]. rewrite (similar_lengths_complete _ s c); [simpl; intros E; injection E; auto|].
    intros a Ha. cbn [tk_lengths]. split; [|split].
    + assert (Hpa : (0 < lamR (tk_lengths k) a)%R) by (rewrite S3 by exact Ha; apply Pp, Ha).
      unfold lamR in Hpa. unfold posl. destruct (nth_error (sl_lens (tk_lengths k)) a) as [x|]; [eauto | lra].
    + apply Hw. exact Ha.
    + rewrite S3 by exact Ha. apply C, Ha.
Qed.

(** * Waiting *)

Lemma trk_next_tick (i : iet T) (s : slen T) : tk_ttl (i_trk i) <> 0%N -> trk_next i s = ticked (i_trk i).
Proof. intros H. unfold trk_next. destruct (N.eqb_spec (tk_ttl (i_trk i)) 0); [congruence | reflexivity]. Qed.

Lemma going_le limit n m : (n <= m)%Z -> going limit m -> going limit n.
Proof. intros L [H1 H2]. split; lia. Qed.

(** The tracker counts down. *)
Lemma countdown t : forall fuel limit n i s e', l_deg T <> 1 -> good i s -> going limit (n + Z.of_nat t) ->
  iter round t (exch_of i s) e' -> tk_ttl (i_trk i) = N.of_nat t ->
  recognized (induce_loop sample_lens (t + fuel) true limit n i s) \/
  exists j u, induce_loop sample_lens (t + fuel) true limit n i s = induce_loop sample_lens fuel true limit (n + Z.of_nat t) j u /\
    good j u /\ same_exch (exch_of j u) e' /\ tk_ttl (i_trk j) = 0%N /\ tk_bound (i_trk j) = tk_bound (i_trk i).
Proof.
  induction t as [|t IH]; intros fuel limit n i s e' Hd Hg Hgo Hr Ht.
  { right. exists i, s. simpl in *. subst e'. rewrite Z.add_0_r. split; [reflexivity|]. split; [exact Hg|].
    split; [apply same_exch_refl|]. split; [exact Ht | reflexivity]. }
  simpl in Hr. destruct Hr as (f & H1 & H2). cbn [plus].
  destruct (pass (t + fuel) limit n i s f Hd Hg ltac:(eapply going_le; [|exact Hgo]; lia) H1)
    as (r & _ & [[-> G]|[-> (j & u & E & Gj & Sj & Kj)]]); [left; exact G|].
  rewrite trk_next_tick in Kj by (rewrite Ht; lia).
  destruct (rounds_same_l t (exch_of j u) f e' Sj H2) as (e'' & H2' & S2).
  destruct (IH fuel limit (n + 1)%Z j u e'' Hd Gj) as [G|(j' & u' & E' & Gj' & Sj' & Tj & Bj)].
  - replace (n + 1 + Z.of_nat t)%Z with (n + Z.of_nat (S t))%Z by lia. exact Hgo.
  - exact H2'.
  - rewrite Kj. unfold ticked. cbn [tk_ttl]. rewrite Ht. lia.
  - left. rewrite E. exact G.
  - right. exists j', u'. split; [rewrite E, E'; f_equal; lia|]. split; [exact Gj'|].
    split; [exact (same_exch_trans _ _ _ Sj' S2)|]. split; [exact Tj|]. rewrite Bj, Kj. reflexivity.
Qed.

(** The remembered stage comes back before the tracker forgets it. *)
Lemma comes_back t : forall fuel limit n i s e0 e1 e2 c, l_deg T <> 1 -> good i s -> going limit (n + Z.of_nat t) ->
  proper e0 -> saved (i_trk i) e0 -> iter round t (exch_of i s) e1 -> round e1 e2 -> scaled c e0 e1 ->
  (N.of_nat t < tk_ttl (i_trk i))%N ->
  recognized (induce_loop sample_lens (S t + fuel) true limit n i s).
Proof.
  induction t as [|t IH]; intros fuel limit n i s e0 e1 e2 c Hd Hg Hgo P Sv Hr Hr' Sc Ht.
  { simpl in Hr. subst e1. cbn [plus].
    destruct (pass fuel limit n i s e2 Hd Hg ltac:(eapply going_le; [|exact Hgo]; lia) Hr') as (r & E & [[-> G]|[-> _]]); [exact G|].
    pose proof (seen _ _ _ _ _ _ _ (proj1 Hg) P Sv ltac:(lia) Sc E). discriminate. }
  simpl in Hr. destruct Hr as (f & H1 & H2). change (S (S t) + fuel) with (S (S t + fuel)).
  destruct (pass (S t + fuel) limit n i s f Hd Hg ltac:(eapply going_le; [|exact Hgo]; lia) H1)
    as (r & _ & [[-> G]|[-> (j & u & E & Gj & Sj & Kj)]]); [exact G|].
  rewrite trk_next_tick in Kj by lia. rewrite E.
  destruct (rounds_same_l t (exch_of j u) f e1 Sj H2) as (e1' & H2' & S2).
  apply (IH fuel limit (n + 1)%Z j u e0 e1' e2 c Hd Gj).
  - replace (n + 1 + Z.of_nat t)%Z with (n + Z.of_nat (S t))%Z by lia. exact Hgo.
  - exact P.
  - rewrite Kj. exact Sv.
  - exact H2'.
  - exact (round_same_l _ _ _ S2 Hr').
  - apply renamed_id. apply renamed_id in Sc. exact (renamed_same_r _ _ _ _ _ Sc (same_exch_sym _ _ S2)).
  - rewrite Kj. unfold ticked. cbn [tk_ttl]. lia.
Qed.

Definition reset_time (k : nat) : nat := 2 ^ k - 1 + k.

Lemma reset_time_S k : reset_time (S k) = reset_time k + S (2 ^ k).
Proof. unfold reset_time. simpl. pose proof (Nat.pow_nonzero 2 k). lia. Qed.

(** The tracker starts over after 0, 2, 5, 10, 19, ... rounds. *)
Lemma phases k : forall fuel limit i s, l_deg T <> 1 -> good i s -> i_trk i = tracker_init ->
  going limit (Z.of_nat (reset_time k)) -> (forall m, exists e, iter round m (exch_of i s) e) ->
  recognized (induce_loop sample_lens (reset_time k + fuel) true limit 0 i s) \/
  exists j u e, induce_loop sample_lens (reset_time k + fuel) true limit 0 i s =
      induce_loop sample_lens fuel true limit (Z.of_nat (reset_time k)) j u /\
    good j u /\ iter round (reset_time k) (exch_of i s) e /\ same_exch (exch_of j u) e /\
    tk_ttl (i_trk j) = 0%N /\ tk_bound (i_trk j) = (2 ^ N.of_nat k)%N.
Proof.
  induction k as [|k IH]; intros fuel limit i s Hd Hg Hi Hgo Ex.
  { right. exists i, s, (exch_of i s). split; [reflexivity|]. split; [exact Hg|]. split; [reflexivity|].
    split; [apply same_exch_refl|]. rewrite Hi. split; reflexivity. }
  rewrite reset_time_S in *. rewrite <- Nat.add_assoc.
  destruct (IH (S (2 ^ k) + fuel) limit i s Hd Hg Hi ltac:(eapply going_le; [|exact Hgo]; lia) Ex)
    as [G|(j & u & e & E & Gj & Re & Sj & Tj & Bj)]; [left; exact G|].
  destruct (Ex (reset_time k + S (2 ^ k))) as (e' & Re').
  destruct (iter_split _ _ _ _ _ Re') as (f & F1 & F2).
  pose proof (rounds_fun _ _ _ _ _ (wf_proper _ _ (proj1 Hg)) (same_exch_refl _) Re F1) as Sf.
  destruct F2 as (g & G1 & G2).
  pose proof (round_same_l _ _ _ (same_exch_trans _ _ _ Sj Sf) G1) as G1'.
  destruct (pass (2 ^ k + fuel) limit (Z.of_nat (reset_time k)) j u g Hd Gj ltac:(eapply going_le; [|exact Hgo]; lia) G1')
    as (r & _ & [[-> G]|[-> (j1 & u1 & E1 & Gj1 & Sj1 & Kj1)]]).
  { left. rewrite E. exact G. }
  unfold trk_next in Kj1. rewrite Tj in Kj1. cbn [N.eqb] in Kj1.
  assert (Hk : (2 ^ N.of_nat k = N.of_nat (2 ^ k))%N).
  { clear. induction k; [reflexivity|]. rewrite Nat2N.inj_succ, N.pow_succ_r', IHk, Nat.pow_succ_r', Nat2N.inj_mul. reflexivity. }
  destruct (rounds_same_l _ _ _ _ Sj1 G2) as (e'' & G2' & S2).
  destruct (countdown (2 ^ k) fuel limit (Z.of_nat (reset_time k) + 1)%Z j1 u1 e'' Hd Gj1)
    as [G|(j2 & u2 & E2 & Gj2 & Sj2 & Tj2 & Bj2)].
  - replace (Z.of_nat (reset_time k) + 1 + Z.of_nat (2 ^ k))%Z with (Z.of_nat (reset_time k + S (2 ^ k)))%Z by lia. exact Hgo.
  - exact G2'.
  - rewrite Kj1. cbn [tracker_reset tk_ttl]. rewrite Bj. exact Hk.
  - left. rewrite E. cbn [plus]. rewrite E1. exact G.
  - right. exists j2, u2, e'. split.
    { rewrite E. cbn [plus]. rewrite E1, E2. f_equal. lia. }
    split; [exact Gj2|]. split; [exact Re'|]. split; [exact (same_exch_trans _ _ _ Sj2 S2)|]. split; [exact Tj2|].
    rewrite Bj2, Kj1. cbn [tracker_reset tk_bound]. rewrite Bj, Nat2N.inj_succ, N.pow_succ_r'. rewrite N.mul_comm. apply N.mod_small.
    destruct Hgo as [_ Hgo]. unfold size_t_mod. apply N.le_lt_trans with (2 * 2 ^ 31)%N; [|reflexivity].
    rewrite Hk. unfold INT_MAX in Hgo. lia.
Qed.

Lemma log_exists b : 1 <= b -> exists k, b <= 2 ^ k /\ reset_time k + b < 4 * b.
Proof.
  intros Hb. destruct (Nat.eq_dec b 1) as [->|H1]; [exists 0; unfold reset_time; simpl; lia|].
  destruct (Nat.log2_up_spec b ltac:(lia)) as [L1 L2]. exists (Nat.log2_up b). split; [exact L2|].
  set (k := Nat.log2_up b) in *. destruct k as [|k]; [simpl in L2; lia|]. simpl Nat.pred in L1.
  assert (G : k < 2 ^ k) by (apply Nat.pow_gt_lin_r; lia).
  unfold reset_time. simpl. lia.
Qed.

Lemma loop_recognizes N q fuel limit i s e1 e2 c : l_deg T <> 1 -> good i s -> i_trk i = tracker_init ->
  (limit = -1 \/ Z.of_nat (4 * (N + q)) <= limit)%Z -> (Z.of_nat (4 * (N + q)) <= INT_MAX)%Z -> 4 * (N + q) <= fuel ->
  0 < q -> iter round N (exch_of i s) e1 -> iter round q e1 e2 -> (0 < c)%R -> scaled c e1 e2 ->
  recognized (induce_loop sample_lens fuel true limit 0 i s).
Proof.
  intros Hd Hg Hi Hl Hm Hf Hq R1 R2 Hc Sc.
  pose proof (wf_proper _ _ (proj1 Hg)) as P. destruct (rounds_labels _ _ _ P R1) as [P1 _].
  pose proof (scaled_forever e1 e2 q c P1 Hc Hq R2 Sc) as Fo.
  assert (Ex : forall m, exists e, iter round m (exch_of i s) e).
  { intros m. destruct (Fo m) as (f & _ & F & _). pose proof (iter_app _ _ _ _ _ _ R1 F) as G.
    destruct (iter_split_le _ m (N + m) _ _ ltac:(lia) G) as (y & Y & _). exists y. exact Y. }
  destruct (log_exists (N + q) ltac:(lia)) as (k & K1 & K2).
  assert (Hp : k < 2 ^ k) by (apply Nat.pow_gt_lin_r; lia).
  assert (Hrt : N <= reset_time k) by (unfold reset_time; destruct k; simpl in *; lia).
  assert (Hq' : q <= 2 ^ k) by lia.
  assert (Hgo : going limit (Z.of_nat (reset_time k + q))) by (split; lia).
  replace fuel with (reset_time k + (S q + (fuel - reset_time k - S q))) by lia.
  destruct (phases k (S q + (fuel - reset_time k - S q)) limit i s Hd Hg Hi ltac:(eapply going_le; [|exact Hgo]; lia) Ex)
    as [G|(j & u & e & E & Gj & Re & Sj & Tj & Bj)]; [exact G|]. rewrite E.
  destruct (Fo (reset_time k - N)) as (f & f' & F1 & F2 & Sc'). pose proof (iter_app _ _ _ _ _ _ R1 F1) as F1'.
  replace (N + (reset_time k - N)) with (reset_time k) in F1' by lia.
  pose proof (rounds_fun _ _ _ _ _ P (same_exch_refl _) Re F1') as Sf.
  pose proof (same_exch_trans _ _ _ Sj Sf) as Sjf.
  destruct q as [|q]; [lia|]. destruct F2 as (g & G1 & G2).
  assert (Hg2 : going limit (Z.of_nat (reset_time k))) by (eapply going_le; [|exact Hgo]; lia).
  destruct (pass (S q + (fuel - reset_time k - S (S q))) limit (Z.of_nat (reset_time k)) j u g Hd Gj Hg2 (round_same_l _ _ _ Sjf G1))
    as (r & _ & [[-> G]|[-> (j1 & u1 & E1 & Gj1 & Sj1 & Kj1)]]); [exact G|].
  change (S (S q) + (fuel - reset_time k - S (S q))) with (S (S q + (fuel - reset_time k - S (S q)))). rewrite E1.
  unfold trk_next in Kj1. rewrite Tj in Kj1. cbn [N.eqb] in Kj1.
  destruct (rounds_same_l _ _ _ _ Sj1 G2) as (f'' & G2' & S2).
  assert (Hnext : exists h, round f'' h).
  { destruct (Fo (S (reset_time k - N + S q))) as (h & _ & Hh & _).
    replace (S (reset_time k - N + S q)) with (reset_time k - N + S q + 1) in Hh by lia.
    apply iter_split in Hh. destruct Hh as (h1 & Hh1 & h2 & Hh2 & _).
    apply iter_split in Hh1. destruct Hh1 as (h0 & Hh0 & Hh1).
    pose proof (rounds_fun _ _ _ _ _ P1 (same_exch_refl _) F1 Hh0) as S0.
    assert (Pf : proper f) by (apply (rounds_labels _ _ _ P1 F1)).
    assert (F2' : iter round (S q) f f') by (exists g; auto).
    pose proof (rounds_fun _ _ _ _ _ Pf S0 F2' Hh1) as S3.
    exists h2. exact (round_same_l _ _ _ (same_exch_trans _ _ _ S2 S3) Hh2). }
  destruct Hnext as (h & Hh).
  apply (comes_back q (fuel - reset_time k - S (S q)) limit _ j1 u1 f f'' h c Hd Gj1).
  - replace (Z.of_nat (reset_time k) + 1 + Z.of_nat q)%Z with (Z.of_nat (reset_time k + S q)) by lia. exact Hgo.
  - apply (rounds_labels _ _ _ P1 F1).
  - rewrite Kj1. apply (saved_same _ (exch_of j u)); [exact Sjf|]. apply reset_saved, Gj.
  - exact G2'.
  - exact Hh.
  - apply renamed_id. apply renamed_id in Sc'. exact (renamed_same_r _ _ _ _ _ Sc' (same_exch_sym _ _ S2)).
  - rewrite Kj1. cbn [tracker_reset tk_ttl]. rewrite Bj.
    assert (Hk : (2 ^ N.of_nat k = N.of_nat (2 ^ k))%N).
    { clear. induction k; [reflexivity|]. rewrite Nat2N.inj_succ, N.pow_succ_r', IHk, Nat.pow_succ_r', Nat2N.inj_mul. reflexivity. }
    rewrite Hk. lia.
Qed.

(** * Rational lengths *)

Lemma common_denominator (q : nat -> Qc) (l : list nat) :
  exists d : Z, (0 < d)%Z /\ forall a, In a l -> exists n : Z, (Qc2R (q a) * IZR d = IZR n)%R.
Proof.
  induction l as [|x l (d & Hd & H)]; [exists 1%Z; split; [lia | intros a []]|].
  exists (d * Z.pos (Qden (this (q x))))%Z. split; [lia|]. intros a [<-|Ha].
  - exists (d * Qnum (this (q x)))%Z. unfold Qc2R, Q2R. rewrite !mult_IZR. field. apply not_0_IZR. lia.
  - destruct (H a Ha) as (n & Hn). exists (n * Z.pos (Qden (this (q x))))%Z. rewrite !mult_IZR, <- Hn. ring.
Qed.

Lemma degree_one (i : iet T) (s : slen T) : wf i s -> l_deg T = 1 -> exists u, (0 < u)%R /\ integral u (exch_of i s).
Proof.
  intros (N & Pe & Ne & Hp & _) Hd.
  pose proof basis_length as Hb. rewrite Hd in Hb. destruct basis as [|b [|]] eqn:Eb; try discriminate.
  assert (V : forall x, val x = (Qc2R (nth 0 (l_coef x) 0%Qc) * b)%R).
  { intros x. rewrite val_coef, Eb. pose proof (coef_length x) as L. rewrite Hd in L.
    destruct (l_coef x) as [|y [|]]; try discriminate. simpl. ring. }
  set (q := fun a => match nth_error (sl_lens s) a with Some x => nth 0 (l_coef x) 0%Qc | None => 0%Qc end).
  assert (VQ : forall a, lamR s a = (Qc2R (q a) * b)%R).
  { intros a. unfold lamR, q. destruct (nth_error (sl_lens s) a); [apply V|]. rewrite Qc2R_0. ring. }
  destruct (common_denominator q (i_top i)) as (d & Dd & H).
  assert (Hd' : (0 < IZR d)%R) by (apply IZR_lt; exact Dd).
  assert (Hb0 : b <> 0%R).
  { destruct (i_top i) as [|a X]; [congruence|]. pose proof (Hp a (or_introl eq_refl)) as Ha. apply posl_lamR in Ha.
    rewrite VQ in Ha. intros ->. lra. }
  destruct (Rlt_or_le 0 b) as [P|P].
  - exists (b / IZR d)%R. split; [apply Rdiv_lt_0_compat; assumption|].
    intros a Ha. destruct (H a Ha) as (n & Hn). exists n. simpl. rewrite VQ, <- Hn. field. lra.
  - exists (- b / IZR d)%R. split; [apply Rdiv_lt_0_compat; lra|].
    intros a Ha. destruct (H a Ha) as (n & Hn). exists (- n)%Z. simpl. rewrite VQ, opp_IZR, <- Hn. field. lra.
Qed.

(** * The theorem *)

Theorem induce_recognizes N q fuel limit i s e1 e2 c : good i s -> i_trk i = tracker_init -> vis0 (saf_now i s) = true ->
  (limit = -1 \/ Z.of_nat (4 * (N + q)) <= limit)%Z -> (Z.of_nat (4 * (N + q)) <= INT_MAX)%Z -> 4 * (N + q) <= fuel ->
  0 < q -> iter round N (exch_of i s) e1 -> iter round q e1 e2 -> scaled c e1 e2 ->
  ~ has_periodic_point (exch_of i s) /\
  exists j t, induce sample_lens fuel limit i s = Ok (mkistep WITHOUT_PERIODIC_TRAJECTORY_AUTO_SIMILAR None None, j, t).
Proof.
  intros Hg Hi Hz Hl Hm Hf Hq R1 R2 Sc. pose proof Hg as (H & C & K).
  pose proof (wf_proper _ _ H) as P. assert (Ne : e_top (exch_of i s) <> []) by apply H.
  destruct (rounds_labels _ _ _ P R1) as [P1 L1]. destruct (rounds_labels _ _ _ P1 R2) as [P2 L2].
  assert (Ne1 : e_top e1 <> []) by (intros E; apply Ne; rewrite E in L1; apply Permutation_sym, Permutation_nil in L1; exact L1).
  assert (Hc : (0 < c)%R) by (apply renamed_id in Sc; exact (renamed_pos _ _ _ _ P1 P2 Ne1 Sc)).
  split; [exact (scaled_aperiodic _ _ _ _ _ _ P Ne R1 R2 Hq Hc Sc)|].
  assert (Hd : l_deg T <> 1).
  { intros Hd. destruct (degree_one i s H Hd) as (u & Hu & Hint).
    exact (scaled_not_integral _ _ _ _ _ _ _ P Ne R1 R2 Hq Hc Sc Hu Hint). }
  unfold induce. destruct (Nat.eqb_spec (i_size i) 1) as [E1|E1].
  { exfalso. destruct q as [|q]; [lia|]. destruct R2 as (f & (f1 & f2 & Q1 & _ & F1 & _) & _). apply F1.
    destruct (run_labels _ _ P1 Q1) as [Pf Lf]. pose proof (Permutation_trans L1 Lf) as L. simpl in L. unfold i_size in E1.
    destruct (i_top i) as [|a [|]]; try discriminate. apply Permutation_length_1_inv in L.
    pose proof (proj1 (proj2 Pf)) as Lb. rewrite L in Lb. apply Permutation_length_1_inv in Lb.
    exists a, a, [], []. auto. }
  destruct (Z.eqb_spec limit 0) as [E0|E0]; [lia|].
  destruct (iet_saf0_ok i s H C) as (v & Ev & C' & _). cbn [sample_lens li_base]. rewrite Ev. cbn [bind].
  set (i0 := set_saf i (Some v)).
  assert (Hg' : good i0 s) by (split; [exact H|]; split; [exact C' | exact K]).
  rewrite Hz. destruct (loop_recognizes N q fuel limit i0 s e1 e2 c Hd Hg' Hi Hl Hm Hf Hq R1 R2 Hc Sc) as (j & t & E).
  unfold sample_lens in *. rewrite E. cbn [bind]. exists j, t. reflexivity.
Qed.

(** * Computing rounds with the model (for examples) *)

Fixpoint run_rounds (n : nat) (i : iet T) (s : slen T) : option (iet T * slen T) :=
  match n with
  | 0 => Some (i, s)
  | S n => match iteration sample_lens i s with Ok (false, j, t) => run_rounds n j t | _ => None end
  end.

Lemma iteration_is_round (i : iet T) (s : slen T) j t : wf i s -> cache_ok i s -> iteration sample_lens i s = Ok (false, j, t) ->
  round (exch_of i s) (exch_of j t).
Proof.
  intros H C. unfold iteration.
  destruct (zorich_reach i s H C) as (f1 & b1 & s1 & E1 & Re1 & Ru1 & St1 & Hf1). rewrite E1. simpl.
  set (i1 := set_bottom i b1) in *. destruct f1; [discriminate|].
  pose proof (r_wf _ _ _ _ Re1) as W1.
  assert (W1' : wf (iet_swap i1) s1) by (apply swap_wf, W1).
  destruct (zorich_reach (iet_swap i1) s1 W1' ltac:(apply swap_cache; [exact W1 | exact (r_cache _ _ _ _ Re1)]))
    as (f2 & b2 & s2 & E2 & Re2 & Ru2 & St2 & Hf2). rewrite E2. simpl.
  set (i2 := set_bottom (iet_swap i1) b2) in *. intros E. injection E as -> <- <-.
  exists (exch_of i1 s1), (exch_of i2 s2). split; [exact Ru1|]. split; [exact St1|].
  split; [rewrite <- heads_first_equal; intros G; apply Hf1 in G; discriminate|].
  split; [exact Ru2|]. split; [exact St2|].
  split; [rewrite <- heads_first_equal; intros G; apply Hf2 in G; discriminate|]. apply same_exch_refl.
Qed.

Lemma run_rounds_ok n : forall (i : iet T) (s : slen T) j t, wf i s -> cache_ok i s -> run_rounds n i s = Some (j, t) ->
  iter round n (exch_of i s) (exch_of j t) /\ wf j t /\ cache_ok j t.
Proof.
  induction n as [|n IH]; intros i s j t H C E; simpl in E; [injection E as <- <-; split; [reflexivity | auto]|].
  destruct (iteration_ok i s H C) as (f & j1 & t1 & E1 & R & _). rewrite E1 in E. destruct f; [discriminate|].
  destruct (IH j1 t1 j t (r_wf _ _ _ _ R) (r_cache _ _ _ _ R) E) as (H1 & H2 & H3).
  split; [|auto]. exists (exch_of j1 t1). split; [|exact H1]. exact (iteration_is_round _ _ _ _ H C E1).
Qed.

(** Are the lengths of these labels proportional? *)
Fixpoint proportionalb (s t : slen T) (a : label) (l : list label) : bool :=
  match l with
  | [] => true
  | b :: l' =>
    match nth_error (sl_lens s) a, nth_error (sl_lens s) b, nth_error (sl_lens t) a, nth_error (sl_lens t) b with
    | Some x, Some y, Some x', Some y' => l_cross x y' y x' && proportionalb s t a l'
    | _, _, _, _ => false
    end
  end.

Lemma proportional_ok (s t : slen T) a l : (0 < lamR s a)%R -> proportionalb s t a l = true ->
  forall b, In b l -> lamR t b = (lamR t a / lamR s a * lamR s b)%R.
Proof.
  intros Ha. induction l as [|b l IH]; intros E x Hx; [destruct Hx|]. simpl in E.
  destruct (nth_error (sl_lens s) a) as [xa|] eqn:E1; [|discriminate].
  destruct (nth_error (sl_lens s) b) as [xb|] eqn:E2; [|discriminate].
  destruct (nth_error (sl_lens t) a) as [ya|] eqn:E3; [|discriminate].
  destruct (nth_error (sl_lens t) b) as [yb|] eqn:E4; [|discriminate].
  apply andb_true_iff in E. destruct E as [E E']. destruct Hx as [<-|Hx]; [|exact (IH E' x Hx)].
  apply cross_val in E. rewrite <- (lamR_at _ _ _ E1), <- (lamR_at _ _ _ E2), <- (lamR_at _ _ _ E3), <- (lamR_at _ _ _ E4) in E.
  apply (Rmult_eq_reg_l (lamR s a)); [|lra]. rewrite E. field. lra.
Qed.

Lemma self_similar_by (i : iet T) (s : slen T) n p j t j' t' : obtainable i s ->
  run_rounds n i s = Some (j, t) -> run_rounds p j t = Some (j', t') -> i_top j' = i_top j -> i_bottom j' = i_bottom j ->
  match i_top j with a :: l => proportionalb t t' a (a :: l) | [] => false end = true ->
  exists e1 e2 c, iter round n (exch_of i s) e1 /\ iter round p e1 e2 /\ renamed (fun x => x) c e1 e2.
Proof.
  intros H%obtainable_good E1 E2 Et Eb Pr. destruct H as (Hw & Hc & _).
  destruct (run_rounds_ok n i s j t Hw Hc E1) as (R1 & W1 & C1). destruct (run_rounds_ok p j t j' t' W1 C1 E2) as (R2 & W2 & _).
  destruct (i_top j) as [|a l] eqn:Ea; [discriminate|].
  exists (exch_of j t), (exch_of j' t'), (lamR t' a / lamR t a)%R. split; [exact R1|]. split; [exact R2|].
  apply renamed_id. split; [simpl; congruence|]. split; [exact Eb|]. simpl. rewrite Ea. apply proportional_ok; [|exact Pr].
  apply posl_lamR. apply W1. rewrite Ea. left. reflexivity.
Qed.
End Detect.
