(** [induce]: what each outcome means, and that no internal check can fail. *)
From Coq Require Import Reals Lra Permutation.
From Verif Require Import Base QcTac LenT FM Subspace Lengths IET SpecLin Api ZorichProof SubspaceProof Saf
  Dyn Saddle ReduceProof Bosh Path Similar.
From Verif Require Import Spec.

Local Open Scope nat_scope.

Section Induce.
Context {T : Type} {O : LenOps T} {W : LenLaws T}.

(** What one call may do to an IET and the store: the IET is reached by induction steps,
    the labels and the lengths of other IETs sharing the store stay. *)
Record reach (i0 : iet T) (s0 : slen T) (i : iet T) (s : slen T) : Prop := {
  r_wf : wf i s;
  r_cache : cache_ok i s;
  r_path : rauzy_path (exch_of i0 s0) (exch_of i s);
  r_swap : i_swap i = i_swap i0;
  r_len : length (sl_lens s) = length (sl_lens s0);
  r_frame : forall c, ~ In c (i_top i0) -> nth_error (sl_lens s) c = nth_error (sl_lens s0) c;
}.

Lemma reach_refl i s : wf i s -> cache_ok i s -> reach i s i s.
Proof. intros. split; auto. apply path_refl, same_exch_refl. Qed.

Lemma reach_labels i0 s0 i s : wf i0 s0 -> reach i0 s0 i s -> Permutation (i_top i0) (i_top i).
Proof. intros H R. exact (path_labels _ _ (wf_proper _ _ H) (r_path _ _ _ _ R)). Qed.

Lemma reach_trans i0 s0 i1 s1 i s : wf i0 s0 -> reach i0 s0 i1 s1 -> reach i1 s1 i s -> reach i0 s0 i s.
Proof.
  intros H R1 R2. pose proof (reach_labels _ _ _ _ H R1) as L.
  destruct R1 as [A1 A2 A3 A4 A5 A6], R2 as [B1 B2 B3 B4 B5 B6]. split; auto; try congruence.
  - exact (rauzy_path_trans _ _ _ A3 B3).
  - intros c Hc. rewrite B6, A6; auto. intros Hin. apply Hc. rewrite L. exact Hin.
Qed.

(** Changing only the caches. *)
Lemma reach_caches i0 s0 i s v k : reach i0 s0 i s -> cache_ok (set_saf i v) s -> reach i0 s0 (set_trk (set_saf i v) k) s.
Proof. intros [A1 A2 A3 A4 A5 A6] H. split; auto. Qed.

(** * One iteration of the loop *)

Definition iteration {S} (L : lens T S) (i : iet T) (s : S) : res (bool * iet T * S) :=
  '(found, i, s) <- zorich L i s ;;
  if (found : bool) then Ok (true, i, s)
  else '(found, i, s) <- zorich L (iet_swap i) s ;; Ok (found, iet_swap i, s).

Lemma run_total e e' : proper e -> rauzy_run e e' ->
  (same_exch e e' \/ total (e_len e') (e_top e') < total (e_len e) (e_top e))%R.
Proof.
  intros P H. induction H as [e e' H | e e1 e' H H' IH]; [left; exact H|]. right.
  assert (G : (total (e_len e1) (e_top e1) < total (e_len e) (e_top e))%R).
  { pose proof (rauzy_step_proper _ _ P H) as P1.
    destruct H as (a & b & X & Y1 & Y2 & Ht & Hb & _ & E & _ & Ha & Hc). rewrite E, Ht. simpl. rewrite Ha.
    pose proof (proper_bot_pos e P b ltac:(rewrite Hb; left; reflexivity)).
    rewrite (Dyn.total_ext (e_len e1) (e_len e) X); [lra|].
    intros c Hin. apply Hc. intros ->. destruct P as (N & _). rewrite Ht in N. inversion N; subst; contradiction. }
  destruct (IH (rauzy_step_proper _ _ P H)) as [(A & _ & C) | IH']; [|lra].
  rewrite <- A, (Dyn.total_ext _ (e_len e1)); [exact G|]. intros c _. symmetry; apply C.
Qed.

Lemma stuck_heads e a X b Y : proper e -> e_top e = a :: X -> e_bot e = b :: Y -> rauzy_stuck e ->
  (e_len e a <= e_len e b)%R.
Proof.
  intros P Ht Hb H. destruct (Rle_or_lt (e_len e a) (e_len e b)) as [G|G]; [exact G|]. exfalso. apply H.
  assert (Ha : In a (b :: Y)).
  { destruct P as (_ & Pe & _). rewrite Ht, Hb in Pe. rewrite <- Pe. left; reflexivity. }
  destruct Ha as [->|Ha]; [lra|]. apply in_split in Ha. destruct Ha as (Y1 & Y2 & ->).
  exists (mkexch (e_top e) (Y1 ++ b :: a :: Y2) (fun c => if Nat.eq_dec c a then (e_len e a - e_len e b)%R else e_len e c)).
  exists a, b, X, Y1, Y2. simpl. repeat split; auto.
  - destruct (Nat.eq_dec a a); congruence.
  - intros c Hc. destruct (Nat.eq_dec c a); congruence.
Qed.

Lemma heads_equal_swap i s : heads_equal (iet_swap i) s <-> heads_equal i s.
Proof. split; intros (a & b & A & B & C); exists b, a; auto. Qed.

Lemma zorich_reach i s : wf i s -> cache_ok i s ->
  exists found bottom s',
    zorich sample_lens i s = Ok (found, set_bottom i bottom, s') /\
    reach i s (set_bottom i bottom) s' /\
    rauzy_run (exch_of i s) (exch_of (set_bottom i bottom) s') /\
    rauzy_stuck (exch_of (set_bottom i bottom) s') /\
    (found = true <-> heads_equal (set_bottom i bottom) s').
Proof.
  intros H C. destruct (zorich_ok i s H) as (f & b & s' & E & W' & R & St & Hf & L & Fr).
  exists f, b, s'. split; [exact E|]. split; [|auto]. split; auto.
  - exact (zorich_cache i s f b s' H E C).
  - apply run_path, R.
  - intros c Hc. apply Fr. intros Hh. apply Hc. unfold first_top in Hh. 
    destruct (i_top i); [discriminate|]. injection Hh as ->. left; reflexivity.
Qed.

Lemma swap_reach i s i' s' : wf i s -> reach (iet_swap i) s i' s' -> reach i s (iet_swap i') s'.
Proof.
  intros H [A1 A2 A3 A4 A5 A6]. split.
  - apply swap_wf, A1.
  - apply swap_cache; assumption.
  - clear - A3. 
    assert (G : forall e e', rauzy_path e e' -> rauzy_path (flip e) (flip e')).
    { intros e e' G. induction G as [e e' S | e e1 e' G _ IH | e e1 e' G _ IH].
      - apply path_refl, same_exch_flip, S.
      - apply path_bot with (flip e1); [rewrite !flip_flip; exact G | exact IH].
      - apply path_top with (flip e1); assumption. }
    exact (G _ _ A3).
  - simpl. rewrite A4. simpl. apply negb_involutive.
  - exact A5.
  - intros c Hc. apply A6. simpl. intros Hin. apply Hc. destruct H as (_ & P & _). rewrite P. exact Hin.
Qed.

Definition ltot (i : iet T) (s : slen T) : R := total (lamR s) (i_top i).

Lemma iteration_ok i s : wf i s -> cache_ok i s ->
  exists found i' s', iteration sample_lens i s = Ok (found, i', s') /\
    reach i s i' s' /\ i_trk i' = i_trk i /\ i_saf i' = i_saf i /\
    (found = true <-> heads_equal i' s') /\ (found = false -> (ltot i' s' < ltot i s)%R).
Proof.
  intros H C. unfold iteration.
  destruct (zorich_reach i s H C) as (f1 & b1 & s1 & E1 & R1 & Ru1 & St1 & Hf1). rewrite E1. simpl.
  set (i1 := set_bottom i b1) in *.
  destruct f1.
  { exists true, i1, s1. split; [reflexivity|]. split; [exact R1|]. split; [reflexivity|]. split; [reflexivity|].
    split; [exact Hf1 | discriminate]. }
  pose proof (r_wf _ _ _ _ R1) as W1.
  assert (W1' : wf (iet_swap i1) s1) by (apply swap_wf, W1).
  destruct (zorich_reach (iet_swap i1) s1 W1' ltac:(apply swap_cache; [exact W1 | exact (r_cache _ _ _ _ R1)]))
    as (f2 & b2 & s2 & E2 & R2 & Ru2 & St2 & Hf2). rewrite E2. simpl.
  set (i2 := set_bottom (iet_swap i1) b2) in *.
  exists f2, (iet_swap i2), s2. split; [reflexivity|].
  split; [apply (reach_trans i s i1 s1); [exact H | exact R1 | apply swap_reach; assumption]|].
  split; [reflexivity|]. split; [reflexivity|]. split; [rewrite heads_equal_swap; exact Hf2|].
  intros ->. unfold ltot.
  pose proof (wf_proper _ _ H) as P0. pose proof (wf_proper _ _ W1) as P1.
  pose proof (wf_proper _ _ W1') as P1'. pose proof (wf_proper _ _ (r_wf _ _ _ _ R2)) as P2.
  assert (T1 : (total (lamR s1) (i_top i1) <= total (lamR s) (i_top i))%R).
  { destruct (run_total _ _ P0 Ru1) as [(A & _ & D)|G]; [|unfold exch_of in G; simpl in G; apply Rlt_le, G].
    change (i_top i1) with (i_top i). apply Req_le, Dyn.total_ext. intros c _. symmetry; apply D. }
  assert (T2 : (total (lamR s2) (i_top (iet_swap i2)) < total (lamR s1) (i_top i1) \/ same_exch (exch_of (iet_swap i1) s1) (exch_of i2 s2))%R).
  { destruct (run_total _ _ P1' Ru2) as [G|G]; [right; exact G|]. left.
    pose proof (proper_total _ P2) as Q2. pose proof (proper_total _ P1) as Q1. simpl in *. rewrite <- Q2. lra. }
  destruct T2 as [T2|T2]; [lra|]. exfalso.
  assert (Hn : ~ heads_equal i1 s1) by (intros G; apply Hf1 in G; discriminate).
  apply Hn. destruct (i_top i1) as [|a X] eqn:Et; [destruct W1 as (_ & _ & Ne & _); congruence|].
  destruct (i_bottom i1) as [|b Y] eqn:Eb.
  { destruct W1 as (_ & Pe & _). rewrite Et, Eb in Pe. apply Permutation_sym, Permutation_nil in Pe. discriminate. }
  exists a, b. split; [exact (f_equal (@hd_error _) Et)|]. split; [exact (f_equal (@hd_error _) Eb)|].
  pose proof (stuck_heads (exch_of i1 s1) a X b Y P1 Et Eb St1) as G1.
  destruct T2 as (A & B & D). cbn [exch_of e_top e_bot e_len iet_swap i_top i_bottom] in A, B, D.
  pose proof (stuck_heads (exch_of i2 s2) b Y a X P2 ltac:(rewrite <- Eb; symmetry; exact A) ltac:(rewrite <- Et; symmetry; exact B) St2) as G2.
  cbn [exch_of e_len] in G1, G2. rewrite <- !D in G2. lra.
Qed.

(** * The similarity tracker *)

(** What the tracker of an IET remembers: nothing, something about a larger IET, or an
    earlier stage of the same IET. *)
Definition trk_ok (strict : Prop) (i : iet T) (s : slen T) : Prop :=
  let k := i_trk i in
  tk_ttl k = 0%N \/ i_size i < length (tk_top k) \/
  exists e1, proper e1 /\ e_top e1 = tk_top k /\
    e_bot e1 = map (fun p => nth p (tk_top k) 0) (tk_bottom k) /\
    (forall p, In p (tk_bottom k) -> p < length (tk_top k)) /\
    (forall a, In a (tk_top k) -> lamR (tk_lengths k) a = e_len e1 a) /\
    length (sl_lens (tk_lengths k)) = length (sl_lens s) /\
    (rauzy_path e1 (exch_of i s) \/ rauzy_path e1 (flip (exch_of i s))) /\
    (strict -> (ltot i s < total (e_len e1) (e_top e1))%R).

(** The situation in which the tracker reports a similarity. *)
Definition similar_state (i : iet T) (s : slen T) : Prop :=
  exists e1 c, proper e1 /\ (0 < c < 1)%R /\ e_top e1 = tk_top (i_trk i) /\
    (rauzy_path e1 (exch_of i s) \/ rauzy_path e1 (flip (exch_of i s))) /\
    map (fun b => find_pos b (e_top e1)) (e_bot e1) = map (fun b => find_pos b (i_top i)) (i_bottom i) /\
    (forall a, In a (e_top e1) -> lamR s a = c * e_len e1 a)%R.

Lemma find_pos_nth l b : In b l -> nth (find_pos b l) l 0 = b /\ find_pos b l < length l.
Proof.
  induction l as [|c l IH]; intros H; [destruct H|]. simpl. destruct (Nat.eqb_spec c b) as [->|N].
  - split; [reflexivity | lia].
  - destruct H as [->|H]; [congruence|]. destruct (IH H) as [A B]. split; [exact A | lia].
Qed.

Lemma find_pos_of_nth l p : NoDup l -> p < length l -> find_pos (nth p l 0) l = p.
Proof.
  revert p; induction l as [|c l IH]; intros p N H; simpl in *; [lia|]. inversion N; subst.
  destruct p as [|p]; [rewrite Nat.eqb_refl; reflexivity|].
  destruct (Nat.eqb_spec c (nth p l 0)) as [->|Hne].
  - exfalso. apply H2, nth_In. lia.
  - rewrite IH; [reflexivity | assumption | lia].
Qed.

Lemma positions_none b l k : ~ In b l -> positions b l k = [].
Proof.
  revert k; induction l as [|c l IH]; intros k H; simpl; [reflexivity|].
  destruct (Nat.eqb_spec c b) as [->|N]; [exfalso; apply H; left; reflexivity|].
  apply IH. intros Hin; apply H; right; exact Hin.
Qed.

Lemma positions_one b l k : NoDup l -> In b l -> positions b l k = [k + find_pos b l].
Proof.
  revert k; induction l as [|c l IH]; intros k N H; [destruct H|]. simpl. inversion N; subst.
  destruct (Nat.eqb_spec c b) as [->|Hne].
  - rewrite positions_none by assumption. f_equal; lia.
  - destruct H as [->|H]; [congruence|]. rewrite IH by assumption. f_equal; lia.
Qed.

Lemma positions_all top bot : NoDup top -> incl bot top ->
  flat_map (fun b => positions b top 0) bot = map (fun b => find_pos b top) bot.
Proof.
  intros N. induction bot as [|b bot IH]; intros H; simpl; [reflexivity|].
  rewrite positions_one; [|exact N | apply H; left; reflexivity]. simpl. f_equal.
  apply IH. intros x Hx. apply H; right; exact Hx.
Qed.

Lemma only_at (s : slen T) ls a : In a ls -> nth_error (sl_lens (sl_only s ls)) a = nth_error (sl_lens s) a.
Proof.
  intros Ha. unfold sl_only, sl_labels. cbn [sl_lens].
  destruct (nth_error (sl_lens s) a) as [x|] eqn:E.
  - assert (Hl : a < length (sl_lens s)) by (apply nth_error_Some; congruence).
    rewrite nth_error_map.
    assert (G : nth_error (combine (seq 0 (length (sl_lens s))) (sl_lens s)) a = Some (a, x)).
    { rewrite (nth_error_nth' _ (0, x)) by (rewrite combine_length, seq_length; lia).
      rewrite combine_nth by apply seq_length. rewrite seq_nth by exact Hl.
      rewrite (nth_error_nth _ _ x E). reflexivity. }
    rewrite G. simpl. rewrite (proj2 (memb_In a ls) Ha). reflexivity.
  - apply nth_error_None in E. apply nth_error_None. rewrite map_length, combine_length, seq_length. lia.
Qed.

Lemma only_length (s : slen T) ls : length (sl_lens (sl_only s ls)) = length (sl_lens s).
Proof. unfold sl_only, sl_labels. cbn [sl_lens]. rewrite map_length, combine_length, seq_length. lia. Qed.

Lemma same_permutation_ok top bot perm : length perm = length bot -> (forall p, In p perm -> p < length top) ->
  exists r, same_permutation top bot perm = Ok r /\ (r = true <-> bot = map (fun p => nth p top 0) perm).
Proof.
  revert perm; induction bot as [|b bot IH]; intros [|p perm] HL HR; simpl in *; try discriminate.
  - exists true. split; [reflexivity|]. split; reflexivity.
  - rewrite (nth_error_nth' top 0) by (apply HR; left; reflexivity).
    destruct (IH perm) as (r & E & Hr); [lia | intros q Hq; apply HR; right; exact Hq|].
    destruct (Nat.eqb_spec b (nth p top 0)) as [Hb|Hb].
    + exists r. split; [exact E|]. rewrite Hr. split; [intros ->; congruence | intros G; injection G; auto].
    + exists false. split; [reflexivity|]. split; [discriminate|]. intros G; injection G; congruence.
Qed.

Lemma cross_ratio (s s' : slen T) a b : posl s a -> posl s b -> posl s' a -> posl s' b ->
  exists r, sl_similar s a b s' a b = Ok r /\ (r = true <-> (lamR s a * lamR s' b = lamR s b * lamR s' a)%R).
Proof.
  intros [x [Hx Px]] [y [Hy Py]] [x' [Hx' Px']] [y' [Hy' Py']].
  unfold sl_similar, sl_at. rewrite Hx, Hy, Hx', Hy'. simpl.
  assert (B : forall z, (0 < val z)%R -> l_bool z = true).
  { intros z Hz. unfold l_bool. pose proof (cmp_val z l_zero) as G. rewrite val_zero in G.
    destruct (l_cmp z l_zero); try reflexivity. exfalso. rewrite G in Hz. lra. }
  rewrite (B x Px), (B y Py). simpl. eexists; split; [reflexivity|]. rewrite cross_val.
  rewrite (lamR_at _ _ _ Hx), (lamR_at _ _ _ Hy), (lamR_at _ _ _ Hx'), (lamR_at _ _ _ Hy'). reflexivity.
Qed.

Lemma similar_lengths_ok (k : tracker T) (s : slen T) top :
  (forall a, In a top -> posl (tk_lengths k) a /\ posl s a) ->
  exists r, similar_lengths k s top = Ok r /\
    (r = true -> exists c, (0 < c)%R /\ forall a, In a top -> (lamR s a = c * lamR (tk_lengths k) a)%R).
Proof.
  induction top as [|a top IH]; intros H.
  { exists true. split; [reflexivity|]. intros _. exists 1%R. split; [lra|]. intros a []. }
  destruct top as [|b top].
  { exists true. split; [reflexivity|]. intros _. destruct (H a (or_introl eq_refl)) as [H1 H2].
    apply posl_lamR in H1, H2. exists (lamR s a / lamR (tk_lengths k) a)%R. split; [apply Rdiv_lt_0_compat; assumption|].
    intros c [->|[]]. field. lra. }
  destruct (IH (fun x Hx => H x (or_intror Hx))) as (r & E & Hr).
  destruct (H a (or_introl eq_refl)) as [H1 H2]. destruct (H b (or_intror (or_introl eq_refl))) as [H3 H4].
  destruct (cross_ratio (tk_lengths k) s a b H1 H3 H2 H4) as (r' & E' & Hr').
  change (similar_lengths k s (a :: b :: top)) with
    (r0 <- sl_similar (tk_lengths k) a b s a b ;; (if r0 then similar_lengths k s (b :: top) else Ok false)).
  rewrite E'. simpl bind. destruct r'.
  - exists r. split; [exact E|]. intros ->. destruct (Hr eq_refl) as (c & Hc & Hall). exists c. split; [exact Hc|].
    intros x [<-|Hx]; [|apply Hall, Hx]. pose proof (proj1 Hr' eq_refl) as G. rewrite (Hall b (or_introl eq_refl)) in G.
    apply posl_lamR in H3. apply (Rmult_eq_reg_l (lamR (tk_lengths k) b)); [|lra]. rewrite <- G. ring.
  - exists false. split; [reflexivity | discriminate].
Qed.

Lemma perm_patterns top bot top' bot' : NoDup top -> NoDup top' -> length top = length top' ->
  (forall p, In p bot -> p < length top) -> bot' = map (fun p => nth p top' 0) bot ->
  map (fun b => find_pos b top) (map (fun p => nth p top 0) bot) = map (fun b => find_pos b top') bot'.
Proof.
  intros N N' L H ->. rewrite !map_map. apply map_ext_in. intros p Hp.
  rewrite !find_pos_of_nth; auto. rewrite <- L. auto.
Qed.

Lemma track_ok i s : wf i s -> trk_ok True i s ->
  exists r k, tracker_loop (i_trk i) i s = Ok (r, k) /\ trk_ok False (set_trk i k) s /\
    (r = true -> trk_ok True (set_trk i k) s /\ similar_state (set_trk i k) s).
Proof.
  intros H K. pose proof H as (N & Pe & Ne & Hp & _). unfold tracker_loop.
  destruct (N.eqb_spec (tk_ttl (i_trk i)) 0) as [E0|E0].
  { (* reset *)
    exists false, (tracker_reset (i_trk i) i s). split; [reflexivity|]. split; [|discriminate].
    right; right. cbn [i_trk set_trk tracker_reset tk_top tk_bottom tk_lengths].
    rewrite positions_all; [|exact N | intros b Hb; rewrite Pe; exact Hb].
    exists (exch_of i s). split; [exact (wf_proper _ _ H)|]. split; [reflexivity|]. split.
    { rewrite map_map. rewrite <- (map_id (e_bot (exch_of i s))). apply map_ext_in. intros b Hb. symmetry.
      apply find_pos_nth. rewrite Pe. exact Hb. }
    split. { intros p Hip. apply in_map_iff in Hip. destruct Hip as (b & <- & Hb). apply find_pos_nth. rewrite Pe. exact Hb. }
    split. { intros a Ha. unfold lamR. rewrite only_at by exact Ha. reflexivity. }
    split; [exact (only_length (sl_forget s) _)|]. split; [left; apply path_refl, same_exch_refl | intros []]. }
  cbn [tk_top tk_bottom tk_lengths].
  set (k := mktracker (tk_top (i_trk i)) (tk_bottom (i_trk i)) (tk_lengths (i_trk i)) (tk_bound (i_trk i)) (tk_ttl (i_trk i) - 1)).
  assert (Keep : trk_ok True (set_trk i k) s).
  { destruct K as [K|[K|K]]; [congruence | right; left; exact K | right; right; exact K]. }
  assert (Weak : trk_ok False (set_trk i k) s).
  { destruct Keep as [G|[G|(e1 & G1 & G2 & G3 & G4 & G5 & G6 & G7 & _)]]; [left; exact G | right; left; exact G|].
    right; right. exists e1. repeat (split; [assumption|]). intros []. }
  destruct (Nat.eqb_spec (i_size i) (length (tk_top (i_trk i)))) as [Es|Es]; simpl negb; cbv iota.
  2:{ exists false, k. split; [reflexivity|]. split; [exact Weak | discriminate]. }
  destruct K as [K|[K|(e1 & G1 & G2 & G3 & G4 & G5 & G6 & G7 & G8)]]; [congruence | lia|].
  assert (HL : length (tk_bottom (i_trk i)) = length (i_bottom i)).
  { rewrite <- (map_length (fun p => nth p (tk_top (i_trk i)) 0)), <- G3.
    destruct G1 as (_ & Pe1 & _). rewrite <- (Permutation_length Pe1), G2, <- Es. apply Permutation_length, Pe. }
  assert (Hlab : Permutation (tk_top (i_trk i)) (i_top i)).
  { rewrite <- G2. destruct G7 as [G7|G7]; apply (path_labels _ _ G1) in G7; simpl in G7; [exact G7|].
    rewrite G7. symmetry. exact Pe. }
  destruct (same_permutation_ok (i_top i) (i_bottom i) (tk_bottom (i_trk i)) HL) as (r & Er & Hr).
  { intros p Hpp. apply G4 in Hpp. unfold i_size in Es. rewrite Es. exact Hpp. }
  rewrite Er. simpl bind. destruct r.
  2:{ exists false, k. split; [reflexivity|]. split; [exact Weak | discriminate]. }
  destruct (similar_lengths_ok k s (tk_top (i_trk i))) as (r & Er' & Hr').
  { intros a Ha. split; [|apply Hp; rewrite <- Hlab; exact Ha]. cbn [k tk_lengths].
    assert (Hpa : (0 < lamR (tk_lengths (i_trk i)) a)%R).
    { rewrite G5 by exact Ha. apply G1. rewrite G2. exact Ha. }
    unfold lamR in Hpa. unfold posl. destruct (nth_error (sl_lens (tk_lengths (i_trk i))) a) as [x|]; [eauto | lra]. }
  rewrite Er'. simpl bind. exists r, k. split; [reflexivity|]. split; [exact Weak|].
  intros ->. split; [exact Keep|]. destruct (Hr' eq_refl) as (c & Hc & Hall).
  exists e1, c. split; [exact G1|].
  assert (Hs : forall a, In a (e_top e1) -> lamR s a = (c * e_len e1 a)%R).
  { intros a Ha. rewrite G2 in Ha. rewrite (Hall a Ha). f_equal. apply G5, Ha. }
  split.
  { split; [exact Hc|]. specialize (G8 Logic.I). unfold ltot in G8.
    rewrite <- (Dyn.total_perm (lamR s) _ _ Hlab), <- G2, (total_scale_in c (e_len e1)) in G8 by exact Hs.
    assert (0 < total (e_len e1) (e_top e1))%R.
    { apply total_pos; [apply G1|]. rewrite G2. intros Hnil. rewrite Hnil in Hlab. apply Permutation_nil in Hlab. congruence. }
    nra. }
  split; [exact G2|]. split; [exact G7|]. split; [|exact Hs].
  rewrite G3, G2. apply perm_patterns; auto.
  - rewrite <- G2. apply G1.
  - apply Hr. reflexivity.
Qed.

(** * The invariant of an IET between calls *)

Definition good (i : iet T) (s : slen T) : Prop := wf i s /\ cache_ok i s /\ trk_ok True i s.

Lemma reach_ltot i s i' s' : wf i s -> reach i s i' s' -> (ltot i' s' <= ltot i s)%R.
Proof.
  intros H R. destruct (path_induced _ _ (wf_proper _ _ H) (r_path _ _ _ _ R)) as [[D _] _].
  unfold ltot. simpl in D. lra.
Qed.

Lemma path_flip e e' : rauzy_path e e' -> rauzy_path (flip e) (flip e').
Proof.
  intros G. induction G as [e e' S | e e1 e' G _ IH | e e1 e' G _ IH].
  - apply path_refl, same_exch_flip, S.
  - apply path_bot with (flip e1); [rewrite !flip_flip; exact G | exact IH].
  - apply path_top with (flip e1); assumption.
Qed.

Lemma trk_extend (P Q : Prop) i s i' s' : wf i s -> trk_ok P i s -> reach i s i' s' -> i_trk i' = i_trk i ->
  (Q -> P \/ (ltot i' s' < ltot i s)%R) -> trk_ok Q i' s'.
Proof.
  intros H K R E HQ. unfold trk_ok. rewrite E.
  pose proof (reach_labels _ _ _ _ H R) as L. apply Permutation_length in L.
  destruct K as [K|[K|(e1 & G1 & G2 & G3 & G4 & G5 & G6 & G7 & G8)]]; [left; exact K | right; left; unfold i_size in *; lia|].
  right; right. exists e1. do 5 (split; [assumption|]). split; [rewrite (r_len _ _ _ _ R); exact G6|]. split.
  - destruct G7 as [G7|G7]; [left; exact (rauzy_path_trans _ _ _ G7 (r_path _ _ _ _ R))|]. right.
    exact (rauzy_path_trans _ _ _ G7 (path_flip _ _ (r_path _ _ _ _ R))).
  - intros q. pose proof (reach_ltot _ _ _ _ H R) as Hle. destruct (HQ q) as [p|Hlt]; [specialize (G8 p); lra|].
    assert (Hle1 : (ltot i s <= total (e_len e1) (e_top e1))%R).
    { pose proof (proper_total _ (wf_proper _ _ H)) as Ht. unfold ltot. simpl in Ht.
      destruct G7 as [G7|G7]; destruct (path_induced _ _ G1 G7) as [[D _] _]; simpl in D; lra. }
    lra.
Qed.

Lemma trk_shrink (P Q : Prop) i s i' s' : wf i s -> trk_ok P i s -> i_trk i' = i_trk i -> i_size i' < i_size i -> trk_ok Q i' s'.
Proof.
  intros H K E Hs. unfold trk_ok. rewrite E.
  destruct K as [K|[K|(e1 & G1 & G2 & _ & _ & _ & _ & G7 & _)]]; [left; exact K | right; left; lia|].
  right; left. rewrite <- G2. unfold i_size in *.
  assert (L : length (e_top e1) = length (i_top i)).
  { destruct H as (_ & Pe & _). destruct G7 as [G7|G7]; apply (path_labels _ _ G1), Permutation_length in G7; simpl in G7; [exact G7|].
    rewrite G7. symmetry. apply Permutation_length, Pe. }
  lia.
Qed.

Lemma trk_init (P : Prop) i s : i_trk i = tracker_init -> trk_ok P i s.
Proof. intros E. left. rewrite E. reflexivity. Qed.

Lemma good_make (s : slen T) top bottom : NoDup top -> Permutation top bottom -> top <> [] ->
  (forall l, In l top -> posl s l) -> sl_stack s = [] -> good (mkiet top bottom false None tracker_init) s.
Proof. intros. split; [repeat split; auto|]. split; [exact Logic.I | apply trk_init; reflexivity]. Qed.

Lemma good_swap i s : good i s -> good (iet_swap i) s.
Proof.
  intros (H & C & K). split; [apply swap_wf, H|]. split; [apply swap_cache; assumption|].
  pose proof (Permutation_length (proj1 (proj2 H))) as L.
  destruct K as [K|[K|(e1 & G1 & G2 & G3 & G4 & G5 & G6 & G7 & G8)]]; [left; exact K | right; left; unfold i_size in *; simpl; lia|].
  right; right. exists e1. do 6 (split; [assumption|]). split.
  - destruct G7 as [G7|G7]; [right | left]; exact G7.
  - intros _. specialize (G8 Logic.I). unfold ltot in *. pose proof (proper_total _ (wf_proper _ _ H)) as E. simpl in *. lra.
Qed.

Lemma good_set_saf i s v : good i s -> cache_ok (set_saf i v) s -> good (set_saf i v) s.
Proof. intros (H & C & K) C'. split; [exact H|]. split; [exact C' | exact K]. Qed.

Lemma good_zorich i s : good i s ->
  exists found i' s', zorich sample_lens i s = Ok (found, i', s') /\ good i' s' /\ reach i s i' s'.
Proof.
  intros (H & C & K). destruct (zorich_reach i s H C) as (f & b & s' & E & R & _). exists f, (set_bottom i b), s'.
  split; [exact E|]. split; [|exact R]. split; [exact (r_wf _ _ _ _ R)|]. split; [exact (r_cache _ _ _ _ R)|].
  exact (trk_extend True True i s _ s' H K R eq_refl (fun _ => or_introl Logic.I)).
Qed.

Lemma good_cut i s k (P : Prop) : wf i s -> trk_ok P i s -> invariant_prefix (exch_of i s) k ->
  good (left_part i k) s /\ good (right_part i k) s.
Proof.
  intros H K Hk. destruct (wf_cut i s k H Hk) as [W1 W2]. split.
  - split; [exact W1|]. split; [exact Logic.I|]. apply (trk_shrink P True i s); auto.
    unfold i_size. simpl. destruct Hk as [Hk _]. simpl in Hk. rewrite firstn_length. lia.
  - split; [exact W2|]. split; [exact Logic.I|]. apply trk_init. reflexivity.
Qed.

(** * Merging *)

Lemma merge_first_ok i s : wf i s -> cache_ok i s -> heads_equal i s -> ~ reducible (exch_of i s) -> i_size i <> 1 ->
  exists i' a b, merge_first i = Ok i' /\ merge_step (exch_of i s) (exch_of i' s) /\
    hd_error (i_top i) = Some a /\ hd_error (i_bottom i) = Some b /\ a <> b /\
    i_top i' = tl (i_top i) /\ i_swap i' = i_swap i /\ i_trk i' = i_trk i /\ wf i' s /\ cache_ok i' s /\
    saf_now i' s = saf_now i s.
Proof.
  intros H C (a & b & Ha & Hb & Hl) Hr Hs. pose proof H as (N & Pe & Ne & Hp & Hst). unfold merge_first.
  destruct (i_top i) as [|a' X] eqn:Et; [discriminate|]. injection Ha as ->.
  destruct (i_bottom i) as [|b' Y] eqn:Eb; [discriminate|]. injection Hb as ->.
  assert (Hab : a <> b).
  { intros ->. apply Hr. exists 1. unfold i_size in Hs. rewrite Et in Hs. split; simpl; rewrite Et, ?Eb; simpl in *; [lia | reflexivity]. }
  assert (HaY : In a Y).
  { assert (G : In a (b :: Y)) by (rewrite <- Pe; left; reflexivity). destruct G as [G|G]; [congruence | exact G]. }
  destruct (split_at a Y) as [[p q]|] eqn:Es.
  2:{ apply split_at_none in Es. contradiction. }
  apply split_at_some in Es. destruct Es as [-> Hnp].
  set (i' := set_labels i X (p ++ b :: q)).
  assert (M : merge_step (exch_of i s) (exch_of i' s)).
  { exists a, b, X, p, q. simpl. rewrite Et, Eb. repeat split; auto. }
  pose proof (merge_step_proper _ _ (wf_proper _ _ H) M) as (N' & Pe' & _). simpl in N', Pe'.
  assert (Esaf : saf_now i' s = saf_now i s).
  { unfold saf_now, i'. cbn [set_labels i_top i_bottom]. rewrite Et, Eb. apply saf_of_merge; auto.
    apply val_inj. rewrite !val_lamT. exact Hl. }
  exists i', a, b. split; [reflexivity|]. split; [exact M|]. split; [reflexivity|]. split; [reflexivity|].
  split; [exact Hab|]. split; [reflexivity|]. split; [reflexivity|]. split; [reflexivity|].
  split.
  { split; [exact N'|]. split; [exact Pe'|]. split.
    - simpl. intros ->. unfold i_size in Hs. rewrite Et in Hs. simpl in Hs. lia.
    - split; [|exact Hst]. intros l Hin. apply Hp. right. exact Hin. }
  split; [|exact Esaf].
  unfold cache_ok in *. change (i_saf i') with (i_saf i). change (i_swap i') with (i_swap i). rewrite Esaf. exact C.
Qed.

(** * The loop *)

Definition loop_post (limit : Z) (i : iet T) (s : slen T) (f : option bool) (i' : iet T) (s' : slen T) : Prop :=
  reach i s i' s' /\
  match f with
  | None => trk_ok True i' s' /\ similar_state i' s'
  | Some true => trk_ok False i' s' /\ heads_equal i' s'
  | Some false => trk_ok True i' s' /\ limit <> (-1)%Z
  end.

Lemma iteration_unfold {S} (L : lens T S) fuel saf0 limit n i s :
  induce_loop L (Datatypes.S fuel) saf0 limit n i s =
    if negb ((limit =? -1)%Z || (n <? limit)%Z) then Ok (Some false, i, s)
    else
      '(similar, i) <-
        (if saf0 then
           '(v, i) <- iet_saf i (li_base L s) ;;
           if length v =? 0 then Ok (false, i)
           else '(r, k) <- tracker_loop (i_trk i) i (li_base L s) ;; Ok (r, set_trk i k)
         else Ok (false, i)) ;;
      if (similar : bool) then Ok (None, i, s)
      else
        '(found, i, s) <- iteration L i s ;;
        if (found : bool) then Ok (Some true, i, s)
        else if (n =? INT_MAX)%Z then UB
        else induce_loop L fuel saf0 limit (n + 1) i s.
Proof.
  simpl. destruct (negb _); [reflexivity|].
  match goal with |- bind ?m _ = _ => destruct m as [[[|] i1]| | | |]; try reflexivity end.
  simpl. unfold iteration. destruct (zorich L i1 s) as [[[[|] i2] s2]| | | |]; try reflexivity. simpl.
  destruct (zorich L (iet_swap i2) s2) as [[[[|] i3] s3]| | | |]; reflexivity.
Qed.

Lemma tracking_ok (saf0 : bool) (i : iet T) (s : slen T) : good i s ->
  exists r i', (if saf0 then
           '(v, i) <- iet_saf i s ;;
           if length v =? 0 then Ok (false, i)
           else '(r, k) <- tracker_loop (i_trk i) i s ;; Ok (r, set_trk i k)
         else Ok (false, i)) = Ok (r : bool, i') /\
    reach i s i' s /\ i_top i' = i_top i /\ i_bottom i' = i_bottom i /\
    trk_ok False i' s /\ (r = true -> trk_ok True i' s /\ similar_state i' s) /\
    (saf0 = false \/ l_deg T = 1 -> r = false /\ trk_ok True i' s).
Proof.
  intros (H & C & K).
  assert (Weak : forall j, trk_ok True j s -> trk_ok False j s).
  { intros j [G|[G|(e1 & G1 & G2 & G3 & G4 & G5 & G6 & G7 & _)]]; [left; exact G | right; left; exact G|].
    right; right. exists e1. repeat (split; [assumption|]). intros []. }
  destruct saf0.
  2:{ exists false, i. split; [reflexivity|]. split; [apply reach_refl; assumption|]. repeat (split; [reflexivity|]).
      split; [apply Weak, K|]. split; [discriminate|]. auto. }
  rewrite (iet_saf_ok i s H C). simpl.
  set (v := if i_swap i then vneg (saf_now i s) else saf_now i s).
  assert (C' : cache_ok (set_saf i (Some v)) s) by reflexivity.
  assert (Hlen : length v = length (saf_now i s)).
  { unfold v. destruct (i_swap i); [|reflexivity]. generalize (saf_now i s). intros u; induction u; simpl; congruence. }
  destruct (Nat.eqb_spec (length v) 0) as [E|E].
  { exists false, (set_saf i (Some v)). split; [reflexivity|]. split.
    - pose proof (reach_refl i s H C) as R. exact (reach_caches i s i s (Some v) (i_trk i) R C').
    - repeat (split; [reflexivity|]). split; [apply Weak; exact K|]. split; [discriminate|]. auto. }
  destruct (track_ok (set_saf i (Some v)) s H K) as (r & k & Ek & K1 & K2).
  cbn [i_trk set_saf] in Ek. cbn [i_trk set_saf]. rewrite Ek. simpl. exists r, (set_trk (set_saf i (Some v)) k).
  split; [reflexivity|]. split; [apply reach_caches; [apply reach_refl; assumption | exact C']|].
  repeat (split; [reflexivity|]). split; [exact K1|]. split; [exact K2|].
  intros [G|G]; [discriminate|]. exfalso. apply E. rewrite Hlen. unfold saf_now, saf_of, saf_vector. rewrite G. reflexivity.
Qed.

Lemma loop_ok saf0 limit : (limit <= INT_MAX)%Z -> forall fuel n i s, good i s ->
  let r := induce_loop sample_lens fuel saf0 limit n i s in
  (r = OutOfFuel /\ (limit = -1 \/ Z.of_nat fuel <= Z.max 0 (limit - n))%Z) \/
  (r = UB /\ limit = (-1)%Z /\ (INT_MAX < n + Z.of_nat fuel)%Z) \/
  exists f i' s', r = Ok (f, i', s') /\ loop_post limit i s f i' s'.
Proof.
  intros HL fuel. induction fuel as [|fuel IH]; intros n i s Hg r.
  { left. split; [reflexivity|]. right. simpl. lia. }
  unfold r. rewrite iteration_unfold. pose proof Hg as (H & C & K).
  destruct (negb ((limit =? -1)%Z || (n <? limit)%Z)) eqn:En.
  { right; right. exists (Some false), i, s. split; [reflexivity|]. split; [apply reach_refl; assumption|].
    split; [exact K|]. intros ->. discriminate. }
  apply negb_false_iff, orb_true_iff in En. rewrite Z.eqb_eq, Z.ltb_lt in En.
  destruct (tracking_ok saf0 i s Hg) as (b & i1 & E1 & R1 & _ & _ & K1 & K1' & _). cbn [sample_lens li_base]. rewrite E1. cbn [bind].
  destruct b.
  { right; right. exists None, i1, s. split; [reflexivity|]. split; [exact R1 | apply K1'; reflexivity]. }
  pose proof (r_wf _ _ _ _ R1) as H1. pose proof (r_cache _ _ _ _ R1) as C1.
  destruct (iteration_ok i1 s H1 C1) as (f & i2 & s2 & E2 & R2 & Et & _ & Hf & Hdec). rewrite E2. cbn [bind].
  destruct f.
  { right; right. exists (Some true), i2, s2. split; [reflexivity|]. split; [exact (reach_trans _ _ _ _ _ _ H R1 R2)|].
    split; [|apply Hf; reflexivity]. exact (trk_extend False False i1 s i2 s2 H1 K1 R2 Et ltac:(tauto)). }
  destruct (Z.eqb_spec n INT_MAX) as [Ei|Ei].
  { right; left. split; [reflexivity|]. split; [destruct En as [En|En]; [exact En | lia] | lia]. }
  assert (Hg2 : good i2 s2).
  { split; [exact (r_wf _ _ _ _ R2)|]. split; [exact (r_cache _ _ _ _ R2)|].
    exact (trk_extend False True i1 s i2 s2 H1 K1 R2 Et ltac:(intros _; right; apply Hdec; reflexivity)). }
  destruct (IH (n + 1)%Z i2 s2 Hg2) as [[G1 G2]|[[G1 [G2 G3]]|(f & i' & s' & G1 & R3 & G2)]].
  - left. split; [exact G1|]. destruct G2 as [G2|G2]; [left; exact G2|].
    destruct En as [En|En]; [left; exact En|]. right. lia.
  - right; left. split; [exact G1|]. split; [exact G2 | lia].
  - right; right. exists f, i', s'. split; [exact G1|]. split; [|exact G2].
    apply (reach_trans i s i1 s); [exact H | exact R1|]. exact (reach_trans _ _ _ _ _ _ H1 R2 R3).
Qed.

(** * The result of [induce] *)

Definition induce_post (limit : Z) (i : iet T) (s : slen T) (st : istep T) (i' : iet T) (s' : slen T) : Prop :=
  match is_result st with
  | CYLINDER => i_size i = 1 /\ st = mkistep CYLINDER None None /\ i' = i /\ s' = s
  | SEPARATING_CONNECTION =>
    exists i1 k b t, i_size i <> 1 /\ reach i s i1 s' /\
      invariant_prefix (exch_of i1 s') k /\ (forall j, invariant_prefix (exch_of i1 s') j -> k <= j) /\
      i' = left_part i1 k /\ hd_error (rev (i_bottom i')) = Some b /\ hd_error (rev (i_top i')) = Some t /\
      st = mkistep SEPARATING_CONNECTION (Some (b, t)) (Some (right_part i1 k)) /\ good (right_part i1 k) s'
  | NON_SEPARATING_CONNECTION =>
    exists i1 a b, i_size i <> 1 /\ reach i s i1 s' /\ ~ reducible (exch_of i1 s') /\
      hd_error (i_top i1) = Some a /\ hd_error (i_bottom i1) = Some b /\ a <> b /\
      merge_step (exch_of i1 s') (exch_of i' s') /\ i_top i' = tl (i_top i1) /\ i_swap i' = i_swap i /\
      saf_now i' s' = saf_now i1 s' /\
      st = mkistep NON_SEPARATING_CONNECTION (Some (b, a)) None
  | LIMIT_REACHED =>
    i_size i <> 1 /\ reach i s i' s' /\ ~ reducible (exch_of i' s') /\ ~ heads_equal i' s' /\
    balanced (exch_of i' s') /\ limit <> (-1)%Z /\ st = mkistep LIMIT_REACHED None None
  | WITHOUT_PERIODIC_TRAJECTORY_BOSHERNITZAN =>
    i_size i <> 1 /\ reach i s i' s' /\ ~ reducible (exch_of i' s') /\ ~ heads_equal i' s' /\
    ~ balanced (exch_of i' s') /\ limit <> (-1)%Z /\ st = mkistep WITHOUT_PERIODIC_TRAJECTORY_BOSHERNITZAN None None
  | WITHOUT_PERIODIC_TRAJECTORY_AUTO_SIMILAR =>
    i_size i <> 1 /\ reach i s i' s' /\ similar_state i' s' /\ limit <> 0%Z /\
    st = mkistep WITHOUT_PERIODIC_TRAJECTORY_AUTO_SIMILAR None None
  end.

Lemma heads_prefix i s a : wf i s -> hd_error (i_top i) = Some a -> hd_error (i_bottom i) = Some a ->
  i_size i <> 1 -> reducible (exch_of i s).
Proof.
  intros (_ & _ & Ne & _) Ha Hb Hs. unfold i_size in Hs. exists 1.
  destruct (i_top i) as [|x X] eqn:Et; [congruence|]. destruct (i_bottom i) as [|y Y] eqn:Eb; [discriminate|].
  injection Ha as ->. injection Hb as ->. split; simpl; rewrite Et, ?Eb; simpl in *; [lia | reflexivity].
Qed.

Lemma finish_ok limit i0 s0 found i s : wf i0 s0 -> i_size i0 <> 1 ->
  loop_post limit i0 s0 (Some found) i s ->
  exists st i', induce_finish sample_lens found i s = Ok (st, i', s) /\ good i' s /\ induce_post limit i0 s0 st i' s.
Proof.
  intros H0 Hs0 [R HK].
  assert (K : trk_ok False i s).
  { destruct found; [exact (proj1 HK)|]. destruct HK as [K _].
    refine (trk_extend True False i s i s (r_wf _ _ _ _ R) K _ eq_refl ltac:(tauto)).
    apply reach_refl; [exact (r_wf _ _ _ _ R) | exact (r_cache _ _ _ _ R)]. }
  pose proof (r_wf _ _ _ _ R) as H. pose proof (r_cache _ _ _ _ R) as C.
  pose proof (Permutation_length (reach_labels _ _ _ _ H0 R)) as HL.
  assert (Hs : i_size i <> 1) by (unfold i_size in *; congruence).
  unfold induce_finish. cbn [sample_lens li_base].
  destruct (reduce_ok i s H) as [(k & Hk & Hmin & Er)|[Hnr Er]]; rewrite Er; cbn [bind].
  - destruct (good_cut i s k False H K Hk) as [G1 G2].
    assert (E1 : exists t, hd_error (rev (i_top (left_part i k))) = Some t).
    { destruct (rev (i_top (left_part i k))) as [|t l] eqn:E; [|eexists; reflexivity].
      destruct G1 as ((_ & _ & Ne & _) & _). exfalso. apply Ne. rewrite <- (rev_involutive (i_top (left_part i k))), E. reflexivity. }
    assert (E2 : exists b, hd_error (rev (i_bottom (left_part i k))) = Some b).
    { destruct (rev (i_bottom (left_part i k))) as [|t l] eqn:E; [|eexists; reflexivity].
      destruct G1 as ((_ & Pe & Ne & _) & _). exfalso. apply Ne.
      assert (En : i_bottom (left_part i k) = []) by (rewrite <- (rev_involutive (i_bottom (left_part i k))), E; reflexivity).
      rewrite En in Pe. apply Permutation_sym, Permutation_nil in Pe. exact Pe. }
    destruct E1 as [t E1], E2 as [b E2].
    exists (mkistep SEPARATING_CONNECTION (Some (b, t)) (Some (right_part i k))), (left_part i k). split.
    { destruct (rev (i_bottom (left_part i k))); [discriminate|]. destruct (rev (i_top (left_part i k))); [discriminate|].
      injection E1 as ->. injection E2 as ->. reflexivity. }
    split; [exact G1|]. cbn [induce_post is_result]. exists i, k, b, t. repeat (split; [first [assumption | reflexivity]|]). exact G2.
  - destruct (i_top i) as [|a X] eqn:Et; [destruct H as (_ & _ & Ne & _); congruence|].
    destruct (i_bottom i) as [|b Y] eqn:Eb.
    { destruct H as (_ & Pe & _). rewrite Et, Eb in Pe. apply Permutation_sym, Permutation_nil in Pe. discriminate. }
    assert (Pa : posl s a) by (apply H; rewrite Et; left; reflexivity).
    assert (Pb : posl s b).
    { apply H. destruct H as (_ & Pe & _). rewrite Pe, Eb. left; reflexivity. }
    pose proof (cmp_val (lamT s a) (lamT s b)) as Hc. rewrite !val_lamT in Hc.
    unfold li_cmp2, sample_lens, sl_cmp2. rewrite (posl_at s a Pa), (posl_at s b Pb). cbn [bind].
    assert (Hheads : heads_equal i s <-> lamR s a = lamR s b).
    { split.
      - intros (x & y & Hx & Hy & E). rewrite Et in Hx. rewrite Eb in Hy. injection Hx as <-. injection Hy as <-. exact E.
      - intros E. exists a, b. rewrite Et, Eb. auto. }
    destruct (l_cmp (lamT s a) (lamT s b)) eqn:Ec.
    { apply Hheads in Hc. destruct (merge_first_ok i s H C Hc Hnr Hs) as (i' & a' & b' & E & M & Ha & Hb & Hab & Htl & Hsw & Htr & W' & C' & Es).
      rewrite Et in Ha. rewrite Eb in Hb. injection Ha as <-. injection Hb as <-. rewrite E. cbn [bind].
      exists (mkistep NON_SEPARATING_CONNECTION (Some (b, a)) None), i'. split; [reflexivity|]. split.
      - split; [exact W'|]. split; [exact C'|]. apply (trk_shrink False True i s); auto. unfold i_size. rewrite Htl, Et. simpl. lia.
      - cbn [induce_post is_result]. exists i, a, b. split; [exact Hs0|]. split; [exact R|]. split; [exact Hnr|].
        split; [rewrite Et; reflexivity|]. split; [rewrite Eb; reflexivity|]. split; [exact Hab|]. split; [exact M|].
        split; [exact Htl|]. split; [rewrite Hsw; apply R|]. split; [exact Es | reflexivity]. }
    all: assert (Hne : ~ heads_equal i s) by (rewrite Hheads; lra).
    all: assert (Hf : found = false) by (destruct found; [exfalso; apply Hne, HK | reflexivity]); subst found; cbn [assert_ negb].
    all: destruct (bosh_no_periodic_ok i s H C) as (z & v & E & C' & Hz); rewrite E; cbn [bind].
    all: assert (Rv : reach i0 s0 (set_saf i (Some v)) s) by exact (reach_caches i0 s0 i s (Some v) (i_trk i) R C').
    all: destruct z; eexists; exists (set_saf i (Some v)); (split; [reflexivity|]); (split; [split; [exact H|]; split; [exact C' | exact (proj1 HK)]|]); cbn [induce_post is_result].
    all: (split; [exact Hs0|]); (split; [exact Rv|]); (split; [exact Hnr|]); (split; [exact Hne|]).
    all: try (split; [apply Hz; reflexivity|]; split; [exact (proj2 HK) | reflexivity]).
    all: split; [|split; [exact (proj2 HK) | reflexivity]].
    all: change (exch_of (set_saf i (Some v)) s) with (exch_of i s); destruct (Classical_Prop.classic (balanced (exch_of i s))) as [G|G]; [exact G | apply Hz in G; discriminate].
Qed.

Theorem induce_ok limit fuel i s : (limit <= INT_MAX)%Z -> good i s ->
  let r := induce sample_lens fuel limit i s in
  (r = OutOfFuel /\ limit <> 0%Z /\ (limit = -1 \/ Z.of_nat fuel <= Z.max 0 limit)%Z) \/
  (r = UB /\ limit = (-1)%Z /\ (INT_MAX < Z.of_nat fuel)%Z) \/
  exists st i' s', r = Ok (st, i', s') /\ good i' s' /\ induce_post limit i s st i' s'.
Proof.
  intros HL Hg r. pose proof Hg as (H & C & K). unfold r, induce.
  destruct (Nat.eqb_spec (i_size i) 1) as [E1|E1].
  { right; right. eexists; exists i, s. split; [reflexivity|]. split; [exact Hg|]. cbn [induce_post is_result]. auto. }
  destruct (Z.eqb_spec limit 0) as [E0|E0].
  { right; right. cbn [bind].
    destruct (finish_ok limit i s false i s H E1) as (st & i' & E & G & P).
    { split; [apply reach_refl; assumption|]. split; [exact K | lia]. }
    exists st, i', s. rewrite E. auto. }
  destruct (iet_saf0_ok i s H C) as (v & Ev & C' & _). cbn [sample_lens li_base]. rewrite Ev. cbn [bind].
  assert (Hg' : good (set_saf i (Some v)) s) by (apply good_set_saf; assumption).
  destruct (loop_ok (vis0 (saf_now i s)) limit HL fuel 0%Z _ s Hg') as [[G1 G2]|[[G1 G2]|(f & i1 & s1 & G1 & R & G2)]]; rewrite G1; cbn [bind].
  - left. split; [reflexivity|]. split; [exact E0|]. rewrite Z.sub_0_r in G2. exact G2.
  - right; left. auto.
  - right; right.
    assert (Ri : reach i s i1 s1).
    { refine (reach_trans i s (set_saf i (Some v)) s _ _ H _ R). 
      exact (reach_caches i s i s (Some v) (i_trk i) (reach_refl i s H C) C'). }
    destruct f as [found|].
    + destruct (finish_ok limit i s found i1 s1 H E1) as (st & i' & E & G & P).
      { split; [exact Ri | exact G2]. }
      exists st, i', s1. rewrite E. auto.
    + eexists; exists i1, s1. split; [reflexivity|]. split.
      * split; [apply Ri|]. split; [apply Ri | apply G2].
      * cbn [induce_post is_result]. split; [exact E1|]. split; [exact Ri|]. split; [apply G2|]. auto.
Qed.

End Induce.
