(** Two IETs over lengths with the same ratios: what their caches and trackers know.

    An empty SAF vector switches the similarity tracker off (iet.cc 204-211).  Whether the
    vector is empty depends on how the number type picks coordinates.  It is only empty when
    all lengths are multiples of one length, and then a tracker never sees a similarity. *)
From Coq Require Import List Reals Lra Lia Permutation.
From Verif Require Import Base QcTac LenT FM Subspace Lengths IET Mixed Coord Twin Api ZorichProof SubspaceProof Saf Bosh SpecLin Ratio ReduceProof InduceProof InduceCons World RatioIet RatioInv Detect.
From Verif Require Spec.
Open Scope nat_scope.

(** The use of the tracker in [induce]. *)
Definition tracking_at {T} {O : LenOps T} (saf0 : bool) (i : iet T) (b : slen T) : res (bool * iet T) :=
  if saf0 then
    '(v, i) <- iet_saf i b ;;
    if length v =? 0 then Ok (false, i)
    else '(r, k) <- tracker_loop (i_trk i) i b ;; Ok (r, set_trk i k)
  else Ok (false, i).

Lemma rres_eqn {X Y} (P : X -> Y -> Prop) m m' : rres P m m' -> rres (fun a b => P a b /\ m = Ok a /\ m' = Ok b) m m'.
Proof. destruct m, m'; simpl; auto. Qed.

(** The induction leaves caches and trackers alone. *)
Section Keep.
Context {T S : Type} {O : LenOps T}.
Variable L : lens T S.

Lemma zorich_keeps i s f j t : zorich L i s = Ok (f, j, t) -> i_saf j = i_saf i /\ i_trk j = i_trk i.
Proof.
  unfold zorich. destruct (i_top i) as [|a X]; [discriminate|]. destruct (i_bottom i) as [|b Y]; [discriminate|].
  destruct (Nat.eqb a b); [intro E; injection E as _ <- _; auto|].
  destruct (zloop _ _ _ _ _ _) as [[r s1]| | | |]; cbn [bind]; try discriminate.
  destruct (splice _ _ _) as [l| | | |]; cbn [bind]; try discriminate. destruct l as [|b' l]; [discriminate|].
  destruct (li_cmp2 _ _ _ _) as [k| | | |]; cbn [bind]; try discriminate. intro E. injection E as _ <- _. auto.
Qed.

Lemma iteration_keeps i s f j t : iteration L i s = Ok (f, j, t) -> i_saf j = i_saf i /\ i_trk j = i_trk i.
Proof.
  unfold iteration. destruct (zorich L i s) as [[[f1 i1] s1]| | | |] eqn:E1; cbn [bind]; try discriminate.
  apply zorich_keeps in E1. destruct f1; [intro E; injection E as _ <- _; exact E1|].
  destruct (zorich L (iet_swap i1) s1) as [[[f2 i2] s2]| | | |] eqn:E2; cbn [bind]; try discriminate.
  apply zorich_keeps in E2. intro E. injection E as _ <- _. cbn in *. destruct E1, E2. split; congruence.
Qed.
End Keep.

Section RatioLink.
Context {T : Type} {O : LenOps T} {W : MixedLaws T}.
Context {T' : Type} {O' : LenOps T'} {W' : LenLaws T'}.
Variable c : R.
Hypothesis Hc : (0 < c)%R.
Variable A : label -> Prop.

Notation near := (@Ratio.near T O W T' O' W' c A None).
Notation irel := (@RatioIet.irel T T' A).
Notation trel := (@RatioIet.trel T O W T' O' W' c A).

(** The second IET is in a good state.  The tracker of the first one corresponds to some
    tracker of the second type that would also be good; if the lengths are not multiples of
    one length, it is the tracker of the second IET. *)
Record link (st : Prop) (i : iet T) (i' : iet T') (b' : slen T') : Prop := {
  lk_wf : wf i' b';
  lk_cache : cache_ok i' b';
  lk_trk : trk_ok st i' b';
  lk_short : forall u, i_saf i = Some u -> length u = 0 -> comm i' b';
  lk_shadow : exists k, trel (i_trk i) k /\ trk_ok st (set_trk i' k) b' /\ (comm i' b' \/ k = i_trk i');
}.

Lemma trk_mono {U : Type} {OU : LenOps U} {WU : LenLaws U} (P Q : Prop) (i : iet U) s : (Q -> P) -> trk_ok P i s -> trk_ok Q i s.
Proof.
  intros H [G|[G|(e1 & G1 & G2 & G3 & G4 & G5 & G6 & G7 & G8)]]; [left; exact G | right; left; exact G|].
  right; right. exists e1. repeat (split; [assumption|]). intro q. apply G8, H, q.
Qed.

Lemma link_mono (P Q : Prop) i i' b' : (Q -> P) -> link P i i' b' -> link Q i i' b'.
Proof.
  intros H [H1 H2 H3 H4 (k & K1 & K2 & K3)]. constructor; auto.
  - exact (trk_mono P Q _ _ H H3).
  - exists k. split; [exact K1|]. split; [exact (trk_mono P Q _ _ H K2)|exact K3].
Qed.

Lemma link_good i i' b' : link True i i' b' -> good i' b'.
Proof. intros []. repeat split; auto; apply lk_wf0. Qed.

Lemma comm_rows (i j : iet T') b b' : incl (i_top j) (i_top i) -> (forall l, In l (i_top j) -> nth_error (sl_lens b') l = nth_error (sl_lens b) l) -> comm i b -> comm j b'.
Proof.
  intros I E (u & Hu & H). exists u. split; [exact Hu|]. intros a Ha. cbn in Ha. destruct (H a) as (n & Hn); [apply I, Ha|]. exists n.
  rewrite <- Hn. cbn. apply lamR_agree. apply E. exact Ha.
Qed.

(** ** The SAF invariant *)

Lemma link_saf st i i' b b' : irel i i' -> near b b' -> link st i i' b' ->
  rres (fun p p' => vis0 (fst p) = vis0 (fst p') /\ irel (snd p) (snd p') /\ link st (snd p) (snd p') b' /\
    (length (fst p) = 0 -> comm (snd p') b') /\ (length (fst p') = 0 -> comm (snd p') b'))
    (iet_saf i b) (iet_saf i' b').
Proof.
  intros H B L. pose proof (lk_wf _ _ _ _ L) as Wi'. assert (S : sl_stack b' = []) by apply Wi'.
  eapply rres_mono; [apply rres_eqn; exact (rel_saf c Hc A i i' b b' H B S)|].
  intros [u j] [v j'] ((V & J & Cs & Ej') & _ & Es). cbn [fst snd] in *.
  assert (Lv : length v = 0 -> comm j' b').
  { intro Z. rewrite Ej'. apply (comm_rows i' _ b' b'); [apply incl_refl|auto|].
    rewrite (iet_saf_ok i' b' Wi' (lk_cache _ _ _ _ L)) in Es. injection Es as Ev _.
    assert (E : length v = length (pairs (l_deg T'))).
    { rewrite <- Ev. unfold saf_now. destruct (i_swap i'); [rewrite vneg_length|]; unfold saf_of, saf_vector; apply map_length. }
    rewrite E in Z. apply pairs_empty in Z. pose proof (@LenT.deg_pos T' O' W') as D.
    apply (degree_one i' b' Wi'). lia. }
  split; [exact V|]. split; [exact J|]. split; [|split; [|exact Lv]].
  - assert (Ok' : cache_ok j' b').
    { rewrite (iet_saf_ok i' b' Wi' (lk_cache _ _ _ _ L)) in Es. injection Es as _ <-. reflexivity. }
    assert (Et : i_trk j = i_trk i) by (destruct Cs as [(-> & _)|(_ & -> & _)]; reflexivity).
    destruct L as [H1 H2 H3 H4 H5]. rewrite Ej' in *. constructor; auto.
    + intros w Ew Z. apply (comm_rows i' _ b' b'); [apply incl_refl|auto|]. destruct Cs as [(-> & Eu & _)|(_ & -> & G)].
      * rewrite Eu in Ew. injection Ew as ->. exact (H4 _ Eu Z).
      * injection Ew as <-. exact (G Z).
    + rewrite Et. exact H5.
  - intro Z. rewrite Ej'. apply (comm_rows i' _ b' b'); [apply incl_refl|auto|]. destruct Cs as [(_ & Eu & _)|(_ & _ & G)].
    + exact (lk_short _ _ _ _ L _ Eu Z).
    + exact (G Z).
Qed.

(** ** The tracker *)

Lemma core_shadow i' b' k : wf i' b' -> cache_ok i' b' -> trk_ok True (set_trk i' k) b' -> comm i' b' ->
  exists k2, tracker_loop k i' b' = Ok (false, k2) /\ trk_ok False (set_trk i' k2) b'.
Proof.
  intros H1 H2 H3 H4. destruct (core_track (set_trk i' k) b') as (k2 & E & K); [repeat split; auto; apply H1|].
  exists k2. split; [exact E|apply K].
Qed.

Lemma link_track i i' b b' saf0 : irel i i' -> near b b' -> link True i i' b' ->
  rres (fun p p' => fst p = fst p' /\ irel (snd p) (snd p') /\ link (fst p = true) (snd p) (snd p') b') (tracking_at saf0 i b) (tracking_at saf0 i' b').
Proof.
  intros H B Lk. unfold tracking_at.
  destruct saf0; [|split; [reflexivity|split; [exact H|apply (link_mono True); auto]]].
  apply (rres_bind _ _ _ _ _ _ (link_saf True i i' b b' H B Lk)). intros [u j] [v j'] (_ & J & Lj & C1 & C2). cbn [fst snd] in *.
  assert (Keep : forall k k', trel k k' -> irel (set_trk j k) (set_trk j' k')) by (intros k k' _; destruct J; constructor; auto).
  destruct Lj as [H1 H2 H3 H4 (k & K1 & K2 & K3)].
  assert (Free : comm j' b' \/ ~ comm j' b') by apply Classical_Prop.classic.
  destruct Free as [Cm|Nc].
  - (* both trackers answer no, if they are asked *)
    assert (X : exists kt ks, trel kt ks /\ trk_ok False (set_trk j' ks) b' /\
      (if length u =? 0 then Ok (false, j) else '(r, k) <- tracker_loop (i_trk j) j b ;; Ok (r, set_trk j k)) = Ok (false, set_trk j kt)).
    { destruct (length u =? 0).
      - exists (i_trk j), k. split; [exact K1|]. split; [exact (trk_mono True False _ _ (fun _ => I) K2)|]. destruct j; reflexivity.
      - destruct (core_shadow j' b' k H1 H2 K2 Cm) as (k2 & E2 & K4).
        pose proof (rel_tracker c Hc A j j' b b' (i_trk j) k J B K1) as R. rewrite E2 in R.
        destruct (tracker_loop (i_trk j) j b) as [[r kt]| | | |]; cbn [rres] in R; try contradiction. destruct R as [Er Kt]. cbn [fst snd] in *. subst r.
        exists kt, k2. auto. }
    assert (Y : exists ku, trk_ok False (set_trk j' ku) b' /\
      (if length v =? 0 then Ok (false, j') else '(r, k) <- tracker_loop (i_trk j') j' b' ;; Ok (r, set_trk j' k)) = Ok (false, set_trk j' ku)).
    { destruct (length v =? 0).
      - exists (i_trk j'). split; [|destruct j'; reflexivity]. replace (set_trk j' (i_trk j')) with j' by (destruct j'; reflexivity).
        exact (trk_mono True False _ _ (fun _ => I) H3).
      - destruct (core_shadow j' b' (i_trk j') H1 H2) as (k2 & E2 & K4); [|exact Cm|].
        + replace (set_trk j' (i_trk j')) with j' by (destruct j'; reflexivity). exact H3.
        + rewrite E2. exists k2. split; [exact K4|reflexivity]. }
    destruct X as (kt & ks & X1 & X2 & ->). destruct Y as (ku & Y1 & ->). cbn [rres fst snd].
    split; [reflexivity|]. split; [destruct J; constructor; auto|]. apply (link_mono False); [discriminate|]. constructor; auto.
    exists ks. split; [exact X1|]. split; [exact X2|]. left. exact Cm.
  - destruct K3 as [K3| ->]; [contradiction|].
    destruct (Nat.eqb_spec (length u) 0) as [Z|_]; [exfalso; apply Nc, C1, Z|].
    destruct (Nat.eqb_spec (length v) 0) as [Z|_]; [exfalso; apply Nc, C2, Z|].
    apply (rres_bind _ _ _ _ _ _ (rres_eqn _ _ _ (rel_tracker c Hc A j j' b b' _ _ J B K1))).
    intros [r kt] [r' ku] ((Er & Kt) & _ & Eu). cbn [fst snd] in *. subst r'. split; [reflexivity|]. split; [apply Keep; exact Kt|].
    destruct (track_ok j' b' H1 H3) as (r2 & k2 & E2 & G1 & G2). rewrite Eu in E2. injection E2 as <- <-.
    assert (G : trk_ok (r = true) (set_trk j' ku) b').
    { destruct r; [apply (trk_mono True _ _ _ (fun _ => I)); apply G2; reflexivity|]. refine (trk_mono False _ _ _ _ G1). discriminate. }
    constructor; auto. exists ku. split; [exact Kt|]. split; [exact G|]. right. reflexivity.
Qed.

(** ** The induction *)

Lemma comm_reach i' b' i2 b2 : wf i' b' -> reach i' b' i2 b2 -> comm i' b' -> comm i2 b2.
Proof.
  intros H R (u & Hu & G). exists u. split; [exact Hu|]. exact (path_integral u _ _ (wf_proper _ _ H) (r_path _ _ _ _ R) G).
Qed.

Lemma reach_trk (i' : iet T') b' i2 b2 k : reach i' b' i2 b2 -> reach (set_trk i' k) b' (set_trk i2 k) b2.
Proof. intros []. constructor; auto. Qed.

Lemma link_reach (P Q : Prop) i i' b' i2 i2' b2 : link P i i' b' -> reach i' b' i2' b2 ->
  i_saf i2 = i_saf i -> i_trk i2 = i_trk i -> i_trk i2' = i_trk i' -> (Q -> P \/ (ltot i2' b2 < ltot i' b')%R) -> link Q i2 i2' b2.
Proof.
  intros [H1 H2 H3 H4 (k & K1 & K2 & K3)] R Es Et Et' HQ. constructor.
  - exact (r_wf _ _ _ _ R).
  - exact (r_cache _ _ _ _ R).
  - exact (trk_extend P Q i' b' i2' b2 H1 H3 R Et' HQ).
  - intros u Eu Z. apply (comm_reach i' b' i2' b2 H1 R). rewrite Es in Eu. exact (H4 u Eu Z).
  - exists k. rewrite Et. split; [exact K1|]. split.
    + exact (trk_extend P Q (set_trk i' k) b' (set_trk i2' k) b2 H1 K2 (reach_trk _ _ _ _ k R) eq_refl HQ).
    + destruct K3 as [K3|K3]; [left; exact (comm_reach i' b' i2' b2 H1 R K3)|right; congruence].
Qed.

Lemma link_iteration i i' b' i2 f i2' b2 : link False i i' b' -> iteration sample_lens i' b' = Ok (f, i2', b2) ->
  i_saf i2 = i_saf i -> i_trk i2 = i_trk i -> link (f = false) i2 i2' b2.
Proof.
  intros Lk E Es Et. destruct (iteration_ok i' b' (lk_wf _ _ _ _ Lk) (lk_cache _ _ _ _ Lk)) as (f' & j & t & E' & R & Et' & _ & _ & D).
  rewrite E in E'. injection E' as <- <- <-. apply (link_reach False (f = false) i i' b' i2 i2' b2 Lk R Es Et Et').
  intro Ef. right. exact (D Ef).
Qed.

Lemma link_zorich i i' b' i2 f i2' b2 : link True i i' b' -> zorich sample_lens i' b' = Ok (f, i2', b2) ->
  i_saf i2 = i_saf i -> i_trk i2 = i_trk i -> link True i2 i2' b2.
Proof.
  intros Lk E Es Et. destruct (good_zorich i' b' (link_good _ _ _ Lk)) as (f' & j & t & E' & G & R).
  rewrite E in E'. injection E' as <- <- <-. pose proof (proj2 (zorich_keeps _ _ _ _ _ _ E)) as Et'.
  apply (link_reach True True i i' b' i2 i2' b2 Lk R Es Et Et'). intros _. left. exact I.
Qed.

Lemma link_swap i i' b' : link True i i' b' -> link True (iet_swap i) (iet_swap i') b'.
Proof.
  intros Lk. destruct (good_swap i' b' (link_good _ _ _ Lk)) as (G1 & G2 & G3).
  assert (Cs : comm i' b' -> comm (iet_swap i') b').
  { intro Cm. apply (comm_rows i' _ b' b'); [|auto|exact Cm]. intros l Hl. cbn in Hl. destruct Lk as [(_ & Pe & _) _ _ _ _].
    apply (Permutation_in _ (Permutation_sym Pe)). exact Hl. }
  destruct Lk as [H1 H2 H3 H4 (k & K1 & K2 & K3)]. constructor; auto.
  - intros u Eu Z. apply Cs. exact (H4 u Eu Z).
  - exists k. split; [exact K1|]. split; [|destruct K3 as [K3|K3]; [left; apply Cs; exact K3|right; exact K3]].
    assert (Gk : good (set_trk i' k) b') by (repeat split; auto; apply H1). exact (proj2 (proj2 (good_swap _ _ Gk))).
Qed.

(** ** reduce and merge *)

Lemma link_cut st i i' b' k : link st i i' b' -> Spec.invariant_prefix (exch_of i' b') k ->
  link True (left_part i k) (left_part i' k) b' /\ link True (right_part i k) (right_part i' k) b'.
Proof.
  intros [H1 H2 H3 H4 (s & K1 & K2 & K3)] Ip. destruct (good_cut i' b' k st H1 H3 Ip) as [(A1 & A2 & A3) (B1 & B2 & B3)].
  destruct (good_cut (set_trk i' s) b' k st H1 K2 Ip) as [(_ & _ & D3) _].
  split.
  - constructor; auto; [discriminate|]. exists s. split; [exact K1|]. split; [exact D3|].
    destruct K3 as [K3|K3]; [left|right; exact K3]. apply (comm_rows i' _ b' b'); [|auto|exact K3]. cbn. intros l Hl. rewrite <- (firstn_skipn k). apply in_or_app. left. exact Hl.
  - constructor; auto; [discriminate|]. exists tracker_init. split; [apply trel_init|]. split; [exact B3|]. right. reflexivity.
Qed.

Lemma link_merge st i i' b' j j' : link st i i' b' -> heads_equal i' b' -> ~ Spec.reducible (exch_of i' b') ->
  merge_first i = Ok j -> merge_first i' = Ok j' -> link True j j' b'.
Proof.
  intros [H1 H2 H3 H4 (s & K1 & K2 & K3)] He Nr E E'.
  assert (Sz : i_size i' <> 1).
  { intro Z. unfold i_size in Z. unfold merge_first in E'. destruct H1 as (_ & Pe & _). apply Permutation_length in Pe.
    destruct (i_top i') as [|a [|]]; try discriminate. destruct (i_bottom i') as [|b1 [|]]; try discriminate. }
  assert (Ks : i_saf j = i_saf i /\ i_trk j = i_trk i).
  { unfold merge_first in E. destruct (i_top i); [discriminate|]. destruct (i_bottom i); [discriminate|].
    destruct (split_at _ _) as [[p q]|]; [|discriminate]. injection E as <-. auto. }
  destruct Ks as [Es Et].
  destruct (merge_first_ok i' b' H1 H2 He Nr Sz) as (j0 & x & y & E0 & _ & Hx & _ & _ & Ht & _ & Ht' & Wj & Cj & _).
  rewrite E' in E0. injection E0 as <-.
  assert (Sh : i_size j' < i_size i') by (unfold i_size; rewrite Ht; destruct (i_top i'); [discriminate|cbn; lia]).
  assert (Cm : comm i' b' -> comm j' b').
  { apply comm_rows; [|auto]. rewrite Ht. intros l Hl. destruct (i_top i'); [exact Hl|right; exact Hl]. }
  constructor; auto.
  - exact (trk_shrink st True i' b' j' b' H1 H3 Ht' Sh).
  - intros u Eu Z. apply Cm. rewrite Es in Eu. exact (H4 u Eu Z).
  - exists s. rewrite Et. split; [exact K1|]. split.
    + exact (trk_shrink st True (set_trk i' s) b' (set_trk j' s) b' H1 K2 eq_refl Sh).
    + destruct K3 as [K3|K3]; [left; apply Cm; exact K3|right; congruence].
Qed.

(** ** Other changes of the lengths *)

Lemma link_frame i i' b' b2 : link True i i' b' -> sl_stack b2 = [] -> length (sl_lens b2) = length (sl_lens b') ->
  (forall l, In l (i_top i') -> nth_error (sl_lens b2) l = nth_error (sl_lens b') l) -> link True i i' b2.
Proof.
  intros Lk S Le Fr. destruct (good_frame i' b' b2 (link_good _ _ _ Lk) S Le Fr) as (G1 & G2 & G3).
  destruct Lk as [H1 H2 H3 H4 (s & K1 & K2 & K3)]. constructor; auto.
  - intros u Eu Z. apply (comm_rows i' i' b' b2); [apply incl_refl|exact Fr|exact (H4 u Eu Z)].
  - exists s. split; [exact K1|]. split.
    + assert (Gk : good (set_trk i' s) b') by (repeat split; auto; apply H1). exact (proj2 (proj2 (good_frame _ b' b2 Gk S Le Fr))).
    + destruct K3 as [K3|K3]; [left; apply (comm_rows i' i' b' b2); [apply incl_refl|exact Fr|exact K3]|right; exact K3].
Qed.

(** A new IET. *)
Lemma link_new i' b' t bo : good i' b' -> i_trk i' = tracker_init -> link True (mkiet t bo false None tracker_init) i' b'.
Proof.
  intros (G1 & G2 & G3) E. constructor; auto; [discriminate|]. exists tracker_init. split; [apply trel_init|]. split; [apply trk_init; reflexivity|]. right. congruence.
Qed.
End RatioLink.
