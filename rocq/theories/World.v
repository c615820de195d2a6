(** Histories: every IET that a program can obtain is well formed, IETs that share the
    lengths do not disturb each other, and no call fails unexpectedly. *)
From Coq Require Import Reals Lra Permutation.
From Verif Require Import Base QcTac LenT FM Subspace Lengths IET Api SpecLin ZorichProof SubspaceProof Saf
  Dyn Saddle ReduceProof Bosh Path Similar InduceProof InduceCons.
From Verif Require Import Spec.

Local Open Scope nat_scope.

Section World.
Context {T : Type} {O : LenOps T} {W : LenLaws T}.

(** ** Changing lengths of foreign labels *)

Definition patch (top : list label) (f g : label -> R) (c : label) : R := if memb c top then f c else g c.

Lemma memb_In c l : memb c l = true <-> In c l.
Proof.
  unfold memb. rewrite existsb_exists. split.
  - intros (x & H & E). apply Nat.eqb_eq in E. subst. exact H.
  - intros H. exists c. split; [exact H | apply Nat.eqb_refl].
Qed.

Lemma patch_in top f g c : In c top -> patch top f g c = f c.
Proof. intros H. unfold patch. rewrite (proj2 (memb_In c top) H). reflexivity. Qed.

Lemma patch_out top f g c : ~ In c top -> patch top f g c = g c.
Proof.
  intros H. unfold patch. destruct (memb c top) eqn:E; [|reflexivity]. apply memb_In in E. contradiction.
Qed.

Lemma path_patch e e' g : proper e -> rauzy_path e e' ->
  rauzy_path (mkexch (e_top e) (e_bot e) (patch (e_top e) (e_len e) g))
             (mkexch (e_top e') (e_bot e') (patch (e_top e') (e_len e') g)).
Proof.
  intros P H. revert P.
  assert (Eq : forall top top' f, Permutation top top' -> forall c, patch top f g c = patch top' f g c).
  { intros top top' f Hp c. unfold patch. destruct (memb c top) eqn:E1, (memb c top') eqn:E2; try reflexivity.
    - apply memb_In in E1. rewrite Hp in E1. apply memb_In in E1. congruence.
    - apply memb_In in E2. rewrite <- Hp in E2. apply memb_In in E2. congruence. }
  induction H as [e e' (A & B & C) | e e1 e' H H' IH | e e1 e' H H' IH]; intros P.
  - apply path_refl. split; [exact A|]. split; [exact B|]. intros c. simpl. rewrite A. unfold patch.
    destruct (memb c (e_top e')); [apply C | reflexivity].
  - pose proof (rauzy_step_proper _ _ P H) as P1. refine (path_top _ _ _ _ (IH P1)).
    destruct H as (a & b & X & Y1 & Y2 & Ht & Hb & Hl & E & E2 & Ha & Hc).
    assert (Hia : In a (e_top e)) by (rewrite Ht; left; reflexivity).
    assert (Hib : In b (e_top e)) by (destruct P as (_ & Pe & _); rewrite Pe, Hb; left; reflexivity).
    exists a, b, X, Y1, Y2. simpl. rewrite E, !patch_in by assumption. repeat (split; [assumption || reflexivity|]).
    intros c Nc. unfold patch. rewrite (Hc c Nc). reflexivity.
  - destruct (bot_step_facts _ _ P H) as [_ P1].
    assert (L : Permutation (e_top e) (e_top e1)).
    { apply path_labels; [exact P|]. apply path_bot with e1; [exact H | apply path_refl, same_exch_refl]. }
    refine (path_bot _ _ _ _ (IH P1)).
    destruct H as (a & b & X & Y1 & Y2 & Ht & Hb & Hl & E & E2 & Ha & Hc). simpl in *.
    assert (Hia : In a (e_top e)) by (destruct P as (_ & Pe & _); rewrite Pe, Ht; left; reflexivity).
    assert (Hib : In b (e_top e)) by (rewrite Hb; left; reflexivity).
    exists a, b, X, Y1, Y2. simpl. rewrite <- !(Eq _ _ _ L), !patch_in by assumption.
    repeat (split; [assumption || reflexivity|]).
    intros c Nc. rewrite <- (Eq _ _ _ L). unfold patch. rewrite (Hc c Nc). reflexivity.
Qed.

Lemma lamR_agree (s s' : slen T) c : nth_error (sl_lens s') c = nth_error (sl_lens s) c -> lamR s' c = lamR s c.
Proof. unfold lamR. intros ->. reflexivity. Qed.

Lemma total_agree f g l : (forall c, In c l -> f c = g c) -> total f l = total g l.
Proof. apply total_ext. Qed.

(** An IET does not notice changes to labels it does not use. *)
Lemma good_frame i s s' : good i s -> sl_stack s' = [] -> length (sl_lens s') = length (sl_lens s) ->
  (forall c, In c (i_top i) -> nth_error (sl_lens s') c = nth_error (sl_lens s) c) -> good i s'.
Proof.
  intros (H & C & K) Hst Hlen Hag. pose proof H as (N & Pe & Ne & Hpos & Hst0).
  assert (HR : forall c, In c (i_top i) -> lamR s' c = lamR s c) by (intros c Hc; apply lamR_agree, Hag, Hc).
  split; [|split].
  - repeat (split; [assumption|]). split; [|exact Hst]. intros l Hl. destruct (Hpos l Hl) as (x & Ex & Px).
    exists x. rewrite (Hag l Hl). auto.
  - unfold cache_ok in *. destruct (i_saf i); [|exact C]. rewrite C. unfold saf_now.
    rewrite (saf_of_ext (lamT s) (lamT s') (i_top i) (i_bottom i)); [reflexivity | | exact Pe].
    intros a Ha. unfold lamT. rewrite (Hag a Ha). reflexivity.
  - destruct K as [K|[K|(e1 & G1 & G2 & G3 & G4 & G5 & G6 & G7 & G8)]]; [left; exact K | right; left; exact K|].
    right; right.
    assert (HP : Permutation (e_top e1) (i_top i)).
    { destruct G7 as [G|G]; pose proof (path_labels _ _ G1 G) as L; cbn [exch_of flip e_top e_bot] in L; [exact L | rewrite L, Pe; reflexivity]. }
    exists (mkexch (e_top e1) (e_bot e1) (patch (e_top e1) (e_len e1) (lamR s'))). cbn [e_top e_bot e_len].
    assert (Tot : total (patch (e_top e1) (e_len e1) (lamR s')) (e_top e1) = total (e_len e1) (e_top e1))
      by (apply total_ext; intros c Hc; apply patch_in; exact Hc).
    split. { destruct G1 as (A & B & D). repeat split; auto. intros a Ha. cbn in *. rewrite patch_in by exact Ha. apply D, Ha. }
    do 3 (split; [assumption|]).
    split. { intros a Ha. rewrite <- G2 in Ha. rewrite patch_in by exact Ha. apply G5. rewrite <- G2. exact Ha. }
    split; [congruence|].
    split.
    { destruct G7 as [G|G]; [left|right]; pose proof (path_patch _ _ (lamR s') G1 G) as Q; cbn [exch_of flip e_top e_bot e_len] in Q;
        refine (rauzy_path_trans _ _ _ Q (path_refl _ _ _)); (split; [reflexivity|]; split; [reflexivity|]); intros c; cbn;
        unfold patch; destruct (memb c _) eqn:E; try reflexivity; apply memb_In in E; symmetry; apply HR; [exact E | rewrite Pe; exact E]. }
    intros st. specialize (G8 st). rewrite Tot. unfold ltot in *.
    rewrite (total_ext (lamR s') (lamR s) (i_top i) HR). exact G8.
Qed.

(** ** The effect of one call *)

Record effect (i : iet T) (s : slen T) (i' : iet T) (extra : list (iet T)) (s' : slen T) : Prop := {
  ef_good : forall j, In j (i' :: extra) -> good j s';
  ef_nodup : NoDup (used (i' :: extra));
  ef_incl : incl (used (i' :: extra)) (i_top i);
  ef_len : length (sl_lens s') = length (sl_lens s);
  ef_frame : forall c, ~ In c (i_top i) -> nth_error (sl_lens s') c = nth_error (sl_lens s) c;
}.

Lemma effect_same i s i' : good i' s -> Permutation (i_top i') (i_top i) -> effect i s i' [] s.
Proof.
  intros G E. split; auto.
  - intros j [<-|[]]; exact G.
  - simpl. rewrite app_nil_r. apply G.
  - simpl. rewrite app_nil_r. intros c Hc. rewrite <- E. exact Hc.
Qed.

Lemma effect_cut i s i1 s' k : wf i s -> reach i s i1 s' -> invariant_prefix (exch_of i1 s') k ->
  good (left_part i1 k) s' -> good (right_part i1 k) s' ->
  effect i s (left_part i1 k) [right_part i1 k] s'.
Proof.
  intros H R Hk G1 G2. pose proof (reach_labels _ _ _ _ H R) as L.
  assert (E : used [left_part i1 k; right_part i1 k] = i_top i1).
  { simpl. rewrite app_nil_r. apply firstn_skipn. }
  split.
  - intros j [<-|[<-|[]]]; assumption.
  - rewrite E. apply (r_wf _ _ _ _ R).
  - rewrite E. intros c Hc. rewrite L. exact Hc.
  - apply R.
  - apply R.
Qed.

Lemma next_label_cases x l :
  (In x l /\ not_last l x /\ exists y, next_label x l = Some (Some y)) \/
  (In x l /\ ~ not_last l x /\ next_label x l = Some None) \/
  (~ In x l /\ next_label x l = None).
Proof.
  unfold next_label. destruct (split_at x l) as [[p q]|] eqn:E.
  - apply split_at_some in E. destruct E as [-> Np].
    assert (Hx : In x (p ++ x :: q)) by (apply in_or_app; right; left; reflexivity). destruct q as [|y q].
    + right; left. split; [exact Hx|]. split; [|reflexivity]. intros (X & c & Y & E').
      apply (f_equal (fun l => nth_error l (length X))) in E' as E1.
      rewrite (nth_error_app2 X), Nat.sub_diag in E1 by lia. cbn in E1.
      destruct (Nat.lt_ge_cases (length X) (length p)) as [L|L].
      * rewrite nth_error_app1 in E1 by exact L. apply nth_error_In in E1. contradiction.
      * apply (f_equal (@length _)) in E'. rewrite !app_length in E'. simpl in E'. lia.
    + left. split; [exact Hx|]. split; [exists p, y, q; reflexivity|]. exists y. reflexivity.
  - right; right. apply split_at_none in E. auto.
Qed.

Lemma op_ok o i s : good i s -> op_legal o ->
  failure o i (run_op o i s) \/
  exists i' extra s', run_op o i s = Ok (i', extra, s') /\ effect i s i' extra s'.
Proof.
  intros G Lg. pose proof G as (H & C & K). destruct o as [| | |fuel limit| | | |t b]; cbn [run_op failure].
  - right. exists (iet_swap i), [], s. split; [reflexivity|]. apply effect_same; [apply good_swap, G|].
    symmetry. apply H.
  - right. destruct (good_zorich i s G) as (f & i' & s' & E & G' & R). rewrite E. cbn [bind]. exists i', [], s'.
    split; [reflexivity|]. pose proof (reach_labels _ _ _ _ H R) as L. split.
    + intros j [<-|[]]; exact G'.
    + simpl. rewrite app_nil_r. apply G'.
    + simpl. rewrite app_nil_r. intros c Hc. rewrite L. exact Hc.
    + apply R.
    + apply R.
  - right. destruct (reduce_ok i s H) as [(k & Hk & _ & E)|[_ E]]; rewrite E; cbn [bind].
    + exists (left_part i k), [right_part i k], s. split; [reflexivity|].
      destruct (good_cut i s k True H K Hk) as [G1 G2]. apply effect_cut; auto. apply reach_refl; assumption.
    + exists i, [], s. split; [reflexivity|]. apply effect_same; auto.
  - destruct (induce_ok limit fuel i s (proj2 Lg) G) as [(E & A)|[(E & A)|(st & i' & s' & E & G' & P)]]; rewrite E; cbn [bind].
    + left. left. auto.
    + left. right. auto.
    + right. exists i', (match is_additional st with Some j => [j] | None => [] end), s'. split; [reflexivity|].
      unfold induce_post in P.
      assert (Simple : reach i s i' s' -> is_additional st = None -> effect i s i' (match is_additional st with Some j => [j] | None => [] end) s').
      { intros R ->. pose proof (reach_labels _ _ _ _ H R) as L. split.
        + intros j [<-|[]]; exact G'.
        + simpl. rewrite app_nil_r. apply G'.
        + simpl. rewrite app_nil_r. intros c Hc. rewrite L. exact Hc.
        + apply R.
        + apply R. }
      destruct (is_result st).
      * destruct P as (_ & R & _ & _ & _ & _ & Est). apply Simple; [exact R | rewrite Est; reflexivity].
      * destruct P as (_ & Est & -> & ->). apply Simple; [apply reach_refl; assumption | rewrite Est; reflexivity].
      * destruct P as (i1 & k & b & t & _ & R & Hk & _ & -> & _ & _ & -> & G2). cbn [is_additional]. apply effect_cut; assumption.
      * destruct P as (i1 & a & b & _ & R & _ & Ha & _ & _ & _ & Htl & _ & _ & ->). cbn [is_additional].
        pose proof (reach_labels _ _ _ _ H R) as L. split.
        -- intros j [<-|[]]; exact G'.
        -- simpl. rewrite app_nil_r. apply G'.
        -- simpl. rewrite app_nil_r, Htl. intros c Hc. rewrite L. destruct (i_top i1); [destruct Hc | right; exact Hc].
        -- apply R.
        -- apply R.
      * destruct P as (_ & R & _ & _ & _ & _ & Est). apply Simple; [exact R | rewrite Est; reflexivity].
      * destruct P as (_ & R & _ & _ & Est). apply Simple; [exact R | rewrite Est; reflexivity].
  - right. destruct (saf_invariant_ok i s H C) as (v & E & C'). rewrite E. cbn [bind].
    exists (set_saf i (Some v)), [], s. split; [reflexivity|]. apply effect_same; [apply good_set_saf; assumption | reflexivity].
  - right. destruct (bosh_no_periodic_ok i s H C) as (r & v & E & C' & _). rewrite E. cbn [bind].
    exists (set_saf i (Some v)), [], s. split; [reflexivity|]. apply effect_same; [apply good_set_saf; assumption | reflexivity].
  - right. destruct (bosh_no_saddle_ok i s H) as (r & E & _). rewrite E. cbn [bind].
    exists i, [], s. split; [reflexivity|]. apply effect_same; auto.
  - destruct (next_label_cases t (i_top i)) as [(It & Nt & y & Et)|[(It & Nt & Et)|(It & Et)]].
    2: { left. left. split; [|left; auto]. unfold bosh_no_saddle2, bosh_values. rewrite Et. reflexivity. }
    2: { left. right. split; [|left; auto]. unfold bosh_no_saddle2, bosh_values. rewrite Et. reflexivity. }
    destruct (next_label_cases b (i_bottom i)) as [(Ib & Nb & y' & Eb)|[(Ib & Nb & Eb)|(Ib & Eb)]].
    2: { left. left. split; [|right; auto]. unfold bosh_no_saddle2, bosh_values. rewrite Et, Eb. reflexivity. }
    2: { left. right. split; [|right; auto]. unfold bosh_no_saddle2, bosh_values. rewrite Et, Eb. reflexivity. }
    right. destruct (bosh_no_saddle2_ok i s t b H Nt Nb) as (r & E & _). rewrite E. cbn [bind].
    exists i, [], s. split; [reflexivity|]. apply effect_same; auto.
Qed.

(** ** Histories *)

Lemma used_app (l l' : list (iet T)) : used (l ++ l') = used l ++ used l'.
Proof. apply flat_map_app. Qed.

Lemma used_cons (i : iet T) l : used (i :: l) = i_top i ++ used l.
Proof. reflexivity. Qed.

Lemma in_used (i : iet T) l c : In i l -> In c (i_top i) -> In c (used l).
Proof. intros A B. apply in_flat_map. exists i. auto. Qed.

Lemma NoDup_app_intro {A} (l m : list A) : NoDup l -> NoDup m -> (forall x, In x l -> ~ In x m) -> NoDup (l ++ m).
Proof.
  induction l as [|x l IH]; intros Hl Hm Hd; simpl; [exact Hm|]. inversion_clear Hl. constructor.
  - rewrite in_app_iff. intros [G|G]; [contradiction | exact (Hd x (or_introl eq_refl) G)].
  - apply IH; auto. intros y Hy. apply Hd. right; exact Hy.
Qed.

Lemma NoDup_app_inv {A} (l m : list A) : NoDup (l ++ m) -> NoDup l /\ NoDup m /\ (forall x, In x l -> ~ In x m).
Proof.
  induction l as [|x l IH]; simpl; intros H; [repeat split; [constructor | exact H | auto]|].
  inversion_clear H. destruct (IH H1) as (A1 & A2 & A3). rewrite in_app_iff in H0. repeat split; auto.
  - constructor; tauto.
  - intros y [<-|Hy]; [tauto | auto].
Qed.

Theorem history_ok l s : history l s ->
  (forall i, In i l -> good i s) /\ NoDup (used l) /\ sl_stack s = [].
Proof.
  induction 1 as [ls|l s top bottom i Hh (IG & IN & IS) (V1 & V2 & V3 & V4) Hd E
                 |l1 i l2 s o i' extra s' Hh (IG & IN & IS) Lg E].
  - split; [intros i []|]. split; [constructor | reflexivity].
  - assert (Gi : good i s).
    { rewrite (iet_make_ok s top bottom V1 V2 V3 V4) in E. injection E as <-. apply good_make; assumption. }
    assert (Et : i_top i = top).
    { rewrite (iet_make_ok s top bottom V1 V2 V3 V4) in E. injection E as <-. reflexivity. }
    split; [intros j [<-|Hj]; auto|]. split; [|exact IS]. rewrite used_cons, Et. apply NoDup_app_intro; auto.
  - assert (Gi : good i s) by (apply IG; apply in_or_app; right; left; reflexivity).
    assert (Ef : effect i s i' extra s').
    { destruct (op_ok o i s Gi Lg) as [F|(? & ? & ? & E' & F)].
      - exfalso. rewrite E in F. destruct o; cbn in F; try contradiction; destruct F as [[F _]|[F _]]; discriminate.
      - rewrite E in E'. injection E' as -> -> ->. exact F. }
    rewrite used_app, used_cons in IN.
    destruct (NoDup_app_inv _ _ IN) as (N1 & N2 & D1). destruct (NoDup_app_inv _ _ N2) as (N3 & N4 & D2).
    assert (St : sl_stack s' = []) by (apply (ef_good _ _ _ _ _ Ef i'); left; reflexivity).
    assert (Fr : forall j, In j (l1 ++ l2) -> good j s').
    { intros j Hj. apply (good_frame j s).
      - apply IG. rewrite in_app_iff in *. simpl. tauto.
      - exact St.
      - apply Ef.
      - intros c Hc. apply Ef. intros Hci. apply in_app_or in Hj. destruct Hj as [Hj|Hj].
        + apply (D1 c (in_used _ _ _ Hj Hc)). apply in_or_app. left. exact Hci.
        + exact (D2 c Hci (in_used _ _ _ Hj Hc)). }
    split; [|split; [|exact St]].
    + intros j Hj. rewrite in_app_iff in Hj. simpl in Hj. rewrite in_app_iff in Hj.
      destruct Hj as [Hj|[Hj|[Hj|Hj]]].
      * apply Fr. apply in_or_app. auto.
      * apply (ef_good _ _ _ _ _ Ef). left. exact Hj.
      * apply (ef_good _ _ _ _ _ Ef). right. exact Hj.
      * apply Fr. apply in_or_app. auto.
    + change (i' :: extra ++ l2) with ((i' :: extra) ++ l2). rewrite !used_app.
      apply NoDup_app_intro; [exact N1 | |].
      * apply NoDup_app_intro; [apply Ef | exact N4|]. intros x Hx. apply D2. apply (ef_incl _ _ _ _ _ Ef), Hx.
      * intros x Hx Hx'. apply (D1 x Hx). rewrite in_app_iff in *. destruct Hx' as [G|G]; [left; apply (ef_incl _ _ _ _ _ Ef), G | right; exact G].
Qed.

Lemma obtainable_good i s : obtainable i s -> good i s.
Proof. intros (l & H & Hi). apply (history_ok l s H), Hi. Qed.

End World.
