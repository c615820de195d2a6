(** Induction on the lengths of a decomposition: the lengths and the IETs evolve as with
    plain lengths, and the connections follow the elementary steps. *)
From Coq Require Import Reals Lra Permutation.
From Verif Require Import Base QcTac LenT FM Subspace Lengths IET Decomp Api.
From Verif Require Import Spec Dyn Saddle Path ZorichProof ReduceProof Saf InduceProof.
Open Scope nat_scope.

(** What an elementary step does to the connections: the first intervals are [a] (the
    longer one, in the top row iff [onTop]) and [b]. *)
Definition conn_move (onTop : bool) (a b : label) (f : label -> conns) : label -> conns :=
  let cb := f b in
  let ca := f a in
  let cb' :=
    if onTop then mkconns (topLeft cb) (topRight cb) (bottomLeft cb ++ topLeft ca ++ bottomLeft ca) (bottomRight cb)
    else mkconns (topLeft ca ++ bottomLeft ca ++ topLeft cb) (topRight cb) (bottomLeft cb) (bottomRight cb) in
  upd (upd f b cb') a (mkconns [] (topRight ca) [] (bottomRight ca)).

Lemma conn_subtract_move onTop a b f : a <> b -> conn_subtract onTop a b f = Ok (conn_move onTop a b f).
Proof. intros H. unfold conn_subtract. destruct (Nat.eqb_spec a b); [contradiction | reflexivity]. Qed.

Lemma conn_move_ext onTop a b f g l : (forall l, f l = g l) -> conn_move onTop a b f l = conn_move onTop a b g l.
Proof. intros H. unfold conn_move, upd. rewrite !H. reflexivity. Qed.

Lemma conn_move_empty onTop a b f l : a <> b -> topLeft (f a) = [] -> bottomLeft (f a) = [] ->
  conn_move onTop a b f l = f l.
Proof.
  intros Hab H1 H2. unfold conn_move, upd. rewrite H1, H2.
  destruct (Nat.eqb_spec l a) as [->|Ha].
  - destruct (f a); simpl in *; congruence.
  - destruct (Nat.eqb_spec l b) as [->|Hb]; [|reflexivity].
    destruct onTop, (f b); simpl; rewrite ?app_nil_r; reflexivity.
Qed.

(** A sequence of elementary steps together with what they do to the connections. *)
Inductive cpath : exch -> (label -> conns) -> exch -> (label -> conns) -> Prop :=
| cp_refl e e' f f' : same_exch e e' -> (forall l, f' l = f l) -> cpath e f e' f'
| cp_top e f e1 f1 e' f' a b :
    rauzy_step e e1 -> hd_error (e_top e) = Some a -> hd_error (e_bot e) = Some b ->
    (forall l, f1 l = conn_move true a b f l) -> cpath e1 f1 e' f' -> cpath e f e' f'
| cp_bot e f e1 f1 e' f' a b :
    rauzy_step (flip e) (flip e1) -> hd_error (e_bot e) = Some a -> hd_error (e_top e) = Some b ->
    (forall l, f1 l = conn_move false a b f l) -> cpath e1 f1 e' f' -> cpath e f e' f'.

Lemma cpath_path e f e' f' : cpath e f e' f' -> rauzy_path e e'.
Proof.
  induction 1 as [e e' f f' S _ | e f e1 f1 e' f' a b S _ _ _ _ IH | e f e1 f1 e' f' a b S _ _ _ _ IH].
  - apply path_refl, S.
  - exact (path_top e e1 e' S IH).
  - exact (path_bot e e1 e' S IH).
Qed.

Lemma cpath_start e0 f0 e f e' f' : same_exch e0 e -> (forall l, f l = f0 l) -> cpath e f e' f' -> cpath e0 f0 e' f'.
Proof.
  intros S F H. destruct H as [e e' f f' S' F' | e f e1 f1 e' f' a b R A B M H | e f e1 f1 e' f' a b R A B M H].
  - apply cp_refl; [exact (same_exch_trans _ _ _ S S')|]. intros l. rewrite F'. apply F.
  - apply (cp_top e0 f0 e1 f1 e' f' a b).
    + exact (rauzy_step_same _ _ _ S R).
    + destruct S as (-> & _ & _). exact A.
    + destruct S as (_ & -> & _). exact B.
    + intros l. rewrite M. apply conn_move_ext, F.
    + exact H.
  - apply (cp_bot e0 f0 e1 f1 e' f' a b).
    + exact (rauzy_step_same _ _ _ (same_exch_flip _ _ S) R).
    + destruct S as (_ & -> & _). exact A.
    + destruct S as (-> & _ & _). exact B.
    + intros l. rewrite M. apply conn_move_ext, F.
    + exact H.
Qed.

Lemma cpath_trans e f e1 f1 e' f' : cpath e f e1 f1 -> cpath e1 f1 e' f' -> cpath e f e' f'.
Proof.
  induction 1 as [e e1 f f1 S F | e f e2 f2 e1 f1 a b R A B M H IH | e f e2 f2 e1 f1 a b R A B M H IH]; intros H'.
  - exact (cpath_start _ _ _ _ _ _ S F H').
  - exact (cp_top e f e2 f2 e' f' a b R A B M (IH H')).
  - exact (cp_bot e f e2 f2 e' f' a b R A B M (IH H')).
Qed.

Lemma step_heads e e1 : proper e -> rauzy_step e e1 -> exists a b,
  hd_error (e_top e) = Some a /\ hd_error (e_bot e) = Some b /\ hd_error (e_top e1) = Some a /\ a <> b.
Proof.
  intros P (a & b & X & Y1 & Y2 & Ht & Hb & Hl & Ht' & _). exists a, b. rewrite Ht', Ht, Hb.
  repeat split. intros ->. lra.
Qed.

(** Further steps with the same winner do not move any connection. *)
Lemma run_cpath_empty e e' : proper e -> rauzy_run e e' -> forall f a, hd_error (e_top e) = Some a ->
  topLeft (f a) = [] -> bottomLeft (f a) = [] -> cpath e f e' f.
Proof.
  intros P H. revert P. induction H as [e e' S | e e1 e' S H IH]; intros P f a Ha H1 H2.
  - apply cp_refl; [exact S | reflexivity].
  - destruct (step_heads e e1 P S) as (a' & b & Ta & Tb & Ta' & Hab). rewrite Ha in Ta. injection Ta as <-.
    apply (cp_top e f e1 f e' f a b S Ha Tb).
    + intros l. symmetry. apply conn_move_empty; assumption.
    + apply (IH (rauzy_step_proper _ _ P S) f a Ta' H1 H2).
Qed.

Lemma run_cpath e e' a b f : proper e -> rauzy_run e e' -> ~ same_exch e e' ->
  hd_error (e_top e) = Some a -> hd_error (e_bot e) = Some b -> cpath e f e' (conn_move true a b f).
Proof.
  intros P H Hn Ha Hb. destruct H as [e e' S | e e1 e' S H]; [contradiction|].
  destruct (step_heads e e1 P S) as (a' & b' & Ta & Tb & Ta' & Hab).
  rewrite Ha in Ta. injection Ta as <-. rewrite Hb in Tb. injection Tb as <-.
  apply (cp_top e f e1 (conn_move true a b f) e' _ a b S Ha Hb (fun _ => eq_refl)).
  apply (run_cpath_empty e1 e' (rauzy_step_proper _ _ P S) H _ a Ta'); unfold conn_move, upd; rewrite Nat.eqb_refl; reflexivity.
Qed.

(** The same for the bottom row. *)
Lemma cpath_bot_empty e e' : proper e -> rauzy_run e e' -> forall f a, hd_error (e_top e) = Some a ->
  topLeft (f a) = [] -> bottomLeft (f a) = [] -> cpath (flip e) f (flip e') f.
Proof.
  intros P H. revert P. induction H as [e e' S | e e1 e' S H IH]; intros P f a Ha H1 H2.
  - apply cp_refl; [apply same_exch_flip, S | reflexivity].
  - destruct (step_heads e e1 P S) as (a' & b & Ta & Tb & Ta' & Hab). rewrite Ha in Ta. injection Ta as <-.
    apply (cp_bot (flip e) f (flip e1) f (flip e') f a b).
    + rewrite !flip_flip. exact S.
    + exact Ha.
    + exact Tb.
    + intros l. symmetry. apply conn_move_empty; assumption.
    + apply (IH (rauzy_step_proper _ _ P S) f a Ta' H1 H2).
Qed.

Lemma run_cpath_bot e e' a b f : proper e -> rauzy_run e e' -> ~ same_exch e e' ->
  hd_error (e_top e) = Some a -> hd_error (e_bot e) = Some b -> cpath (flip e) f (flip e') (conn_move false a b f).
Proof.
  intros P H Hn Ha Hb. destruct H as [e e' S | e e1 e' S H]; [contradiction|].
  destruct (step_heads e e1 P S) as (a' & b' & Ta & Tb & Ta' & Hab).
  rewrite Ha in Ta. injection Ta as <-. rewrite Hb in Tb. injection Tb as <-.
  apply (cp_bot (flip e) f (flip e1) (conn_move false a b f) (flip e') _ a b).
  - rewrite !flip_flip. exact S.
  - exact Ha.
  - exact Hb.
  - reflexivity.
  - apply (cpath_bot_empty e1 e' (rauzy_step_proper _ _ P S) H _ a Ta'); unfold conn_move, upd; rewrite Nat.eqb_refl; reflexivity.
Qed.

Lemma path_total e e' : proper e -> rauzy_path e e' ->
  (same_exch e e' \/ total (e_len e') (e_top e') < total (e_len e) (e_top e))%R.
Proof.
  assert (step : forall e e1, proper e -> rauzy_step e e1 -> (total (e_len e1) (e_top e1) < total (e_len e) (e_top e))%R).
  { intros e0 e1 P H. pose proof (rauzy_step_proper _ _ P H) as P1.
    destruct H as (a & b & X & Y1 & Y2 & Ht & Hb & _ & E & _ & Ha & Hc). rewrite E, Ht. simpl. rewrite Ha.
    pose proof (proper_bot_pos e0 P b ltac:(rewrite Hb; left; reflexivity)).
    rewrite (Dyn.total_ext (e_len e1) (e_len e0) X); [lra|].
    intros c Hin. apply Hc. intros ->. destruct P as (N & _). rewrite Ht in N. inversion N; subst; contradiction. }
  intros P H. revert P. induction H as [e e' S | e e1 e' S H IH | e e1 e' S H IH]; intros P.
  - left; exact S.
  - right. pose proof (step e e1 P S). pose proof (rauzy_step_proper _ _ P S) as P1.
    destruct (IH P1) as [(A & _ & C)|L]; [|lra]. rewrite <- A, (Dyn.total_ext _ (e_len e1)); [lra|]. intros c _. symmetry; apply C.
  - right. pose proof (step (flip e) (flip e1) (flip_proper e P) S) as L. simpl in L.
    destruct (bot_step_facts e e1 P S) as [_ P1]. rewrite <- (proper_total e P), <- (proper_total e1 P1) in L.
    destruct (IH P1) as [(A & _ & C)|L']; [|lra]. rewrite <- A, (Dyn.total_ext _ (e_len e1)); [lra|]. intros c _. symmetry; apply C.
Qed.

Section Sim.
Context {T : Type} {O : LenOps T} {W : LenLaws T}.

(** Only component [c] (which currently looks like [a :: X]) starts with [a]. *)
Definition alone (c : nat) (ls : list label) (cs : list (dcomp T)) : Prop :=
  forall a X sw, In a ls -> existsb (on_top a) (views_with c (a :: X, sw) cs) = negb sw.

Lemma set_nth_id {A} (l : list A) k x : nth_error l k = Some x -> set_nth k x l = Some l.
Proof.
  revert k; induction l as [|y l IH]; intros [|k] H; simpl in *; try discriminate.
  - injection H as ->. reflexivity.
  - rewrite (IH k H). reflexivity.
Qed.

(** Subtracting the empty stack changes nothing. *)
Lemma sl_subtract_nil a (s s' : slen T) : sl_stack s = [] -> sl_subtract a s = Ok s' -> s' = s.
Proof.
  unfold sl_subtract, sl_at, sl_sum, sl_set. intros Hs H. rewrite Hs in H. simpl in H.
  destruct (nth_error (sl_lens s) a) as [x|] eqn:Ex; [|discriminate]. simpl in H.
  assert (E : l_sub x l_zero = x) by (apply val_inj; rewrite val_sub, val_zero; lra). rewrite E in H.
  rewrite (set_nth_id _ _ _ Ex) in H. simpl in H. destruct (is_pos x); [|discriminate].
  injection H as <-. unfold sl_clear. simpl. destruct s; simpl in *; subst; reflexivity.
Qed.

Lemma lwc_subtract2_ok c X sw a b (d : decomp T) : a <> b -> In a (d_keys d) -> In b (d_keys d) ->
  existsb (on_top a) (views_with c (a :: X, sw) (d_comps d)) = negb sw ->
  lwc_subtract2 c (a :: X, sw) a b d = Ok (set_conns d (conn_move (negb sw) a b (d_conns d))).
Proof.
  intros Hab Ha Hb Ho. unfold lwc_subtract2, conns_at.
  rewrite (proj2 (memb_In a _) Ha), (proj2 (memb_In b _) Hb). cbn [bind].
  rewrite Ho, conn_subtract_move by exact Hab. reflexivity.
Qed.

Lemma zloop_sim c X sw a R2 : forall R1 rpre (d : decomp T) r s',
  ~ In a (rev rpre ++ R1) -> NoDup (rev rpre ++ R1) ->
  sl_stack (d_len d) = rev rpre -> d_stack d = rev rpre ->
  existsb (on_top a) (views_with c (a :: X, sw) (d_comps d)) = negb sw ->
  In a (d_keys d) -> incl (rev rpre ++ R1) (d_keys d) ->
  zloop sample_lens (a :: X, sw) a rpre (R1 ++ a :: R2) (d_len d) = Ok (r, s') ->
  exists g,
    zloop (dec_lens c) (a :: X, sw) a rpre (R1 ++ a :: R2) d = Ok (r, mkdecomp s' [] (d_keys d) g (d_comps d)) /\
    ((r = [] /\ g = d_conns d) \/
     (r <> [] /\ exists b, hd_error (rev rpre ++ R1) = Some b /\ g = conn_move (negb sw) a b (d_conns d))).
Proof.
  intros R1; induction R1 as [|b R1 IH]; intros rpre d r s' Hn Hnd Hs Hd Ho Ka Kb Hz.
  - rewrite app_nil_r in *. cbn [app zloop] in *. rewrite Nat.eqb_refl in *.
    cbn [li_subrep sample_lens dec_lens] in *.
    destruct (sl_subrep a (d_len d)) as [[stop s1]| | | |] eqn:Esub; try discriminate. cbn [bind] in Hz.
    assert (Hne : rev rpre <> []).
    { intros E. unfold sl_subrep in Esub. rewrite Hs, E in Esub. discriminate. }
    destruct (Nat.eqb_spec a stop) as [|Has]; [discriminate|].
    destruct (back_to stop rpre) as [r1|] eqn:Eb; [|discriminate]. injection Hz as <- <-.
    unfold lwc_subrep. rewrite Hd. destruct (rev rpre) as [|b st] eqn:Er; [congruence|].
    rewrite Esub. cbn [bind].
    rewrite lwc_subtract2_ok; [| intros ->; apply Hn; left; reflexivity | exact Ka | apply Kb; left; reflexivity | exact Ho].
    cbn [bind]. destruct (Nat.eqb_spec a stop) as [|_]; [contradiction|]. rewrite Eb.
    eexists. split; [reflexivity|]. right. split.
    + destruct rpre as [|r0 rpre]; [discriminate|]. simpl in Eb. intros ->.
      clear - Eb. revert r0 Eb. induction rpre as [|x rp IH]; intros r0 Eb; destruct (Nat.eqb r0 stop); try discriminate.
      apply (IH x Eb).
    + exists b. split; reflexivity.
  - cbn [app zloop] in *. destruct (Nat.eqb_spec b a) as [->|Hba].
    { exfalso. apply Hn, in_or_app. right; left; reflexivity. }
    cbn [li_push li_cmp1 li_pop li_subtract sample_lens dec_lens bind] in *.
    unfold lwc_push at 1. rewrite Hd.
    assert (Hm : memb b (rev rpre) = false).
    { apply memb_nIn. intros Hin. apply NoDup_remove_2 in Hnd. apply Hnd, in_or_app. left; exact Hin. }
    rewrite Hm. cbn [negb assert_ bind set_lens d_len].
    destruct (sl_cmp1 (sl_push b (d_len d)) a) as [cm| | | |] eqn:Ec; try discriminate. cbn [bind] in *.
    assert (Hfin : forall r s', (s2 <- sl_pop (sl_push b (d_len d)) ;; s3 <- sl_subtract a s2 ;; Ok (rpre, s3)) = Ok (r, s') ->
      exists g,
        (s2 <- lwc_pop (set_lens d (sl_push b (d_len d)) (rev rpre ++ [b])) ;;
         s3 <- lwc_subtract c (a :: X, sw) a s2 ;; Ok (rpre, s3)) = Ok (r, mkdecomp s' [] (d_keys d) g (d_comps d)) /\
        ((r = [] /\ g = d_conns d) \/
         (r <> [] /\ exists b0, hd_error (rev rpre ++ b :: R1) = Some b0 /\ g = conn_move (negb sw) a b0 (d_conns d)))).
    { clear Hz r s'. intros r s' Hz.
      assert (Epop : sl_pop (sl_push b (d_len d)) = Ok (d_len d)).
      { unfold sl_pop, sl_push. simpl. rewrite Hs.
        destruct (rev rpre ++ [b]) eqn:E; [destruct (rev rpre); discriminate|]. rewrite <- E, removelast_last.
        rewrite <- Hs. destruct (d_len d); reflexivity. }
      rewrite Epop in Hz. cbn [bind] in Hz.
      destruct (sl_subtract a (d_len d)) as [s3| | | |] eqn:Es; try discriminate. injection Hz as <- <-.
      unfold lwc_pop, set_lens. cbn [d_stack d_len d_keys d_conns d_comps]. rewrite app_length, Nat.add_comm. cbn [length Nat.add Nat.eqb negb assert_].
      rewrite Epop. cbn [bind]. rewrite removelast_last.
      unfold lwc_subtract. cbn [d_stack d_len]. destruct (rev rpre) as [|b0 st] eqn:Er.
      - cbn [bind]. exists (d_conns d).
        assert (s3 = d_len d) by (apply (sl_subtract_nil a); assumption). subst s3.
        split; [reflexivity|]. left. split; [|reflexivity].
        rewrite <- (rev_involutive rpre), Er. reflexivity.
      - rewrite Es. cbn [bind set_lens d_keys d_conns d_comps].
        rewrite lwc_subtract2_ok; [| intros ->; apply Hn; left; reflexivity | exact Ka | apply Kb; left; reflexivity | exact Ho].
        cbn [bind]. eexists. split; [reflexivity|]. right. split; [|exists b0; split; reflexivity].
        intros ->. discriminate. }
    destruct cm; [apply Hfin, Hz | | apply Hfin, Hz].
    assert (Eapp : rev (b :: rpre) ++ R1 = rev rpre ++ b :: R1) by (simpl; rewrite <- app_assoc; reflexivity).
    destruct (IH (b :: rpre) (set_lens d (sl_push b (d_len d)) (rev rpre ++ [b])) r s') as (g & Eg & Hg).
    + rewrite Eapp. exact Hn.
    + rewrite Eapp. exact Hnd.
    + simpl. rewrite Hs. reflexivity.
    + reflexivity.
    + exact Ho.
    + exact Ka.
    + rewrite Eapp. exact Kb.
    + exact Hz.
    + exists g. rewrite Eapp in Hg. split; [exact Eg | exact Hg].
Qed.

(** Everything the lengths need to know about the other components. *)
Definition fits (c : nat) (ls : list label) (d : decomp T) : Prop :=
  d_stack d = [] /\ incl ls (d_keys d) /\ alone c ls (d_comps d).

Definition with_lens (d : decomp T) (s : slen T) (g : label -> conns) : decomp T :=
  mkdecomp s [] (d_keys d) g (d_comps d).

Lemma fits_with c ls d s g : fits c ls d -> fits c ls (with_lens d s g).
Proof. intros (_ & H & H'). repeat split; assumption. Qed.

Lemma fits_perm c ls ls' d : Permutation ls ls' -> fits c ls d -> fits c ls' d.
Proof.
  intros P (A & B & C). split; [exact A|]. split.
  - intros l Hl. apply B. apply (Permutation_in _ (Permutation_sym P) Hl).
  - intros a X sw Ha. apply C. apply (Permutation_in _ (Permutation_sym P) Ha).
Qed.

Lemma wf_proper i s : wf i s -> proper (exch_of i s).
Proof.
  intros (A & B & _ & C & _). split; [exact A|]. split; [exact B|].
  intros c Hc. apply posl_lamR, C, Hc.
Qed.

Lemma zorich_sim c i (d : decomp T) : wf i (d_len d) -> fits c (i_top i) d ->
  exists found bottom s' g,
    zorich sample_lens i (d_len d) = Ok (found, set_bottom i bottom, s') /\
    zorich (dec_lens c) i d = Ok (found, set_bottom i bottom, with_lens d s' g) /\
    (if i_swap i
     then cpath (flip (exch_of i (d_len d))) (d_conns d) (flip (exch_of (set_bottom i bottom) s')) g
     else cpath (exch_of i (d_len d)) (d_conns d) (exch_of (set_bottom i bottom) s') g).
Proof.
  intros H (Hd & Hk & Ho). destruct (zorich_ok i (d_len d) H) as (found & bottom & s' & E & _ & Hrun & _ & _ & _ & _).
  exists found, bottom, s'.
  pose proof (wf_proper i _ H) as P. pose proof H as (Hnd & Hperm & Hne & Hpos & Hst).
  revert E. unfold zorich. destruct (i_top i) as [|a X] eqn:Et; [congruence|].
  destruct (i_bottom i) as [|b Y] eqn:Eb; [apply Permutation_sym, Permutation_nil in Hperm; discriminate|].
  destruct (Nat.eqb_spec a b) as [<-|Hab].
  - intros E. injection E as <- Ei <-. exists (d_conns d).
    assert (Ed : with_lens d (d_len d) (d_conns d) = d) by (destruct d; simpl in *; subst; reflexivity).
    rewrite Ed, <- Ei. split; [reflexivity|]. split; [reflexivity|].
    destruct (i_swap i); apply cp_refl; try reflexivity; apply same_exch_refl.
  - assert (Hina : In a (b :: Y)) by (apply (Permutation_in _ Hperm); left; reflexivity).
    assert (HndB : NoDup (b :: Y)) by (eapply Permutation_NoDup; eassumption).
    destruct (in_split _ _ Hina) as [R1 [R2 ER]].
    assert (HnR : ~ In a R1 /\ NoDup R1).
    { rewrite ER in HndB. pose proof (NoDup_remove_2 _ _ _ HndB) as H2.
      pose proof (NoDup_remove_1 _ _ _ HndB) as H1. rewrite in_app_iff in H2. split; [tauto|].
      revert H1. clear. induction R1 as [|c R1 IH]; simpl; intros H; [constructor|].
      inversion H; subst. constructor; [|auto]. intros Hin; apply H2. apply in_or_app; left; exact Hin. }
    destruct HnR as [HnR1 HndR1].
    assert (Hhd : hd_error R1 = Some b).
    { destruct R1 as [|x R1]; simpl in ER; injection ER as -> _; [congruence | reflexivity]. }
    assert (HR1 : R1 <> []) by (intros ->; discriminate).
    assert (HposR : forall l, In l R1 -> posl (d_len d) l).
    { intros l Hl. apply Hpos. apply (Permutation_in _ (Permutation_sym Hperm)).
      rewrite ER. apply in_or_app. left; exact Hl. }
    assert (Hapos : posl (d_len d) a) by (apply Hpos; left; reflexivity).
    rewrite ER.
    destruct (zloop_ok (i_view i) a R2 R1 [] (d_len d)) as [B1 [B2 [m [s1 [b' [rest [F1 [F2 [F3 [F4 F5]]]]]]]]]]; simpl; auto.
    { apply posl_lamR; exact Hapos. }
    simpl in F1. rewrite F3. cbn [bind].
    unfold i_view in *. rewrite Et in F3 |- *.
    destruct (zloop_sim c X (i_swap i) a R2 R1 [] d (rev B1) s1) as (g & Eg & Hg); simpl; auto.
    { apply (Ho a X (i_swap i)). left; reflexivity. }
    { apply Hk. left; reflexivity. }
    { intros l Hl. apply Hk. apply (Permutation_in _ (Permutation_sym Hperm)). rewrite ER. apply in_or_app; left; exact Hl. }
    rewrite Eg. cbn [bind].
    destruct (splice a (R1 ++ a :: R2) (length (rev B1))) as [bot| | | |] eqn:Es; try discriminate. cbn [bind].
    destruct bot as [|b1 bot]; [discriminate|].
    cbn [li_cmp2 sample_lens dec_lens d_len with_lens].
    intros E.
    destruct (sl_cmp2 s1 a b1) as [cm| | | |]; try discriminate. cbn [bind] in *.
    injection E as Ef Ei Es'. exists g. subst s1. split.
    { rewrite Ef. repeat f_equal. exact Ei. }
    split; [rewrite Ef; repeat f_equal; exact Ei|].
    assert (Hneq : rev B1 <> [] -> ~ same_exch (exch_of i (d_len d)) (exch_of (set_bottom i bottom) s')).
    { intros HB (_ & _ & C). specialize (C a). simpl in C.
      destruct (updated_lamR _ _ _ _ F4) as [La _]. rewrite La in C.
      assert (HB1 : B1 <> []) by (intros ->; apply HB; reflexivity).
      assert (0 < total (lamR (d_len d)) B1)%R.
      { apply total_pos; [|exact HB1]. intros x Hx. apply posl_lamR, HposR. rewrite F1. apply in_or_app; left; exact Hx. }
      assert (0 <= total (lamR (d_len d)) (B1 ++ B2))%R.
      { apply ZorichProof.total_nonneg. intros x Hx. apply posl_lamR, HposR. rewrite F1. exact Hx. }
      pose proof (pos_INR m). nra. }
    assert (Hsame : rev B1 = [] -> same_exch (exch_of i (d_len d)) (exch_of (set_bottom i bottom) s')).
    { intros HB. destruct (run_total _ _ P Hrun) as [S|L]; [exact S|]. exfalso.
      assert (HB1 : B1 = []) by (rewrite <- (rev_involutive B1), HB; reflexivity). subst B1. simpl in F2, F4, F5, HB.
      destruct Hg as [[_ ->]|[HB' _]]; [|exfalso; apply HB'; reflexivity].
      (* nothing was moved: the store is the same *)
      unfold splice in Es. simpl in Es.
      rewrite (split_at_intro a R1 R2 HnR1) in Es. injection Es as Es.
      clear - L F3 HR1 Hst Et ER HnR1 Hab Hhd Hapos Hpos H F4 F5.
      destruct R1 as [|x R1]; [congruence|]. simpl in Hhd. injection Hhd as ->.
      (* the loop stopped at once *)
      cbn [app zloop] in F3. destruct (Nat.eqb_spec b a) as [|_]; [congruence|].
      cbn [li_push sample_lens bind li_cmp1 li_pop li_subtract] in F3.
      destruct (sl_cmp1 (sl_push b (d_len d)) a) as [cm| | | |]; try discriminate. cbn [bind] in F3.
      assert (Epop : sl_pop (sl_push b (d_len d)) = Ok (d_len d)).
      { unfold sl_pop, sl_push. simpl. rewrite Hst. simpl. rewrite <- Hst. destruct (d_len d); reflexivity. }
      assert (NE : forall v R rp s r s2, rp <> [] -> zloop sample_lens v a rp R s = Ok (r, s2) -> r <> []).
      { clear. intros v R; induction R as [|x R IH]; intros rp s r s2 Hrp Hz; cbn [zloop] in Hz; [discriminate|].
        destruct (Nat.eqb x a).
        - destruct (li_subrep sample_lens v a s) as [[st s3]| | | |]; try discriminate. cbn [bind] in Hz.
          destruct (Nat.eqb a st); [discriminate|]. destruct (back_to st rp) as [q|] eqn:Eb; [|discriminate].
          injection Hz as <- <-. intros ->. clear - Eb. induction rp as [|y rp IH]; simpl in Eb; [discriminate|].
          destruct (Nat.eqb y st); [discriminate | exact (IH Eb)].
        - cbn [li_push sample_lens bind] in Hz. destruct (li_cmp1 sample_lens (sl_push x s) a) as [cm| | | |]; try discriminate.
          cbn [bind] in Hz.
          destruct cm; [ | exact (IH (x :: rp) _ r s2 ltac:(discriminate) Hz) | ];
          (destruct (li_pop sample_lens (sl_push x s)) as [s3| | | |]; try discriminate; cbn [bind] in Hz;
           destruct (li_subtract sample_lens v a s3) as [s4| | | |]; try discriminate; injection Hz as <- <-; exact Hrp). }
      assert (E' : s' = d_len d).
      { destruct cm.
        - rewrite Epop in F3. cbn [bind] in F3. destruct (sl_subtract a (d_len d)) as [s3| | | |] eqn:E3; try discriminate.
          injection F3 as <-. apply (sl_subtract_nil a); assumption.
        - exfalso. apply (NE _ _ [b] _ _ _ ltac:(discriminate) F3). reflexivity.
        - rewrite Epop in F3. cbn [bind] in F3. destruct (sl_subtract a (d_len d)) as [s3| | | |] eqn:E3; try discriminate.
          injection F3 as <-. apply (sl_subtract_nil a); assumption. }
      subst s'. simpl in L. lra. }
    destruct Hg as [[HB ->]|(HB & b2 & Hb2 & ->)].
    + destruct (i_swap i); apply cp_refl; try reflexivity; [apply same_exch_flip|]; apply Hsame, HB.
    + simpl in Hb2. rewrite Hhd in Hb2. injection Hb2 as <-.
      destruct (i_swap i); cbn [negb].
      * apply run_cpath_bot; [exact P | exact Hrun | apply Hneq, HB | simpl; rewrite Et; reflexivity | simpl; rewrite Eb; reflexivity].
      * apply run_cpath; [exact P | exact Hrun | apply Hneq, HB | simpl; rewrite Et; reflexivity | simpl; rewrite Eb; reflexivity].
Qed.

Lemma iteration_sim c i (d : decomp T) : wf i (d_len d) -> i_swap i = false -> fits c (i_top i) d ->
  exists found i' s' g,
    iteration sample_lens i (d_len d) = Ok (found, i', s') /\
    iteration (dec_lens c) i d = Ok (found, i', with_lens d s' g) /\
    cpath (exch_of i (d_len d)) (d_conns d) (exch_of i' s') g.
Proof.
  intros H Hsw Hf. unfold iteration.
  destruct (zorich_sim c i d H Hf) as (f1 & bot & s1 & g1 & E1 & E1' & C1). rewrite E1, E1'. cbn [bind].
  rewrite Hsw in C1.
  assert (H1 : wf (set_bottom i bot) s1).
  { destruct (zorich_ok i (d_len d) H) as (f & bot' & s1' & E & G & _). rewrite E1 in E. injection E as _ <- <-. exact G. }
  destruct f1.
  { do 4 eexists. split; [reflexivity|]. split; [reflexivity | exact C1]. }
  set (i1 := set_bottom i bot) in *. set (d1 := with_lens d s1 g1).
  assert (H2 : wf (iet_swap i1) (d_len d1)).
  { destruct H1 as (A & B & C & D & E). unfold wf. simpl. split; [exact (Permutation_NoDup B A)|].
    split; [exact (Permutation_sym B)|]. split.
    - intros Hn. simpl in B. rewrite Hn in B. apply Permutation_sym, Permutation_nil in B. exact (C B).
    - split; [|exact E]. intros l Hl. apply D. exact (Permutation_in _ (Permutation_sym B) Hl). }
  assert (Hf2 : fits c (i_top (iet_swap i1)) d1).
  { apply fits_with. apply (fits_perm c (i_top i1)); [apply H1 | exact Hf]. }
  destruct (zorich_sim c (iet_swap i1) d1 H2 Hf2) as (f2 & bot2 & s2 & g2 & E2 & E2' & C2).
  change (d_len d1) with s1 in E2. rewrite E2, E2'. cbn [bind].
  replace (i_swap (iet_swap i1)) with true in C2 by (simpl; rewrite Hsw; reflexivity).
  do 4 eexists. split; [reflexivity|]. split; [reflexivity|].
  exact (cpath_trans _ _ _ _ _ _ C1 C2).
Qed.

Lemma loop_sim c saf0 limit : (limit <= INT_MAX)%Z -> forall fuel n i (d : decomp T), good i (d_len d) ->
  i_swap i = false -> fits c (i_top i) d ->
  let r := induce_loop sample_lens fuel saf0 limit n i (d_len d) in
  let r' := induce_loop (dec_lens c) fuel saf0 limit n i d in
  (r = OutOfFuel /\ r' = OutOfFuel) \/ (r = UB /\ r' = UB) \/
  exists f i' s' g, r = Ok (f, i', s') /\ r' = Ok (f, i', with_lens d s' g) /\
    cpath (exch_of i (d_len d)) (d_conns d) (exch_of i' s') g.
Proof.
  intros HL fuel. induction fuel as [|fuel IH]; intros n i d Hg Hsw Hf r r'.
  { left. split; reflexivity. }
  unfold r, r'. rewrite !iteration_unfold. pose proof Hg as (H & C & K).
  assert (Ed : with_lens d (d_len d) (d_conns d) = d) by (destruct Hf as (E & _); destruct d; simpl in *; subst; reflexivity).
  destruct (negb ((limit =? -1)%Z || (n <? limit)%Z)) eqn:En.
  { right; right. exists (Some false), i, (d_len d), (d_conns d). rewrite Ed. split; [reflexivity|]. split; [reflexivity|].
    apply cp_refl; [apply same_exch_refl | reflexivity]. }
  apply negb_false_iff, orb_true_iff in En. rewrite Z.eqb_eq, Z.ltb_lt in En.
  destruct (tracking_ok saf0 i (d_len d) Hg) as (b & i1 & E1 & R1 & Et1 & Eb1 & K1 & K1' & _).
  cbn [sample_lens dec_lens li_base]. rewrite E1. cbn [bind].
  assert (S1 : same_exch (exch_of i (d_len d)) (exch_of i1 (d_len d))).
  { repeat split; simpl; congruence. }
  destruct b.
  { right; right. exists None, i1, (d_len d), (d_conns d). rewrite Ed. split; [reflexivity|]. split; [reflexivity|].
    apply cp_refl; [exact S1 | reflexivity]. }
  pose proof (r_wf _ _ _ _ R1) as H1. pose proof (r_cache _ _ _ _ R1) as C1.
  assert (Hsw1 : i_swap i1 = false) by (rewrite (r_swap _ _ _ _ R1); exact Hsw).
  assert (Hf1 : fits c (i_top i1) d) by (rewrite Et1; exact Hf).
  destruct (iteration_sim c i1 d H1 Hsw1 Hf1) as (f & i2 & s2 & g2 & E2 & E2' & C2).
  destruct (iteration_ok i1 (d_len d) H1 C1) as (f' & i2' & s2' & E2s & R2 & Et & _ & Hfd & Hdec).
  rewrite E2 in E2s. injection E2s as <- <- <-. rewrite E2, E2'. cbn [bind].
  assert (C2' : cpath (exch_of i (d_len d)) (d_conns d) (exch_of i2 s2) g2).
  { exact (cpath_start _ _ _ _ _ _ S1 (fun _ => eq_refl) C2). }
  destruct f.
  { right; right. exists (Some true), i2, s2, g2. split; [reflexivity|]. split; [reflexivity | exact C2']. }
  destruct (Z.eqb_spec n INT_MAX) as [Ei|Ei].
  { right; left. split; reflexivity. }
  assert (Hg2 : good i2 s2).
  { split; [exact (r_wf _ _ _ _ R2)|]. split; [exact (r_cache _ _ _ _ R2)|].
    exact (trk_extend False True i1 _ i2 s2 H1 K1 R2 Et ltac:(intros _; right; apply Hdec; reflexivity)). }
  assert (Hf2 : fits c (i_top i2) (with_lens d s2 g2)).
  { apply fits_with. apply (fits_perm c (i_top i1)); [exact (reach_labels _ _ _ _ H1 R2) | exact Hf1]. }
  destruct (IH (n + 1)%Z i2 (with_lens d s2 g2) Hg2) as [[G1 G2]|[[G1 G2]|(f & i' & s' & g & G1 & G2 & G3)]].
  - rewrite (r_swap _ _ _ _ R2). exact Hsw1.
  - exact Hf2.
  - left. auto.
  - right; left. auto.
  - right; right. exists f, i', s', g. split; [exact G1|]. split; [exact G2|].
    exact (cpath_trans _ _ _ _ _ _ C2' G3).
Qed.

Lemma finish_sim c found i (d : decomp T) : 
  match induce_finish sample_lens found i (d_len d) with
  | Ok (st, i', s') => induce_finish (dec_lens c) found i d = Ok (st, i', d)
  | _ => True
  end.
Proof.
  unfold induce_finish. cbn [sample_lens dec_lens li_base li_cmp2].
  destruct (reduce i (d_len d)) as [[red i1]| | | |]; try exact I. cbn [bind].
  destruct red as [rgt|].
  - destruct (rev (i_bottom i1)) as [|b ?]; [exact I|]. destruct (rev (i_top i1)) as [|t ?]; [exact I|]. reflexivity.
  - destruct (i_top i1) as [|a ?]; [exact I|]. destruct (i_bottom i1) as [|b ?]; [exact I|].
    destruct (sl_cmp2 (d_len d) a b) as [cm| | | |]; try exact I. cbn [bind]. destruct cm.
    + destruct (merge_first i1) as [i2| | | |]; try exact I. reflexivity.
    + destruct found; cbn [negb assert_]; [exact I|].
      destruct (bosh_no_periodic i1 (d_len d)) as [[z i2]| | | |]; try exact I. reflexivity.
    + destruct found; cbn [negb assert_]; [exact I|].
      destruct (bosh_no_periodic i1 (d_len d)) as [[z i2]| | | |]; try exact I. reflexivity.
Qed.

(** What induction on the lengths of a decomposition reaches: [reach] for the IET, [cpath]
    for the connections. *)
Definition creach (i : iet T) (d : decomp T) (i' : iet T) (d' : decomp T) : Prop :=
  reach i (d_len d) i' (d_len d') /\
  cpath (exch_of i (d_len d)) (d_conns d) (exch_of i' (d_len d')) (d_conns d').

Definition dinduce_post (limit : Z) (i : iet T) (d : decomp T) (st : istep T) (i' : iet T) (d' : decomp T) : Prop :=
  let s' := d_len d' in
  match is_result st with
  | CYLINDER => i_size i = 1 /\ st = mkistep CYLINDER None None /\ i' = i /\ d' = d
  | SEPARATING_CONNECTION =>
    exists i1 k b t, i_size i <> 1 /\ creach i d i1 d' /\
      invariant_prefix (exch_of i1 s') k /\ (forall j, invariant_prefix (exch_of i1 s') j -> k <= j) /\
      i' = left_part i1 k /\ hd_error (rev (i_bottom i')) = Some b /\ hd_error (rev (i_top i')) = Some t /\
      st = mkistep SEPARATING_CONNECTION (Some (b, t)) (Some (right_part i1 k)) /\ good (right_part i1 k) s'
  | NON_SEPARATING_CONNECTION =>
    exists i1 a b, i_size i <> 1 /\ creach i d i1 d' /\ ~ reducible (exch_of i1 s') /\
      hd_error (i_top i1) = Some a /\ hd_error (i_bottom i1) = Some b /\ a <> b /\
      merge_step (exch_of i1 s') (exch_of i' s') /\ i_top i' = tl (i_top i1) /\ i_swap i' = i_swap i /\
      st = mkistep NON_SEPARATING_CONNECTION (Some (b, a)) None
  | LIMIT_REACHED =>
    i_size i <> 1 /\ creach i d i' d' /\ ~ reducible (exch_of i' s') /\ ~ heads_equal i' s' /\
    balanced (exch_of i' s') /\ limit <> (-1)%Z /\ st = mkistep LIMIT_REACHED None None
  | WITHOUT_PERIODIC_TRAJECTORY_BOSHERNITZAN =>
    i_size i <> 1 /\ creach i d i' d' /\ ~ reducible (exch_of i' s') /\ ~ heads_equal i' s' /\
    ~ balanced (exch_of i' s') /\ limit <> (-1)%Z /\ st = mkistep WITHOUT_PERIODIC_TRAJECTORY_BOSHERNITZAN None None
  | WITHOUT_PERIODIC_TRAJECTORY_AUTO_SIMILAR =>
    i_size i <> 1 /\ creach i d i' d' /\ similar_state i' s' /\ limit <> 0%Z /\
    st = mkistep WITHOUT_PERIODIC_TRAJECTORY_AUTO_SIMILAR None None
  end.

Lemma finish_post c limit found i0 (d0 : decomp T) i (d : decomp T) : wf i0 (d_len d0) -> i_size i0 <> 1 ->
  loop_post limit i0 (d_len d0) (Some found) i (d_len d) ->
  cpath (exch_of i0 (d_len d0)) (d_conns d0) (exch_of i (d_len d)) (d_conns d) ->
  exists st i', induce_finish (dec_lens c) found i d = Ok (st, i', d) /\ good i' (d_len d) /\
    dinduce_post limit i0 d0 st i' d.
Proof.
  intros H0 Hs0 HP HC. pose proof HP as [R HK].
  pose proof (r_wf _ _ _ _ R) as H. pose proof (r_cache _ _ _ _ R) as C.
  assert (Hs : i_size i <> 1).
  { pose proof (Permutation_length (reach_labels _ _ _ _ H0 R)). unfold i_size in *. congruence. }
  destruct (finish_ok limit i (d_len d) found i (d_len d) H Hs) as (st & i' & E & G & P).
  { split; [apply reach_refl; assumption | exact HK]. }
  pose proof (finish_sim c found i d) as F. rewrite E in F.
  exists st, i'. split; [exact F|]. split; [exact G|].
  assert (Lift : forall i1, reach i (d_len d) i1 (d_len d) -> creach i0 d0 i1 d).
  { intros i1 R1. split; [exact (reach_trans _ _ _ _ _ _ H0 R R1)|].
    apply (cpath_trans _ _ _ _ _ _ HC). apply cp_refl; [|reflexivity].
    destruct (path_total _ _ (wf_proper _ _ H) (r_path _ _ _ _ R1)) as [S|L]; [exact S|]. exfalso.
    simpl in L. rewrite (Dyn.total_perm _ _ _ (reach_labels _ _ _ _ H R1)) in L. lra. }
  assert (Hsz : i_size i <> 1 -> i_size i0 <> 1) by (intros _; exact Hs0).
  unfold induce_post in P. unfold dinduce_post. cbv zeta.
  destruct (is_result st).
  - destruct P as (A & B & P). split; [exact Hs0|]. split; [exact (Lift _ B) | exact P].
  - exfalso. exact (Hs (proj1 P)).
  - destruct P as (i1 & k & b & t & A & B & P). exists i1, k, b, t. split; [exact Hs0|]. split; [exact (Lift _ B) | exact P].
  - destruct P as (i1 & a & b & A & B & P1 & P2 & P3 & P4 & P5 & P6 & P7 & P8 & P9). exists i1, a, b. split; [exact Hs0|]. split; [exact (Lift _ B)|].
    rewrite (r_swap _ _ _ _ R) in P7. repeat split; assumption.
  - destruct P as (A & B & P). split; [exact Hs0|]. split; [exact (Lift _ B) | exact P].
  - destruct P as (A & B & P). split; [exact Hs0|]. split; [exact (Lift _ B) | exact P].
Qed.

Theorem dinduce_ok c limit fuel i (d : decomp T) : (limit <= INT_MAX)%Z -> good i (d_len d) ->
  i_swap i = false -> fits c (i_top i) d ->
  let r := induce (dec_lens c) fuel limit i d in
  (r = OutOfFuel /\ limit <> 0%Z /\ (limit = -1 \/ Z.of_nat fuel <= Z.max 0 limit)%Z) \/
  (r = UB /\ limit = (-1)%Z /\ (INT_MAX < Z.of_nat fuel)%Z) \/
  exists st i' d', r = Ok (st, i', d') /\ good i' (d_len d') /\
    d_stack d' = [] /\ d_keys d' = d_keys d /\ d_comps d' = d_comps d /\ dinduce_post limit i d st i' d'.
Proof.
  intros HL Hg Hsw Hf r. pose proof Hg as (H & C & K). unfold r, induce.
  pose proof (proj1 Hf) as Hd.
  destruct (Nat.eqb_spec (i_size i) 1) as [E1|E1].
  { right; right. eexists; exists i, d. split; [reflexivity|]. split; [exact Hg|]. cbn [dinduce_post is_result]. auto 10. }
  destruct (Z.eqb_spec limit 0) as [E0|E0].
  { right; right. cbn [bind].
    destruct (finish_post c limit false i d i d H E1) as (st & i' & E & G & P).
    { split; [apply reach_refl; assumption|]. split; [exact K | lia]. }
    { apply cp_refl; [apply same_exch_refl | reflexivity]. }
    exists st, i', d. rewrite E. auto 10. }
  destruct (iet_saf0_ok i (d_len d) H C) as (v & Ev & C' & _). cbn [dec_lens li_base]. rewrite Ev. cbn [bind].
  set (i0 := set_saf i (Some v)) in *.
  assert (Hg' : good i0 (d_len d)) by (apply good_set_saf; assumption).
  pose proof (loop_ok (vis0 (saf_now i (d_len d))) limit HL fuel 0%Z i0 (d_len d) Hg') as L. cbv zeta in L.
  pose proof (loop_sim c (vis0 (saf_now i (d_len d))) limit HL fuel 0%Z i0 d Hg' Hsw Hf) as M. cbv zeta in M.
  destruct M as [[M1 M2]|[[M1 M2]|(f & i1 & s1 & g & M1 & M2 & M3)]].
  - left. destruct L as [[L1 L2]|[[L1 L2]|(f & i1 & s1 & L1 & _)]]; [|congruence|congruence].
    change (mklens _ _ _ _ _ _ d_len) with (dec_lens (T := T) c). rewrite M2. split; [reflexivity|]. split; [exact E0|]. rewrite Z.sub_0_r in L2. exact L2.
  - right; left. destruct L as [[L1 L2]|[[L1 L2]|(f & i1 & s1 & L1 & _)]]; [congruence| |congruence].
    change (mklens _ _ _ _ _ _ d_len) with (dec_lens (T := T) c). rewrite M2. split; [reflexivity | exact L2].
  - right; right. destruct L as [[L1 L2]|[[L1 L2]|(f' & i1' & s1' & L1 & L2)]]; [congruence|congruence|].
    rewrite M1 in L1. injection L1 as <- <- <-.
    change (mklens _ _ _ _ _ _ d_len) with (dec_lens (T := T) c). rewrite M2. cbn [bind].
    destruct L2 as [R L2].
    assert (Ri : reach i (d_len d) i1 s1).
    { refine (reach_trans i _ i0 _ _ _ H _ R).
      exact (reach_caches i _ i _ (Some v) (i_trk i) (reach_refl i _ H C) C'). }
    set (d1 := with_lens d s1 g).
    destruct f as [found|].
    + destruct (finish_post c limit found i d i1 d1 H E1) as (st & i' & E & G & P).
      { split; [exact Ri | exact L2]. }
      { exact M3. }
      exists st, i', d1. rewrite E. auto 10.
    + eexists; exists i1, d1. split; [reflexivity|]. split.
      * split; [apply Ri|]. split; [apply Ri | apply L2].
      * split; [reflexivity|]. split; [reflexivity|]. split; [reflexivity|].
        cbn [dinduce_post is_result]. split; [exact E1|]. split; [split; [exact Ri | exact M3]|]. split; [apply L2|]. auto.
Qed.

End Sim.
