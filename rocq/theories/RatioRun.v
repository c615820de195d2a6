(** Programs run over lengths with the same ratios. *)
From Coq Require Import List Reals Lra Lia Permutation.
From Verif Require Import Base QcTac LenT FM Subspace Lengths IET Decomp Spec SpecLin Api Twin Focus ZorichProof Saf Bosh ReduceProof InduceProof World DecompRef Ratio Mixed RatioIet RatioLink RatioInduce RatioInv RatioDec RatioApi.
Open Scope nat_scope.

Section RatioRun.
Context {T : Type} {O : LenOps T} {W : MixedLaws T}.
Context {T' : Type} {O' : LenOps T'} {W' : LenLaws T'}.
Variable c : R.
Hypothesis Hc : (0 < c)%R.
Variable A : label -> Prop.

Notation irel := (@RatioIet.irel T T' A).
Notation near := (@Ratio.near T O W T' O' W' c A None).
Notation drel := (@RatioDec.drel T O W T' O' W' c A).
Notation wrel := (@RatioDec.wrel T O W T' O' W' c A).
Notation link := (@RatioLink.link T O W T' O' W' c A).

Definition Qs (s : slen T) (s' : slen T') : Prop := idle c A s s'.

Lemma Qs_base s s' : Qs s s' -> near s s' /\ sl_stack s = [] /\ sl_stack s' = [].
Proof. intros [[D E] F]. split; [exact D|]. split; [exact F|]. rewrite E. exact F. Qed.

Ltac lensfacts :=
  cbn [sample_lens li_push li_pop li_cmp1 li_cmp2 li_subtract li_subrep li_base].

Lemma rel_sinduce fuel limit i i' s s' : irel i i' -> Qs s s' -> link True i i' s' ->
  rres (ratio_step c A sample_lens Qs) (induce sample_lens fuel limit i s) (induce sample_lens fuel limit i' s').
Proof.
  intros J HQ HL. apply (ratio_induce c Hc A sample_lens sample_lens Qs (during c A)) with (F := fun _ _ => True); lensfacts; auto.
  - intros a s1 s1'. apply idle_during.
  - intros a l s1 s1' Hl Na D. apply during_push; [split; assumption|exact D].
  - intros a s1 s1'. apply during_pop.
  - intros a s1 s1' l Hl D. apply (during_cmp1 c Hc A a); assumption.
  - intros s1 s1' l m Hl Hm H. apply (idle_cmp2 c Hc A); try assumption. apply H.
  - intros v a s1 s1'. apply (during_subtract c Hc A).
  - intros v a s1 s1'. apply (during_subrep c Hc A).
  - apply Qs_base.
Qed.

Lemma rel_szorich i i' s s' : irel i i' -> Qs s s' ->
  rres (ratio_iet A Qs) (zorich sample_lens i s) (zorich sample_lens i' s').
Proof.
  apply (ratio_zorich A sample_lens sample_lens Qs (during c A)); lensfacts.
  - intros a s1 s1'. apply idle_during.
  - intros a l s1 s1' Hl Na D. apply during_push; [split; assumption|exact D].
  - intros a s1 s1'. apply during_pop.
  - intros a s1 s1' l Hl D. apply (during_cmp1 c Hc A a); assumption.
  - intros s1 s1' l m Hl Hm H. apply (idle_cmp2 c Hc A); try assumption. apply H.
  - intros v a s1 s1'. apply (during_subtract c Hc A).
  - intros v a s1 s1'. apply (during_subrep c Hc A).
Qed.

(** ** One call *)

Definition both_at (s' : slen T') (i : iet T) (i' : iet T') : Prop := irel i i' /\ link True i i' s'.

Definition same_call (p : answer * iet T * list (iet T) * slen T) (p' : answer * iet T' * list (iet T') * slen T') : Prop :=
  fst (fst (fst p)) = fst (fst (fst p')) /\ both_at (snd p') (snd (fst (fst p))) (snd (fst (fst p'))) /\
  Forall2 (both_at (snd p')) (snd (fst p)) (snd (fst p')) /\ Qs (snd p) (snd p').

Lemma rel_call o i i' s s' : both_at s' i i' -> Qs s s' -> rres same_call (call o i s) (call o i' s').
Proof.
  intros [H HL] HQ. destruct (Qs_base s s' HQ) as (B & S1 & S2). destruct o as [| | |fuel limit| | | |t m]; cbn [call].
  - split; [reflexivity|]. split; [split; [apply irel_swap; exact H|apply link_swap; exact HL]|]. split; [constructor|exact HQ].
  - apply (rres_bind _ _ _ _ _ _ (rres_eqn _ _ _ (rel_szorich i i' s s' H HQ))). intros [[f j] t] [[f' j'] t'] ((E & J & Ht) & Ez & Ez'). cbn [fst snd] in *. subst f'.
    apply zorich_keeps in Ez. destruct Ez as [K1 K2].
    split; [reflexivity|]. split; [split; [exact J|exact (link_zorich c A i i' s' j f j' t' HL Ez' K1 K2)]|]. split; [constructor|exact Ht].
  - destruct (rel_reduce c Hc A i i' s s' H B S2) as [R [(k & Ip & E & E')|(Nr & E & E')]]; rewrite E, E' in R |- *; cbn [rres bind] in *; destruct R as [Hr I1]; cbn [fst snd] in *.
    + destruct (link_cut c A _ i i' _ k HL Ip) as [L1 L2]. split; [reflexivity|]. split; [split; [exact I1|exact L1]|].
      split; [constructor; [split; [exact Hr|exact L2]|constructor]|exact HQ].
    + split; [reflexivity|]. split; [split; [exact H|exact HL]|]. split; [constructor|exact HQ].
  - apply (rres_bind _ _ _ _ _ _ (rel_sinduce fuel limit i i' s s' H HQ HL)). intros [[st j] t] [[st' j'] t'] (E & J & Ht & L1 & L2). cbn [fst snd] in *.
    split; [cbn; rewrite (si_result _ _ _ E), (si_connection _ _ _ E); reflexivity|]. split; [split; [exact J|exact L1]|]. split; [|exact Ht].
    pose proof (si_additional _ _ _ E) as R. cbn. destruct (is_additional st), (is_additional st'); try contradiction; auto.
    constructor; [split; [exact R|exact (L2 _ _ eq_refl eq_refl)]|constructor].
  - unfold saf_invariant. pose proof (link_saf c Hc A True _ _ _ _ H B HL) as R.
    destruct (iet_saf i s) as [[u j]| | | |], (iet_saf i' s') as [[v j']| | | |]; cbn [rres] in R; try contradiction; try exact I.
    destruct R as (V & J & Lj & _). cbn [fst snd bind rres] in *. split; [|split; [split; [exact J|exact Lj]|split; [constructor|exact HQ]]]. cbn.
    assert (G : forall w, vis0 (if i_swap j then vneg w else w) = vis0 w) by (intro w; destruct (i_swap j); [apply vis0_vneg|reflexivity]).
    rewrite (ir_swap _ _ _ J), !G, V. reflexivity.
  - apply (rres_bind _ _ _ _ _ _ (rres_eqn _ _ _ (rel_bosh c Hc A i i' s s' H B S2))). intros [f j] [f' j'] ((E & J) & Eb1 & Eb2). cbn [fst snd] in *. subst f'.
    split; [reflexivity|]. split; [split; [exact J|]|split; [constructor|exact HQ]].
    apply bosh_shape in Eb1. apply bosh_shape in Eb2. destruct Eb1 as (u & Eu). destruct Eb2 as (v & Ev).
    pose proof (link_saf c Hc A _ i i' _ _ H B HL) as R. rewrite Eu, Ev in R. apply R.
  - rewrite (rel_saddle c Hc A i i' s s' H B). apply rres_same. intros f _. split; [reflexivity|]. split; [split; assumption|]. split; [constructor|exact HQ].
  - rewrite (rel_saddle2 c Hc A i i' s s' t m H B). apply rres_same. intros f _. split; [reflexivity|]. split; [split; assumption|]. split; [constructor|exact HQ].
Qed.

Definition same_run (p : list answer * list (iet T) * slen T) (p' : list answer * list (iet T') * slen T') : Prop :=
  fst (fst p) = fst (fst p') /\ Forall2 (both_at (snd p')) (snd (fst p)) (snd (fst p')) /\ Qs (snd p) (snd p') /\ history (snd (fst p')) (snd p').

Lemma Forall2_firstn {X Y} (P : X -> Y -> Prop) n : forall l l', Forall2 P l l' -> Forall2 P (firstn n l) (firstn n l').
Proof. induction n as [|n IH]; intros l l' H; [constructor|]. destruct H; cbn; constructor; auto. Qed.
Lemma Forall2_skipn {X Y} (P : X -> Y -> Prop) n : forall l l', Forall2 P l l' -> Forall2 P (skipn n l) (skipn n l').
Proof. induction n as [|n IH]; intros l l' H; [exact H|]. destruct H; cbn; [constructor|auto]. Qed.

Lemma call_run o (i : iet T') s a j x t : call o i s = Ok (a, j, x, t) -> run_op o i s = Ok (j, x, t).
Proof.
  destruct o; cbn [call run_op]; intro E.
  - injection E as _ <- <- <-. reflexivity.
  - destruct (zorich sample_lens i s) as [[[f i1] s1]| | | |]; cbn [bind] in *; try discriminate. injection E as _ <- <- <-. reflexivity.
  - destruct (reduce i s) as [[[r|] i1]| | | |]; cbn [bind] in *; try discriminate; injection E as _ <- <- <-; reflexivity.
  - destruct (induce sample_lens fuel limit i s) as [[[f i1] s1]| | | |]; cbn [bind] in *; try discriminate. injection E as _ <- <- <-. reflexivity.
  - destruct (saf_invariant i s) as [[v i1]| | | |]; cbn [bind] in *; try discriminate; injection E as _ <- <- <-; reflexivity.
  - destruct (bosh_no_periodic i s) as [[v i1]| | | |]; cbn [bind] in *; try discriminate; injection E as _ <- <- <-; reflexivity.
  - destruct (bosh_no_saddle i s) as [v| | | |]; cbn [bind] in *; try discriminate; injection E as _ <- <- <-; reflexivity.
  - destruct (bosh_no_saddle2 i s t0 b) as [v| | | |]; cbn [bind] in *; try discriminate; injection E as _ <- <- <-; reflexivity.
Qed.

Lemma both_frame s' t' i i' : both_at s' i i' -> sl_stack t' = [] -> length (sl_lens t') = length (sl_lens s') ->
  (forall l, In l (i_top i') -> nth_error (sl_lens t') l = nth_error (sl_lens s') l) -> both_at t' i i'.
Proof. intros [H HL] St Le Fr. split; [exact H|]. exact (link_frame c A i i' s' t' HL St Le Fr). Qed.

Theorem rel_run : forall p pool pool' s s', Forall (fun x => op_legal (snd x)) p -> Forall2 (both_at s') pool pool' -> Qs s s' -> history pool' s' ->
  rres same_run (run p pool s) (run p pool' s').
Proof.
  induction p as [|[n o] p IH]; intros pool pool' s s' Lg F HQ HH; [split; [reflexivity|split; [exact F|split; [exact HQ|exact HH]]]|]. cbn [run].
  pose proof (Forall2_nth _ _ _ F n) as G. destruct (nth_error pool n) as [i|] eqn:En, (nth_error pool' n) as [i'|] eqn:En'; try contradiction; [|exact I].
  apply (rres_bind _ _ _ _ _ _ (rres_eqn _ _ _ (rel_call o i i' s s' G HQ))).
  intros [[[a j] x] t] [[[a' j'] x'] t'] ((E & J & X & Ht) & _ & Ec). cbn [fst snd] in *. subst a'.
  pose proof (call_run _ _ _ _ _ _ _ Ec) as Er. destruct (history_ok pool' s' HH) as (Hg & Hn & _).
  destruct (op_ok o i' s' (Hg i' (nth_error_In _ _ En')) (Forall_inv Lg)) as [Bad|(i2 & x2 & s2 & Er2 & Ef)].
  { exfalso. rewrite Er in Bad. destruct o; cbn [failure] in Bad; try contradiction; destruct Bad as [[Bad _]|[Bad _]]; discriminate. }
  rewrite Er in Er2. injection Er2 as <- <- <-.
  destruct (nth_error_split _ _ En') as (l1 & l2 & El & Ln).
  assert (Out : forall y, In y l1 \/ In y l2 -> forall l, In l (i_top y) -> ~ In l (i_top i')).
  { intros y Hy l Hl Hi. rewrite El in Hn. unfold used in Hn. rewrite flat_map_app in Hn. cbn [flat_map] in Hn. apply NoDup_app_inv in Hn. destruct Hn as (_ & N2 & N3).
    apply NoDup_app_inv in N2. destruct N2 as (_ & _ & N4). destruct Hy as [Hy|Hy].
    - apply (N3 l); [apply in_flat_map; exists y; auto|apply in_or_app; left; exact Hi].
    - apply (N4 l Hi). apply in_flat_map. exists y. auto. }
  assert (Fr : forall y y', In y' l1 \/ In y' l2 -> both_at s' y y' -> both_at t' y y').
  { intros y y' Hy Hb. apply (both_frame s' t'); [exact Hb|destruct (Qs_base _ _ Ht) as (_ & _ & St); exact St|exact (ef_len _ _ _ _ _ Ef)|].
    intros l Hl. apply (ef_frame _ _ _ _ _ Ef). exact (Out y' Hy l Hl). }
  assert (F1 : firstn n pool' = l1).
  { rewrite El, <- Ln, firstn_app, Nat.sub_diag, firstn_all. apply app_nil_r. }
  assert (F2 : skipn (Datatypes.S n) pool' = l2) by (rewrite El, <- Ln; clear; induction l1; auto).
  eapply rres_bind; [apply IH; [exact (Forall_inv_tail Lg)| |exact Ht|]|].
  - apply Forall2_app; [|constructor; [exact J|]; apply Forall2_app; [exact X|]].
    + eapply Forall2_all; [apply Forall2_firstn; exact F|]. rewrite F1. intros y y' Hy. apply Fr. left. exact Hy.
    + eapply Forall2_all; [apply Forall2_skipn; exact F|]. rewrite F2. intros y y' Hy. apply Fr. right. exact Hy.
  - rewrite F1, F2. apply (h_op l1 i' l2 s' o); [rewrite <- El; exact HH|exact (Forall_inv Lg)|exact Er].
  - intros [[rest q] u] [[rest' q'] u'] (E & Fq & Hu & HN). cbn [fst snd] in *. subst rest'. split; [reflexivity|]. split; [exact Fq|]. split; [exact Hu|exact HN].
Qed.

(** ** Decompositions *)

Lemma rel_check d d' : drel d d' -> dec_check d = dec_check d'.
Proof.
  intros (_ & _ & _ & P). unfold dec_check, lefts, rights. rewrite (sp_keys _ _ _ P), (sp_conns _ _ _ P). reflexivity.
Qed.

Definition same_dcall (p : danswer * decomp T) (p' : danswer * decomp T') : Prop := fst p = fst p' /\ wrel [] (snd p) (snd p').

Lemma rel_dcall k d d' : dcall_legal k -> wrel [] d d' -> rres same_dcall (do_dcall k d) (do_dcall k d').
Proof.
  intros Lg Hw. pose proof (proj1 Hw) as H. destruct k as [fuel limit x|rounds fuel target limit|e ls rs]; cbn [do_dcall] in *.
  - apply (rres_bind _ _ _ _ _ _ (rel_decomposition_step c Hc A fuel limit x d d' (proj2 Lg) Hw)). intros [st e] [st' e'] [E He].
    cbn [fst snd] in *. subst st'. split; [reflexivity|exact He].
  - eapply rres_bind; [apply (rel_decompose c Hc A (fun v => target (look_at v)) (fun v => target (look_at v))); [|exact (proj2 Lg)|exact Hw]|].
    + intros v v' V. f_equal. unfold look_at. destruct V. congruence.
    + intros [o e] [o' e'] [E He]. cbn [fst snd] in *. subst o'. split; [reflexivity|exact He].
  - unfold inject. rewrite (rel_check d d' H), !(shape_conns_at d d' _ (parts_shape _ _ _ (proj2 (proj2 (proj2 H))))).
    rewrite (sp_conns _ _ _ (proj2 (proj2 (proj2 H)))).
    destruct (dec_check d') as [[]| | | |]; try exact I. cbn [bind]. destruct (conns_at d' (he_label e)) as [k| | | |]; try exact I. cbn [bind].
    set (newl := map left_conn _). set (newr := map right_conn _). set (f := upd _ _ _).
    destruct (_ || _); [|exact I]. cbn [assert_]. destruct (_ || _); [|exact I]. cbn [assert_].
    pose proof (wrel_conns c A [] d d' f Hw) as H1. rewrite (rel_check _ _ (proj1 H1)). destruct (dec_check (set_conns d' f)); try exact I. cbn [bind rres].
    split; [reflexivity|exact H1].
Qed.

Definition same_drun (p : list danswer * decomp T) (p' : list danswer * decomp T') : Prop := fst p = fst p' /\ wrel [] (snd p) (snd p').

Theorem rel_drun : forall p d d', Forall dcall_legal p -> wrel [] d d' -> rres same_drun (drun p d) (drun p d').
Proof.
  induction p as [|k p IH]; intros d d' Lg H; [split; [reflexivity|exact H]|]. cbn [drun].
  apply (rres_bind _ _ _ _ _ _ (rel_dcall k d d' (Forall_inv Lg) H)). intros [a e] [a' e'] [E He]. cbn [fst snd] in *. subst a'.
  apply (rres_bind _ _ _ _ _ _ (IH e e' (Forall_inv_tail Lg) He)). intros [r f] [r' f'] [E Hf]. cbn [fst snd] in *. subst r'. split; [reflexivity|exact Hf].
Qed.

Lemma rel_views d d' : drel d d' -> rres (Forall2 (fun v v' => look_at v' = look_at v /\ Forall2 (fun x y => val y = (c * mval x)%R) (cv_lengths v) (cv_lengths v'))) (views d) (views d').
Proof.
  intro H. unfold views. rewrite (Forall2_len _ _ _ (sp_comps _ _ _ (proj2 (proj2 (proj2 H))))).
  apply rres_mapM. intros k _. eapply rres_mono; [apply (rel_comp_view c A d d' k H)|].
  intros v v' []. split; [unfold look_at; congruence|assumption].
Qed.

(** ** The start *)

Lemma rel_make i i' s s' : irel i i' -> Qs s s' -> good i' s' -> rres (wrel []) (dec_make i s) (dec_make i' s').
Proof.
  intros J HQ HG. destruct (Qs_base s s' HQ) as (B & S1 & S2).
  eapply rres_mono; [apply rres_eqn; unfold dec_make; rewrite (ir_top _ _ _ J), (ir_bot _ _ _ J);
    apply (rres_bind _ (fun d d' => d_comps d = [mkdcomp (mkiet (i_top i) (i_bottom i) false None tracker_init) None None None] /\
      drel d d' /\ d_comps d' = [mkdcomp (mkiet (i_top i) (i_bottom i) false None tracker_init) None None None] /\ d_len d' = s') _ _ _ _ (rel_iet_make c Hc A s s' (i_top i) (i_bottom i) B (ir_in _ _ _ J)))|].
  - intros j j' (-> & ->). split; [reflexivity|]. split; [|split; reflexivity].
    split; [exact HQ|]. split; [reflexivity|]. split; [reflexivity|]. constructor; try reflexivity. cbn. constructor; [|constructor].
    constructor; try reflexivity. cbn. apply irel_rows; try apply J; try exact I.
  - intros d d' ((Ec & Hd & Ec' & El) & _ & Ed'). assert (E' : dec_make i' s' = Ok d').
    { rewrite <- Ed'. unfold dec_make. rewrite (ir_top _ _ _ J), (ir_bot _ _ _ J). reflexivity. }
    pose proof (sound_make i' s' d' HG E') as So. split; [exact Hd|]. split; [exact So|]. split; [|constructor].
    unfold linked. rewrite Ec, Ec'. constructor; [|constructor]. cbn. apply link_new; [|reflexivity].
    apply (so_good _ _ So). rewrite app_nil_r. unfold comp_iets. rewrite Ec'. left. reflexivity.
Qed.
End RatioRun.

(** ** Whole programs *)

Section Start.
Context {T : Type} {O : LenOps T} {W : MixedLaws T}.
Context {T' : Type} {O' : LenOps T'} {W' : LenLaws T'}.
Variable c : R.
Hypothesis Hc : (0 < c)%R.
Variable top bottom : list label.
Variable ls : list T.
Variable ls' : list T'.
Hypothesis Hn : NoDup top.
Hypothesis Hb : Permutation top bottom.
Hypothesis He : top <> [].
Hypothesis Hl : forall l, In l top -> exists x y, nth_error ls l = Some x /\ nth_error ls' l = Some y /\ val y = (c * mval x)%R /\ (0 < mval x)%R.
Let A (l : label) : Prop := In l top.

Lemma rel_session p : Forall (fun x => op_legal (snd x)) p ->
  rres (same_run c A) (session top bottom p (mkslen [] ls)) (session top bottom p (mkslen [] ls')).
Proof.
  intro Lg. unfold session.
  assert (B : Ratio.near c A None (mkslen [] ls) (mkslen [] ls')).
  { intros l Hl0. destruct (Hl l Hl0) as (x & y & E & E' & V & P). exists x, y. repeat split; auto. }
  assert (Fa : Forall A top) by (apply Forall_forall; auto).
  assert (V' : valid_input (mkslen [] ls') top bottom).
  { split; [exact Hn|]. split; [exact Hb|]. split; [exact He|]. intros l Hl0. destruct (Hl l Hl0) as (x & y & E & E' & V & P). exists y. split; [exact E'|]. rewrite V. nra. }
  apply (rres_bind _ _ _ _ _ _ (rres_eqn _ _ _ (rel_iet_make c Hc A _ _ top bottom B Fa))).
  intros j j' ((-> & ->) & _ & M').
  assert (HH : history [mkiet top bottom false None tracker_init] (mkslen [] ls')) by (apply (h_new [] _ top bottom); [constructor|exact V'|intros l _ []|exact M']).
  apply (rel_run c Hc A); [exact Lg| | |exact HH].
  - constructor; [|constructor]. split; [apply irel_rows; auto; exact I|]. apply link_new; [|reflexivity]. apply (history_ok _ _ HH). left. reflexivity.
  - split; [|reflexivity]. split; [exact B|reflexivity].
Qed.

Lemma rel_decomposing p n q : Forall (fun x => op_legal (snd x)) p -> Forall dcall_legal q ->
  rres (fun r r' => fst r' = fst r /\ Forall2 (fun v v' => look_at v' = look_at v /\ Forall2 (fun x y => val y = (c * mval x)%R) (cv_lengths v) (cv_lengths v')) (snd r) (snd r'))
    (decomposing top bottom p n q (mkslen [] ls)) (decomposing top bottom p n q (mkslen [] ls')).
Proof.
  intros Lp Lq. unfold decomposing. apply (rres_bind _ _ _ _ _ _ (rel_session p Lp)).
  intros [[a pool] s] [[a' pool'] s'] (E & F & HQ & HH). cbn [fst snd] in *. subst a'.
  pose proof (Forall2_nth _ _ _ F n) as G. destruct (nth_error pool n) as [i|], (nth_error pool' n) as [i'|] eqn:En'; try contradiction; [|exact I].
  pose proof (proj1 (history_ok pool' s' HH) i' (nth_error_In _ _ En')) as HG.
  apply (rres_bind _ _ _ _ _ _ (rel_make c Hc A i i' s s' (proj1 G) HQ HG)). intros d d' Hd.
  apply (rres_bind _ _ _ _ _ _ (rel_drun c Hc A q d d' Lq Hd)). intros [b e] [b' e'] [Eb He']. cbn [fst snd] in *. subst b'.
  apply (rres_bind _ _ _ _ _ _ (rel_views c A e e' (proj1 He'))). intros v v' V. split; [reflexivity|exact V].
Qed.

Lemma run_seen (r : list answer * list (iet T) * slen T) (r' : list answer * list (iet T') * slen T') : same_run c A r r' ->
  fst (fst r') = fst (fst r) /\ map rows (snd (fst r')) = map rows (snd (fst r)) /\ forall l, In l top -> lamR (snd r') l = (c * lamM (snd r) l)%R.
Proof.
  intros (E & F & HQ & _). split; [symmetry; exact E|]. split.
  - clear E HQ. induction F as [|i i' l l' [J _] F IH]; [reflexivity|]. cbn [map]. rewrite IH. unfold rows. rewrite (ir_top _ _ _ J), (ir_bot _ _ _ J). reflexivity.
  - destruct (Qs_base _ _ _ _ HQ) as (B & _). intros l Hl0. exact (near_lam c A _ _ l B Hl0).
Qed.
End Start.

(** ** Two uniform types *)

Lemma both_rres {X Y} (Q : X -> Y -> Prop) m m' : rres Q m m' -> both Q m m'.
Proof. destruct m, m'; auto. Qed.
Lemma both_flip {X Y} (Q : X -> Y -> Prop) m m' : both (fun b a => Q a b) m' m -> both Q m m'.
Proof. destruct m, m'; auto. Qed.
Lemma both_mono {X Y} (Q R : X -> Y -> Prop) m m' : both Q m m' -> (forall a b, Q a b -> R a b) -> both R m m'.
Proof. destruct m, m'; simpl; auto. Qed.

Section Final.
Context {T : Type} {O : LenOps T} {W : LenLaws T}.
Context {T' : Type} {O' : LenOps T'} {W' : LenLaws T'}.
Let WM : MixedLaws T := @mixed_of_uniform T O W.

Lemma start_near c (ls : list T) (ls' : list T') top bottom : (0 < c)%R -> valid_input (mkslen [] ls) top bottom -> proportional c top (mkslen [] ls) (mkslen [] ls') ->
  forall l, In l top -> exists x y, nth_error ls l = Some x /\ nth_error ls' l = Some y /\ val y = (c * @mval T O WM x)%R /\ (0 < @mval T O WM x)%R.
Proof.
  intros Hc (_ & _ & _ & V) P l Hl. destruct (V l Hl) as (x & E & Hx). specialize (P l Hl). unfold lamR in P. cbn [sl_lens] in *. rewrite E in P.
  destruct (nth_error ls' l) as [y|] eqn:E'; [|nra]. exists x, y. repeat split; auto.
Qed.

Theorem session_ratio c top bottom (ls : list T) (ls' : list T') p : (0 < c)%R ->
  valid_input (mkslen [] ls) top bottom -> proportional c top (mkslen [] ls) (mkslen [] ls') -> Forall (fun x => op_legal (snd x)) p ->
  both (fun r r' => fst (fst r') = fst (fst r) /\ map rows (snd (fst r')) = map rows (snd (fst r)) /\ proportional c top (snd r) (snd r'))
    (session top bottom p (mkslen [] ls)) (session top bottom p (mkslen [] ls')).
Proof.
  intros Hc Hv Hp Lg. pose proof Hv as (V1 & V2 & V3 & _).
  eapply both_mono; [apply both_rres; apply (@rel_session T O WM T' O' W' c Hc top bottom ls ls' V1 V2 V3 (start_near c ls ls' top bottom Hc Hv Hp) p Lg)|].
  intros r r' R. exact (@run_seen T O WM T' O' W' c top r r' R).
Qed.

Theorem decomposing_ratio c top bottom (ls : list T) (ls' : list T') p n q : (0 < c)%R ->
  valid_input (mkslen [] ls) top bottom -> proportional c top (mkslen [] ls) (mkslen [] ls') ->
  Forall (fun x => op_legal (snd x)) p -> Forall dcall_legal q ->
  both (fun r r' => fst r' = fst r /\ Forall2 (same_view c) (snd r) (snd r'))
    (decomposing top bottom p n q (mkslen [] ls)) (decomposing top bottom p n q (mkslen [] ls')).
Proof.
  intros Hc Hv Hp Lp Lq. pose proof Hv as (V1 & V2 & V3 & _). apply both_rres.
  exact (@rel_decomposing T O WM T' O' W' c Hc top bottom ls ls' V1 V2 V3 (start_near c ls ls' top bottom Hc Hv Hp) p n q Lp Lq).
Qed.
End Final.
