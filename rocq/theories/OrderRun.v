(** Schedules: any two orders in which the components are processed lead to the same. *)
From Coq Require Import Reals Permutation Lia List.
From Verif Require Import Base QcTac LenT FM Subspace Lengths IET Api ZorichProof Saf Bosh InduceProof InduceCons.
From Verif Require Import Spec Dyn Path Decomp DecompSim DecompInv DecompRef DecompNav DecompStep DecompAll Fuel DecApi DecompBudget.
From Verif Require Import OrderApi OrderProof.
Open Scope nat_scope.

(** * Answers *)

Lemma side_sym s s' : same_side s s' -> same_side s' s.
Proof. destruct s, s'; cbn; intuition. Qed.
Lemma side_trans s s' s'' : same_side s s' -> same_side s' s'' -> same_side s s''.
Proof. destruct s, s', s''; cbn; intuition; congruence. Qed.
Lemma side_refl s : same_side s s.
Proof. destruct s; cbn; auto. Qed.

Lemma Forall2_refl' {B} (R : B -> B -> Prop) l : (forall x, R x x) -> Forall2 R l l.
Proof. intro H. induction l; constructor; auto. Qed.
Lemma Forall2_sym' {B} (R : B -> B -> Prop) l l' : (forall x y, R x y -> R y x) -> Forall2 R l l' -> Forall2 R l' l.
Proof. intros H F. induction F; constructor; auto. Qed.
Lemma Forall2_trans' {B} (R : B -> B -> Prop) : (forall x y z, R x y -> R y z -> R x z) -> forall l l' l'', Forall2 R l l' -> Forall2 R l' l'' -> Forall2 R l l''.
Proof.
  intros H l l' l'' F. revert l''. induction F as [|x y l l' Hxy F IH]; intros l'' G; inversion G; subst; constructor; eauto.
Qed.

Lemma answer_refl st : same_answer st st.
Proof.
  split; [reflexivity|]. split; [reflexivity|]. split; [|tauto]. destruct (dst_equivalent st); [|exact I]. apply Forall2_refl'. apply side_refl.
Qed.
Lemma answer_sym st st' : same_answer st st' -> same_answer st' st.
Proof.
  intros (H1 & H2 & H3 & H4). split; [auto|]. split; [auto|]. split; [|tauto].
  destruct (dst_equivalent st), (dst_equivalent st'); try contradiction; [|exact I]. eapply Forall2_sym'; [exact side_sym|exact H3].
Qed.
Lemma answer_trans a b c : same_answer a b -> same_answer b c -> same_answer a c.
Proof.
  intros (H1 & H2 & H3 & H4) (G1 & G2 & G3 & G4). split; [congruence|]. split; [congruence|]. split; [|tauto].
  destruct (dst_equivalent a), (dst_equivalent b), (dst_equivalent c); try contradiction; [|exact I].
  eapply Forall2_trans'; [exact side_trans|exact H3|exact G3].
Qed.

Lemma answers_refl tr : same_answers tr tr.
Proof. exists tr. split; [reflexivity|]. apply Forall2_refl', answer_refl. Qed.
Lemma answers_trans a b c : same_answers a b -> same_answers b c -> same_answers a c.
Proof.
  intros (a1 & P & F) (b1 & Q & G). destruct (Permutation_Forall2 Q (Forall2_sym' _ _ _ answer_sym F)) as (a2 & Q2 & F2).
  exists a2. split; [rewrite P; exact Q2|]. eapply Forall2_trans'; [exact answer_trans|eapply Forall2_sym'; [exact answer_sym|exact F2]|exact G].
Qed.
Lemma answers_sym a b : same_answers a b -> same_answers b a.
Proof.
  intros (a1 & P & F). symmetry in P. destruct (Permutation_Forall2 P F) as (b1 & Q & G). exists b1. split; [exact Q|].
  eapply Forall2_sym'; [exact answer_sym|exact G].
Qed.
Lemma answers_cons st st' a b : same_answer st st' -> same_answers a b -> same_answers (st :: a) (st' :: b).
Proof. intros H (a1 & P & F). exists (st :: a1). split; [apply perm_skip; exact P|]. constructor; assumption. Qed.
Lemma answers_swap x y a : same_answers (x :: y :: a) (y :: x :: a).
Proof. exists (y :: x :: a). split; [apply perm_swap|]. apply Forall2_refl', answer_refl. Qed.
Lemma answers_all a b : Forall2 same_answer a b -> same_answers a b.
Proof. intro F. exists a. split; [reflexivity|exact F]. Qed.
Lemma answers_length a b : same_answers a b -> length a = length b.
Proof. intros (a1 & P & F). rewrite (Permutation_length P). clear P. induction F; cbn; congruence. Qed.

Definition unlimited (tr : list dstep) : Prop := Forall (fun st => dst_result st <> D_LIMIT_REACHED) tr.
Lemma answers_unlimited a b : same_answers a b -> unlimited a -> unlimited b.
Proof.
  intros (a1 & P & F) U. assert (U1 : unlimited a1).
  { unfold unlimited in *. rewrite Forall_forall in *. intros x Hx. apply U. exact (Permutation_in _ (Permutation_sym P) Hx). }
  clear P U. induction F as [|x y l l' (Hxy & _) F IH]; constructor; inversion U1; subst.
  - rewrite <- Hxy. assumption.
  - apply IH. assumption.
Qed.

(** * Runs *)

Section Run.
Context {T : Type} {O : LenOps T} {W : LenLaws T}.
Variables (target : cview T -> bool) (limit : Z) (e0 : exch).
Hypothesis HL : (limit <= INT_MAX)%Z.

Lemma view_at d c x : dec_ok e0 d -> nth_error (d_comps d) c = Some x -> comp_view d c = Ok (view_of d x).
Proof. intros H E. destruct (nth_app_mid _ _ _ E) as (C1 & C2 & Ed & <-). exact (comp_view_ok e0 d C1 x C2 H Ed). Qed.

Lemma pending_view d c x : dec_ok e0 d -> nth_error (d_comps d) c = Some x -> (pending target d c <-> target (view_of d x) = false).
Proof.
  intros H E. pose proof (view_at d c x H E) as V. split.
  - intros (v & Ev & Ht). rewrite V in Ev. injection Ev as <-. exact Ht.
  - intro Ht. exists (view_of d x). auto.
Qed.

Lemma alike_view (d e : decomp T) x : same_up_to_numbering d e -> view_of d x = view_of e x.
Proof.
  intros [H1 _ H3 _ _]. unfold view_of, lft, rgt. rewrite H1. f_equal; apply map_ext; intro l; rewrite (H3 l); reflexivity.
Qed.

Lemma in_range (d : decomp T) c : c < length (d_comps d) -> exists x, nth_error (d_comps d) c = Some x.
Proof. intro H. destruct (nth_error (d_comps d) c) as [x|] eqn:E; [eauto|]. apply nth_error_None in E. lia. Qed.

Lemma step_ok_at d c fuel st d1 : dec_ok e0 d -> c < length (d_comps d) -> decomposition_step fuel limit c d = Ok (st, d1) ->
  dec_ok e0 d1 /\ length (d_comps d) <= length (d_comps d1) /\
  match dst_additional st with Some k => k = length (d_comps d) /\ k < length (d_comps d1) | None => True end.
Proof.
  intros H Hc E. destruct (in_range d c Hc) as (x & Ex).
  destruct (step_change_at e0 d c x fuel limit st d1 H HL Ex E) as (C1 & C2 & y & ex & Ed & Lc & Ch & X).
  assert (L : length (d_comps d1) = length (d_comps d) + length ex).
  { rewrite (cg_comps _ _ _ _ _ _ _ _ Ch), Ed. rewrite !app_length. simpl. rewrite app_length. lia. }
  split; [apply Ch|]. split; [lia|]. unfold extra_of in X. destruct (dst_additional st) as [k|]; [|exact I].
  destruct X as (-> & z & ->). simpl in L. lia.
Qed.

Lemma run_alike d tr d2 : schedule target limit d tr d2 -> forall e, dec_ok e0 d -> dec_ok e0 e -> same_up_to_numbering d e ->
  exists tr' e2, schedule target limit e tr' e2 /\ Forall2 same_answer tr tr' /\ same_up_to_numbering d2 e2 /\ dec_ok e0 d2 /\ dec_ok e0 e2.
Proof.
  induction 1 as [d|d c fuel st d1 tr d2 Hc Hp E S IH]; intros e H H' G.
  - exists [], e. split; [constructor|]. split; [constructor|]. auto.
  - destruct (in_range d c Hc) as (x & Ex).
    pose proof (Permutation_in _ (su_components _ _ G) (nth_error_In _ _ Ex)) as Hx. apply In_nth_error in Hx as (c' & Ex').
    assert (Hc' : c' < length (d_comps e)) by (apply nth_error_Some; rewrite Ex'; discriminate).
    destruct (step_alike e0 d e c c' x fuel limit st d1 H H' HL Ex Ex' G E) as (st' & e1 & E' & An & G1).
    destruct (step_ok_at d c fuel st d1 H Hc E) as (H1 & _). destruct (step_ok_at e c' fuel st' e1 H' Hc' E') as (H1' & _).
    destruct (IH e1 H1 H1' G1) as (tr' & e2 & S' & F & G2 & H2 & H2').
    exists (st' :: tr'), e2. split; [|split; [constructor; assumption|auto]].
    apply sch_step with (c := c') (fuel := fuel) (d1 := e1); try assumption.
    apply (pending_view e c' x H' Ex'). rewrite <- (alike_view d e x G). apply (pending_view d c x H Ex). exact Hp.
Qed.

Lemma finished_alike d e : dec_ok e0 d -> dec_ok e0 e -> same_up_to_numbering d e -> finished target d -> finished target e.
Proof.
  intros H H' G F c' Hc'. destruct (in_range e c' Hc') as (x & Ex').
  pose proof (Permutation_in _ (Permutation_sym (su_components _ _ G)) (nth_error_In _ _ Ex')) as Hx. apply In_nth_error in Hx as (c & Ex).
  destruct (F c) as (v & Ev & Ht); [apply nth_error_Some; rewrite Ex; discriminate|].
  rewrite (view_at d c x H Ex) in Ev. injection Ev as <-. exists (view_of e x). split; [exact (view_at e c' x H' Ex')|].
  rewrite <- (alike_view d e x G). exact Ht.
Qed.

Lemma not_both d c : c < length (d_comps d) -> pending target d c -> finished target d -> False.
Proof. intros Hc (v & Ev & Hv) F. destruct (F c Hc) as (v' & Ev' & Hv'). congruence. Qed.

(** A pending component can be processed first. *)
Lemma extract d tr d2 : schedule target limit d tr d2 -> dec_ok e0 d -> finished target d2 ->
  forall c, c < length (d_comps d) -> pending target d c ->
  exists fuel st d1 tr' d2', decomposition_step fuel limit c d = Ok (st, d1) /\ schedule target limit d1 tr' d2' /\
    same_up_to_numbering d2 d2' /\ same_answers tr (st :: tr') /\ dec_ok e0 d1 /\ dec_ok e0 d2 /\ dec_ok e0 d2' /\ finished target d2'.
Proof.
  induction 1 as [d|d a fuel sa d1 tr d2 Ha Hp E S IH]; intros H F c Hc Pc.
  - destruct (not_both d c Hc Pc F).
  - destruct (step_ok_at d a fuel sa d1 H Ha E) as (H1 & L1 & _).
    destruct (Nat.eq_dec a c) as [->|N].
    + destruct (run_alike d1 tr d2 S d1 H1 H1 (alike_refl d1)) as (_ & _ & _ & _ & _ & H2 & _).
      exists fuel, sa, d1, tr, d2. split; [exact E|]. split; [exact S|]. split; [apply alike_refl|]. split; [apply answers_refl|]. auto.
    + destruct (in_range d c Hc) as (x & Ex).
      destruct (in_range d a Ha) as (xa & Exa).
      destruct (step_change_at e0 d a xa fuel limit sa d1 H HL Exa E) as (C1 & C2 & y & ex & Ed & Lc & Ch & _).
      assert (N' : c <> length C1) by lia.
      pose proof (change_other _ _ _ _ _ _ _ _ _ _ Ed Ch N' Ex) as Ex1.
      assert (Pc1 : pending target d1 c).
      { apply (pending_view d1 c x H1 Ex1). rewrite (change_view e0 d C1 xa C2 y ex d1 x H Ed Ch (mid_other d C1 xa C2 c x Ed N' Ex)).
        apply (pending_view d c x H Ex). exact Pc. }
      destruct (IH H1 F c) as (fuel' & st & d3 & tr' & d2' & E3 & S3 & G2 & An & H3 & H2 & H2' & F2); [lia|exact Pc1|].
      destruct (step_commute e0 d a c fuel fuel' limit limit sa d1 st d3 H HL HL Ha Hc N E E3)
        as (st' & d4 & sa' & d5 & E4 & E5 & Aa & Ac & G5 & H4 & _ & _ & H5).
      destruct (run_alike d3 tr' d2' S3 d5 H3 H5 G5) as (tr5 & d6 & S6 & F6 & G6 & _ & H6).
      assert (La : a < length (d_comps d4)) by (destruct (step_ok_at d c fuel' st' d4 H Hc E4) as (_ & L4 & _); lia).
      assert (Pa4 : pending target d4 a).
      { destruct (step_change_at e0 d c x fuel' limit st' d4 H HL Ex E4) as (D1 & D2 & y4 & ex4 & Ed4 & Lc4 & Ch4 & _).
        assert (N4 : a <> length D1) by lia.
        pose proof (change_other _ _ _ _ _ _ _ _ _ _ Ed4 Ch4 N4 Exa) as Exa4. apply (pending_view d4 a xa H4 Exa4).
        rewrite (change_view e0 d D1 x D2 y4 ex4 d4 xa H Ed4 Ch4 (mid_other d D1 x D2 a xa Ed4 N4 Exa)).
        apply (pending_view d a xa H Exa). exact Hp. }
      exists fuel', st', d4, (sa' :: tr5), d6. split; [exact E4|]. split; [exact (sch_step target limit d4 a fuel sa' d5 tr5 d6 La Pa4 E5 S6)|].
      split; [exact (alike_trans _ _ _ G2 G6)|]. split; [|split; [exact H4|split; [exact H2|split; [exact H6|exact (finished_alike d2' d6 H2' H6 G6 F2)]]]].
      eapply answers_trans; [apply answers_cons; [exact Aa|exact An]|].
      eapply answers_trans; [apply answers_swap|]. apply answers_cons; [exact Ac|]. apply answers_cons; [apply answer_refl|].
      apply answers_all. exact F6.
Qed.

Lemma same_call d c fuel fuel' st st' (d1 d1' : decomp T) : decomposition_step fuel limit c d = Ok (st, d1) -> decomposition_step fuel' limit c d = Ok (st', d1') -> st = st' /\ d1 = d1'.
Proof.
  intros E E'. destruct (Nat.le_ge_cases fuel fuel') as [L|L].
  - pose proof (more_fuel _ _ _ (decomposition_step_more fuel fuel' limit c d L) E) as Q. rewrite E' in Q. injection Q as -> ->. auto.
  - pose proof (more_fuel _ _ _ (decomposition_step_more fuel' fuel limit c d L) E') as Q. rewrite E in Q. injection Q as -> ->. auto.
Qed.

Theorem confluent d tr' e : schedule target limit d tr' e -> finished target e -> dec_ok e0 d ->
  forall tr d2, schedule target limit d tr d2 -> finished target d2 -> same_answers tr tr' /\ same_up_to_numbering d2 e.
Proof.
  induction 1 as [d|d c fuel st d1 tr' e Hc Hp E S IH]; intros F H tr d2 S2 F2.
  - inversion S2; subst; [split; [apply answers_refl|apply alike_refl]|]. destruct (not_both d c H0 H1 F).
  - destruct (extract d tr d2 S2 H F2 c Hc Hp) as (fuel' & st' & d1' & tr1 & d2' & E' & S' & G & An & H1 & _ & H2' & F2').
    destruct (same_call d c _ _ _ _ _ _ E E') as [<- <-]. destruct (IH F H1 tr1 d2' S' F2') as [An' G'].
    split; [|exact (alike_trans _ _ _ G G')]. eapply answers_trans; [exact An|]. apply answers_cons; [apply answer_refl|exact An'].
Qed.

(** * decompose() is a schedule *)

Lemma schedule_app d tr d1 tr' d2 : schedule target limit d tr d1 -> schedule target limit d1 tr' d2 -> schedule target limit d (tr ++ tr') d2.
Proof. induction 1; [auto|]. intro. cbn [app]. econstructor; eauto. Qed.

Lemma comp_decompose_schedule fuel : forall rounds c d d', dec_ok e0 d -> c < length (d_comps d) ->
  comp_decompose rounds fuel target limit c d = Ok (true, d') ->
  exists tr, schedule target limit d tr d' /\ unlimited tr /\ dec_ok e0 d' /\ length (d_comps d) <= length (d_comps d').
Proof.
  induction rounds as [|rounds IH]; intros c d d' H Hc E; [discriminate|]. cbn [comp_decompose] in E.
  destruct (comp_view d c) as [v| | | |] eqn:Ev; try discriminate. cbn [bind] in E. destruct (target v) eqn:Et.
  { injection E as <-. exists []. split; [constructor|]. split; [constructor|]. auto. }
  destruct (decomposition_step fuel limit c d) as [[st d1]| | | |] eqn:Es; try discriminate. cbn [bind] in E.
  destruct (step_ok_at d c fuel st d1 H Hc Es) as (H1 & L1 & A1).
  assert (P : pending target d c) by (exists v; auto).
  assert (Go : dst_result st <> D_LIMIT_REACHED -> forall m, (m = Ok (true, d1) \/ exists k, m = comp_decompose rounds fuel target limit k d1 /\ k < length (d_comps d1)) ->
    ('(ok1, d2) <- m ;; '(ok2, d3) <- comp_decompose rounds fuel target limit c d2 ;; Ok (ok1 && ok2, d3)) = Ok (true, d') ->
    exists tr, schedule target limit d tr d' /\ unlimited tr /\ dec_ok e0 d' /\ length (d_comps d) <= length (d_comps d')).
  { intros Nl m Hm Em. assert (Hd : exists ok1 d2, m = Ok (ok1, d2)) by (destruct m as [[ok1 d2]| | | |]; try discriminate; eauto).
    destruct Hd as (ok1 & d2 & Hd). rewrite Hd in Em. cbn [bind] in Em.
    destruct (comp_decompose rounds fuel target limit c d2) as [[ok2 d3]| | | |] eqn:E2; try discriminate. cbn [bind] in Em.
    injection Em as Eok <-. apply Bool.andb_true_iff in Eok as [-> ->].
    assert (Q : exists tr, schedule target limit d1 tr d2 /\ unlimited tr /\ dec_ok e0 d2 /\ length (d_comps d1) <= length (d_comps d2)).
    { destruct Hm as [Hm|(k & Hm & Hk)].
      - rewrite Hd in Hm. injection Hm as ->. exists []. split; [constructor|]. split; [constructor|]. auto.
      - apply (IH k d1 d2 H1 Hk). congruence. }
    destruct Q as (tr1 & S1 & U1 & H2 & L2). destruct (IH c d2 d3 H2 ltac:(lia) E2) as (tr2 & S2 & U2 & H3 & L3).
    exists (st :: tr1 ++ tr2). split.
    - apply sch_step with (c := c) (fuel := fuel) (d1 := d1); try assumption. eapply schedule_app; eassumption.
    - split; [constructor; [exact Nl|apply Forall_app; auto]|]. split; [exact H3|lia]. }
  destruct (dst_result st); try discriminate.
  all: apply (Go ltac:(discriminate) _) in E; [exact E|].
  all: destruct (dst_additional st) as [k|]; [right; exists k; split; [reflexivity|apply A1]|left; reflexivity].
Qed.

Lemma decompose_all_schedule rounds fuel : forall cs d d', dec_ok e0 d -> (forall c, In c cs -> c < length (d_comps d)) ->
  decompose_all rounds fuel target limit cs d = Ok (true, d') ->
  exists tr, schedule target limit d tr d' /\ unlimited tr /\ dec_ok e0 d'.
Proof.
  induction cs as [|c cs IH]; intros d d' H Hc E; cbn [decompose_all] in E.
  - injection E as <-. exists []. split; [constructor|]. split; [constructor|]. exact H.
  - destruct (comp_decompose rounds fuel target limit c d) as [[ok d1]| | | |] eqn:E1; try discriminate. cbn [bind] in E. destruct ok; [|discriminate].
    destruct (comp_decompose_schedule fuel rounds c d d1 H (Hc c (or_introl eq_refl)) E1) as (tr1 & S1 & U1 & H1 & L1).
    destruct (IH d1 d' H1) as (tr2 & S2 & U2 & H2); [|exact E|].
    + intros c' Hc'. specialize (Hc c' (or_intror Hc')). lia.
    + exists (tr1 ++ tr2). split; [eapply schedule_app; eassumption|]. split; [apply Forall_app; auto|exact H2].
Qed.

Theorem decompose_schedule rounds fuel d d' : dec_ok e0 d -> decompose rounds fuel target limit d = Ok (true, d') ->
  exists tr, schedule target limit d tr d' /\ unlimited tr /\ finished target d'.
Proof.
  intros H E. destruct (decompose_all_schedule rounds fuel (seq 0 (length (d_comps d))) d d' H) with (2 := E) as (tr & S & U & H').
  { intros c Hc. apply in_seq in Hc. lia. }
  exists tr. split; [exact S|]. split; [exact U|].
  destruct (big_decompose _ _ _ _ _ _ E) as (f & Hf & E1).
  destruct (decompose_ok _ rounds f target limit d HL H Hf) as [Q|[(Q & _)|(ok & d1 & tr' & Q & H1 & _ & _ & _ & Ht & _)]];
    cbv zeta in Q; rewrite E1 in Q; try discriminate. injection Q as <- <-.
  intros c Hc. destruct (in_range d' c Hc) as (x & Ex). exists (view_of d' x). split; [exact (view_at d' c x H' Ex)|].
  apply Ht; [reflexivity|]. eapply nth_error_In; exact Ex.
Qed.

(** * If some order works, so does decompose() *)

Lemma comp_decompose_works : forall n tr d d2, schedule target limit d tr d2 -> length tr <= n -> dec_ok e0 d -> finished target d2 -> unlimited tr ->
  forall c, c < length (d_comps d) ->
  exists fuel d3 tr3 d2', comp_decompose (Datatypes.S n) fuel target limit c d = Ok (true, d3) /\
    schedule target limit d3 tr3 d2' /\ length tr3 <= length tr /\ unlimited tr3 /\ dec_ok e0 d3 /\ finished target d2' /\
    length (d_comps d) <= length (d_comps d3).
Proof.
  induction n as [n IHn] using lt_wf_ind. intros tr d d2 S Ln H F U c Hc.
  destruct (in_range d c Hc) as (x & Ex). pose proof (view_at d c x H Ex) as V.
  destruct (target (view_of d x)) eqn:Et.
  { exists 0, d, tr, d2. cbn [comp_decompose]. rewrite V. cbn [bind]. rewrite Et. auto 10. }
  assert (P : pending target d c) by (exists (view_of d x); auto).
  destruct (extract d tr d2 S H F c Hc P) as (f1 & st & d1 & tr1 & d2a & E1 & S1 & _ & An & H1 & _ & _ & F1).
  destruct (step_ok_at d c f1 st d1 H Hc E1) as (_ & L1 & A1).
  pose proof (answers_length _ _ An) as Lt. cbn [length] in Lt.
  destruct n as [|n]; [lia|].
  pose proof (answers_unlimited _ _ An U) as U1. inversion U1 as [|? ? Nl U1']; subst.
  (* the new component *)
  assert (Q : exists fa da tra d2b, (forall fuel, fa <= fuel ->
      match dst_additional st with Some k => comp_decompose (Datatypes.S n) fuel target limit k d1 | None => Ok (true, d1) end = Ok (true, da)) /\
      schedule target limit da tra d2b /\ length tra <= length tr1 /\ unlimited tra /\ dec_ok e0 da /\ finished target d2b /\ length (d_comps d1) <= length (d_comps da)).
  { destruct (dst_additional st) as [k|].
    - destruct (IHn n ltac:(lia) tr1 d1 d2a S1 ltac:(lia) H1 F1 U1' k (proj2 A1)) as (fa & da & tra & d2b & Ea & Sa & La & Ua & Ha & Fa & Lea).
      exists fa, da, tra, d2b. split; [|repeat (split; [assumption || lia|]); assumption].
      intros fuel Hf. exact (more_fuel _ _ _ (comp_decompose_more target limit _ _ _ _ k d1 (le_n _) Hf) Ea).
    - exists 0, d1, tr1, d2a. split; [reflexivity|]. repeat (split; [assumption || lia|]). lia. }
  destruct Q as (fa & da & tra & d2b & Ea & Sa & La & Ua & Ha & Fa & Lea).
  destruct (IHn n ltac:(lia) tra da d2b Sa ltac:(lia) Ha Fa Ua c ltac:(lia)) as (fb & db & trb & d2c & Eb & Sb & Lb & Ub & Hb & Fb & Leb).
  set (fuel := Nat.max f1 (Nat.max fa fb)). exists fuel, db, trb, d2c.
  split; [|repeat (split; [assumption || lia|]); lia].
  assert (Es : decomposition_step fuel limit c d = Ok (st, d1)).
  { eapply more_fuel; [|exact E1]. apply decomposition_step_more. unfold fuel. lia. }
  remember (Datatypes.S n) as m. cbn [comp_decompose]. rewrite V. cbn [bind]. rewrite Et, Es. cbn [bind].
  assert (Ec : comp_decompose m fuel target limit c da = Ok (true, db)).
  { eapply more_fuel; [|exact Eb]. apply comp_decompose_more; unfold fuel; lia. }
  specialize (Ea fuel ltac:(unfold fuel; lia)).
  destruct (dst_result st); try congruence; rewrite Ea; cbn [bind]; rewrite Ec; reflexivity.
Qed.

Lemma decompose_all_works n : forall cs tr d d2, schedule target limit d tr d2 -> length tr <= n -> dec_ok e0 d -> finished target d2 -> unlimited tr ->
  (forall c, In c cs -> c < length (d_comps d)) ->
  exists fuel d3, decompose_all (Datatypes.S n) fuel target limit cs d = Ok (true, d3).
Proof.
  induction cs as [|c cs IH]; intros tr d d2 S Ln H F U Hc; [exists 0, d; reflexivity|].
  destruct (comp_decompose_works n tr d d2 S Ln H F U c (Hc c (or_introl eq_refl))) as (f1 & d1 & tr1 & d2a & E1 & S1 & L1 & U1 & H1 & F1 & Le1).
  destruct (IH tr1 d1 d2a S1 ltac:(lia) H1 F1 U1) as (f2 & d3 & E2).
  { intros c' Hc'. specialize (Hc c' (or_intror Hc')). lia. }
  exists (Nat.max f1 f2), d3. cbn [decompose_all].
  rewrite (more_fuel _ _ _ (comp_decompose_more target limit _ _ _ _ c d (le_n _) (Nat.le_max_l f1 f2)) E1). cbn [bind].
  clear - E2. revert E2. generalize (Datatypes.S n) as r. revert d1. induction cs as [|c' cs IHc]; intros d1 r E2; [exact E2|].
  cbn [decompose_all] in *. destruct (comp_decompose r f2 target limit c' d1) as [[ok e1]| | | |] eqn:Ec; try discriminate.
  rewrite (more_fuel _ _ _ (comp_decompose_more target limit _ _ _ _ c' d1 (le_n _) (Nat.le_max_r f1 f2)) Ec). cbn [bind] in *.
  destruct ok; [|discriminate]. apply IHc. exact E2.
Qed.

Theorem decompose_works d tr d2 : schedule target limit d tr d2 -> dec_ok e0 d -> finished target d2 -> unlimited tr ->
  exists rounds fuel d3, decompose rounds fuel target limit d = Ok (true, d3) /\ same_up_to_numbering d3 d2.
Proof.
  intros S H F U. destruct (decompose_all_works (length tr) (seq 0 (length (d_comps d))) tr d d2 S (le_n _) H F U) as (fuel & d3 & E).
  { intros c Hc. apply in_seq in Hc. lia. }
  exists (Datatypes.S (length tr)), fuel, d3. split; [exact E|].
  destruct (decompose_schedule _ _ d d3 H E) as (tr3 & S3 & _ & F3).
  apply (confluent d tr d2 S F H tr3 d3 S3 F3).
Qed.
End Run.
