(** An IET behaves as its rows and lengths say: the SAF cache, the swap flag and the similarity
    tracker do not show, up to reports of similarity. *)
From Coq Require Import List Reals Lra Lia Permutation.
From Verif Require Import Base QcTac LenT FM Subspace Lengths IET Spec SpecLin Api ZorichProof Saf Bosh ReduceProof InduceProof World RatioApi RestoreApi.
Import ListNotations.
Open Scope nat_scope.

Section Restore.
Context {T : Type} {O : LenOps T} {W : LenLaws T}.

Definition alike (i j : iet T) : Prop := i_top i = i_top j /\ i_bottom i = i_bottom j.

Lemma zloop_view v v' a : forall rest rpre (s : slen T), zloop sample_lens v a rpre rest s = zloop sample_lens v' a rpre rest s.
Proof.
  induction rest as [|b rest IH]; intros rpre s; [reflexivity|]. cbn [zloop]. destruct (b =? a); [reflexivity|].
  cbn [sample_lens li_push li_cmp1 li_pop li_subtract bind]. destruct (sl_cmp1 (sl_push b s) a) as [c| | | |]; [|reflexivity..]. cbn [bind].
  destruct c; [reflexivity|apply IH|reflexivity].
Qed.

Definition same3 (p q : bool * iet T * slen T) : Prop := fst (fst p) = fst (fst q) /\ alike (snd (fst p)) (snd (fst q)) /\ snd p = snd q.

Lemma zorich_alike i j s : alike i j -> both same3 (zorich sample_lens i s) (zorich sample_lens j s).
Proof.
  intros [Ht Hb]. unfold zorich. rewrite <- Ht, <- Hb. destruct (i_top i) as [|a X] eqn:Et; [exact I|].
  destruct (i_bottom i) as [|b Y] eqn:Eb; [exact I|]. destruct (a =? b); [split; [reflexivity|]; split; [split; cbn; congruence|reflexivity]|].
  rewrite (zloop_view (i_view j) (i_view i)). destruct (zloop sample_lens (i_view i) a [] (b :: Y) s) as [[r s1]| | | |]; try exact I. cbn [bind].
  destruct (splice a (b :: Y) (length r)) as [bo| | | |]; try exact I. cbn [bind]. destruct bo as [|b' bo]; [exact I|].
  destruct (li_cmp2 sample_lens s1 a b') as [c| | | |]; try exact I. cbn [bind]. split; [reflexivity|]. split; [split; [cbn; congruence|reflexivity]|reflexivity].
Qed.

Lemma swap_alike i j : alike i j -> alike (iet_swap i) (iet_swap j).
Proof. intros [A B]. split; assumption. Qed.

Lemma iteration_alike i j s : alike i j -> both same3 (iteration sample_lens i s) (iteration sample_lens j s).
Proof.
  intros A. unfold iteration. pose proof (zorich_alike i j s A) as Z.
  destruct (zorich sample_lens i s) as [[[f i1] s1]| | | |], (zorich sample_lens j s) as [[[g j1] t1]| | | |]; cbn [both] in Z; try contradiction; try exact I.
  destruct Z as (E & A1 & Es). cbn [fst snd] in *. subst g t1. cbn [bind]. destruct f; [split; [reflexivity|]; split; [exact A1|reflexivity]|].
  pose proof (zorich_alike _ _ s1 (swap_alike _ _ A1)) as Z.
  destruct (zorich sample_lens (iet_swap i1) s1) as [[[f i2] s2]| | | |], (zorich sample_lens (iet_swap j1) s1) as [[[g j2] t2]| | | |]; cbn [both] in Z; try contradiction; try exact I.
  destruct Z as (E & A2 & Es). cbn [fst snd] in *. subst g t2. split; [reflexivity|]. split; [apply swap_alike; exact A2|reflexivity].
Qed.

Definition loop_rel (p q : option bool * iet T * slen T) : Prop :=
  fst (fst p) = fst (fst q) /\ alike (snd (fst p)) (snd (fst q)) /\ snd p = snd q /\
  wf (snd (fst p)) (snd p) /\ cache_ok (snd (fst p)) (snd p) /\ cache_ok (snd (fst q)) (snd q).

Lemma alike_wf i j s : alike i j -> wf i s -> wf j s.
Proof. intros [A B] (H1 & H2 & H3 & H4 & H5). unfold wf. rewrite <- A, <- B. repeat split; assumption. Qed.

Lemma loop_alike saf0 limit : forall fuel n i j s, good i s -> good j s -> alike i j ->
  (exists i' s', induce_loop sample_lens fuel saf0 limit n i s = Ok (None, i', s')) \/
  (exists j' s', induce_loop sample_lens fuel saf0 limit n j s = Ok (None, j', s')) \/
  both loop_rel (induce_loop sample_lens fuel saf0 limit n i s) (induce_loop sample_lens fuel saf0 limit n j s).
Proof.
  induction fuel as [|fuel IH]; intros n i j s Gi Gj A; [right; right; exact I|]. rewrite !iteration_unfold.
  destruct (negb ((limit =? -1)%Z || (n <? limit)%Z)).
  { right; right. destruct Gi as (Hi & Ci & _), Gj as (_ & Cj & _). split; [reflexivity|]. split; [exact A|]. split; [reflexivity|]. auto. }
  destruct (tracking_ok saf0 i s Gi) as (b & i1 & E1 & R1 & T1 & B1 & K1 & _).
  destruct (tracking_ok saf0 j s Gj) as (b' & j1 & F1 & S1 & U1 & V1 & L1 & _).
  cbn [sample_lens li_base]. change (mklens _ _ _ _ _ _ _) with (sample_lens (T := T)). rewrite E1, F1. cbn [bind].
  destruct b; [left; eauto|]. destruct b'; [right; left; eauto|].
  assert (A1 : alike i1 j1) by (destruct A; split; congruence).
  pose proof (r_wf _ _ _ _ R1) as H1. pose proof (r_cache _ _ _ _ R1) as C1.
  pose proof (r_wf _ _ _ _ S1) as H2. pose proof (r_cache _ _ _ _ S1) as C2.
  pose proof (iteration_alike i1 j1 s A1) as Z.
  destruct (iteration_ok i1 s H1 C1) as (f & i2 & s2 & E2 & R2 & Et & _ & _ & Hdec).
  destruct (iteration_ok j1 s H2 C2) as (g & j2 & t2 & F2 & S2 & Ft & _ & _ & Gdec).
  rewrite E2, F2 in Z |- *. cbn [bind both] in *. destruct Z as (Zf & A2 & Zs). cbn [fst snd] in Zf, A2, Zs. subst g t2.
  pose proof (r_wf _ _ _ _ R2) as H3. pose proof (r_cache _ _ _ _ R2) as C3.
  pose proof (r_wf _ _ _ _ S2) as H4. pose proof (r_cache _ _ _ _ S2) as C4.
  destruct f; [right; right; split; [reflexivity|]; split; [exact A2|]; split; [reflexivity|]; auto|].
  destruct (n =? INT_MAX)%Z; [right; right; exact I|].
  apply IH; [| |exact A2].
  - split; [exact H3|]. split; [exact C3|]. exact (trk_extend False True i1 s i2 s2 H1 K1 R2 Et ltac:(intros _; right; apply Hdec; reflexivity)).
  - split; [exact H4|]. split; [exact C4|]. exact (trk_extend False True j1 s j2 s2 H2 L1 S2 Ft ltac:(intros _; right; apply Gdec; reflexivity)).
Qed.

Definition same_step (p q : istep T * iet T * slen T) : Prop :=
  is_result (fst (fst p)) = is_result (fst (fst q)) /\ is_connection (fst (fst p)) = is_connection (fst (fst q)) /\
  match is_additional (fst (fst p)), is_additional (fst (fst q)) with Some x, Some y => alike x y | None, None => True | _, _ => False end /\
  alike (snd (fst p)) (snd (fst q)) /\ snd p = snd q.

Lemma saf0_alike i j s : alike i j -> saf_now i s = saf_now j s.
Proof. intros [A B]. unfold saf_now. rewrite A, B. reflexivity. Qed.

Lemma reduce_alike i j s : alike i j -> wf i s ->
  (exists k, reduce i s = Ok (Some (right_part i k), left_part i k) /\ reduce j s = Ok (Some (right_part j k), left_part j k)) \/
  (reduce i s = Ok (None, i) /\ reduce j s = Ok (None, j)).
Proof.
  intros A H. pose proof (alike_wf _ _ _ A H) as Hj.
  assert (E : exch_of j s = exch_of i s) by (destruct A as [A B]; unfold exch_of; rewrite A, B; reflexivity).
  destruct (reduce_ok i s H) as [(k & Hk & Mk & Ek)|[N Ei]], (reduce_ok j s Hj) as [(m & Hm & Mm & Em)|[N' Ej]]; rewrite E in *.
  - left. exists k. assert (k = m) as <- by (apply Nat.le_antisymm; auto). auto.
  - exfalso. apply N'. exists k. exact Hk.
  - exfalso. apply N. exists m. exact Hm.
  - auto.
Qed.

Lemma parts_alike i j k : alike i j -> alike (left_part i k) (left_part j k) /\ alike (right_part i k) (right_part j k).
Proof. intros [A B]. split; split; cbn; congruence. Qed.

Lemma merge_alike i j : alike i j -> both alike (merge_first i) (merge_first j).
Proof.
  intros [A B]. unfold merge_first. rewrite <- A, <- B. destruct (i_top i) as [|a X]; [exact I|]. destruct (i_bottom i) as [|b Y]; [exact I|].
  destruct (split_at a Y) as [[p q]|]; [|exact I]. split; reflexivity.
Qed.

Lemma bosh_alike i j s : alike i j -> wf i s -> cache_ok i s -> cache_ok j s ->
  exists b u v, bosh_no_periodic i s = Ok (b, set_saf i (Some u)) /\ bosh_no_periodic j s = Ok (b, set_saf j (Some v)).
Proof.
  intros A H Ci Cj. pose proof (alike_wf _ _ _ A H) as Hj.
  destruct (bosh_no_periodic_ok i s H Ci) as (b & u & E & _ & B). destruct (bosh_no_periodic_ok j s Hj Cj) as (b' & v & F & _ & B').
  assert (X : exch_of j s = exch_of i s) by (destruct A as [A1 A2]; unfold exch_of; rewrite A1, A2; reflexivity). rewrite X in B'.
  exists b, u, v. split; [exact E|]. rewrite F. do 2 f_equal. clear - B B'. destruct b, b'; try reflexivity; intuition congruence.
Qed.

Lemma finish_alike found i j s : alike i j -> wf i s -> cache_ok i s -> cache_ok j s ->
  both same_step (induce_finish sample_lens found i s) (induce_finish sample_lens found j s).
Proof.
  intros A H Ci Cj. unfold induce_finish. cbn [sample_lens li_base li_cmp2].
  destruct (reduce_alike i j s A H) as [(k & E & F)|[E F]]; rewrite E, F; cbn [bind].
  - destruct (parts_alike i j k A) as [[L1 L2] R]. rewrite <- L1, <- L2. destruct (rev (i_bottom (left_part i k))); [exact I|].
    destruct (rev (i_top (left_part i k))); [exact I|]. split; [reflexivity|]. split; [reflexivity|]. split; [exact R|]. split; [split; assumption|reflexivity].
  - destruct A as [A1 A2]. rewrite <- A1, <- A2. destruct (i_top i) as [|a X] eqn:Et; [exact I|]. destruct (i_bottom i) as [|b Y] eqn:Eb; [exact I|].
    assert (A : alike i j) by (split; congruence).
    destruct (sl_cmp2 s a b) as [c| | | |]; try exact I. cbn [bind].
    assert (Other : both same_step
      (assert_ (negb found) ('(z, i0) <- bosh_no_periodic i s ;; Ok (mkistep (if (z : bool) then WITHOUT_PERIODIC_TRAJECTORY_BOSHERNITZAN else LIMIT_REACHED) None None, i0, s)))
      (assert_ (negb found) ('(z, i0) <- bosh_no_periodic j s ;; Ok (mkistep (if (z : bool) then WITHOUT_PERIODIC_TRAJECTORY_BOSHERNITZAN else LIMIT_REACHED) None None, i0, s)))).
    { destruct found; [exact I|]. cbn [negb assert_]. destruct (bosh_alike i j s A H Ci Cj) as (z & u & v & E1 & F1). rewrite E1, F1. cbn [bind].
      split; [reflexivity|]. split; [reflexivity|]. split; [exact I|]. split; [exact A|reflexivity]. }
    destruct c; [|exact Other|exact Other].
    pose proof (merge_alike i j A) as M. destruct (merge_first i) as [i1| | | |], (merge_first j) as [j1| | | |]; cbn [both] in M; try contradiction; try exact I.
    cbn [bind]. split; [reflexivity|]. split; [reflexivity|]. split; [exact I|]. split; [exact M|reflexivity].
Qed.

Definition auto_step (r : res (istep T * iet T * slen T)) : Prop :=
  exists i s, r = Ok (mkistep WITHOUT_PERIODIC_TRAJECTORY_AUTO_SIMILAR None None, i, s).

Lemma induce_alike fuel limit i j s : good i s -> good j s -> alike i j ->
  auto_step (induce sample_lens fuel limit i s) \/ auto_step (induce sample_lens fuel limit j s) \/
  both same_step (induce sample_lens fuel limit i s) (induce sample_lens fuel limit j s).
Proof.
  intros Gi Gj A. pose proof Gi as (Hi & Ci & _). pose proof Gj as (Hj & Cj & _). unfold induce.
  assert (Es : i_size j = i_size i) by (destruct A as [A _]; unfold i_size; rewrite A; reflexivity). rewrite Es.
  destruct (i_size i =? 1).
  { right; right. split; [reflexivity|]. split; [reflexivity|]. split; [exact I|]. split; [exact A|reflexivity]. }
  destruct (limit =? 0)%Z.
  { right; right. cbn [bind]. apply finish_alike; assumption. }
  cbn [sample_lens li_base]. change (mklens _ _ _ _ _ _ _) with (sample_lens (T := T)).
  destruct (iet_saf0_ok i s Hi Ci) as (u & E & Cu & _). destruct (iet_saf0_ok j s Hj Cj) as (v & F & Cv & _).
  rewrite E, F, <- (saf0_alike i j s A). cbn [bind].
  assert (G1 : good (set_saf i (Some u)) s) by (apply good_set_saf; assumption).
  assert (G2 : good (set_saf j (Some v)) s) by (apply good_set_saf; assumption).
  destruct (loop_alike (vis0 (saf_now i s)) limit fuel 0 _ _ s G1 G2 A) as [(i' & s' & L)|[(j' & s' & L)|L]].
  - left. rewrite L. cbn [bind]. eexists _, _. reflexivity.
  - right; left. rewrite L. cbn [bind]. eexists _, _. reflexivity.
  - right; right. destruct (induce_loop sample_lens fuel _ limit 0 (set_saf i (Some u)) s) as [[[f i1] s1]| | | |], (induce_loop sample_lens fuel _ limit 0 (set_saf j (Some v)) s) as [[[g j1] t1]| | | |]; cbn [both] in L; try contradiction; try exact I.
    destruct L as (Lf & A1 & Ls & H1 & C1 & C2). cbn [fst snd] in Lf, A1, Ls, H1, C1, C2. subst g t1. cbn [bind]. destruct f as [f|].
    + apply finish_alike; assumption.
    + split; [reflexivity|]. split; [reflexivity|]. split; [exact I|]. split; [exact A1|reflexivity].
Qed.

Definition same_call (p q : answer * iet T * list (iet T) * slen T) : Prop :=
  fst (fst (fst p)) = fst (fst (fst q)) /\ alike (snd (fst (fst p))) (snd (fst (fst q))) /\
  Forall2 alike (snd (fst p)) (snd (fst q)) /\ snd p = snd q.

Definition auto_call (r : res (answer * iet T * list (iet T) * slen T)) : Prop :=
  exists c i x s, r = Ok (ans_induce WITHOUT_PERIODIC_TRAJECTORY_AUTO_SIMILAR c, i, x, s).

Lemma saddle2_alike i j s t b : alike i j -> bosh_no_saddle2 i s t b = bosh_no_saddle2 j s t b.
Proof.
  destruct i as [ti bi wi ci ki], j as [tj bj wj cj kj]. intros [A B]. cbn [i_top i_bottom] in A, B. subst tj bj. reflexivity.
Qed.

Lemma saddle_alike i j s : alike i j -> bosh_no_saddle i s = bosh_no_saddle j s.
Proof.
  destruct i as [ti bi wi ci ki], j as [tj bj wj cj kj]. intros [A B]. cbn [i_top i_bottom] in A, B. subst tj bj. reflexivity.
Qed.

Lemma call_alike o i j s : good i s -> good j s -> alike i j ->
  auto_call (call o i s) \/ auto_call (call o j s) \/ both same_call (call o i s) (call o j s).
Proof.
  intros Gi Gj A. pose proof Gi as (Hi & Ci & _). pose proof Gj as (Hj & Cj & _). destruct o as [| | |fuel limit| | | |t b]; cbn [call].
  - right; right. split; [reflexivity|]. split; [apply swap_alike; exact A|]. split; [constructor|reflexivity].
  - right; right. pose proof (zorich_alike i j s A) as Z. destruct (zorich sample_lens i s) as [[[f i1] s1]| | | |], (zorich sample_lens j s) as [[[g j1] t1]| | | |]; cbn [both] in Z; try contradiction; try exact I.
    destruct Z as (E & A1 & Es). cbn [fst snd bind] in *. subst g t1. split; [reflexivity|]. split; [exact A1|]. split; [constructor|reflexivity].
  - right; right. destruct (reduce_alike i j s A Hi) as [(k & E & F)|[E F]]; rewrite E, F; cbn [bind].
    + destruct (parts_alike i j k A) as [L R]. split; [reflexivity|]. split; [exact L|]. split; [constructor; [exact R|constructor]|reflexivity].
    + split; [reflexivity|]. split; [exact A|]. split; [constructor|reflexivity].
  - destruct (induce_alike fuel limit i j s Gi Gj A) as [(i' & s' & E)|[(j' & s' & E)|B]].
    + left. rewrite E. cbn [bind]. eexists _, _, _, _. reflexivity.
    + right; left. rewrite E. cbn [bind]. eexists _, _, _, _. reflexivity.
    + right; right. destruct (induce sample_lens fuel limit i s) as [[[st i1] s1]| | | |], (induce sample_lens fuel limit j s) as [[[st' j1] t1]| | | |]; cbn [both] in B; try contradiction; try exact I.
      destruct B as (E1 & E2 & E3 & A1 & Es). cbn [fst snd bind] in *. subst t1. split; [cbn; congruence|]. split; [exact A1|]. split; [|reflexivity].
      cbn. destruct (is_additional st), (is_additional st'); try contradiction; constructor; auto.
  - right; right. destruct (saf_invariant_ok i s Hi Ci) as (u & E & _). destruct (saf_invariant_ok j s Hj Cj) as (v & F & _). rewrite E, F, (saf0_alike i j s A). cbn [bind].
    split; [reflexivity|]. split; [exact A|]. split; [constructor|reflexivity].
  - right; right. destruct (bosh_alike i j s A Hi Ci Cj) as (z & u & v & E & F). rewrite E, F. cbn [bind].
    split; [reflexivity|]. split; [exact A|]. split; [constructor|reflexivity].
  - right; right. rewrite (saddle_alike i j s A). destruct (bosh_no_saddle j s); try exact I. cbn [bind]. split; [reflexivity|]. split; [exact A|]. split; [constructor|reflexivity].
  - right; right. rewrite (saddle2_alike i j s t b A). destruct (bosh_no_saddle2 j s t b); try exact I. cbn [bind]. split; [reflexivity|]. split; [exact A|]. split; [constructor|reflexivity].
Qed.

Lemma call_run o (i : iet T) s a j x t : call o i s = Ok (a, j, x, t) -> run_op o i s = Ok (j, x, t).
Proof.
  destruct o; cbn [call run_op]; intro E.
  - injection E as _ <- <- <-. reflexivity.
  - destruct (zorich sample_lens i s) as [[[f i1] s1]| | | |]; cbn [bind] in *; try discriminate. injection E as _ <- <- <-. reflexivity.
  - destruct (reduce i s) as [[[r|] i1]| | | |]; cbn [bind] in *; try discriminate; injection E as _ <- <- <-; reflexivity.
  - destruct (induce sample_lens fuel limit i s) as [[[f i1] s1]| | | |]; cbn [bind] in *; try discriminate. injection E as _ <- <- <-. reflexivity.
  - destruct (saf_invariant i s) as [[v i1]| | | |]; cbn [bind] in *; try discriminate; injection E as _ <- <- <-; reflexivity.
  - destruct (bosh_no_periodic i s) as [[v i1]| | | |]; cbn [bind] in *; try discriminate; injection E as _ <- <- <-; reflexivity.
  - destruct (bosh_no_saddle i s) as [v| | | |]; cbn [bind] in *; try discriminate; injection E as _ <- <- <-; reflexivity.
  - destruct (bosh_no_saddle2 i s t0 b) as [v| | | |]; cbn [bind] in *; try discriminate; injection E as _ <- <- <-; reflexivity.
Qed.

(** Any number of IETs that share a lengths object. *)
Definition pool_ok (l : list (iet T)) (s : slen T) : Prop := (forall i, In i l -> good i s) /\ NoDup (used l) /\ sl_stack s = [].

Lemma pool_op l1 i l2 s o i' extra s' : pool_ok (l1 ++ i :: l2) s -> op_legal o -> run_op o i s = Ok (i', extra, s') -> pool_ok (l1 ++ i' :: extra ++ l2) s'.
Proof.
  intros (IG & IN & IS) Lg E.
  assert (Gi : good i s) by (apply IG; apply in_or_app; right; left; reflexivity).
  assert (Ef : effect i s i' extra s').
  { destruct (op_ok o i s Gi Lg) as [F|(? & ? & ? & E' & F)].
    - exfalso. rewrite E in F. destruct o; cbn in F; try contradiction; destruct F as [[F _]|[F _]]; discriminate.
    - rewrite E in E'. injection E' as -> -> ->. exact F. }
  rewrite used_app, used_cons in IN.
  destruct (NoDup_app_inv _ _ IN) as (N1 & N2 & D1). destruct (NoDup_app_inv _ _ N2) as (N3 & N4 & D2).
  assert (St : sl_stack s' = []) by (apply (ef_good _ _ _ _ _ Ef i'); left; reflexivity).
  assert (Fr : forall j, In j (l1 ++ l2) -> good j s').
  { intros j Hj. apply (good_frame j s).
    - apply IG. rewrite in_app_iff in *. simpl. tauto.
    - exact St.
    - apply Ef.
    - intros c Hc. apply Ef. intros Hci. apply in_app_or in Hj. destruct Hj as [Hj|Hj].
      + apply (D1 c (in_used _ _ _ Hj Hc)). apply in_or_app. left. exact Hci.
      + exact (D2 c Hci (in_used _ _ _ Hj Hc)). }
  split; [|split; [|exact St]].
  - intros j Hj. rewrite in_app_iff in Hj. simpl in Hj. rewrite in_app_iff in Hj.
    destruct Hj as [Hj|[Hj|[Hj|Hj]]].
    + apply Fr. apply in_or_app. auto.
    + apply (ef_good _ _ _ _ _ Ef). left. exact Hj.
    + apply (ef_good _ _ _ _ _ Ef). right. exact Hj.
    + apply Fr. apply in_or_app. auto.
  - change (i' :: extra ++ l2) with ((i' :: extra) ++ l2). rewrite !used_app.
    apply NoDup_app_intro; [exact N1 | |].
    + apply NoDup_app_intro; [apply Ef | exact N4|]. intros x Hx. apply D2. apply (ef_incl _ _ _ _ _ Ef), Hx.
    + intros x Hx Hx'. apply (D1 x Hx). rewrite in_app_iff in *. destruct Hx' as [G|G]; [left; apply (ef_incl _ _ _ _ _ Ef), G | right; exact G].
Qed.

Lemma pool_call pool s n i o a i' x s' : pool_ok pool s -> nth_error pool n = Some i -> op_legal o -> call o i s = Ok (a, i', x, s') ->
  pool_ok (firstn n pool ++ i' :: x ++ skipn (Datatypes.S n) pool) s'.
Proof.
  intros H E Lo C. apply (pool_op (firstn n pool) i (skipn (Datatypes.S n) pool) s o).
  - replace (firstn n pool ++ i :: skipn (Datatypes.S n) pool) with pool; [exact H|].
    clear - E. revert n E. induction pool as [|y pool IH]; intros [|n] E; try discriminate; cbn in *; [injection E as ->; reflexivity|]. f_equal. apply IH. exact E.
  - exact Lo.
  - apply call_run in C. exact C.
Qed.

Lemma pool_one i s : good i s -> pool_ok [i] s.
Proof.
  intros G. pose proof G as ((N & _ & _ & _ & St) & _). split; [intros j [<-|[]]; exact G|]. split; [|exact St]. cbn. rewrite app_nil_r. exact N.
Qed.

Lemma Forall2_at {X Y} (P : X -> Y -> Prop) l l' : Forall2 P l l' -> forall n,
  match nth_error l n, nth_error l' n with Some x, Some y => P x y | None, None => True | _, _ => False end.
Proof. induction 1 as [|x y l l' H F IH]; intros [|n]; cbn; auto; apply IH. Qed.
Lemma Forall2_fst {X Y} (P : X -> Y -> Prop) n : forall l l', Forall2 P l l' -> Forall2 P (firstn n l) (firstn n l').
Proof. induction n as [|n IH]; intros l l' H; [constructor|]. destruct H; cbn; constructor; auto. Qed.
Lemma Forall2_snd {X Y} (P : X -> Y -> Prop) n : forall l l', Forall2 P l l' -> Forall2 P (skipn n l) (skipn n l').
Proof. induction n as [|n IH]; intros l l' H; [exact H|]. destruct H; cbn; [constructor|auto]. Qed.

Lemma reports_cons n o p pool s i a i' x s' : nth_error pool n = Some i -> call o i s = Ok (a, i', x, s') ->
  reports_similar (run p (firstn n pool ++ i' :: x ++ skipn (Datatypes.S n) pool) s') -> reports_similar (run ((n, o) :: p) pool s).
Proof.
  intros E C (b & q & t & c & R & H). cbn [run]. rewrite E, C. cbn [bind]. rewrite R. cbn [bind]. exists (a :: b), q, t, c. split; [reflexivity|right; exact H].
Qed.

Lemma reports_first n o p pool s i : nth_error pool n = Some i -> auto_call (call o i s) -> reports_similar (run (firstn 1 ((n, o) :: p)) pool s).
Proof.
  intros E (c & i' & x & s' & C). cbn [run firstn]. rewrite E, C. cbn [bind]. eexists _, _, _, c. split; [reflexivity|left; reflexivity].
Qed.

Theorem run_alike : forall p pool pool' s, Forall (fun x => op_legal (snd x)) p -> Forall2 alike pool pool' -> pool_ok pool s -> pool_ok pool' s ->
  (exists n, reports_similar (run (firstn n p) pool s) \/ reports_similar (run (firstn n p) pool' s)) \/
  both same_run (run p pool s) (run p pool' s).
Proof.
  induction p as [|[n o] p IH]; intros pool pool' s Lg F H H'.
  { right. split; [reflexivity|]. split; [|reflexivity]. cbn [fst snd]. clear - F. induction F as [|x y l l' [A B] F IH]; [reflexivity|]. cbn [map]. unfold rows at 1 3. rewrite A, B, IH. reflexivity. }
  pose proof (Forall2_at _ _ _ F n) as G. destruct (nth_error pool n) as [i|] eqn:E, (nth_error pool' n) as [j|] eqn:E'; try contradiction.
  2:{ right. cbn [run]. rewrite E, E'. exact I. }
  pose proof (proj1 H i (nth_error_In _ _ E)) as Gi. pose proof (proj1 H' j (nth_error_In _ _ E')) as Gj.
  destruct (call_alike o i j s Gi Gj G) as [C|[C|C]].
  - left. exists 1. left. exact (reports_first n o p pool s i E C).
  - left. exists 1. right. exact (reports_first n o p pool' s j E' C).
  - destruct (call o i s) as [[[[a i'] x] s']| | | |] eqn:Ci, (call o j s) as [[[[a' j'] x'] t']| | | |] eqn:Cj; cbn [both] in C; try contradiction;
      try (right; cbn [run]; rewrite E, E', Ci, Cj; exact I).
    destruct C as (Ca & A & X & Cs). cbn [fst snd] in Ca, A, X, Cs. subst a' t'.
    pose proof (pool_call _ _ _ _ _ _ _ _ _ H E (Forall_inv Lg) Ci) as H1. pose proof (pool_call _ _ _ _ _ _ _ _ _ H' E' (Forall_inv Lg) Cj) as H2.
    assert (F1 : Forall2 alike (firstn n pool ++ i' :: x ++ skipn (Datatypes.S n) pool) (firstn n pool' ++ j' :: x' ++ skipn (Datatypes.S n) pool')).
    { apply Forall2_app; [apply Forall2_fst; exact F|]. constructor; [exact A|]. apply Forall2_app; [exact X|apply Forall2_snd; exact F]. }
    destruct (IH _ _ s' (Forall_inv_tail Lg) F1 H1 H2) as [(m & [R|R])|R].
    + left. exists (Datatypes.S m). left. cbn [firstn]. exact (reports_cons n o _ pool s i _ _ _ _ E Ci R).
    + left. exists (Datatypes.S m). right. cbn [firstn]. exact (reports_cons n o _ pool' s j _ _ _ _ E' Cj R).
    + right. cbn [run]. rewrite E, E', Ci, Cj. cbn [bind]. revert R.
      destruct (run p _ s') as [[[r q] u]| | | |], (run p _ s') as [[[r' q'] u']| | | |]; cbn [both]; try contradiction; auto.
      intros (R1 & R2 & R3). cbn [fst snd bind] in *. subst r' u'. split; [reflexivity|]. split; [exact R2|reflexivity].
Qed.

End Restore.

(** * Commensurable lengths: no report of similarity *)

From Verif Require Import Dyn Path InduceCons.

Section Commensurable.
Context {T : Type} {O : LenOps T} {W : LenLaws T}.
Variable u : R.
Hypothesis Hu : (0 < u)%R.

Definition units (i : iet T) (s : slen T) : Prop := integral u (exch_of i s).

Lemma units_sub (i j : iet T) s : incl (i_top j) (i_top i) -> units i s -> units j s.
Proof. intros Hi H l Hl. apply (H l). apply Hi. exact Hl. Qed.

Lemma units_induce fuel limit i s st i' s' : good i s -> (limit <= INT_MAX)%Z -> units i s ->
  induce sample_lens fuel limit i s = Ok (st, i', s') ->
  is_result st <> WITHOUT_PERIODIC_TRAJECTORY_AUTO_SIMILAR /\ units i' s' /\ forall x, is_additional st = Some x -> units x s'.
Proof.
  intros G HL U E. pose proof G as (H & C & K).
  destruct (induce_ok limit fuel i s HL G) as [(F & _)|[(F & _)|(st' & j & t & F & Gj & P)]]; try (rewrite F in E; discriminate).
  rewrite F in E. injection E as -> -> ->. 
  assert (R : forall j, reach i s j s' -> units j s').
  { intros j R. exact (path_integral u _ _ (wf_proper _ _ H) (r_path _ _ _ _ R) U). }
  unfold induce_post in P. destruct (is_result st) eqn:Er.
  - destruct P as (_ & P & _ & _ & _ & _ & ->). split; [discriminate|]. split; [apply R; exact P|discriminate].
  - destruct P as (_ & -> & -> & ->). split; [discriminate|]. split; [exact U|discriminate].
  - destruct P as (i1 & k & b & t' & _ & P & Hk & _ & -> & _ & _ & -> & _). split; [discriminate|]. split.
    + apply (units_sub i1); [|apply R; exact P]. intros l Hl. cbn in Hl. rewrite <- (firstn_skipn k). apply in_or_app. left. exact Hl.
    + intros x [= <-]. apply (units_sub i1); [|apply R; exact P]. intros l Hl. cbn in Hl. rewrite <- (firstn_skipn k). apply in_or_app. right. exact Hl.
  - destruct P as (i1 & a & b & _ & P & _ & Ha & _ & _ & _ & Et & _ & _ & ->). split; [discriminate|]. split; [|discriminate].
    apply (units_sub i1); [|apply R; exact P]. rewrite Et. intros l Hl. destruct (i_top i1); [destruct Hl|right; exact Hl].
  - destruct P as (_ & P & _ & _ & _ & _ & ->). split; [discriminate|]. split; [apply R; exact P|discriminate].
  - exfalso. destruct P as (_ & P & S & _). exact (integral_not_similar u i' s' Hu (r_wf _ _ _ _ P) (R _ P) S).
Qed.

Lemma units_call o i s a i' x s' : good i s -> op_legal o -> units i s -> call o i s = Ok (a, i', x, s') ->
  (forall c, a <> ans_induce WITHOUT_PERIODIC_TRAJECTORY_AUTO_SIMILAR c) /\ forall j, In j (i' :: x) -> units j s'.
Proof.
  intros G Lo U E. pose proof G as (H & C & K).
  assert (One : forall j t, units j t -> forall y, In y [j] -> units y t) by (intros j t Uj y [<-|[]]; exact Uj).
  destruct o as [| | |fuel limit| | | |t b]; cbn [call] in E.
  - injection E as <- <- <- <-. split; [discriminate|]. apply One. apply (units_sub i); [|exact U]. intros l Hl. destruct H as (_ & P & _). rewrite P. exact Hl.
  - destruct (zorich_reach i s H C) as (f & bo & s1 & F & R & _). rewrite F in E. injection E as <- <- <- <-. split; [discriminate|]. apply One.
    exact (path_integral u _ _ (wf_proper _ _ H) (r_path _ _ _ _ R) U).
  - destruct (reduce_ok i s H) as [(k & Hk & _ & F)|[_ F]]; rewrite F in E; cbn [bind] in E; injection E as <- <- <- <-; (split; [discriminate|]).
    + intros j [<-|[<-|[]]]; (apply (units_sub i); [|exact U]); intros l Hl; cbn in Hl; rewrite <- (firstn_skipn k); apply in_or_app; [left|right]; exact Hl.
    + apply One. exact U.
  - destruct (induce sample_lens fuel limit i s) as [[[st i1] s1]| | | |] eqn:F; cbn [bind] in E; try discriminate. injection E as <- <- <- <-.
    destruct (units_induce fuel limit i s st i1 s1 G (proj2 Lo) U F) as (A & B & D). split; [intros c [= X _]; contradiction|].
    intros j [<-|Hj]; [exact B|]. destruct (is_additional st) as [y|]; [|destruct Hj]. destruct Hj as [<-|[]]. apply D. reflexivity.
  - destruct (saf_invariant_ok i s H C) as (v & F & _). rewrite F in E. injection E as <- <- <- <-. split; [discriminate|]. apply One. exact U.
  - destruct (bosh_no_periodic_ok i s H C) as (r & v & F & _). rewrite F in E. injection E as <- <- <- <-. split; [discriminate|]. apply One. exact U.
  - destruct (bosh_no_saddle i s); cbn [bind] in E; try discriminate. injection E as <- <- <- <-. split; [discriminate|]. apply One. exact U.
  - destruct (bosh_no_saddle2 i s t b); cbn [bind] in E; try discriminate. injection E as <- <- <- <-. split; [discriminate|]. apply One. exact U.
Qed.

Lemma call_effect o i s a i' x s' : good i s -> op_legal o -> call o i s = Ok (a, i', x, s') -> effect i s i' x s'.
Proof.
  intros G Lo E. apply call_run in E. destruct (op_ok o i s G Lo) as [F|(? & ? & ? & E' & F)].
  - exfalso. rewrite E in F. destruct o; cbn in F; try contradiction; destruct F as [[F _]|[F _]]; discriminate.
  - rewrite E in E'. injection E' as -> -> ->. exact F.
Qed.

Theorem units_run : forall p pool s, Forall (fun x => op_legal (snd x)) p -> pool_ok pool s -> (forall i, In i pool -> units i s) -> ~ reports_similar (run p pool s).
Proof.
  induction p as [|[n o] p IH]; intros pool s Lg H U (b & q & t & c & E & Hin); cbn [run] in E.
  { injection E as <- _ _. destruct Hin. }
  destruct (nth_error pool n) as [i|] eqn:En; [|discriminate].
  pose proof (proj1 H i (nth_error_In _ _ En)) as Gi. pose proof (U i (nth_error_In _ _ En)) as Ui.
  destruct (call o i s) as [[[[a i'] x] s']| | | |] eqn:Ec; cbn [bind] in E; try discriminate.
  destruct (units_call o i s a i' x s' Gi (Forall_inv Lg) Ui Ec) as [Na Ux].
  destruct (run p _ s') as [[[r q'] t']| | | |] eqn:Er; cbn [bind] in E; try discriminate. injection E as <- <- <-.
  destruct Hin as [Hin|Hin]; [exact (Na c Hin)|].
  apply (IH _ s' (Forall_inv_tail Lg) (pool_call _ _ _ _ _ _ _ _ _ H En (Forall_inv Lg) Ec)); [|rewrite Er; exists r, q', t', c; auto].
  pose proof (call_effect o i s a i' x s' Gi (Forall_inv Lg) Ec) as Ef.
  destruct H as (_ & Nd & _). destruct (nth_error_split _ _ En) as (l1 & l2 & El & Ln).
  assert (F1 : firstn n pool = l1) by (rewrite El, <- Ln, firstn_app, Nat.sub_diag, firstn_all; apply app_nil_r).
  assert (F2 : skipn (Datatypes.S n) pool = l2) by (rewrite El, <- Ln; clear; induction l1; auto).
  rewrite F1, F2. rewrite El, used_app, used_cons in Nd. destruct (NoDup_app_inv _ _ Nd) as (_ & N2 & D1). destruct (NoDup_app_inv _ _ N2) as (_ & _ & D2).
  assert (Fr : forall j, In j l1 \/ In j l2 -> units j s').
  { intros j Hj l Hl. cbn in Hl |- *. rewrite (lamR_agree s s' l).
    - apply (U j); [rewrite El; apply in_or_app; destruct Hj; [left|right; right]; assumption|exact Hl].
    - apply (ef_frame _ _ _ _ _ Ef). intro Hi. destruct Hj as [Hj|Hj]; [apply (D1 l (in_used _ _ _ Hj Hl)); apply in_or_app; left; exact Hi|exact (D2 l Hi (in_used _ _ _ Hj Hl))]. }
  intros j Hj. apply in_app_or in Hj. destruct Hj as [Hj|[Hj|Hj]]; [apply Fr; auto|apply Ux; left; exact Hj|].
  apply in_app_or in Hj. destruct Hj as [Hj|Hj]; [apply Ux; right; exact Hj|apply Fr; auto].
Qed.
End Commensurable.
