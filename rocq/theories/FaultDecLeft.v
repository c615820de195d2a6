(** What exceptions of the lengths leave behind in a decomposition. *)
From Coq Require Import Reals Permutation Lia Lra.
From Verif Require Import Base QcTac LenT FM Subspace Lengths IET Spec Api RatioApi Decomp Fault FaultDec.
From Verif Require Import ZorichProof ReduceProof Saf InduceProof FaultProof FaultDecProof.
From Verif Require Import DecompSim DecompInv DecompRef DecompStep.
Open Scope nat_scope.

Section FaultDecLeft.
Context {T : Type} {O : LenOps T} {W : LenLaws T}.

(** Both stacks hold the first labels of a row. *)
Definition stacks (d : decomp T) (row : list label) : Prop :=
  (exists q, row = sl_stack (d_len d) ++ q) /\ (exists q, row = d_stack d ++ q).

Definition dleft (i0 : iet T) (d0 : decomp T) (i : iet T) (d : decomp T) : Prop :=
  exists j d1, creach i0 d0 j d1 /\ d_keys d = d_keys d0 /\ d_conns d = d_conns d1 /\ sl_lens (d_len d) = sl_lens (d_len d1) /\
    stacks d (i_bottom i) /\
    ((i_top i = i_top j /\ i_bottom i = i_bottom j /\ i_swap i = i_swap j) \/
     (i_top i = i_bottom j /\ i_bottom i = i_top j /\ i_swap i = negb (i_swap j)) \/
     exists n, invariant_prefix (exch_of j (d_len d1)) n /\ i = left_part j n).

Lemma dl_here i0 d0 i d i' : creach i0 d0 i d -> d_stack d = [] -> d_keys d = d_keys d0 -> same_rows i i' -> dleft i0 d0 i' d.
Proof.
  intros R St K (A & B & C). exists i, d. split; [exact R|]. split; [exact K|]. split; [reflexivity|]. split; [reflexivity|].
  destruct (r_wf _ _ _ _ (proj1 R)) as (_ & _ & _ & _ & St'). split; [|left; repeat split; congruence].
  split; [rewrite St'|rewrite St]; exists (i_bottom i'); reflexivity.
Qed.

Lemma dl_stack i0 d0 i d s' st' : creach i0 d0 i d -> d_keys d = d_keys d0 -> sl_lens s' = sl_lens (d_len d) -> (exists q, i_bottom i = sl_stack s' ++ q) -> (exists q, i_bottom i = st' ++ q) ->
  dleft i0 d0 i (set_lens d s' st').
Proof.
  intros R K L A B. exists i, d. split; [exact R|]. split; [exact K|]. split; [reflexivity|]. split; [exact L|]. split; [split; assumption|]. left. repeat split.
Qed.

Lemma dl_swapped i0 d0 i d s' st' : creach i0 d0 i d -> d_keys d = d_keys d0 -> sl_lens s' = sl_lens (d_len d) -> (exists q, i_top i = sl_stack s' ++ q) -> (exists q, i_top i = st' ++ q) ->
  dleft i0 d0 (iet_swap i) (set_lens d s' st').
Proof.
  intros R K L A B. exists i, d. split; [exact R|]. split; [exact K|]. split; [reflexivity|]. split; [exact L|]. split; [split; assumption|]. right. left. repeat split.
Qed.

Lemma subtract2_never_throws c v m sub (d : decomp T) : In m (d_keys d) -> In sub (d_keys d) -> lwc_subtract2 c v m sub d <> Throw.
Proof.
  intros A B. unfold lwc_subtract2, conns_at, conn_subtract. rewrite (proj2 (memb_In m _) A), (proj2 (memb_In sub _) B). cbn [bind]. destruct (Nat.eqb m sub); discriminate.
Qed.

Lemma subtract2_raised c m sub k i (d : decomp T) i' d' : In m (d_keys d) -> In sub (d_keys d) -> fd_subtract2 c m sub k i d <> Raised i' d'.
Proof.
  intros A B. unfold fd_subtract2, fbind, this, change. pose proof (subtract2_never_throws c (i_view i) m sub d A B). destruct (lwc_subtract2 c (i_view i) m sub d); congruence.
Qed.

(** The two stacks that an exception can leave behind if it finds [rev rpre] on both, and [rest] is what follows in the row. *)
Definition pre (rpre rest : list label) (d d' : decomp T) : Prop :=
  exists p q p' q', rest = p ++ q /\ rest = p' ++ q' /\ d' = set_lens d (mkslen (rev rpre ++ p) (sl_lens (d_len d))) (rev rpre ++ p').

Lemma dzloop_raised c a rest : forall rpre k i d i' d', sl_stack (d_len d) = rev rpre -> d_stack d = rev rpre -> In a (d_keys d) -> incl (rev rpre ++ rest) (d_keys d) ->
  f_zloop (dec_flens c) a rpre rest k i d = Raised i' d' -> i' = i /\ pre rpre rest d d'.
Proof.
  induction rest as [|b rest IH]; intros rpre k i d i' d' St Ds Ka Kr E; cbn [f_zloop dec_flens fl_push fl_pop fl_subtract fl_subrep] in E; [discriminate|].
  assert (P00 : pre rpre (b :: rest) d d).
  { exists [], (b :: rest), [], (b :: rest). split; [reflexivity|]. split; [reflexivity|]. rewrite !app_nil_r, <- St at 1. rewrite <- Ds. destruct d as [[? ?] ? ? ? ?]; reflexivity. }
  assert (P01 : pre rpre (b :: rest) d (set_lens d (d_len d) (d_stack d ++ [b]))).
  { exists [], (b :: rest), [b], rest. split; [reflexivity|]. split; [reflexivity|]. rewrite app_nil_r, <- St at 1. rewrite <- Ds. destruct d as [[? ?] ? ? ? ?]; reflexivity. }
  assert (P11 : pre rpre (b :: rest) d (set_lens d (sl_push b (d_len d)) (d_stack d ++ [b]))).
  { exists [b], rest, [b], rest. split; [reflexivity|]. split; [reflexivity|]. rewrite <- St at 1. rewrite <- Ds. destruct d as [[? ?] ? ? ? ?]; reflexivity. }
  assert (P10 : pre rpre (b :: rest) d (set_lens d (sl_push b (d_len d)) (d_stack d))).
  { exists [b], rest, [], (b :: rest). split; [reflexivity|]. split; [reflexivity|]. rewrite <- St at 1. rewrite app_nil_r, <- Ds. destruct d as [[? ?] ? ? ? ?]; reflexivity. }
  assert (Hsub : forall sub st, rev rpre = sub :: st -> In sub (d_keys d)) by (intros sub st Es; apply Kr; rewrite Es; left; reflexivity).
  destruct (Nat.eqb b a).
  - unfold fd_subrep in E. unfold fbind at 1, fbind at 1, state in E. destruct (d_stack d) as [|sub st] eqn:Es; [discriminate|]. unfold fbind at 1, member in E.
    destruct k as [|k]; [injection E as <- <-; auto|]. destruct (sl_subrep a (d_len d)) as [[stop s1]| | | |] eqn:Z; cbn [bind] in E; try discriminate; [|injection E as <- <-; auto].
    unfold fbind at 1 in E. destruct (fd_subtract2 c a sub k i (set_lens d s1 (d_stack d))) as [u k1 i1 d1|i1 d1|e] eqn:Q; [|exfalso; exact (subtract2_raised _ _ _ _ _ (set_lens d s1 (d_stack d)) _ _ Ka (Hsub _ _ (eq_sym Ds)) Q)|discriminate].
    unfold fbind at 1, change, fret in E. destruct (Nat.eqb a stop); [discriminate|]. destruct (back_to stop rpre); discriminate.
  - unfold fd_push in E. unfold fbind at 1, fbind at 1, change at 1 in E. unfold assert_ in E. destruct (negb (memb b (d_stack d))); [|discriminate]. unfold member at 1 in E.
    destruct k as [|k]; [injection E as <- <-; auto|]. cbn [set_lens d_len d_stack d_keys d_conns d_comps] in E.
    change (mkdecomp (sl_push b (d_len d)) (d_stack d ++ [b]) (d_keys d) (d_conns d) (d_comps d)) with (set_lens d (sl_push b (d_len d)) (d_stack d ++ [b])) in E.
    unfold fbind at 1, query, member at 1 in E. cbn [dec_flens fl_base set_lens d_len] in E.
    destruct k as [|k]; [injection E as <- <-; auto|]. destruct (sl_cmp1 (sl_push b (d_len d)) a) as [cm| | | |] eqn:Ec; cbn [bind] in E; try discriminate; [|injection E as <- <-; auto].
    assert (Go : forall k, (_ <~ fd_pop ;; _ <~ fd_subtract c a ;; fret rpre) k i (set_lens d (sl_push b (d_len d)) (d_stack d ++ [b])) = Raised i' d' -> i' = i /\ pre rpre (b :: rest) d d').
    { clear E k. intros k E. unfold fd_pop in E. unfold fbind at 1, fbind at 1, change at 1, assert_ in E. cbn [set_lens d_stack d_len] in E.
      destruct (negb (length (d_stack d ++ [b]) =? 0)); [|discriminate]. rewrite removelast_last in E. unfold member at 1 in E. destruct k as [|k]; [injection E as <- <-; auto|]. cbn [set_lens d_stack d_len] in E.
      assert (Ep : sl_pop (sl_push b (d_len d)) = Ok (d_len d)).
      { unfold sl_pop, sl_push. cbn [sl_stack sl_lens]. destruct (sl_stack (d_len d) ++ [b]) eqn:Z; [destruct (sl_stack (d_len d)); discriminate|]. rewrite <- Z, removelast_last. destruct (d_len d); reflexivity. }
      rewrite Ep in E. cbn [bind] in E.
      assert (Eq : forall s, set_lens (set_lens (set_lens d (sl_push b (d_len d)) (d_stack d ++ [b])) (sl_push b (d_len d)) (d_stack d)) s (d_stack d) = set_lens d s (d_stack d)) by reflexivity.
      assert (E0 : set_lens d (d_len d) (d_stack d) = d) by (destruct d as [[? ?] ? ? ? ?]; reflexivity).
      rewrite Eq in E. rewrite E0 in E.
      unfold fd_subtract in E. unfold fbind at 1, fbind at 1, state in E. destruct (d_stack d) as [|sub st] eqn:Es; [discriminate|]. unfold fbind at 1, member in E.
      destruct k as [|k]; [injection E as <- <-; auto|]. destruct (sl_subtract a (d_len d)) as [s1| | | |] eqn:Z; cbn [bind] in E; try discriminate; [|injection E as <- <-; auto].
      unfold fbind at 1 in E. destruct (fd_subtract2 c a sub k i (set_lens d s1 (d_stack d))) as [u k1 i1 d1|i1 d1|e] eqn:Q; [|exfalso; exact (subtract2_raised _ _ _ _ _ (set_lens d s1 (d_stack d)) _ _ Ka (Hsub _ _ (eq_sym Ds)) Q)|discriminate].
      discriminate. }
    destruct cm; [exact (Go _ E)| |exact (Go _ E)].
    destruct (IH (b :: rpre) k i (set_lens d (sl_push b (d_len d)) (d_stack d ++ [b])) i' d') as (-> & p & q & p' & q' & Ep & Ep' & ->).
    + cbn. rewrite St. reflexivity.
    + cbn. rewrite Ds. reflexivity.
    + exact Ka.
    + cbn [rev]. rewrite <- app_assoc. exact Kr.
    + exact E.
    + split; [reflexivity|]. exists (b :: p), q, (b :: p'), q'. split; [cbn; rewrite <- Ep; reflexivity|]. split; [cbn; rewrite <- Ep'; reflexivity|].
      cbn [rev]. rewrite <- !app_assoc. reflexivity.
Qed.

Lemma dzorich_raised c k i d i' d' : wf i (d_len d) -> fits c (i_top i) d -> f_zorich (dec_flens c) k i d = Raised i' d' ->
  (i' = i /\ exists p q p' q', i_bottom i = p ++ q /\ i_bottom i = p' ++ q' /\ d' = set_lens d (mkslen p (sl_lens (d_len d))) p') \/
  exists f, zorich (dec_lens c) i d = Ok (f, i', d').
Proof.
  intros H F E. destruct (zorich_sim c i d H F) as (f & bt & t & g & _ & Ez & _). pose proof F as (Fs & Fk & _). destruct H as (_ & Pm & _ & _ & St). unfold f_zorich, zorich in *. unfold fbind at 1, this in E.
  destruct (i_top i) as [|a X] eqn:Et; [discriminate|]. destruct (i_bottom i) as [|b Y] eqn:Eb; [discriminate|]. destruct (Nat.eqb a b); [discriminate|].
  unfold fbind at 1 in E. destruct (f_zloop (dec_flens c) a [] (b :: Y) k i d) as [r k1 i1 d1|i1 d1|e] eqn:El; [|injection E as <- <-; left|discriminate].
  2:{ destruct (dzloop_raised c a (b :: Y) [] k i d i1 d1 St Fs) as (-> & p & q & p' & q' & A & B & C); [apply Fk; left; reflexivity| |exact El|split; [reflexivity|]; exists p, q, p', q'; auto].
      intros l Hl. apply Fk. exact (Permutation_in _ (Permutation_sym Pm) Hl). }
  pose proof (at_did _ _ _ _ _ _ _ _ _ (at_zloop _ _ (dec_fl_ok c) a (b :: Y) [] i d) El) as El'.
  destruct (zloop (dec_lens c) (i_view i) a [] (b :: Y) d) as [[r' d1']| | | |]; cbn [bind] in El'; try discriminate. injection El' as -> -> ->.
  cbn [bind] in Ez |- *. unfold fbind at 1, pure at 1 in E. destruct (splice a (b :: Y) (length r)) as [bot| | | |]; cbn [bind] in Ez |- *; try discriminate.
  destruct bot as [|b' bot]; [discriminate|]. unfold fbind, put, query, member in E. cbn [dec_flens fl_base] in E. cbn [dec_lens li_cmp2] in Ez |- *.
  destruct (sl_cmp2 (d_len d1) a b') as [cm| | | |]; cbn [bind] in Ez, E |- *; try discriminate. destruct k1 as [|k1]; [|discriminate]. injection E as <- <-. right. eauto.
Qed.

Lemma dreduce_raised c k i d i' d' : wf i (d_len d) -> f_reduce (dec_flens c) k i d = Raised i' d' -> d' = d /\ (i' = i \/ exists n, invariant_prefix (exch_of i (d_len d)) n /\ i' = left_part i n).
Proof.
  intros H E. pose proof (reduce_ok i (d_len d) H) as Q. unfold f_reduce, reduce in *. unfold fbind at 1, this in E. unfold fbind at 1, pure at 1 in E.
  destruct (red_loop (i_top i) (i_bottom i) [] 0 0) as [[t b]| | | |]; cbn [bind] in Q; try discriminate; [|injection E as <- <-; auto]. cbn [fst snd] in E.
  destruct t as [|x t]; [unfold pure, assert_ in E; destruct b; discriminate|]. unfold fbind at 1, pure at 1, assert_ at 1 in E. unfold assert_ in Q.
  match type of E with context [if ?c then _ else _] => destruct c end; [|discriminate]. cbn beta iota in E. unfold fbind, put, query, member in E. cbn [dec_flens fl_base] in E.
  assert (L : exists n, invariant_prefix (exch_of i (d_len d)) n /\ set_saf (set_labels i (firstn (length (i_top i) - length (x :: t)) (i_top i)) (firstn (length (i_bottom i) - length b) (i_bottom i))) None = left_part i n).
  { destruct (iet_make (d_len d) (x :: t) b); cbn [bind] in Q; destruct Q as [(n & Hn & _ & Q)|(_ & Q)]; try discriminate; exists n; split; [exact Hn|exact (f_equal (fun r => match r with Ok (_, y) => y | _ => i end) Q)]. }
  destruct k as [|k]; [injection E as <- <-; auto|]. destruct (iet_make (d_len d) (x :: t) b); cbn [bind] in E; try discriminate. injection E as <- <-; auto.
Qed.

(** [zorich] on the lengths of a decomposition *)
Lemma dzorich_reach c i d : wf i (d_len d) -> cache_ok i (d_len d) -> i_swap i = false -> fits c (i_top i) d ->
  exists f b s g, zorich (dec_lens c) i d = Ok (f, set_bottom i b, with_lens d s g) /\ creach i d (set_bottom i b) (with_lens d s g).
Proof.
  intros H C Sw F. destruct (zorich_sim c i d H F) as (f & b & s & g & E & E' & P). rewrite Sw in P. exists f, b, s, g. split; [exact E'|].
  destruct (zorich_reach i (d_len d) H C) as (f' & b' & s' & Ez & R & _). rewrite E in Ez. injection Ez as <- <- <-. split; [exact R|exact P].
Qed.

Lemma dzorich_dl c k i0 d0 i d i' d' : wf i0 (d_len d0) -> creach i0 d0 i d -> d_keys d = d_keys d0 -> i_swap i = false -> fits c (i_top i) d ->
  f_zorich (dec_flens c) k i d = Raised i' d' -> dleft i0 d0 i' d'.
Proof.
  intros H0 R K Sw F E. pose proof (r_wf _ _ _ _ (proj1 R)) as H. destruct (dzorich_raised c k i d i' d' H F E) as [(-> & p & q & p' & q' & A & B & ->)|(f & Ez)].
  - apply (dl_stack i0 d0 i d _ _ R K); [reflexivity|eauto..].
  - destruct (dzorich_reach c i d H (r_cache _ _ _ _ (proj1 R)) Sw F) as (f' & b & s & g & Ez' & R'). rewrite Ez in Ez'. injection Ez' as -> -> ->.
    apply (dl_here i0 d0 _ _ _ (creach_trans _ _ _ _ _ _ H0 R R')); [reflexivity|exact K|repeat split].
Qed.

Lemma dswapped_dl c k i0 d0 i d i' d' : wf i0 (d_len d0) -> creach i0 d0 i d -> d_keys d = d_keys d0 -> i_swap i = false -> fits c (i_top i) d ->
  f_zorich (dec_flens c) k (iet_swap i) d = Raised i' d' -> dleft i0 d0 i' d'.
Proof.
  intros H0 R K Sw F E. pose proof (r_wf _ _ _ _ (proj1 R)) as H. pose proof (swap_wf _ _ H) as Hs.
  assert (Fs : fits c (i_top (iet_swap i)) d) by (apply (fits_perm c (i_top i)); [apply H|exact F]).
  destruct (dzorich_raised c k (iet_swap i) d i' d' Hs Fs E) as [(-> & p & q & p' & q' & A & B & ->)|(f & Ez)].
  - apply (dl_swapped i0 d0 i d _ _ R K); [reflexivity|eauto..].
  - destruct (zorich_sim c (iet_swap i) d Hs Fs) as (f' & b & s & g & Es & Ez' & P). rewrite Ez in Ez'. injection Ez' as -> -> ->.
    cbn [iet_swap i_swap] in P. rewrite Sw in P. cbn [negb] in P.
    destruct (zorich_reach (iet_swap i) (d_len d) Hs (swap_cache _ _ H (r_cache _ _ _ _ (proj1 R)))) as (f'' & b'' & s'' & Ez'' & R'' & _). rewrite Es in Ez''. injection Ez'' as <- <- <-.
    pose proof (swap_reach _ _ _ _ H R'') as R1.
    assert (R2 : creach i d (iet_swap (set_bottom (iet_swap i) b)) (with_lens d s g)) by (split; [exact R1|exact P]).
    exists (iet_swap (set_bottom (iet_swap i) b)), (with_lens d s g). split; [exact (creach_trans _ _ _ _ _ _ H0 R R2)|]. split; [exact K|]. split; [reflexivity|]. split; [reflexivity|].
    destruct (r_wf _ _ _ _ R'') as (_ & _ & _ & _ & St'). split.
    + split; [cbn [with_lens d_len]; rewrite St'|]; eexists; reflexivity.
    + right. left. cbn [iet_swap set_bottom i_top i_bottom i_swap]. rewrite negb_involutive. repeat split.
Qed.

Lemma dreduce_dl c k i0 d0 i d i' d' : creach i0 d0 i d -> d_keys d = d_keys d0 -> d_stack d = [] -> f_reduce (dec_flens c) k i d = Raised i' d' -> dleft i0 d0 i' d'.
Proof.
  intros R K St E. pose proof (r_wf _ _ _ _ (proj1 R)) as H. destruct (dreduce_raised c k i d i' d' H E) as (-> & [->|(n & Hn & ->)]); [exact (dl_here i0 d0 i d i R St K ltac:(repeat split))|].
  exists i, d. split; [exact R|]. split; [exact K|]. split; [reflexivity|]. split; [reflexivity|]. split; [|right; right; eauto].
  destruct H as (_ & _ & _ & _ & St'). split; [rewrite St'|rewrite St]; eexists; reflexivity.
Qed.

Lemma dfinish_dl c found k i0 d0 i d i' d' : creach i0 d0 i d -> d_keys d = d_keys d0 -> d_stack d = [] -> f_finish (dec_flens c) found k i d = Raised i' d' -> dleft i0 d0 i' d'.
Proof.
  intros R K St E. pose proof (r_wf _ _ _ _ (proj1 R)) as H. unfold f_finish in E. unfold fbind at 1 in E.
  destruct (f_reduce (dec_flens c) k i d) as [r k1 i1 d1|i1 d1|e] eqn:Q; [|injection E as <- <-; exact (dreduce_dl _ _ _ _ _ _ _ _ R K St Q)|discriminate].
  pose proof (at_did _ _ _ _ _ _ _ _ _ (at_reduce (dec_flens c) i d) Q) as D. cbn [dec_flens fl_base] in D. unfold fbind at 1, this in E. destruct r as [r|]; [destruct (rev (i_bottom i1)), (rev (i_top i1)); discriminate|].
  destruct (reduce_ok i (d_len d) H) as [(n & _ & _ & Er)|(_ & Er)]; rewrite Er in D; cbn [bind] in D; [discriminate|]. injection D as <- <-.
  assert (Here : dleft i0 d0 i d) by (exact (dl_here i0 d0 i d i R St K ltac:(repeat split))).
  destruct (i_top i) as [|a X]; [discriminate|]. destruct (i_bottom i) as [|b Y]; [discriminate|]. unfold fbind at 1, query at 1, member at 1 in E. cbn [dec_flens fl_base] in E. destruct k1 as [|k1]; [injection E as <- <-; exact Here|].
  destruct (sl_cmp2 (d_len d) a b) as [cm| | | |]; cbn [bind] in E; try discriminate; [|injection E as <- <-; exact Here].
  assert (Go : (_ <~ pure (assert_ (negb found) (Ok tt)) ;; z <~ f_bosh_no_periodic (dec_flens c) ;;
        fret (T := T) (S := decomp T) (A := istep T) (mkistep (if (z : bool) then WITHOUT_PERIODIC_TRAJECTORY_BOSHERNITZAN else LIMIT_REACHED) None None)) k1 i d = Raised i' d' -> dleft i0 d0 i' d').
  { clear E. intro E. unfold fbind at 1, pure in E. destruct found; cbn [negb assert_] in E; [discriminate|]. unfold fbind in E.
    destruct (f_bosh_no_periodic (dec_flens c) k1 i d) as [z k2 i2 d2|i2 d2|e] eqn:Q2; try discriminate. injection E as <- <-. destruct (bosh_raised (dec_flens c) _ _ _ _ _ Q2) as (A & ->). exact (dl_here i0 d0 i d i2 R St K A). }
  destruct cm; [|exact (Go E)..]. unfold fbind, pure, put in E. destruct (merge_first i); try discriminate. injection E as <- <-. exact Here.
Qed.

Lemma dloop_dl c z limit i0 d0 fuel : wf i0 (d_len d0) -> forall n k i d i' d', creach i0 d0 i d -> trk_ok True i (d_len d) -> i_swap i = false -> fits c (i_top i) d -> d_keys d = d_keys d0 ->
  f_loop (dec_flens c) fuel z limit n k i d = Raised i' d' -> dleft i0 d0 i' d'.
Proof.
  intro H0. induction fuel as [|fuel IH]; intros n k i d i' d' R K Sw F Ky E; [discriminate|]. cbn [f_loop] in E. destruct (negb ((limit =? -1)%Z || (n <? limit)%Z)); [discriminate|].
  change (if z then _ else _) with (f_track (dec_flens c) z) in E. unfold fbind at 1 in E. pose proof (proj1 F) as Sd.
  destruct (f_track (dec_flens c) z k i d) as [b k1 i1 d1|i1 d1|e] eqn:Q; [|injection E as <- <-; destruct (track_raised (dec_flens c) _ _ _ _ _ _ Q) as (A & ->); exact (dl_here i0 d0 i d i1 R Sd Ky A)|discriminate].
  pose proof (at_did _ _ _ _ _ _ _ _ _ (at_track (dec_flens c) z i d) Q) as D. cbn [dec_flens fl_base] in D.
  pose proof (r_wf _ _ _ _ (proj1 R)) as H. pose proof (r_cache _ _ _ _ (proj1 R)) as C.
  destruct (tracking_ok z i (d_len d) (conj H (conj C K))) as (b' & j & Ej & Rj & Etj & Ebj & Kj & _). change (r_track z i (d_len d) = Ok (b', j)) in Ej. rewrite Ej in D. cbn [bind] in D. injection D as -> -> ->.
  destruct b; [discriminate|]. 
  assert (Rj' : creach i d1 i1 d1) by (split; [exact Rj|]; apply cp_refl; [repeat split; simpl; congruence|reflexivity]).
  pose proof (creach_trans _ _ _ _ _ _ H0 R Rj') as R1. pose proof (r_wf _ _ _ _ (proj1 R1)) as H1. pose proof (r_cache _ _ _ _ (proj1 R1)) as C1.
  assert (Sw1 : i_swap i1 = false) by (rewrite (r_swap _ _ _ _ Rj); exact Sw). assert (F1 : fits c (i_top i1) d1) by (rewrite Etj; exact F).
  unfold fbind at 1 in E. destruct (f_zorich (dec_flens c) k1 i1 d1) as [f k2 i2 d2|i2 d2|e] eqn:Q2; [|injection E as <- <-; exact (dzorich_dl _ _ _ _ _ _ _ _ H0 R1 Ky Sw1 F1 Q2)|discriminate].
  pose proof (at_did _ _ _ _ _ _ _ _ _ (at_zorich _ _ (dec_fl_ok c) i1 d1) Q2) as D2.
  destruct (dzorich_reach c i1 d1 H1 C1 Sw1 F1) as (f' & b & s & g & Ez & R2). rewrite D2 in Ez. injection Ez as <- -> ->.
  destruct f; [discriminate|]. pose proof (creach_trans _ _ _ _ _ _ H0 R1 R2) as R2'. pose proof (r_wf _ _ _ _ (proj1 R2')) as H2.
  unfold fbind at 1, f_swap at 1, fbind at 1, this, put in E. unfold fbind at 1 in E.
  destruct (f_zorich (dec_flens c) k2 (iet_swap (set_bottom i1 b)) (with_lens d1 s g)) as [f k3 i3 d3|i3 d3|e] eqn:Q3; [|injection E as <- <-; exact (dswapped_dl _ _ _ _ _ _ _ _ H0 R2' Ky Sw1 (fits_with _ _ _ _ _ F1) Q3)|discriminate].
  pose proof (at_did _ _ _ _ _ _ _ _ _ (at_zorich _ _ (dec_fl_ok c) (iet_swap (set_bottom i1 b)) (with_lens d1 s g)) Q3) as D3.
  unfold fbind at 1, f_swap, fbind at 1, this, put in E. destruct f; [discriminate|]. destruct (n =? INT_MAX)%Z; [discriminate|].
  destruct (iteration_sim c i1 d1 H1 Sw1 F1) as (f & i4 & s4 & g4 & E4s & E4 & P4). unfold iteration in E4. rewrite D2 in E4. cbn [bind] in E4. rewrite D3 in E4. cbn [bind] in E4. injection E4 as <- <- ->.
  destruct (iteration_ok i1 (d_len d1) H1 C1) as (f & i5 & s5 & E5 & R5 & Et & _ & _ & Hdec). rewrite E4s in E5. injection E5 as <- <- <-.
  assert (R6 : creach i1 d1 (iet_swap i3) (with_lens d1 s4 g4)) by (split; [exact R5|exact P4]).
  refine (IH _ _ _ _ _ _ (creach_trans _ _ _ _ _ _ H0 R1 R6) _ _ _ Ky E).
  - exact (trk_extend False True i1 _ _ _ H1 Kj R5 Et ltac:(intros _; right; apply Hdec; reflexivity)).
  - rewrite (r_swap _ _ _ _ R5). exact Sw1.
  - apply fits_with. apply (fits_perm c (i_top i1)); [exact (reach_labels _ _ _ _ H1 R5)|exact F1].
Qed.

Lemma dinduce_dl c fuel limit k i d i' d' : (limit <= INT_MAX)%Z -> good i (d_len d) -> i_swap i = false -> fits c (i_top i) d ->
  f_induce (dec_flens c) fuel limit k i d = Raised i' d' -> dleft i d i' d'.
Proof.
  intros HL (H & C & K) Sw F E. pose proof (proj1 F) as Sd. unfold f_induce in E. unfold fbind at 1, this in E. destruct (Nat.eqb_spec (i_size i) 1) as [N|N]; [discriminate|].
  pose proof (creach_refl i d H C) as R. unfold fbind at 1 in E. destruct (limit =? 0)%Z; [exact (dfinish_dl c false k i d i d i' d' R eq_refl Sd E)|]. unfold fbind at 1 in E.
  destruct (f_saf0 (dec_flens c) k i d) as [z k1 i1 d1|i1 d1|e] eqn:Q; [|injection E as <- <-; destruct (saf0_raised (dec_flens c) _ _ _ _ _ Q) as (-> & ->); exact (dl_here i d i d i R Sd eq_refl ltac:(repeat split))|discriminate].
  pose proof (at_did _ _ _ _ _ _ _ _ _ (at_saf0 (dec_flens c) i d) Q) as D. cbn [dec_flens fl_base] in D. destruct (iet_saf0_ok i (d_len d) H C) as (v & Ev & C' & _). rewrite Ev in D. cbn [bind] in D. injection D as <- <- <-.
  assert (R1 : creach i d (set_saf i (Some v)) d) by (split; [exact (reach_rows i (d_len d) i (d_len d) (set_saf i (Some v)) (proj1 R) ltac:(repeat split) C')|apply R]).
  destruct (f_loop (dec_flens c) fuel (vis0 (saf_now i (d_len d))) limit 0 k1 (set_saf i (Some v)) d) as [f k2 i2 d2|i2 d2|e] eqn:Q2; [|injection E as <- <-; exact (dloop_dl c _ _ i d fuel H _ _ _ _ _ _ R1 K Sw F eq_refl Q2)|discriminate].
  destruct f as [found|]; [|discriminate]. pose proof (at_did _ _ _ _ _ _ _ _ _ (at_loop _ _ (dec_fl_ok c) (vis0 (saf_now i (d_len d))) limit fuel 0 (set_saf i (Some v)) d) Q2) as D2.
  pose proof (conj (r_wf _ _ _ _ (proj1 R1)) (conj C' K) : good (set_saf i (Some v)) (d_len d)) as G1.
  destruct (loop_sim c (vis0 (saf_now i (d_len d))) limit HL fuel 0%Z (set_saf i (Some v)) d G1 Sw F) as [[_ Z]|[[_ Z]|(f & i3 & s3 & g3 & Z1 & Z & P3)]]; rewrite D2 in Z; try discriminate. injection Z as <- <- ->.
  destruct (loop_ok (vis0 (saf_now i (d_len d))) limit HL fuel 0%Z _ (d_len d) G1) as [[Y _]|[[Y _]|(f & i4 & s4 & Y & R4 & _)]]; rewrite Z1 in Y; try discriminate. injection Y as <- <- <-.
  assert (R6 : creach (set_saf i (Some v)) d i2 (with_lens d s3 g3)) by (split; [exact R4|exact P3]).
  exact (dfinish_dl c found k2 i d i2 (with_lens d s3 g3) i' d' (creach_trans _ _ _ _ _ _ H R1 R6) eq_refl eq_refl E).
Qed.

(** * Steps *)

Lemma creach_saf i v (d : decomp T) i' d' : creach (set_saf i v) d i' d' -> creach i d i' d'.
Proof. intros [R P]. split; [exact (reach_saf_start _ _ _ _ _ R)|exact P]. Qed.

Lemma dleft_trans i d i1 (d1 : decomp T) i' d' : wf i (d_len d) -> creach i d i1 d1 -> d_keys d1 = d_keys d -> dleft i1 d1 i' d' -> dleft i d i' d'.
Proof.
  intros H R K (j & d2 & R2 & K2 & Rest). exists j, d2. split; [exact (creach_trans _ _ _ _ _ _ H R R2)|]. split; [congruence|exact Rest].
Qed.

(** The state of the components, and of component [length C1] in particular. *)
Definition fault_post (d : decomp T) C1 (x : dcomp T) C2 (d' : decomp T) : Prop :=
  exists i', d_comps d' = C1 ++ iet_set x i' :: C2 /\ dleft (dc_iet x) d i' d'.

Lemma dl_comps i d i' d' cs : dleft i d i' d' -> dleft i d i' (set_comps d' cs).
Proof. intros (j & d1 & A). exists j, d1. exact A. Qed.
Lemma dl_comps0 i d i' d' cs : dleft i (set_comps d cs) i' d' -> dleft i d i' d'.
Proof. intros (j & d1 & A). exists j, d1. exact A. Qed.

Lemma on_raised {A} (p : prog T (decomp T) A) k d C1 x C2 d' : keeps p -> d_comps d = C1 ++ x :: C2 -> on_iet (length C1) p k d = D_raised d' ->
  exists i' d1, p k (dc_iet x) d = Raised i' d1 /\ d' = set_comps d1 (C1 ++ iet_set x i' :: C2).
Proof.
  intros Hk E Z. unfold on_iet in Z. specialize (Hk k (dc_iet x) d). rewrite E, nth_error_mid in Z. destruct (p k (dc_iet x) d) as [a k1 i1 d1|i1 d1|e]; [| |discriminate].
  - rewrite (comp_set_mid d1 C1 x C2) in Z by congruence. discriminate.
  - rewrite (comp_set_mid d1 C1 x C2) in Z by congruence. injection Z as <-. eauto.
Qed.

Lemma fd_start_raised d C1 x C2 k d' e0 : dec_ok e0 d -> d_comps d = C1 ++ x :: C2 -> fd_start (length C1) k d = D_raised d' -> fault_post d C1 x C2 d'.
Proof.
  intros H E Z. unfold fd_start in Z. unfold dbind at 1, dpure at 1 in Z. rewrite (comp_at_mid d C1 x C2 E) in Z. cbn [bind] in Z. unfold assert_ in Z. destruct (negb (fully_decomposed x)); [|discriminate].
  unfold dbind in Z. destruct (on_iet (length C1) (f_saf_invariant (dec_flens (length C1))) k d) as [v k1 d1|d1|e] eqn:Q; try discriminate. injection Z as <-.
  destruct (on_raised _ _ _ _ _ _ _ (keeps_safi _) E Q) as (i' & d2 & Z & ->). unfold f_saf_invariant in Z. unfold fbind at 1 in Z.
  destruct (f_saf (dec_flens (length C1)) k (dc_iet x) d) eqn:Q2; try discriminate. injection Z as <- <-. destruct (saf_raised _ _ _ _ _ _ Q2) as (-> & ->).
  exists (dc_iet x). split; [reflexivity|]. assert (Hx : In x (d_comps d)) by (rewrite E; apply in_middle; auto). destruct (dk_good _ _ H x Hx) as [(Wf & Ca & _) _].
  apply dl_comps, (dl_here _ _ (dc_iet x) d); [apply creach_refl; assumption|exact (dk_stack _ _ H)|reflexivity|repeat split].
Qed.

Lemma fault_post_start d C1 x C2 v d' : d_comps d = C1 ++ x :: C2 -> fault_post (set_comps d (C1 ++ iet_set x (set_saf (dc_iet x) v) :: C2)) C1 (iet_set x (set_saf (dc_iet x) v)) C2 d' -> fault_post d C1 x C2 d'.
Proof.
  intros E (i' & A & j & d1 & R & B). exists i'. split; [exact A|]. exists j, d1. split; [exact (creach_saf _ v d _ _ R)|exact B].
Qed.

Lemma fd_loop_raised e0 fuel cost : (cost = None \/ cost = Some 64%Z) ->
  forall rounds d C1 x C2 limit k d', dec_ok e0 d -> d_comps d = C1 ++ x :: C2 -> (limit <= INT_MAX)%Z -> (limit <> -1)%Z ->
  fd_loop rounds fuel cost limit (length C1) k d = D_raised d' -> fault_post d C1 x C2 d'.
Proof.
  intros Hc rounds. induction rounds as [|rounds IH]; intros d C1 x C2 limit k d' H E HL Hm Z; [discriminate|]. cbn [fd_loop] in Z. cbv zeta in Z.
  set (steps := match cost with Some k => if (limit <? 2 * k)%Z then limit else k | None => limit end) in *.
  assert (Hst : (steps <= limit \/ limit < 0)%Z /\ (steps <= INT_MAX)%Z /\ (steps <> -1)%Z /\ (steps = limit \/ (steps = 64 /\ 128 <= limit))%Z).
  { unfold steps. destruct Hc as [->| ->]; [lia|]. destruct (Z.ltb_spec limit (2 * 64)); lia. }
  destruct Hst as (S1 & S2 & S3 & S4).
  assert (Hx : In x (d_comps d)) by (rewrite E; apply in_middle; auto).
  destruct (dk_good _ _ H x Hx) as [G Sw]. pose proof (dk_fits _ _ _ _ _ H E) as F. pose proof G as (Wf & Ca & _).
  unfold dbind at 1 in Z. destruct (on_iet (length C1) (f_induce (dec_flens (length C1)) fuel steps) k d) as [st k1 d1|d1|e] eqn:Q; [|injection Z as <-|discriminate].
  2:{ destruct (on_raised _ _ _ _ _ _ _ (keeps_induce _ _ _) E Q) as (i' & d2 & Z & ->). exists i'. split; [reflexivity|]. apply dl_comps. exact (dinduce_dl _ _ _ _ _ _ _ _ S2 G Sw F Z). }
  assert (D : x <- comp_at d (length C1) ;; '(a, i, d) <- induce (dec_lens (length C1)) fuel steps (dc_iet x) d ;; d <- comp_set d (length C1) (iet_set x i) ;; Ok (a, d) = Ok (st, d1)).
  { eapply dat_did; [|exact Q]. apply (dat_on (length C1) _ d (fun x => induce (dec_lens (length C1)) fuel steps (dc_iet x) d) (keeps_induce _ _ _)). intros y _. apply (at_induce _ _ (dec_fl_ok _)). }
  rewrite (comp_at_mid d C1 x C2 E) in D. cbn [bind] in D.
  destruct (is_result st) eqn:Er; try discriminate. destruct (Z.eqb_spec (limit - steps) 0) as [Ez|Ez]; [discriminate|].
  destruct (dinduce_ok (length C1) steps fuel (dc_iet x) d S2 G Sw F) as [(I & _)|[(I & _)|(st' & i1 & d2 & I & G1 & St1 & K1 & Cm1 & P)]]; rewrite I in D; cbn [bind] in D; try discriminate.
  assert (E1 : d_comps d2 = C1 ++ x :: C2) by congruence. rewrite (comp_set_mid d2 C1 x C2 (iet_set x i1) E1) in D. cbn [bind] in D. injection D as -> <-.
  unfold dinduce_post in P. rewrite Er in P. destruct P as (_ & R & _).
  assert (R' : creach (dc_iet x) d i1 (set_comps d2 (C1 ++ iet_set x i1 :: C2))) by exact R.
  destruct (plain_ok e0 d C1 x C2 (iet_set x i1) i1 (set_comps d2 (C1 ++ iet_set x i1 :: C2)) H E eq_refl (dk_keane _ _ H x Hx) St1 K1 eq_refl G1 R') as (H2 & _).
  destruct (IH (set_comps d2 (C1 ++ iet_set x i1 :: C2)) C1 (iet_set x i1) C2 (limit - steps)%Z k1 d' H2 eq_refl ltac:(lia) ltac:(lia) Z) as (i' & A & B).
  exists i'. split; [exact A|]. exact (dleft_trans _ _ _ _ _ _ Wf R' K1 B).
Qed.

Lemma fd_limited_raised e0 fuel d C1 x C2 limit k d' : dec_ok e0 d -> d_comps d = C1 ++ x :: C2 -> (limit <= INT_MAX)%Z -> (limit <> -1)%Z -> length (d_keys d) < fuel ->
  fd_limited fuel limit (length C1) k d = D_raised d' -> fault_post d C1 x C2 d'.
Proof.
  intros H E HL Hm Hf Z. unfold fd_limited in Z. unfold dbind at 1 in Z.
  destruct (fd_start (length C1) k d) as [cost k1 d1|d1|e] eqn:Q; [|injection Z as <-; exact (fd_start_raised _ _ _ _ _ _ _ H E Q)|discriminate].
  pose proof (dat_did _ _ _ _ _ _ _ (dat_start (length C1) d) Q) as D. destruct (step_start_ok e0 d C1 x C2 H E) as (cost' & v & Es & Ec & H0). rewrite D in Es. injection Es as <- ->.
  set (d0 := set_comps d _) in *. set (x0 := iet_set x (set_saf (dc_iet x) (Some v))) in *. assert (Cc : cost = None \/ cost = Some 64%Z) by (destruct (vis0 _); auto).
  apply (fault_post_start d C1 x C2 (Some v) d' E). fold d0 x0.
  unfold dbind at 1 in Z. destruct (fd_loop fuel fuel cost limit (length C1) k1 d0) as [st k2 d2|d2|e] eqn:Q2; [|injection Z as <-; exact (fd_loop_raised e0 fuel cost Cc fuel d0 C1 x0 C2 limit k1 d2 H0 eq_refl HL Hm Q2)|discriminate].
  exfalso. pose proof (dat_did _ _ _ _ _ _ _ (dat_loop fuel cost (length C1) fuel limit d0) Q2) as D2.
  destruct (step_loop_ok e0 fuel cost Cc fuel d0 C1 x0 C2 limit H0 eq_refl HL Hm) as [[El _]|(st1 & i' & d3 & El & G1 & S1 & K1 & Ec1 & PC & PN & PL)]; rewrite D2 in El; try discriminate. injection El as <- <-.
  destruct (step_finish_ok e0 fuel d0 C1 x0 C2 st i' d2 H0 eq_refl G1 S1 K1 Ec1 PC PN Hf) as (st' & d4 & Ef & _). unfold dpure in Z. rewrite Ef in Z. discriminate.
Qed.

(** A step that stops at the limit. *)
Lemma limited_more e0 fuel d C1 x C2 limit st d' : dec_ok e0 d -> d_comps d = C1 ++ x :: C2 -> (limit <= INT_MAX)%Z -> (limit <> -1)%Z -> length (d_keys d) < fuel ->
  step_limited fuel limit (length C1) d = Ok (st, d') -> dst_result st = D_LIMIT_REACHED ->
  dec_ok e0 d' /\ exists i1, d_comps d' = C1 ++ iet_set x i1 :: C2 /\ creach (dc_iet x) d i1 d' /\ d_keys d' = d_keys d.
Proof.
  intros H E HL Hm Hf Z Lr. unfold step_limited in Z. destruct (step_start_ok e0 d C1 x C2 H E) as (cost & v & Es & Ec & H0). rewrite Es in Z. cbn [bind] in Z.
  set (d0 := set_comps d _) in *. set (x0 := iet_set x (set_saf (dc_iet x) (Some v))) in *. assert (Cc : cost = None \/ cost = Some 64%Z) by (destruct (vis0 _); auto).
  destruct (step_loop_ok e0 fuel cost Cc fuel d0 C1 x0 C2 limit H0 eq_refl HL Hm) as [[El _]|(st1 & i' & d3 & El & G1 & S1 & K1 & Ec1 & PC & PN & PL)]; rewrite El in Z; cbn [bind] in Z; try discriminate.
  destruct (step_finish_ok e0 fuel d0 C1 x0 C2 st1 i' d3 H0 eq_refl G1 S1 K1 Ec1 PC PN Hf) as (st' & d4 & Ef & P & PLim). rewrite Ef in Z. injection Z as -> ->.
  destruct (PLim Lr) as (Er & ->). split; [exact (sp_ok _ _ _ _ _ _ _ P)|]. exists i'. split; [exact Ec1|]. specialize (PN ltac:(congruence)). unfold dinduce_post in PN. rewrite Er in PN.
  destruct PN as (_ & R & _). split; [exact (creach_saf _ (Some v) d _ _ R)|exact K1].
Qed.

Lemma fd_unlimited_raised e0 fuel cost : (cost = None \/ cost = Some 64%Z) ->
  forall rounds d C1 x C2 limit k d', dec_ok e0 d -> d_comps d = C1 ++ x :: C2 -> length (d_keys d) < fuel -> (0 <= limit <= INT_MAX)%Z ->
  fd_unlimited rounds fuel cost limit (length C1) k d = D_raised d' -> fault_post d C1 x C2 d'.
Proof.
  intro Hc. induction rounds as [|rounds IH]; intros d C1 x C2 limit k d' H E Hf HL Z; [discriminate|]. cbn [fd_unlimited] in Z. unfold dbind in Z.
  destruct (fd_limited fuel limit (length C1) k d) as [st k1 d1|d1|e] eqn:Q; [|injection Z as <-; exact (fd_limited_raised e0 fuel d C1 x C2 limit k d1 H E ltac:(lia) ltac:(lia) Hf Q)|discriminate].
  pose proof (dat_did _ _ _ _ _ _ _ (dat_limited fuel limit (length C1) d) Q) as D. destruct (dst_result st) eqn:Er; try discriminate.
  destruct (limited_more e0 fuel d C1 x C2 limit st d1 H E ltac:(lia) ltac:(lia) Hf D Er) as (H1 & i1 & E1 & R & K1).
  assert (Hx : In x (d_comps d)) by (rewrite E; apply in_middle; auto). destruct (dk_good _ _ H x Hx) as [(Wf & _) _].
  assert (Go : forall limit', (0 <= limit' <= INT_MAX)%Z -> fd_unlimited rounds fuel cost limit' (length C1) k1 d1 = D_raised d' -> fault_post d C1 x C2 d').
  { intros limit' HL' Z'. destruct (IH d1 C1 (iet_set x i1) C2 limit' k1 d' H1 E1 ltac:(rewrite K1; exact Hf) HL' Z') as (i' & A & B). exists i'. split; [exact A|]. exact (dleft_trans _ _ _ _ _ _ Wf R K1 B). }
  destruct Hc as [->| ->]; (destruct (Z.leb_spec (2 * (limit + 1)) INT_MAX) as [L|L]; [|discriminate]); refine (Go _ _ Z); unfold INT_MAX in *; lia.
Qed.

Lemma fd_step_raised e0 fuel limit d C1 x C2 k d' : dec_ok e0 d -> d_comps d = C1 ++ x :: C2 -> (limit <= INT_MAX)%Z -> length (d_keys d) < fuel ->
  fd_step fuel limit (length C1) k d = D_raised d' -> fault_post d C1 x C2 d'.
Proof.
  intros H E HL Hf Z. unfold fd_step in Z. destruct (Z.eqb_spec limit (-1)) as [->|N]; [|exact (fd_limited_raised e0 fuel d C1 x C2 limit k d' H E HL N Hf Z)].
  unfold dbind at 1 in Z. destruct (fd_start (length C1) k d) as [cost k1 d1|d1|e] eqn:Q; [|injection Z as <-; exact (fd_start_raised _ _ _ _ _ _ _ H E Q)|discriminate].
  pose proof (dat_did _ _ _ _ _ _ _ (dat_start (length C1) d) Q) as D. destruct (step_start_ok e0 d C1 x C2 H E) as (cost' & v & Es & Ec & H0). rewrite D in Es. injection Es as <- ->.
  set (d0 := set_comps d _) in *. set (x0 := iet_set x (set_saf (dc_iet x) (Some v))) in *. assert (Cc : cost = None \/ cost = Some 64%Z) by (destruct (vis0 _); auto).
  apply (fault_post_start d C1 x C2 (Some v) d' E). fold d0 x0.
  exact (fd_unlimited_raised e0 fuel cost Cc fuel d0 C1 x0 C2 0%Z k1 d' H0 eq_refl Hf ltac:(unfold INT_MAX; lia) Z).
Qed.

End FaultDecLeft.
