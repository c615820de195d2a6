(** Proofs of the theorems in [PropPar]. *)
From Coq Require Import Reals Permutation Lia.
From Verif Require Import Base QcTac LenT FM Subspace Lengths IET LenInst Sqrt2 Spec Api RatioApi Par ParApi Fixtures.
From Verif Require Import ParProof.
Open Scope nat_scope.
Lemma no_race {T A} {O : LenOps T} (P : nat -> location -> bool -> Prop) (ts : list (thread T A)) :
  (forall n p x v w, n <> p -> P n x v -> P p x w -> v || w = false) ->
  (forall n t, nth_error ts n = Some t -> exists m, touches (P n) t m) -> ~ data_race ts.
Proof.
  intros D H (n & p & B & x & k & C & y & k' & N & En & Ep & l & v & w & Hv & Hw & E).
  destruct (H n _ En) as (m1 & T1 & _). destruct (H p _ Ep) as (m2 & T2 & _). rewrite (D n p l v w N (T1 _ _ Hv) (T2 _ _ Hw)) in E. discriminate.
Qed.

Definition next_accesses {T A} (t : option (thread T A)) : list (location * bool) := match t with Some (Next x _) => accesses x | _ => [] end.
Lemma race_at {T A} (ts : list (thread T A)) n p x v w : n <> p -> In (x, v) (next_accesses (nth_error ts n)) -> In (x, w) (next_accesses (nth_error ts p)) -> v || w = true -> data_race ts.
Proof.
  intros N Hv Hw E. destruct (nth_error ts n) as [[|?|B a k]|] eqn:En; try contradiction. destruct (nth_error ts p) as [[|?|C b k']|] eqn:Ep; try contradiction.
  exists n, p, B, a, k, C, b, k'. split; [exact N|]. split; [exact En|]. split; [exact Ep|]. exists x, v, w. auto.
Qed.

Lemma nth_map {A B} (f : A -> B) l n x : nth_error (map f l) n = Some x -> exists y, nth_error l n = Some y /\ x = f y.
Proof. rewrite nth_error_map. destruct (nth_error l n) as [y|]; cbn; intro E; [injection E as <-; eauto|discriminate]. Qed.

Lemma schedule_length {T A} {O : LenOps T} turns : forall (m : memory T) (us ts : list (thread T A)) m', schedule turns us m = (ts, m') -> length ts = length us.
Proof.
  induction turns as [|n turns IH]; intros m us ts m' E; cbn [schedule] in E; [congruence|].
  destruct (nth_error us n) as [t|]; [destruct (turn t m) as [t' m1]; rewrite (IH _ _ _ _ E), upd_length; reflexivity|exact (IH _ _ _ _ E)].
Qed.

Section Works.
Context {T : Type} {O : LenOps T}.

Definition allowed (ws : list work) (n : nat) : location -> bool -> Prop :=
  match nth_error ws n with
  | Some (W_calls j l _) => owned j l
  | Some w => looking (uses w)
  | None => fun _ _ => False
  end.

Lemma allowed_apart ws : compatible ws -> forall n p x v w, n <> p -> allowed ws n x v -> allowed ws p x w -> v || w = false.
Proof.
  intros C n p x v w N. unfold allowed. destruct (nth_error ws n) as [a|] eqn:En; [|tauto]. destruct (nth_error ws p) as [b|] eqn:Ep; [|tauto].
  destruct a as [j l os|qs]; destruct b as [j' l' os'|qs'].
  - intros A B. exfalso. destruct (C n p j l os _ j' l' N En Ep (or_introl eq_refl)) as (X & Y). destruct A as [->|[->| ->]]; destruct B as [B|[B|B]]; congruence.
  - intros A (_ & j' & l' & I & B). exfalso. destruct (C n p j l os _ j' l' N En Ep I) as (X & Y). destruct A as [->|[->| ->]]; destruct B as [B|[B|B]]; congruence.
  - intros (_ & j0 & l0 & I & A) B. exfalso. destruct (C p n j' l' os' _ j0 l0 (not_eq_sym N) Ep En I) as (X & Y). destruct B as [->|[->| ->]]; destruct A as [A|[A|A]]; congruence.
  - intros (-> & _) (-> & _). reflexivity.
Qed.

Lemma work_touches ws m n w : nth_error ws n = Some w -> startable m w -> touches (allowed ws n) (t_work w) m.
Proof.
  intros E S. unfold allowed. rewrite E. destruct w as [j l os|qs]; cbn [t_work uses startable] in *.
  - apply within_touches, w_bind; [apply w_calls|]. intro. constructor.
  - apply touches_bind; [apply l_queries; exact S|]. intros. exact I.
Qed.

(** What the thread gets if it runs alone. *)
Lemma work_exec m w : startable m w ->
  match w with
  | W_calls j l os => exists i s, nth_error (m_iets m) j = Some i /\ nth_error (m_lens m) l = Some s /\
      match calls os i s with
      | Ok (r, i', s') => exec (t_work w) m = Ok (inl r, at_mem j l m i' s')
      | e => exec (t_work w) m = stop_of e
      end
  | W_queries qs => exec (t_work w) m = (r <- mapM (ask m) qs ;; Ok (inr r, m))
  end.
Proof.
  destruct w as [j l os|qs]; cbn [startable t_work]; intro S.
  - destruct S as (Lj & Ll). destruct (nth_error (m_iets m) j) as [i|] eqn:E; [|apply nth_error_None in E; lia]. destruct (nth_error (m_lens m) l) as [s|] eqn:Es; [|apply nth_error_None in Es; lia].
    exists i, s. split; [reflexivity|]. split; [reflexivity|]. pose proof (me_calls j l m Lj Ll os i s) as Q. unfold means in Q. rewrite (at_self j l m i s E Es) in Q.
    rewrite exec_bind, Q. destruct (calls os i s) as [[[r i'] s']| | | |]; reflexivity.
  - rewrite exec_bind, (exec_queries qs m S). destruct (mapM (ask m) qs); reflexivity.
Qed.
End Works.
Lemma claim_C93_partial : forall (T : Type) (O : LenOps T) (m : memory T) (programs : list (list (nat * nat * query))) (turns : list nat),
  (forall qs x, In qs programs -> In x qs -> ready m x) ->
  exists threads, schedule turns (map t_queries programs) m = (threads, m) /\ ~ data_race threads /\
  forall n qs, nth_error programs n = Some qs -> exists t, nth_error threads n = Some t /\
    match t with
    | Returned answers => mapM (ask m) qs = Ok answers
    | Stopped e => mapM (ask m) qs = stop_of e
    | Next _ _ => True
    end.
Proof.
  intros T O m ps turns H. destruct (readers turns (map t_queries ps) m) as (ts & E & Q).
  { intros n t En. destruct (nth_map _ _ _ _ En) as (qs & Eq & ->). apply (touches_mono (looking (flat_map reads_of qs))); [apply looking_reads|]. apply l_queries. intros x Hx. exact (H qs x (nth_error_In _ _ Eq) Hx). }
  assert (L : length ts = length ps) by (rewrite <- (map_length (t_queries (T := T)) ps); exact (schedule_length _ _ _ _ _ E)).
  exists ts. split; [exact E|]. split.
  - apply (no_race (fun _ => reads)); [intros n p x v w _ -> ->; reflexivity|]. intros n t En.
    destruct (nth_error (map t_queries ps) n) as [u|] eqn:Eu; [|apply nth_error_None in Eu; rewrite map_length in Eu; assert (n < length ts) by (apply nth_error_Some; congruence); lia].
    destruct (Q n u Eu) as (t' & _ & Et & W). exists m. replace t with t' by congruence. exact W.
  - intros n qs En. destruct (Q n (t_queries qs)) as (t' & S & Et & _); [rewrite nth_error_map, En; reflexivity|]. exists t'. split; [exact Et|].
    pose proof (solo_exec _ _ _ _ _ S) as X. rewrite exec_queries in X by (intros x Hx; exact (H qs x (nth_error_In _ _ En) Hx)).
    destruct t' as [a|e|B y k]; [|destruct e as [[]| | | |]|exact I]; destruct (mapM (ask m) qs); cbn [bind stop_of] in *; try discriminate; try reflexivity. injection X as ->. reflexivity.
Qed.

Lemma claim_C93_known : forall (T : Type) (O : LenOps T) (o : op) (i : iet T) (s : slen T) (a : answer) (i' : iet T) (extra : list (iet T)) (s' : slen T),
  call o i s = Ok (a, i', extra, s') -> o = op_saf \/ o = op_bosh_periodic \/ (i_saf i <> None /\ extra = []) -> i_saf i' <> None.
Proof.
  intros T O o i s a i' extra s' E H.
  assert (Saf : forall i s v i1, iet_saf i s = Ok (v, i1) -> i_saf i1 <> None).
  { intros i1 s1 v i2 Q. unfold iet_saf in Q. destruct (i_saf i1) eqn:Es; [injection Q as <- <-; congruence|]. destruct (saf_raw i1 s1); cbn [bind] in Q; try discriminate. injection Q as <- <-. discriminate. }
  assert (Saf0 : forall i s v i1, iet_saf0 i s = Ok (v, i1) -> i_saf i1 <> None).
  { intros i1 s1 v i2 Q. unfold iet_saf0 in Q. destruct (iet_saf i1 s1) as [[w i3]| | | |] eqn:Es; cbn [bind] in Q; try discriminate. injection Q as <- <-. exact (Saf _ _ _ _ Es). }
  assert (Bosh : forall i s v i1, bosh_no_periodic i s = Ok (v, i1) -> i_saf i1 <> None).
  { intros i1 s1 v i2 Q. unfold bosh_no_periodic in Q. destruct (iet_saf0 i1 s1) as [[z i3]| | | |] eqn:Es; cbn [bind] in Q; try discriminate. pose proof (Saf0 _ _ _ _ Es) as N.
    destruct z; [injection Q as <- <-; exact N|]. destruct (i_size i3 <=? 1); [injection Q as <- <-; exact N|].
    destruct (bosh_equations i3 s1); cbn [bind] in Q; try discriminate. destruct (ras_equations a0 (vzero (length a0))); cbn [bind] in Q; try discriminate. destruct (nznn a1); cbn [bind] in Q; try discriminate.
    injection Q as <- <-. exact N. }
  assert (Zor : forall i s f i1 s1, zorich sample_lens i s = Ok (f, i1, s1) -> i_saf i1 = i_saf i).
  { intros i1 s1 f i2 s2 Q. unfold zorich in Q. destruct (i_top i1) as [|x X]; [discriminate|]. destruct (i_bottom i1) as [|y Y] eqn:Eb; [discriminate|]. destruct (Nat.eqb x y); [injection Q as <- <- <-; reflexivity|].
    destruct (zloop sample_lens (i_view i1) x [] (y :: Y) s1) as [[r s3]| | | |]; cbn [bind] in Q; try discriminate. destruct (splice x (y :: Y) (length r)) as [bot| | | |]; cbn [bind] in Q; try discriminate.
    destruct bot; [discriminate|]. cbn [bind] in Q. match type of Q with context [bind ?c _] => destruct c end; cbn [bind] in Q; try discriminate. injection Q as <- <- <-. reflexivity. }
  assert (Red : forall i s r i1, reduce i s = Ok (r, i1) -> r = None -> i_saf i1 = i_saf i).
  { intros i1 s1 r i2 Q N. unfold reduce in Q. destruct (red_loop (i_top i1) (i_bottom i1) [] 0 0) as [[t b]| | | |]; cbn [bind] in Q; try discriminate. destruct t.
    - unfold assert_ in Q. destruct b; [injection Q as <- <-; reflexivity|discriminate].
    - unfold assert_ in Q. match type of Q with context [if ?c then _ else _] => destruct c end; [|discriminate]. match type of Q with context [iet_make ?x ?y ?z] => destruct (iet_make x y z) end; cbn [bind] in Q; try discriminate. injection Q as <- <-. discriminate. }
  destruct o; cbn [call] in E.
  - injection E as <- <- <- <-. destruct H as [H|[H|(H & _)]]; try discriminate. exact H.
  - destruct (zorich sample_lens i s) as [[[f i1] s1]| | | |] eqn:Z; cbn [bind] in E; try discriminate. injection E as <- <- <- <-. rewrite (Zor _ _ _ _ _ Z). destruct H as [H|[H|(H & _)]]; try discriminate. exact H.
  - destruct (reduce i s) as [[r i1]| | | |] eqn:Z; cbn [bind] in E; try discriminate. destruct H as [H|[H|(H & X)]]; try discriminate. destruct r; [injection E as <- <- <- <-; discriminate X|].
    injection E as <- <- <- <-. rewrite (Red _ _ _ _ Z eq_refl). exact H.
  - destruct H as [H|[H|(H & X)]]; try discriminate. destruct (induce sample_lens fuel limit i s) as [[[st i1] s1]| | | |] eqn:Z; cbn [bind] in E; try discriminate. injection E as <- <- <- <-.
    assert (N : is_additional st = None) by (destruct (is_additional st); [discriminate X|reflexivity]). clear X. unfold induce in Z. destruct (i_size i =? 1); [injection Z as <- <- <-; exact H|].
    assert (Loop : forall z n i s r i1 s1, i_saf i <> None -> induce_loop sample_lens fuel z limit n i s = Ok (r, i1, s1) -> i_saf i1 <> None).
    { clear - Saf Zor. induction fuel as [|fuel IH]; intros z n i s r i1 s1 K Q; [discriminate|]. cbn [induce_loop] in Q. destruct (negb ((limit =? -1)%Z || (n <? limit)%Z)); [injection Q as <- <- <-; exact K|].
      match type of Q with context [bind ?c _] => destruct c as [[b i2]| | | |] eqn:Tr end; cbn [bind] in Q; try discriminate.
      assert (K2 : i_saf i2 <> None).
      { destruct z; [|injection Tr as <- <-; exact K]. cbn [li_base sample_lens] in Tr. destruct (iet_saf i s) as [[v i3]| | | |] eqn:Es; cbn [bind] in Tr; try discriminate. pose proof (Saf _ _ _ _ Es) as K3.
        destruct (length v =? 0); [injection Tr as <- <-; exact K3|]. destruct (tracker_loop (i_trk i3) i3 s) as [[q k]| | | |]; cbn [bind] in Tr; try discriminate. injection Tr as <- <-. exact K3. }
      destruct b; [injection Q as <- <- <-; exact K2|]. destruct (zorich sample_lens i2 s) as [[[f i3] s3]| | | |] eqn:Z1; cbn [bind] in Q; try discriminate. pose proof (Zor _ _ _ _ _ Z1) as K3.
      destruct f; [injection Q as <- <- <-; congruence|]. destruct (zorich sample_lens (iet_swap i3) s3) as [[[f i4] s4]| | | |] eqn:Z2; cbn [bind] in Q; try discriminate. pose proof (Zor _ _ _ _ _ Z2) as K4. cbn [iet_swap i_saf] in K4.
      destruct f; [injection Q as <- <- <-; cbn; congruence|]. destruct (n =? INT_MAX)%Z; [discriminate|]. apply (IH z (n + 1)%Z (iet_swap i4) s4 r i1 s1); [cbn; congruence|exact Q]. }
    assert (Start : exists f i2 s2, i_saf i2 <> None /\ (match f with None => Ok (mkistep WITHOUT_PERIODIC_TRAJECTORY_AUTO_SIMILAR None None, i2, s2) | Some f => induce_finish sample_lens f i2 s2 end) = Ok (st, i1, s1)).
    { destruct (limit =? 0)%Z; cbn [bind] in Z; [exists (Some false), i, s; auto|]. cbn [li_base sample_lens] in Z. destruct (iet_saf0 i s) as [[z i2]| | | |] eqn:Es; cbn [bind] in Z; try discriminate.
      destruct (induce_loop sample_lens fuel z limit 0 i2 s) as [[[f i3] s3]| | | |] eqn:Lo; cbn [bind] in Z; try discriminate. exists f, i3, s3. split; [exact (Loop _ _ _ _ _ _ _ (Saf0 _ _ _ _ Es) Lo)|exact Z]. }
    destruct Start as (f & i2 & s2 & K & F). destruct f as [f|]; [|injection F as <- <- <-; exact K]. unfold induce_finish in F. cbn [li_base sample_lens] in F.
    destruct (reduce i2 s2) as [[r i3]| | | |] eqn:R; cbn [bind] in F; try discriminate. destruct r as [r|].
    { destruct (rev (i_bottom i3)); [discriminate|]. destruct (rev (i_top i3)); [discriminate|]. injection F as <- <- <-. discriminate N. }
    pose proof (Red _ _ _ _ R eq_refl) as K3. rewrite <- K3 in K. destruct (i_top i3) as [|x X] eqn:Et; [discriminate|]. destruct (i_bottom i3) as [|y Y] eqn:Eb; [discriminate|]. cbn [li_cmp2 sample_lens] in F.
    destruct (sl_cmp2 s2 x y) as [c| | | |]; cbn [bind] in F; try discriminate. destruct c.
    { destruct (merge_first i3) as [i4| | | |] eqn:M; cbn [bind] in F; try discriminate. injection F as <- <- <-. unfold merge_first in M. rewrite Et, Eb in M. destruct (split_at x Y) as [[p q]|]; [|discriminate]. injection M as <-. exact K. }
    all: unfold assert_ in F; destruct (negb f); [|discriminate]; destruct (bosh_no_periodic i3 s2) as [[z i4]| | | |] eqn:B; cbn [bind] in F; try discriminate; injection F as <- <- <-; exact (Bosh _ _ _ _ B).
  - destruct (saf_invariant i s) as [[v i1]| | | |] eqn:Z; cbn [bind] in E; try discriminate. injection E as <- <- <- <-. unfold saf_invariant in Z. destruct (iet_saf i s) as [[w i2]| | | |] eqn:Es; cbn [bind] in Z; try discriminate. injection Z as <- <-. exact (Saf _ _ _ _ Es).
  - destruct (bosh_no_periodic i s) as [[v i1]| | | |] eqn:Z; cbn [bind] in E; try discriminate. injection E as <- <- <- <-. exact (Bosh _ _ _ _ Z).
  - destruct H as [H|[H|(H & _)]]; try discriminate. destruct (bosh_no_saddle i s); cbn [bind] in E; try discriminate. injection E as <- <- <- <-. exact H.
  - destruct H as [H|[H|(H & _)]]; try discriminate. destruct (bosh_no_saddle2 i s t b); cbn [bind] in E; try discriminate. injection E as <- <- <- <-. exact H.
Qed.

Lemma claim_C93_race_refuted : exists (i : iet q2) (s : slen q2) (turns : list nat), obtainable i s /\
  data_race (fst (schedule turns [t_queries [(0, 0, q_saf)]; t_queries [(0, 0, q_saf)]] (mkmem [i] [s]))).
Proof.
  exists w_iet, w_lens, [0; 0; 0; 0; 1; 1; 1; 1]. split; [exact w_obtainable|]. apply (race_at _ 0 1 (L_cache 0) true true); [discriminate|vm_compute; auto..].
Qed.

Lemma claim_C93_value_refuted : exists (i : iet q2) (s : slen q2) (turns : list nat) (v : vec), obtainable i s /\
  ask (mkmem [i] [s]) (0, 0, q_saf) = Ok (r_vector v) /\ vis0 v = false /\
  exists w, nth_error (fst (schedule turns [t_queries [(0, 0, q_saf)]; t_queries [(0, 0, q_saf)]] (mkmem [i] [s]))) 1 = Some (Returned [r_vector w]) /\ vis0 w = true.
Proof.
  exists w_iet, w_lens, ([0; 0; 0; 0; 0] ++ repeat 1 5). eexists. split; [exact w_obtainable|]. split; [vm_compute; reflexivity|]. split; [vm_compute; reflexivity|].
  eexists. split; vm_compute; reflexivity.
Qed.

Lemma claim_C94_partial : forall (T : Type) (O : LenOps T) (m : memory T) (works : list work) (turns : list nat),
  compatible works -> (forall w, In w works -> startable m w) ->
  let '(threads, m') := schedule turns (map t_work works) m in
  ~ data_race threads /\
  forall n w, nth_error works n = Some w -> exists t, nth_error threads n = Some t /\
    match w with
    | W_calls j l os => exists i s, nth_error (m_iets m) j = Some i /\ nth_error (m_lens m) l = Some s /\
      match t with
      | Returned r => exists answers i' s', r = inl answers /\ calls os i s = Ok (answers, i', s') /\ nth_error (m_iets m') j = Some i' /\ nth_error (m_lens m') l = Some s'
      | Stopped e => calls os i s = stop_of e
      | Next _ _ => True
      end
    | W_queries qs =>
      match t with
      | Returned r => exists answers, r = inr answers /\ mapM (ask m) qs = Ok answers
      | Stopped e => mapM (ask m) qs = stop_of e
      | Next _ _ => True
      end
    end.
Proof.
  intros T O m ws turns C S. pose proof (apart (allowed ws) (allowed_apart ws C) turns (map t_work ws) m (fun _ => m)) as A.
  assert (H : forall n t, nth_error (map (t_work (T := T)) ws) n = Some t -> touches (allowed ws n) t m /\ forall x w, allowed ws n x w -> same x m m).
  { intros n t E. destruct (nth_map _ _ _ _ E) as (w & Ew & ->). split; [apply (work_touches ws m n w Ew), S, (nth_error_In _ _ Ew)|]. intros. apply same_refl. }
  specialize (A H). destruct (schedule turns (map t_work ws) m) as [ts m'] eqn:E.
  assert (L : length ts = length ws) by (rewrite <- (map_length (t_work (T := T)) ws); exact (schedule_length _ _ _ _ _ E)).
  split.
  - apply (no_race (allowed ws) ts (allowed_apart ws C)). intros n t En. destruct (nth_error ws n) as [w|] eqn:Ew; [|apply nth_error_None in Ew; assert (n < length ts) by (apply nth_error_Some; congruence); lia].
    specialize (A n (t_work w)). rewrite nth_error_map, Ew in A. specialize (A eq_refl). destruct (solo (count_occ Nat.eq_dec turns n) (t_work w) m) as [t' mm]. destruct A as (Et & W & _). exists mm. replace t with t' by congruence. exact W.
  - intros n w Ew. specialize (A n (t_work w)). rewrite nth_error_map, Ew in A. specialize (A eq_refl). destruct (solo (count_occ Nat.eq_dec turns n) (t_work w) m) as [t' mm] eqn:So. destruct A as (Et & _ & Sa).
    exists t'. split; [exact Et|]. pose proof (solo_exec _ _ _ _ _ So) as X. pose proof (work_exec m w (S w (nth_error_In _ _ Ew))) as Y. destruct w as [j l os|qs].
    + destruct Y as (i & s & Ei & Es & Y). exists i, s. split; [exact Ei|]. split; [exact Es|].
      assert (Lj : j < length (m_iets m)) by (apply nth_error_Some; congruence). assert (Ll : l < length (m_lens m)) by (apply nth_error_Some; congruence).
      destruct t' as [r|e|B x k]; [|destruct e as [[]| | | |]|exact I]; destruct (calls os i s) as [[[a i'] s']| | | |]; rewrite Y in X; cbn [stop_of] in *; try discriminate; try reflexivity.
      injection X as <- <-. exists a, i', s'. split; [reflexivity|]. split; [reflexivity|]. unfold allowed in Sa. rewrite Ew in Sa.
      pose proof (Sa (L_rows j) true (or_introl eq_refl)) as S1. pose proof (Sa (L_cache j) true (or_intror (or_introl eq_refl))) as S2. pose proof (Sa (L_lens l) true (or_intror (or_intror eq_refl))) as S3.
      unfold same in S1, S2, S3. rewrite (at_lens j l m Ll) in S3. rewrite (at_iet j l m Lj) in S1, S2. split; [|exact S3].
      destruct (nth_error (m_iets m') j) as [i2|]; [|discriminate]. cbn [option_map] in S1, S2. apply some_inj in S1, S2. f_equal. apply iet_saf_parts; assumption.
    + rewrite Y in X. destruct t' as [r|e|B x k]; [|destruct e as [[]| | | |]|exact I]; destruct (mapM (ask m) qs); cbn [bind stop_of] in *; try discriminate; try reflexivity. injection X as <- _. eauto.
Qed.

Lemma claim_C94_done : forall (T : Type) (O : LenOps T) (m : memory T) (works : list work) (n : nat) (w : work),
  compatible works -> (forall w, In w works -> startable m w) -> nth_error works n = Some w ->
  exists N, forall turns, N <= count_occ Nat.eq_dec turns n ->
  exists t, nth_error (fst (schedule turns (map t_work works) m)) n = Some t /\ match t with Next _ _ => False | _ => True end.
Proof.
  intros T O m ws n w C S Ew. destruct (solo_done (t_work w) m) as (N & HN). exists N. intros turns L.
  pose proof (apart (allowed ws) (allowed_apart ws C) turns (map t_work ws) m (fun _ => m)) as A.
  assert (H : forall n t, nth_error (map (t_work (T := T)) ws) n = Some t -> touches (allowed ws n) t m /\ forall x w, allowed ws n x w -> same x m m).
  { intros p t E. destruct (nth_map _ _ _ _ E) as (u & Eu & ->). split; [apply (work_touches ws m p u Eu), S, (nth_error_In _ _ Eu)|]. intros. apply same_refl. }
  specialize (A H). destruct (schedule turns (map t_work ws) m) as [ts m']. specialize (A n (t_work w)). rewrite nth_error_map, Ew in A. specialize (A eq_refl).
  specialize (HN _ L). destruct (solo (count_occ Nat.eq_dec turns n) (t_work w) m) as [t mm]. destruct A as (Et & _). exists t. split; [exact Et|exact HN].
Qed.

Lemma claim_C94_refuted : exists (i0 i1 : iet Z) (s : slen Z) (turns : list nat), history [i1; i0] s /\
  (let m := mkmem [i0; i1] [s] in let program := [t_calls 0 0 [op_zorich]; t_calls 1 0 [op_zorich]] in
   (exists t m', schedule turns program m = ([t; Returned [(ans_found true, [])]], m') /\ map (fun s => sl_lens s) (m_lens m') = [[8; 3; 2; 2]%Z]) /\
   forall order, order = [0; 1] \/ order = [1; 0] -> exists m', schedule (flat_map (fun n => repeat n 20) order) program m = ([Returned [(ans_found false, [])]; Returned [(ans_found false, [])]], m') /\
     map (fun s => sl_lens s) (m_lens m') = [[2; 3; 1; 2]%Z]).
Proof.
  exists (fresh [0; 1] [1; 0]), (fresh [2; 3] [3; 2]), (mkslen [] [8; 3; 7; 2]%Z), ([0; 0; 1; 1] ++ repeat 1 12). split.
  - apply (h_new [fresh [0; 1] [1; 0]] _ [2; 3] [3; 2]); [|apply valid_inputb_ok; vm_compute; reflexivity| |vm_compute; reflexivity].
    + exact (fresh_history [8; 3; 7; 2]%Z [0; 1] [1; 0] eq_refl).
    + intros c I J. cbn in I, J. repeat destruct I as [<-|I]; repeat destruct J as [J|J]; try discriminate; contradiction.
  - cbv zeta. split; [do 2 eexists; split; vm_compute; reflexivity|]. intros order [-> | ->]; (eexists; split; vm_compute; reflexivity).
Qed.

