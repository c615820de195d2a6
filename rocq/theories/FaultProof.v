(** Proofs about [Fault]. *)
From Coq Require Import Reals Permutation Lia Lra.
From Verif Require Import Base QcTac LenT FM Subspace Lengths IET Spec Api RatioApi Fault.
From Verif Require Import ZorichProof ReduceProof Saf InduceProof.
Open Scope nat_scope.

Section At.
Context {T : Type} {O : LenOps T} {S : Type}.

Definition agrees {A} (o : out T S A) (k : nat) (r : res (A * iet T * S)) : Prop :=
  match r with
  | Ok (a, i, s) => o = Did a k i s
  | Throw => exists i s, o = Raised i s
  | AssertFail => o = Fails F_assert
  | UB => o = Fails F_undefined
  | OutOfFuel => o = Fails F_fuel
  end.

(** [m] calls members of the lengths [n] times, and if none throws it does what [r] says. *)
Definition at_ {A} (m : prog T S A) (i : iet T) (s : S) (r : res (A * iet T * S)) : Prop :=
  exists n, forall k, (k < n -> exists i' s', m k i s = Raised i' s') /\ (n <= k -> agrees (m k i s) (k - n) r).

Definition fail_of {A B} (r : res A) : res B :=
  match r with Ok _ => UB | Throw => Throw | AssertFail => AssertFail | UB => UB | OutOfFuel => OutOfFuel end.

Lemma at_bind {A B} (m : prog T S A) (f : A -> prog T S B) i s r1 (r : res (B * iet T * S)) : at_ m i s r1 ->
  match r1 with Ok (a, i1, s1) => at_ (f a) i1 s1 r | e => r = fail_of e end -> at_ (fbind m f) i s r.
Proof.
  intros (n1 & H1) H2. destruct r1 as [[[a i1] s1]| | | |]; [|subst r; exists n1; intro k; destruct (H1 k) as (L & G); split; intro K; unfold fbind..].
  1:{ destruct H2 as (n2 & H2). exists (n1 + n2). intro k. unfold fbind. destruct (H1 k) as (L & G). split; intro K.
      - destruct (lt_dec k n1) as [D|D]; [destruct (L D) as (i' & s' & E); rewrite E; eauto|].
        rewrite (G ltac:(lia)). apply (H2 (k - n1)). lia.
      - rewrite (G ltac:(lia)). replace (k - (n1 + n2)) with (k - n1 - n2) by lia. apply H2. lia. }
  all: try (destruct (L K) as (i' & s' & E); rewrite E; eauto; fail).
  - destruct (G K) as (i' & s' & E). rewrite E. cbn. eauto.
  - cbn in G. rewrite (G K). reflexivity.
  - cbn in G. rewrite (G K). reflexivity.
  - cbn in G. rewrite (G K). reflexivity.
Qed.

Lemma at_ret {A} (a : A) i s : at_ (fret a) i s (Ok (a, i, s)).
Proof. exists 0. intro k. split; [lia|]. intros _. rewrite Nat.sub_0_r. reflexivity. Qed.

Lemma at_this i s : at_ this i s (Ok (i, i, s)).
Proof. exists 0. intro k. split; [lia|]. intros _. rewrite Nat.sub_0_r. reflexivity. Qed.

Lemma at_put j i s : at_ (put j) i s (Ok (tt, j, s)).
Proof. exists 0. intro k. split; [lia|]. intros _. rewrite Nat.sub_0_r. reflexivity. Qed.

Lemma at_pure {A} (r : res A) i s : at_ (pure r) i s (a <- r ;; Ok (a, i, s)).
Proof. exists 0. intro k. split; [lia|]. intros _. rewrite Nat.sub_0_r. destruct r; cbn; eauto. Qed.

Lemma at_member {A} (f : S -> res (A * S)) i s : at_ (member f) i s ('(a, s) <- f s ;; Ok (a, i, s)).
Proof.
  exists 1. intros [|k]; split; try lia; intros _; cbn [member]; [eauto|]. cbn [Nat.sub]. rewrite Nat.sub_0_r.
  destruct (f s) as [[a s1]| | | |]; cbn; eauto.
Qed.

Lemma at_change f i s : at_ (change f) i s (s <- f s ;; Ok (tt, i, s)).
Proof. exists 0. intro k. split; [lia|]. intros _. rewrite Nat.sub_0_r. unfold change. destruct (f s); cbn; eauto. Qed.

Lemma at_state i s : at_ state i s (Ok (s, i, s)).
Proof. exists 0. intro k. split; [lia|]. intros _. rewrite Nat.sub_0_r. reflexivity. Qed.

Lemma at_eq {A} (m : prog T S A) i s r r' : at_ m i s r -> r = r' -> at_ m i s r'.
Proof. intros H <-. exact H. Qed.

Lemma at_did {A} (m : prog T S A) i s r k a k' i' s' : at_ m i s r -> m k i s = Did a k' i' s' -> r = Ok (a, i', s').
Proof.
  intros (n & H) E. destruct (H k) as (L & G). destruct (le_lt_dec n k) as [K|K]; [|destruct (L K) as (x & y & Z); congruence].
  specialize (G K). destruct r as [[[b j] t]| | | |]; cbn in G; [congruence| |congruence..]. destruct G as (x & y & Z). congruence.
Qed.

(** The programs [F] do what the lengths [L] do if nothing is thrown. *)
Record fl_ok (F : flens T S) (L : lens T S) : Prop := {
  fo_push : forall l i s, at_ (fl_push F l) i s (s <- li_push L l s ;; Ok (tt, i, s));
  fo_pop : forall i s, at_ (fl_pop F) i s (s <- li_pop L s ;; Ok (tt, i, s));
  fo_subtract : forall l i s, at_ (fl_subtract F l) i s (s <- li_subtract L (i_view i) l s ;; Ok (tt, i, s));
  fo_subrep : forall l i s, at_ (fl_subrep F l) i s ('(a, s) <- li_subrep L (i_view i) l s ;; Ok (a, i, s));
  fo_cmp1 : forall s l, li_cmp1 L s l = sl_cmp1 (fl_base F s) l;
  fo_cmp2 : forall s l m, li_cmp2 L s l m = sl_cmp2 (fl_base F s) l m;
  fo_base : forall s, li_base L s = fl_base F s;
}.

Context (F : flens T S) (L : lens T S) (HF : fl_ok F L).
Notation base := (fl_base F).

Lemma at_query {A} (f : slen T -> res A) i s : at_ (query F f) i s (a <- f (base s) ;; Ok (a, i, s)).
Proof.
  pose proof (at_member (fun s => a <- f (base s) ;; Ok (a, s)) i s) as H. unfold query. cbn beta in H. destruct (f (base s)); exact H.
Qed.

Ltac onward := cbn [bind fail_of]; try reflexivity.

Lemma at_zloop a rest : forall rpre i s, at_ (f_zloop F a rpre rest) i s ('(r, s) <- zloop L (i_view i) a rpre rest s ;; Ok (r, i, s)).
Proof.
  induction rest as [|b rest IH]; intros rpre i s; cbn [f_zloop zloop]; [apply (at_pure (@UB (list label)))|]. destruct (Nat.eqb b a).
  - eapply at_bind; [apply (fo_subrep F L HF)|]. destruct (li_subrep L (i_view i) a s) as [[stop s1]| | | |]; onward.
    destruct (Nat.eqb a stop); [apply (at_pure (@UB (list label)))|]. destruct (back_to stop rpre); [apply at_ret|apply (at_pure (@UB (list label)))].
  - eapply at_bind; [apply (fo_push F L HF)|]. destruct (li_push L b s) as [s0| | | |]; onward. eapply at_bind; [apply at_query|]. rewrite (fo_cmp1 F L HF).
    destruct (sl_cmp1 (base s0) a) as [c| | | |]; onward.
    assert (Go : at_ (_ <~ fl_pop F ;; _ <~ fl_subtract F a ;; fret rpre) i s0
      ('(r, s) <- (s0 <- li_pop L s0 ;; s1 <- li_subtract L (i_view i) a s0 ;; Ok (rpre, s1)) ;; Ok (r, i, s))).
    { eapply at_bind; [apply (fo_pop F L HF)|]. destruct (li_pop L s0) as [s1| | | |]; onward.
      eapply at_bind; [apply (fo_subtract F L HF)|]. destruct (li_subtract L (i_view i) a s1) as [s2| | | |]; onward. apply at_ret. }
    destruct c; [exact Go|apply IH|exact Go].
Qed.

Lemma at_zorich i s : at_ (f_zorich F) i s (zorich L i s).
Proof.
  unfold f_zorich, zorich. eapply at_bind; [apply at_this|]. cbn beta iota.
  destruct (i_top i) as [|a X]; [apply (at_pure (@UB bool))|]. destruct (i_bottom i) as [|b Y]; [apply (at_pure (@UB bool))|].
  destruct (Nat.eqb a b); [apply at_ret|]. eapply at_bind; [apply at_zloop|].
  destruct (zloop L (i_view i) a [] (b :: Y) s) as [[r s1]| | | |]; onward.
  eapply at_bind; [apply at_pure|]. destruct (splice a (b :: Y) (length r)) as [bot| | | |]; onward.
  destruct bot as [|b' bot]; [apply (at_pure (@UB bool))|]. eapply at_bind; [apply at_put|]. cbn beta iota.
  eapply at_bind; [apply at_query|]. cbn beta. rewrite (fo_cmp2 F L HF). destruct (sl_cmp2 (base s1) a b'); onward. apply at_ret.
Qed.

Lemma at_saf i s : at_ (f_saf F) i s ('(v, i) <- iet_saf i (base s) ;; Ok (v, i, s)).
Proof.
  unfold f_saf, iet_saf, saf_raw. eapply at_bind; [apply at_this|]. cbn beta iota. destruct (i_saf i) as [v|]; [apply at_ret|].
  eapply at_bind; [apply at_query|]. cbn beta. destruct (iet_coefficients i (base s)) as [cs| | | |]; onward.
  destruct cs as [|c0 cs]; [apply (at_pure (@UB vec))|].
  assert (D : at_ (if length c0 <=? 1 then fret [] else ts <~ query F (translations i) ;; pure (saf_sum (c0 :: cs) ts (vzero (length c0 * (length c0 - 1) / 2)))) i s
    (v <- (if length c0 <=? 1 then Ok [] else ts <- translations i (base s) ;; saf_sum (c0 :: cs) ts (vzero (length c0 * (length c0 - 1) / 2))) ;; Ok (v, i, s))).
  { destruct (length c0 <=? 1); [apply at_ret|]. eapply at_bind; [apply at_query|]. cbn beta. destruct (translations i (base s)) as [ts| | | |]; onward. apply at_pure. }
  eapply at_bind; [exact D|]. match goal with |- context [bind ?m _] => destruct m as [v| | | |] end; onward.
  eapply at_bind; [apply at_put|]. cbn beta iota. apply at_ret.
Qed.

Lemma at_saf0 i s : at_ (f_saf0 F) i s ('(z, i) <- iet_saf0 i (base s) ;; Ok (z, i, s)).
Proof.
  unfold f_saf0, iet_saf0. eapply at_bind; [apply at_saf|]. destruct (iet_saf i (base s)) as [[v i1]| | | |]; onward. apply at_ret.
Qed.

Lemma at_bosh i s : at_ (f_bosh_no_periodic F) i s ('(z, i) <- bosh_no_periodic i (base s) ;; Ok (z, i, s)).
Proof.
  unfold f_bosh_no_periodic, bosh_no_periodic. eapply at_bind; [apply at_saf0|]. destruct (iet_saf0 i (base s)) as [[z i1]| | | |]; onward.
  destruct z; [apply at_ret|]. eapply at_bind; [apply at_this|]. cbn beta iota. destruct (i_size i1 <=? 1); [apply at_ret|].
  eapply at_bind; [apply at_query|]. cbn beta. destruct (bosh_equations i1 (base s)) as [eqs| | | |]; onward.
  eapply at_bind; [apply at_pure|]. destruct (ras_equations eqs (vzero (length eqs))) as [r| | | |]; onward.
  eapply at_bind; [apply at_pure|]. destruct (nznn r) as [b| | | |]; onward. apply at_ret.
Qed.

Lemma at_saddle2 t b i s : at_ (f_bosh_no_saddle2 F t b) i s (z <- bosh_no_saddle2 i (base s) t b ;; Ok (z, i, s)).
Proof.
  unfold f_bosh_no_saddle2, bosh_no_saddle2. eapply at_bind; [apply at_this|]. cbn beta iota.
  eapply at_bind; [apply at_query|]. cbn beta. destruct (bosh_values i (base s) t b) as [v| | | |]; onward. destruct (vis0 v); [apply at_ret|].
  eapply at_bind; [apply at_query|]. cbn beta. destruct (bosh_equations i (base s)) as [eqs| | | |]; onward.
  eapply at_bind; [apply at_pure|]. destruct (ras_equations eqs v) as [r| | | |]; onward. apply at_ret.
Qed.

Lemma at_saddle i s : at_ (f_bosh_no_saddle F) i s (z <- bosh_no_saddle i (base s) ;; Ok (z, i, s)).
Proof.
  unfold f_bosh_no_saddle, bosh_no_saddle. eapply at_bind; [apply at_this|]. cbn beta iota. destruct (i_size i <=? 1); [apply at_ret|].
  generalize (list_prod (tl (rev (i_top i))) (tl (rev (i_bottom i)))). induction l as [|x l IH]; cbn [f_all all_false_exit]; [apply at_ret|].
  eapply at_bind; [apply at_saddle2|]. destruct (bosh_no_saddle2 i (base s) (fst x) (snd x)) as [b| | | |]; onward. destruct b; [exact IH|apply at_ret].
Qed.

Lemma at_reduce i s : at_ (f_reduce F) i s ('(r, i) <- reduce i (base s) ;; Ok (r, i, s)).
Proof.
  unfold f_reduce, reduce. eapply at_bind; [apply at_this|]. cbn beta iota. eapply at_bind; [apply at_pure|].
  destruct (red_loop (i_top i) (i_bottom i) [] 0 0) as [[t b]| | | |]; onward. cbn [fst snd]. destruct t as [|x t].
  - eapply at_eq; [apply at_pure|]. unfold assert_. destruct b; reflexivity.
  - eapply at_bind; [apply at_pure|]. unfold assert_. match goal with |- context [if ?c then _ else _] => destruct c end; onward.
    eapply at_bind; [apply at_put|]. cbn beta iota. eapply at_bind; [apply at_query|]. cbn beta. destruct (iet_make (base s) (x :: t) b) as [j| | | |]; onward. apply at_ret.
Qed.

Lemma at_similar k top i s : at_ (f_similar F k top) i s (r <- similar_lengths k (base s) top ;; Ok (r, i, s)).
Proof.
  induction top as [|a [|b top] IH]; [apply at_ret|apply at_ret|]. cbn [f_similar similar_lengths]. eapply at_bind; [apply at_query|]. cbn beta.
  destruct (sl_similar (tk_lengths k) a b (base s) a b) as [r| | | |]; onward. destruct r; [exact IH|apply at_ret].
Qed.

Lemma at_tracker i s : at_ (f_tracker F) i s ('(r, k) <- tracker_loop (i_trk i) i (base s) ;; Ok (r, set_trk i k, s)).
Proof.
  unfold f_tracker, tracker_loop. eapply at_bind; [apply at_this|]. cbn beta iota zeta. destruct (tk_ttl (i_trk i) =? 0)%N.
  - eapply at_bind; [apply at_put|]. cbn beta iota. eapply at_bind; [apply at_query|]. cbn beta. cbn [bind]. eapply at_bind; [apply at_put|]. cbn beta iota. apply at_ret.
  - eapply at_bind; [apply at_put|]. cbn beta iota. match goal with |- context [negb ?c] => destruct (negb c) end; [apply at_ret|].
    eapply at_bind; [apply at_pure|]. match goal with |- context [same_permutation ?x ?y ?z] => destruct (same_permutation x y z) as [p| | | |] end; onward.
    destruct p; [|apply at_ret]. eapply at_eq; [apply at_similar|]. match goal with |- context [similar_lengths ?x ?y ?z] => destruct (similar_lengths x y z) as [r| | | |] end; reflexivity.
Qed.

Lemma at_swap i s : at_ f_swap i s (Ok (tt, iet_swap i, s)).
Proof. unfold f_swap. eapply at_bind; [apply at_this|]. cbn beta iota. apply at_put. Qed.

Definition f_track (saf0 : bool) : prog T S bool :=
  if saf0 then v <~ f_saf F ;; if length v =? 0 then fret false else f_tracker F else fret false.
Definition r_track (saf0 : bool) (i : iet T) (s : slen T) : res (bool * iet T) :=
  if saf0 then '(v, i) <- iet_saf i s ;; if length v =? 0 then Ok (false, i) else '(r, k) <- tracker_loop (i_trk i) i s ;; Ok (r, set_trk i k) else Ok (false, i).

Lemma at_track saf0 i s : at_ (f_track saf0) i s ('(b, i) <- r_track saf0 i (base s) ;; Ok (b, i, s)).
Proof.
  unfold f_track, r_track. destruct saf0; [|apply at_ret]. eapply at_bind; [apply at_saf|]. destruct (iet_saf i (base s)) as [[v i1]| | | |]; onward.
  destruct (length v =? 0); [apply at_ret|]. eapply at_eq; [apply at_tracker|]. destruct (tracker_loop (i_trk i1) i1 (base s)) as [[r k]| | | |]; reflexivity.
Qed.

Lemma at_loop saf0 limit fuel : forall n i s, at_ (f_loop F fuel saf0 limit n) i s (induce_loop L fuel saf0 limit n i s).
Proof.
  induction fuel as [|fuel IH]; intros n i s; [apply (at_pure (@OutOfFuel (option bool)))|]. cbn [f_loop induce_loop].
  destruct (negb ((limit =? -1)%Z || (n <? limit)%Z)); [apply at_ret|]. eapply at_bind; [apply (at_track saf0)|].
  rewrite (fo_base F L HF). change (if saf0 then _ else _) with (r_track saf0 i (base s)). destruct (r_track saf0 i (base s)) as [[b i1]| | | |]; onward.
  destruct b; [apply at_ret|]. eapply at_bind; [apply at_zorich|]. destruct (zorich L i1 s) as [[[f i2] s2]| | | |]; onward.
  destruct f; [apply at_ret|]. eapply at_bind; [apply at_swap|]. cbn beta iota. eapply at_bind; [apply at_zorich|].
  destruct (zorich L (iet_swap i2) s2) as [[[f i3] s3]| | | |]; onward. eapply at_bind; [apply at_swap|]. cbn beta iota.
  destruct f; [apply at_ret|]. destruct (n =? INT_MAX)%Z; [apply (at_pure (@UB (option bool)))|]. apply IH.
Qed.

Lemma at_finish found i s : at_ (f_finish F found) i s (induce_finish L found i s).
Proof.
  unfold f_finish, induce_finish. eapply at_bind; [apply at_reduce|]. rewrite (fo_base F L HF).
  destruct (reduce i (base s)) as [[[r|] i1]| | | |]; onward; (eapply at_bind; [apply at_this|]; cbn beta iota).
  - destruct (rev (i_bottom i1)); [apply (at_pure (@UB (istep T)))|]. destruct (rev (i_top i1)); [apply (at_pure (@UB (istep T)))|]. apply at_ret.
  - destruct (i_top i1) as [|a X]; [apply (at_pure (@UB (istep T)))|]. destruct (i_bottom i1) as [|b Y]; [apply (at_pure (@UB (istep T)))|].
    eapply at_bind; [apply at_query|]. cbn beta. rewrite (fo_cmp2 F L HF). destruct (sl_cmp2 (base s) a b) as [c| | | |]; onward.
    assert (Go : at_ (_ <~ pure (assert_ (negb found) (Ok tt)) ;; z <~ f_bosh_no_periodic F ;;
        fret (T := T) (S := S) (A := istep T) (mkistep (if (z : bool) then WITHOUT_PERIODIC_TRAJECTORY_BOSHERNITZAN else LIMIT_REACHED) None None)) i1 s
      (assert_ (negb found) ('(z, i) <- bosh_no_periodic i1 (base s) ;; Ok (mkistep (if (z : bool) then WITHOUT_PERIODIC_TRAJECTORY_BOSHERNITZAN else LIMIT_REACHED) None None, i, s)))).
    { eapply at_bind; [apply at_pure|]. destruct found; onward. cbn [negb assert_ bind]. eapply at_bind; [apply at_bosh|].
      destruct (bosh_no_periodic i1 (base s)) as [[z i2]| | | |]; onward. apply at_ret. }
    destruct c; [|exact Go..]. eapply at_bind; [apply at_pure|]. destruct (merge_first i1) as [j| | | |]; onward.
    eapply at_bind; [apply at_put|]. cbn beta iota. apply at_ret.
Qed.

Lemma at_induce fuel limit i s : at_ (f_induce F fuel limit) i s (induce L fuel limit i s).
Proof.
  unfold f_induce, induce. eapply at_bind; [apply at_this|]. cbn beta iota. destruct (i_size i =? 1); [apply at_ret|].
  eapply at_bind.
  - instantiate (1 := if (limit =? 0)%Z then Ok (Some false, i, s) else '(z, i) <- iet_saf0 i (base s) ;; induce_loop L fuel z limit 0 i s).
    destruct (limit =? 0)%Z; [apply at_ret|]. eapply at_bind; [apply at_saf0|]. destruct (iet_saf0 i (base s)) as [[z i1]| | | |]; onward. apply at_loop.
  - rewrite (fo_base F L HF). match goal with |- match ?r with _ => _ end => destruct r as [[[[f|] i1] s1]| | | |] end; onward; [apply at_finish|apply at_ret].
Qed.

(** * Exceptions in code that only reads the lengths *)

Definition same_rows (i i' : iet T) : Prop := i_top i' = i_top i /\ i_bottom i' = i_bottom i /\ i_swap i' = i_swap i.

Lemma saf_raised k i s i' s' : f_saf F k i s = Raised i' s' -> i' = i /\ s' = s.
Proof.
  unfold f_saf. intro E. unfold fbind at 1, this in E. destruct (i_saf i); [discriminate|]. unfold fbind at 1, query at 1, member at 1 in E. destruct k as [|k]; [injection E as <- <-; auto|].
  destruct (iet_coefficients i (base s)) as [cs| | | |]; cbn [bind] in E; try discriminate; [|injection E as <- <-; auto]. destruct cs as [|c0 cs]; [discriminate|].
  cbv zeta in E. unfold fbind at 1 in E. destruct (length c0 <=? 1); [discriminate|]. unfold fbind at 1, query, member in E. destruct k as [|k]; [injection E as <- <-; auto|].
  destruct (translations i (base s)) as [ts| | | |]; cbn [bind] in E; try discriminate; [|injection E as <- <-; auto].
  unfold pure in E. destruct (saf_sum (c0 :: cs) ts (vzero (length c0 * (length c0 - 1) / 2))); try discriminate. injection E as <- <-. auto.
Qed.

Lemma saf_rows k i s v k' i' s' : f_saf F k i s = Did v k' i' s' -> same_rows i i' /\ s' = s.
Proof.
  intro E. pose proof (at_did _ _ _ _ _ _ _ _ _ (at_saf i s) E) as Q. unfold iet_saf in Q. destruct (i_saf i) as [w|]; cbn [bind] in Q; [injection Q as <- <- <-; repeat split|].
  destruct (saf_raw i (base s)); cbn [bind] in Q; try discriminate. injection Q as <- <- <-. repeat split.
Qed.

Lemma saf0_raised k i s i' s' : f_saf0 F k i s = Raised i' s' -> i' = i /\ s' = s.
Proof. unfold f_saf0, fbind. intro E. destruct (f_saf F k i s) eqn:Q; try discriminate. injection E as <- <-. exact (saf_raised _ _ _ _ _ Q). Qed.

Lemma bosh_raised k i s i' s' : f_bosh_no_periodic F k i s = Raised i' s' -> same_rows i i' /\ s' = s.
Proof.
  unfold f_bosh_no_periodic. unfold fbind at 1. destruct (f_saf0 F k i s) as [z k1 i1 s1|i1 s1|e] eqn:Q; intro E; [|injection E as <- <-; destruct (saf0_raised _ _ _ _ _ Q) as (-> & ->); repeat split|discriminate].
  assert (R : same_rows i i1 /\ s1 = s).
  { unfold f_saf0, fbind in Q. destruct (f_saf F k i s) eqn:Z; try discriminate. injection Q as _ _ <- <-. exact (saf_rows _ _ _ _ _ _ _ Z). }
  destruct z; [discriminate|]. unfold fbind at 1, this in E. destruct (i_size i1 <=? 1); [discriminate|]. unfold fbind at 1, query, member in E.
  destruct k1 as [|k1]; [injection E as <- <-; exact R|]. destruct (bosh_equations i1 (base s1)) as [eqs| | | |]; cbn [bind] in E; try discriminate; [|injection E as <- <-; exact R].
  unfold fbind at 1, pure at 1 in E. destruct (ras_equations eqs (vzero (length eqs))); try discriminate; [|injection E as <- <-; exact R].
  unfold fbind, pure in E. destruct (nznn a); try discriminate. injection E as <- <-; exact R.
Qed.

Lemma saddle2_raised t b k i s i' s' : f_bosh_no_saddle2 F t b k i s = Raised i' s' -> i' = i /\ s' = s.
Proof.
  unfold f_bosh_no_saddle2. intro E. unfold fbind at 1, this in E. unfold fbind at 1, query at 1, member at 1 in E. destruct k as [|k]; [injection E as <- <-; auto|].
  destruct (bosh_values i (base s) t b) as [v| | | |]; cbn [bind] in E; try discriminate; [|injection E as <- <-; auto]. destruct (vis0 v); [discriminate|].
  unfold fbind at 1, query, member in E. destruct k as [|k]; [injection E as <- <-; auto|]. destruct (bosh_equations i (base s)) as [eqs| | | |]; cbn [bind] in E; try discriminate; [|injection E as <- <-; auto].
  unfold fbind, pure in E. destruct (ras_equations eqs v); try discriminate. injection E as <- <-; auto.
Qed.

Lemma saddle_raised k i s i' s' : f_bosh_no_saddle F k i s = Raised i' s' -> i' = i /\ s' = s.
Proof.
  unfold f_bosh_no_saddle. intro E. unfold fbind at 1, this in E. destruct (i_size i <=? 1); [discriminate|]. revert k E.
  generalize (list_prod (tl (rev (i_top i))) (tl (rev (i_bottom i)))). induction l as [|x l IH]; intros k E; cbn [f_all] in E; [discriminate|].
  unfold fbind in E. destruct (f_bosh_no_saddle2 F (fst x) (snd x) k i s) as [b k1 i1 s1|i1 s1|e] eqn:Q; [|injection E as <- <-; exact (saddle2_raised _ _ _ _ _ _ _ Q)|discriminate].
  pose proof (at_did _ _ _ _ _ _ _ _ _ (at_saddle2 (fst x) (snd x) i s) Q) as D. destruct (bosh_no_saddle2 i (base s) (fst x) (snd x)); cbn [bind] in D; try discriminate. injection D as -> -> ->.
  destruct b; [exact (IH _ E)|discriminate].
Qed.

Lemma similar_raised t l : forall k i s i' s', f_similar F t l k i s = Raised i' s' -> i' = i /\ s' = s.
Proof.
  induction l as [|a [|b l] IH]; intros k i s i' s' E; [discriminate|discriminate|]. cbn [f_similar] in E. unfold fbind, query, member in E. destruct k as [|k]; [injection E as <- <-; auto|].
  destruct (sl_similar (tk_lengths t) a b (base s) a b) as [r| | | |]; cbn [bind] in E; try discriminate; [|injection E as <- <-; auto]. destruct r; [exact (IH _ _ _ _ _ E)|discriminate].
Qed.

Lemma tracker_raised k i s i' s' : f_tracker F k i s = Raised i' s' -> same_rows i i' /\ s' = s.
Proof.
  unfold f_tracker. intro E. unfold fbind at 1, this in E. cbv zeta in E. destruct (tk_ttl (i_trk i) =? 0)%N.
  - unfold fbind, put, query, member in E. destruct k as [|k]; [injection E as <- <-; repeat split|]. cbn [bind] in E. discriminate.
  - unfold fbind at 1, put at 1 in E. match type of E with context [negb ?c] => destruct (negb c) end; [discriminate|]. unfold fbind, pure in E.
    match type of E with context [same_permutation ?x ?y ?z] => destruct (same_permutation x y z) as [p| | | |] end; try discriminate; [|injection E as <- <-; repeat split].
    destruct p; [|discriminate]. destruct (similar_raised _ _ _ _ _ _ _ E) as (-> & ->). repeat split.
Qed.

Lemma track_raised z k i s i' s' : f_track z k i s = Raised i' s' -> same_rows i i' /\ s' = s.
Proof.
  unfold f_track. destruct z; [|discriminate]. unfold fbind. destruct (f_saf F k i s) as [v k1 i1 s1|i1 s1|e] eqn:Q; intro E; [|injection E as <- <-; destruct (saf_raised _ _ _ _ _ Q) as (-> & ->); repeat split|discriminate].
  destruct (saf_rows _ _ _ _ _ _ _ Q) as ((A & B & C) & ->). destruct (length v =? 0); [discriminate|]. destruct (tracker_raised _ _ _ _ _ E) as ((A' & B' & C') & ->). repeat split; congruence.
Qed.

End At.

Section FaultProof.
Context {T : Type} {O : LenOps T}.
Ltac onward := cbn [bind fail_of]; try reflexivity.

Lemma sample_fl_ok : fl_ok sample_flens sample_lens.
Proof.
  constructor; intros; cbn [sample_flens sample_lens fl_push fl_pop fl_subtract fl_subrep fl_base li_push li_pop li_subtract li_subrep li_cmp1 li_cmp2 li_base].
  - apply (at_member (fun s => Ok (tt, sl_push l s))).
  - eapply at_eq; [apply at_member|]. cbn beta. destruct (sl_pop s); reflexivity.
  - eapply at_eq; [apply at_member|]. cbn beta. destruct (sl_subtract l s); reflexivity.
  - apply at_member.
  - reflexivity.
  - reflexivity.
  - reflexivity.
Qed.
Lemma sat_saf i s : at_ (f_saf sample_flens) i s ('(v, i) <- iet_saf i s ;; Ok (v, i, s)).
Proof. exact (at_saf sample_flens i s). Qed.
Lemma sat_saf0 i s : at_ (f_saf0 sample_flens) i s ('(z, i) <- iet_saf0 i s ;; Ok (z, i, s)).
Proof. exact (at_saf0 sample_flens i s). Qed.
Lemma sat_bosh i s : at_ (f_bosh_no_periodic sample_flens) i s ('(z, i) <- bosh_no_periodic i s ;; Ok (z, i, s)).
Proof. exact (at_bosh sample_flens i s). Qed.
Lemma sat_saddle2 t b i s : at_ (f_bosh_no_saddle2 sample_flens t b) i s (z <- bosh_no_saddle2 i s t b ;; Ok (z, i, s)).
Proof. exact (at_saddle2 sample_flens t b i s). Qed.
Lemma sat_saddle i s : at_ (f_bosh_no_saddle sample_flens) i s (z <- bosh_no_saddle i s ;; Ok (z, i, s)).
Proof. exact (at_saddle sample_flens i s). Qed.
Lemma sat_reduce i s : at_ (f_reduce sample_flens) i s ('(r, i) <- reduce i s ;; Ok (r, i, s)).
Proof. exact (at_reduce sample_flens i s). Qed.
Lemma sat_track saf0 i s : at_ (f_track sample_flens saf0) i s ('(b, i) <- r_track saf0 i s ;; Ok (b, i, s)).
Proof. exact (at_track sample_flens saf0 i s). Qed.

Lemma at_call o i s : at_ (f_call o) i s ('(a, i, extra, s) <- call o i s ;; Ok ((a, extra), i, s)).
Proof.
  destruct o as [| | |fuel limit| | | |t b]; cbn [f_call call].
  - eapply at_bind; [apply at_swap|]. cbn beta iota. apply at_ret.
  - eapply at_bind; [apply (at_zorich _ _ sample_fl_ok)|]. destruct (zorich sample_lens i s) as [[[f i1] s1]| | | |]; onward. apply at_ret.
  - eapply at_bind; [apply (sat_reduce)|]. destruct (reduce i s) as [[[r|] i1]| | | |]; onward; apply at_ret.
  - eapply at_bind; [apply (at_induce _ _ sample_fl_ok)|]. destruct (induce sample_lens fuel limit i s) as [[[st i1] s1]| | | |]; onward. apply at_ret.
  - unfold f_saf_invariant, saf_invariant. eapply at_bind; [eapply at_bind; [apply (sat_saf)|]; instantiate (1 := '(v, i) <- saf_invariant i s ;; Ok (v, i, s)); unfold saf_invariant|unfold saf_invariant].
    + destruct (iet_saf i s) as [[v i1]| | | |]; onward. eapply at_bind; [apply at_this|]. cbn beta iota. apply at_ret.
    + destruct (iet_saf i s) as [[v i1]| | | |]; onward. apply at_ret.
  - eapply at_bind; [apply (sat_bosh)|]. destruct (bosh_no_periodic i s) as [[v i1]| | | |]; onward. apply at_ret.
  - eapply at_bind; [apply (sat_saddle)|]. destruct (bosh_no_saddle i s) as [v| | | |]; onward. apply at_ret.
  - eapply at_bind; [apply (sat_saddle2)|]. destruct (bosh_no_saddle2 i s t b) as [v| | | |]; onward. apply at_ret.
Qed.

(** * What an exception leaves behind *)
Context {W : LenLaws T}.


Definition left_behind (i0 : iet T) (s0 : slen T) (i : iet T) (s : slen T) : Prop :=
  (exists p q, i_bottom i = p ++ q /\ sl_stack s = p) /\
  (forall l, ~ In l (i_top i0) -> lamR s l = lamR s0 l) /\
  valid_input s (i_top i) (i_bottom i) /\
  exists e, rauzy_path (exch_of i0 s0) e /\
    if Bool.eqb (i_swap i) (i_swap i0) then exch_of i s = e \/ exists n, invariant_prefix e n /\ exch_of i s = left_of e n else exch_of i s = flip e.

Lemma wf_valid i s : wf i s -> valid_input s (i_top i) (i_bottom i).
Proof. intros (A & B & C & D & _). split; [exact A|]. split; [exact B|]. split; [exact C|]. exact D. Qed.

Lemma reach_frame i0 s0 i s l : reach i0 s0 i s -> ~ In l (i_top i0) -> lamR s l = lamR s0 l.
Proof. intros R N. unfold lamR. rewrite (r_frame _ _ _ _ R l N). reflexivity. Qed.

Lemma lb_here i0 s0 i s i' : reach i0 s0 i s -> same_rows i i' -> left_behind i0 s0 i' s.
Proof.
  intros R (A & B & C). pose proof (r_wf _ _ _ _ R) as H. split; [exists [], (i_bottom i'); split; [reflexivity|]; apply H|].
  split; [intros l; apply (reach_frame i0 s0 i s l R)|]. rewrite A, B, C. split; [apply wf_valid, H|].
  exists (exch_of i s). split; [apply R|]. rewrite (r_swap _ _ _ _ R), Bool.eqb_reflx. left. unfold exch_of. rewrite A, B. reflexivity.
Qed.

Lemma lb_stack i0 s0 i s p q : reach i0 s0 i s -> i_bottom i = p ++ q -> left_behind i0 s0 i (mkslen p (sl_lens s)).
Proof.
  intros R E. destruct (lb_here i0 s0 i s i R ltac:(repeat split)) as (_ & B & C & D). split; [exists p, q; auto|]. split; [exact B|]. split; [exact C|exact D].
Qed.

Lemma lb_swapped i0 s0 i s p q : reach i0 s0 i s -> i_top i = p ++ q -> left_behind i0 s0 (iet_swap i) (mkslen p (sl_lens s)).
Proof.
  intros R E. pose proof (r_wf _ _ _ _ R) as H. split; [exists p, q; split; [exact E|reflexivity]|].
  split; [intros l N; exact (reach_frame i0 s0 i s l R N)|]. split; [apply (wf_valid (iet_swap i) s), swap_wf, H|].
  exists (exch_of i s). split; [apply R|]. cbn [iet_swap i_swap]. rewrite (r_swap _ _ _ _ R). destruct (i_swap i0); reflexivity.
Qed.

Lemma zloop_raised a rest : forall rpre k i s i' s', sl_stack s = rev rpre -> f_zloop sample_flens a rpre rest k i s = Raised i' s' ->
  i' = i /\ exists p q, rest = p ++ q /\ s' = mkslen (rev rpre ++ p) (sl_lens s).
Proof.
  induction rest as [|b rest IH]; intros rpre k i s i' s' St E; cbn [f_zloop sample_flens fl_push fl_pop fl_subtract fl_subrep] in E; [discriminate|].
  assert (Same : exists p q : list label, b :: rest = p ++ q /\ s = mkslen (rev rpre ++ p) (sl_lens s)).
  { exists [], (b :: rest). split; [reflexivity|]. rewrite app_nil_r, <- St. destruct s; reflexivity. }
  assert (More : exists p q : list label, b :: rest = p ++ q /\ sl_push b s = mkslen (rev rpre ++ p) (sl_lens s)).
  { exists [b], rest. split; [reflexivity|]. unfold sl_push. rewrite St. reflexivity. }
  destruct (Nat.eqb b a).
  - unfold fbind, member in E. destruct k as [|k]; [injection E as <- <-; auto|]. destruct (sl_subrep a s) as [[stop s1]| | | |]; try discriminate; [|injection E as <- <-; auto].
    destruct (Nat.eqb a stop); [discriminate|]. destruct (back_to stop rpre); discriminate.
  - unfold fbind at 1, member at 1 in E. destruct k as [|k]; [injection E as <- <-; auto|]. unfold fbind at 1, query, member at 1 in E. cbn [sample_flens fl_base] in E.
    destruct k as [|k]; [injection E as <- <-; auto|]. destruct (sl_cmp1 (sl_push b s) a) as [c| | | |] eqn:Ec; cbn [bind] in E; try discriminate; [|injection E as <- <-; auto].
    assert (Go : forall k, (_ <~ fl_pop sample_flens ;; _ <~ fl_subtract sample_flens a ;; fret rpre) k i (sl_push b s) = Raised i' s' ->
      i' = i /\ exists p q, b :: rest = p ++ q /\ s' = mkslen (rev rpre ++ p) (sl_lens s)).
    { clear - More Same. intros k E. cbn [sample_flens fl_pop fl_subtract] in E. unfold fbind at 1, member at 1 in E. destruct k as [|k]; [injection E as <- <-; auto|].
      assert (Ep : sl_pop (sl_push b s) = Ok s).
      { unfold sl_pop, sl_push. cbn [sl_stack sl_lens]. destruct (sl_stack s ++ [b]) eqn:Z; [destruct (sl_stack s); discriminate|]. rewrite <- Z, removelast_last. destruct s; reflexivity. }
      rewrite Ep in E. cbn [bind] in E. unfold fbind, member in E. destruct k as [|k]; [injection E as <- <-; auto|].
      destruct (sl_subtract a s) as [s1| | | |]; cbn [bind] in E; try discriminate. injection E as <- <-. auto. }
    destruct c; [exact (Go _ E)| |exact (Go _ E)].
    destruct (IH (b :: rpre) k i (sl_push b s) i' s') as (-> & p & q & Ep & ->); [cbn; rewrite St; reflexivity|exact E|].
    split; [reflexivity|]. exists (b :: p), q. split; [cbn; rewrite <- Ep; reflexivity|]. cbn [rev sl_push sl_lens]. rewrite <- app_assoc. reflexivity.
Qed.

Lemma zorich_raised k i s i' s' : wf i s -> f_zorich sample_flens k i s = Raised i' s' ->
  (i' = i /\ exists p q, i_bottom i = p ++ q /\ s' = mkslen p (sl_lens s)) \/ exists f, zorich sample_lens i s = Ok (f, i', s').
Proof.
  intros H E. destruct (zorich_ok i s H) as (f & bt & t & Ez & _). destruct H as (_ & _ & _ & _ & St). unfold f_zorich, zorich in *. unfold fbind at 1, this in E.
  destruct (i_top i) as [|a X] eqn:Et; [discriminate|]. destruct (i_bottom i) as [|b Y] eqn:Eb; [discriminate|]. destruct (Nat.eqb a b); [discriminate|].
  unfold fbind at 1 in E. destruct (f_zloop sample_flens a [] (b :: Y) k i s) as [r k1 i1 s1|i1 s1|e] eqn:El; [|injection E as <- <-; left; exact (zloop_raised a (b :: Y) [] k i s i1 s1 St El)|discriminate].
  pose proof (at_did _ _ _ _ _ _ _ _ _ (at_zloop _ _ sample_fl_ok a (b :: Y) [] i s) El) as El'.
  destruct (zloop sample_lens (i_view i) a [] (b :: Y) s) as [[r' s1']| | | |]; cbn [bind] in El'; try discriminate. injection El' as -> -> ->.
  cbn [bind] in Ez |- *. unfold fbind at 1, pure at 1 in E. destruct (splice a (b :: Y) (length r)) as [bot| | | |]; cbn [bind] in Ez |- *; try discriminate.
  destruct bot as [|b' bot]; [discriminate|]. unfold fbind, put, query, member in E. cbn [sample_flens fl_base] in E. cbn [sample_lens li_cmp2] in Ez |- *.
  destruct (sl_cmp2 s1 a b') as [c| | | |]; cbn [bind] in Ez, E |- *; try discriminate. destruct k1 as [|k1]; [|discriminate]. injection E as <- <-. right. eauto.
Qed.







Lemma reduce_raised k i s i' s' : wf i s -> f_reduce sample_flens k i s = Raised i' s' -> s' = s /\ (i' = i \/ exists n, invariant_prefix (exch_of i s) n /\ i' = left_part i n).
Proof.
  intros H E. pose proof (reduce_ok i s H) as Q. unfold f_reduce, reduce in *. unfold fbind at 1, this in E. unfold fbind at 1, pure at 1 in E.
  destruct (red_loop (i_top i) (i_bottom i) [] 0 0) as [[t b]| | | |]; cbn [bind] in Q; try discriminate; [|injection E as <- <-; auto]. cbn [fst snd] in E.
  destruct t as [|x t]; [unfold pure, assert_ in E; destruct b; discriminate|]. unfold fbind at 1, pure at 1, assert_ at 1 in E. unfold assert_ in Q.
  match type of E with context [if ?c then _ else _] => destruct c end; [|discriminate]. cbn beta iota in E. unfold fbind, put, query, member in E. cbn [sample_flens fl_base] in E.
  assert (L : exists n, invariant_prefix (exch_of i s) n /\ set_saf (set_labels i (firstn (length (i_top i) - length (x :: t)) (i_top i)) (firstn (length (i_bottom i) - length b) (i_bottom i))) None = left_part i n).
  { destruct (iet_make s (x :: t) b); cbn [bind] in Q; destruct Q as [(n & Hn & _ & Q)|(_ & Q)]; try discriminate; exists n; split; [exact Hn|exact (f_equal (fun r => match r with Ok (_, y) => y | _ => i end) Q)]. }
  destruct k as [|k]; [injection E as <- <-; auto|]. destruct (iet_make s (x :: t) b); cbn [bind] in E; try discriminate. injection E as <- <-; auto.
Qed.




Lemma reach_rows i0 s0 i s i' : reach i0 s0 i s -> same_rows i i' -> cache_ok i' s -> reach i0 s0 i' s.
Proof.
  intros R (A & B & C) K. constructor.
  - pose proof (r_wf _ _ _ _ R) as H. unfold wf in *. rewrite A, B. exact H.
  - exact K.
  - unfold exch_of at 2. rewrite A, B. apply R.
  - rewrite C. apply R.
  - apply R.
  - apply R.
Qed.

Lemma zorich_lb k i0 s0 i s i' s' : wf i0 s0 -> reach i0 s0 i s -> f_zorich sample_flens k i s = Raised i' s' -> left_behind i0 s0 i' s'.
Proof.
  intros H0 R E. pose proof (r_wf _ _ _ _ R) as H. destruct (zorich_raised k i s i' s' H E) as [(-> & p & q & Eb & ->)|(f & Ez)]; [exact (lb_stack i0 s0 i s p q R Eb)|].
  destruct (zorich_reach i s H (r_cache _ _ _ _ R)) as (f' & b & t & Ez' & R' & _). rewrite Ez in Ez'. injection Ez' as -> -> ->.
  exact (lb_here i0 s0 _ _ _ (reach_trans _ _ _ _ _ _ H0 R R') ltac:(repeat split)).
Qed.

Lemma swapped_lb k i0 s0 i s i' s' : wf i0 s0 -> reach i0 s0 i s -> f_zorich sample_flens k (iet_swap i) s = Raised i' s' -> left_behind i0 s0 i' s'.
Proof.
  intros H0 R E. pose proof (r_wf _ _ _ _ R) as H. destruct (zorich_raised k (iet_swap i) s i' s' (swap_wf _ _ H) E) as [(-> & p & q & Eb & ->)|(f & Ez)]; [exact (lb_swapped i0 s0 i s p q R Eb)|].
  destruct (zorich_reach (iet_swap i) s (swap_wf _ _ H) (swap_cache _ _ H (r_cache _ _ _ _ R))) as (f' & b & t & Ez' & R' & _). rewrite Ez in Ez'. injection Ez' as -> -> ->.
  pose proof (lb_swapped i0 s0 _ _ [] _ (reach_trans _ _ _ _ _ _ H0 R (swap_reach _ _ _ _ H R')) eq_refl) as Q.
  replace (mkslen [] (sl_lens t)) with t in Q; [|pose proof (r_wf _ _ _ _ R') as (_ & _ & _ & _ & St); destruct t; cbn in *; congruence].
  replace (iet_swap (iet_swap (set_bottom (iet_swap i) b))) with (set_bottom (iet_swap i) b) in Q; [exact Q|]. unfold iet_swap, set_bottom. cbn. rewrite negb_involutive. reflexivity.
Qed.

Lemma loop_lb z limit i0 s0 fuel : wf i0 s0 -> forall n k i s i' s', reach i0 s0 i s -> trk_ok True i s -> f_loop sample_flens fuel z limit n k i s = Raised i' s' -> left_behind i0 s0 i' s'.
Proof.
  intro H0. induction fuel as [|fuel IH]; intros n k i s i' s' R K E; [discriminate|]. cbn [f_loop] in E. destruct (negb ((limit =? -1)%Z || (n <? limit)%Z)); [discriminate|].
  change (if z then _ else _) with (f_track sample_flens z) in E. unfold fbind at 1 in E.
  destruct (f_track sample_flens z k i s) as [b k1 i1 s1|i1 s1|e] eqn:Q; [|injection E as <- <-; destruct (track_raised sample_flens _ _ _ _ _ _ Q) as (A & ->); exact (lb_here i0 s0 i s i1 R A)|discriminate].
  pose proof (at_did _ _ _ _ _ _ _ _ _ (sat_track z i s) Q) as D.
  pose proof (r_wf _ _ _ _ R) as H. pose proof (r_cache _ _ _ _ R) as C.
  destruct (tracking_ok z i s (conj H (conj C K))) as (b' & j & Ej & Rj & _ & _ & Kj & _). change (r_track z i s = Ok (b', j)) in Ej. rewrite Ej in D. cbn [bind] in D. injection D as -> -> ->.
  destruct b; [discriminate|]. pose proof (reach_trans _ _ _ _ _ _ H0 R Rj) as R1. pose proof (r_wf _ _ _ _ R1) as H1.
  unfold fbind at 1 in E. destruct (f_zorich sample_flens k1 i1 s1) as [f k2 i2 s2|i2 s2|e] eqn:Q2; [|injection E as <- <-; exact (zorich_lb _ _ _ _ _ _ _ H0 R1 Q2)|discriminate].
  pose proof (at_did _ _ _ _ _ _ _ _ _ (at_zorich _ _ sample_fl_ok i1 s1) Q2) as D2.
  destruct (zorich_reach i1 s1 H1 (r_cache _ _ _ _ R1)) as (f' & b & t & Ez & R2 & _). rewrite D2 in Ez. injection Ez as <- -> <-.
  destruct f; [discriminate|]. pose proof (reach_trans _ _ _ _ _ _ H0 R1 R2) as R2'. pose proof (r_wf _ _ _ _ R2') as H2.
  unfold fbind at 1, f_swap at 1, fbind at 1, this, put in E. unfold fbind at 1 in E.
  destruct (f_zorich sample_flens k2 (iet_swap (set_bottom i1 b)) s2) as [f k3 i3 s3|i3 s3|e] eqn:Q3; [|injection E as <- <-; exact (swapped_lb _ _ _ _ _ _ _ H0 R2' Q3)|discriminate].
  pose proof (at_did _ _ _ _ _ _ _ _ _ (at_zorich _ _ sample_fl_ok (iet_swap (set_bottom i1 b)) s2) Q3) as D3.
  unfold fbind at 1, f_swap, fbind at 1, this, put in E. destruct f; [discriminate|]. destruct (n =? INT_MAX)%Z; [discriminate|].
  destruct (iteration_ok i1 s1 H1 (r_cache _ _ _ _ R1)) as (f & i4 & s4 & E4 & R4 & Et & _ & _ & Hdec). unfold iteration in E4. rewrite D2 in E4. cbn [bind] in E4. rewrite D3 in E4. cbn [bind] in E4. injection E4 as <- <- <-.
  refine (IH _ _ _ _ _ _ (reach_trans _ _ _ _ _ _ H0 R1 R4) _ E).
  exact (trk_extend False True i1 _ _ _ H1 Kj R4 Et ltac:(intros _; right; apply Hdec; reflexivity)).
Qed.

Lemma reduce_lb k i0 s0 i s i' s' : reach i0 s0 i s -> f_reduce sample_flens k i s = Raised i' s' -> left_behind i0 s0 i' s'.
Proof.
  intros R E. pose proof (r_wf _ _ _ _ R) as H. destruct (reduce_raised k i s i' s' H E) as (-> & [->|(n & Hn & ->)]); [exact (lb_here i0 s0 i s i R ltac:(repeat split))|].
  destruct (wf_cut i s n H Hn) as (H1 & _). split; [exists [], (i_bottom (left_part i n)); split; [reflexivity|]; apply H|]. split; [intros l; apply (reach_frame i0 s0 i s l R)|].
  split; [apply wf_valid, H1|]. exists (exch_of i s). split; [apply R|]. cbn [left_part set_saf set_labels i_swap]. rewrite (r_swap _ _ _ _ R), Bool.eqb_reflx. right. exists n. split; [exact Hn|reflexivity].
Qed.

Lemma finish_lb found k i0 s0 i s i' s' : reach i0 s0 i s -> f_finish sample_flens found k i s = Raised i' s' -> left_behind i0 s0 i' s'.
Proof.
  intros R E. pose proof (r_wf _ _ _ _ R) as H. unfold f_finish in E. unfold fbind at 1 in E.
  destruct (f_reduce sample_flens k i s) as [r k1 i1 s1|i1 s1|e] eqn:Q; [|injection E as <- <-; exact (reduce_lb _ _ _ _ _ _ _ R Q)|discriminate].
  pose proof (at_did _ _ _ _ _ _ _ _ _ (sat_reduce i s) Q) as D. unfold fbind at 1, this in E. destruct r as [r|]; [destruct (rev (i_bottom i1)), (rev (i_top i1)); discriminate|].
  destruct (reduce_ok i s H) as [(n & _ & _ & Er)|(_ & Er)]; rewrite Er in D; cbn [bind] in D; [discriminate|]. injection D as <- <-.
  assert (Here : left_behind i0 s0 i s) by (exact (lb_here i0 s0 i s i R ltac:(repeat split))).
  destruct (i_top i) as [|a X]; [discriminate|]. destruct (i_bottom i) as [|b Y]; [discriminate|]. unfold fbind at 1, query at 1, member at 1 in E. cbn [sample_flens fl_base] in E. destruct k1 as [|k1]; [injection E as <- <-; exact Here|].
  destruct (sl_cmp2 s a b) as [c| | | |]; cbn [bind] in E; try discriminate; [|injection E as <- <-; exact Here].
  assert (Go : (_ <~ pure (assert_ (negb found) (Ok tt)) ;; z <~ f_bosh_no_periodic sample_flens ;;
        fret (T := T) (S := slen T) (A := istep T) (mkistep (if (z : bool) then WITHOUT_PERIODIC_TRAJECTORY_BOSHERNITZAN else LIMIT_REACHED) None None)) k1 i s = Raised i' s' -> left_behind i0 s0 i' s').
  { clear E. intro E. unfold fbind at 1, pure in E. destruct found; cbn [negb assert_] in E; [discriminate|]. unfold fbind in E.
    destruct (f_bosh_no_periodic sample_flens k1 i s) as [z k2 i2 s2|i2 s2|e] eqn:Q2; try discriminate. injection E as <- <-. destruct (bosh_raised sample_flens _ _ _ _ _ Q2) as (A & ->). exact (lb_here i0 s0 i s i2 R A). }
  destruct c; [|exact (Go E)..]. unfold fbind, pure, put in E. destruct (merge_first i); try discriminate. injection E as <- <-. exact Here.
Qed.

Lemma induce_lb fuel limit k i s i' s' : (limit <= INT_MAX)%Z -> good i s -> f_induce sample_flens fuel limit k i s = Raised i' s' -> left_behind i s i' s'.
Proof.
  intros HL (H & C & K) E. unfold f_induce in E. unfold fbind at 1, this in E. destruct (Nat.eqb_spec (i_size i) 1) as [N|N]; [discriminate|].
  pose proof (reach_refl i s H C) as R. unfold fbind at 1 in E. destruct (limit =? 0)%Z; [exact (finish_lb false k i s i s i' s' R E)|]. unfold fbind at 1 in E.
  destruct (f_saf0 sample_flens k i s) as [z k1 i1 s1|i1 s1|e] eqn:Q; [|injection E as <- <-; destruct (saf0_raised sample_flens _ _ _ _ _ Q) as (-> & ->); exact (lb_here i s i s i R ltac:(repeat split))|discriminate].
  pose proof (at_did _ _ _ _ _ _ _ _ _ (sat_saf0 i s) Q) as D. destruct (iet_saf0_ok i s H C) as (v & Ev & C' & _). rewrite Ev in D. cbn [bind] in D. injection D as <- <- <-.
  pose proof (reach_rows i s i s (set_saf i (Some v)) R ltac:(repeat split) C') as R1.
  destruct (f_loop sample_flens fuel (vis0 (saf_now i s)) limit 0 k1 (set_saf i (Some v)) s) as [f k2 i2 s2|i2 s2|e] eqn:Q2; [|injection E as <- <-; exact (loop_lb _ _ i s fuel H _ _ _ _ _ _ R1 K Q2)|discriminate].
  destruct f as [found|]; [|discriminate]. pose proof (at_did _ _ _ _ _ _ _ _ _ (at_loop _ _ sample_fl_ok (vis0 (saf_now i s)) limit fuel 0 (set_saf i (Some v)) s) Q2) as D2.
  destruct (loop_ok (vis0 (saf_now i s)) limit HL fuel 0%Z _ s (conj (r_wf _ _ _ _ R1) (conj C' K))) as [[G1 _]|[[G1 _]|(f & i3 & s3 & G1 & R3 & _)]]; rewrite D2 in G1; try discriminate. injection G1 as <- <- <-.
  exact (finish_lb found k2 i s i2 s2 i' s' (reach_trans _ _ _ _ _ _ H R1 R3) E).
Qed.

Lemma call_lb o k i s i' s' : op_legal o -> good i s -> f_call o k i s = Raised i' s' -> left_behind i s i' s'.
Proof.
  intros Ho G E. pose proof G as (H & C & K). pose proof (reach_refl i s H C) as R.
  assert (Here : forall j, same_rows i j -> left_behind i s j s) by (intros j Hj; exact (lb_here i s i s j R Hj)).
  assert (Self : left_behind i s i s) by (apply Here; repeat split).
  destruct o as [| | |fuel limit| | | |t b]; cbn [f_call] in E; unfold fbind at 1 in E.
  - discriminate.
  - destruct (f_zorich sample_flens k i s) eqn:Q; try discriminate. injection E as <- <-. exact (zorich_lb _ _ _ _ _ _ _ H R Q).
  - destruct (f_reduce sample_flens k i s) eqn:Q; try discriminate. injection E as <- <-. exact (reduce_lb _ _ _ _ _ _ _ R Q).
  - destruct (f_induce sample_flens fuel limit k i s) eqn:Q; try discriminate. injection E as <- <-. exact (induce_lb _ _ _ _ _ _ _ (proj2 Ho) G Q).
  - unfold f_saf_invariant in E. unfold fbind at 1 in E. destruct (f_saf sample_flens k i s) eqn:Q; try discriminate. injection E as <- <-. destruct (saf_raised sample_flens _ _ _ _ _ Q) as (-> & ->). exact Self.
  - destruct (f_bosh_no_periodic sample_flens k i s) eqn:Q; try discriminate. injection E as <- <-. destruct (bosh_raised sample_flens _ _ _ _ _ Q) as (A & ->). exact (Here _ A).
  - destruct (f_bosh_no_saddle sample_flens k i s) eqn:Q; try discriminate. injection E as <- <-. destruct (saddle_raised sample_flens _ _ _ _ _ Q) as (-> & ->). exact Self.
  - destruct (f_bosh_no_saddle2 sample_flens t b k i s) eqn:Q; try discriminate. injection E as <- <-. destruct (saddle2_raised sample_flens _ _ _ _ _ _ _ Q) as (-> & ->). exact Self.
Qed.

End FaultProof.
