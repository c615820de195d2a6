(** Proofs about [FaultDec]. *)
From Coq Require Import Reals Permutation Lia Lra.
From Verif Require Import Base QcTac LenT FM Subspace Lengths IET Spec Api RatioApi Decomp Fault FaultDec.
From Verif Require Import ZorichProof ReduceProof Saf InduceProof FaultProof.
Open Scope nat_scope.

Section FaultDecProof.
Context {T : Type} {O : LenOps T}.

Ltac onward := cbn [bind fail_of]; try reflexivity.

Lemma dec_fl_ok c : fl_ok (dec_flens c) (dec_lens c).
Proof.
  constructor; intros; cbn [dec_flens dec_lens fl_push fl_pop fl_subtract fl_subrep fl_base li_push li_pop li_subtract li_subrep li_cmp1 li_cmp2 li_base].
  - unfold fd_push, lwc_push. eapply at_bind; [apply at_change|]. unfold assert_. destruct (negb (memb l (d_stack s))); onward. eapply at_eq; [apply at_member|]. reflexivity.
  - unfold fd_pop, lwc_pop. eapply at_bind; [apply at_change|]. unfold assert_. destruct (negb (length (d_stack s) =? 0)); onward.
    eapply at_eq; [apply at_member|]. cbn beta. cbn [set_lens d_len d_stack]. destruct (sl_pop (d_len s)); reflexivity.
  - unfold fd_subtract, lwc_subtract. eapply at_bind; [apply at_state|]. cbn beta iota. destruct (d_stack s) as [|sub st] eqn:Es; [apply at_ret|].
    eapply at_bind; [apply at_member|]. cbn beta. destruct (sl_subtract l (d_len s)) as [s1| | | |]; onward. rewrite Es.
    eapply at_bind; [eapply at_bind; [apply at_this|]; cbn beta iota; apply at_change|].
    destruct (lwc_subtract2 c (i_view i) l sub (set_lens s s1 (sub :: st))) as [d1| | | |]; onward. apply (at_change (fun d => Ok (set_lens d (d_len d) []))).
  - unfold fd_subrep, lwc_subrep. eapply at_bind; [apply at_state|]. cbn beta iota. destruct (d_stack s) as [|sub st] eqn:Es; [apply (at_pure (@AssertFail label))|].
    eapply at_bind; [apply at_member|]. cbn beta. destruct (sl_subrep l (d_len s)) as [[r s1]| | | |]; onward. rewrite Es.
    eapply at_bind; [eapply at_bind; [apply at_this|]; cbn beta iota; apply at_change|].
    destruct (lwc_subtract2 c (i_view i) l sub (set_lens s s1 (sub :: st))) as [d1| | | |]; onward.
    eapply at_bind; [apply at_change|]. cbn beta iota. cbn [bind]. apply at_ret.
  - reflexivity.
  - reflexivity.
  - reflexivity.
Qed.

(** * Calls on decompositions *)

Definition dagrees {A} (o : dout T A) (k : nat) (r : res (A * decomp T)) : Prop :=
  match r with
  | Ok (a, d) => o = D_did a k d
  | Throw => exists d, o = D_raised d
  | AssertFail => o = D_fails F_assert
  | UB => o = D_fails F_undefined
  | OutOfFuel => o = D_fails F_fuel
  end.

Definition dat {A} (m : dprog T A) (d : decomp T) (r : res (A * decomp T)) : Prop :=
  exists n, forall k, (k < n -> exists d', m k d = D_raised d') /\ (n <= k -> dagrees (m k d) (k - n) r).

Lemma dat_bind {A B} (m : dprog T A) (f : A -> dprog T B) d r1 (r : res (B * decomp T)) : dat m d r1 ->
  match r1 with Ok (a, d1) => dat (f a) d1 r | e => r = fail_of e end -> dat (dbind m f) d r.
Proof.
  intros (n1 & H1) H2. destruct r1 as [[a d1]| | | |]; [|subst r; exists n1; intro k; destruct (H1 k) as (L & G); split; intro K; unfold dbind..].
  1:{ destruct H2 as (n2 & H2). exists (n1 + n2). intro k. unfold dbind. destruct (H1 k) as (L & G). split; intro K.
      - destruct (lt_dec k n1) as [D|D]; [destruct (L D) as (d' & E); rewrite E; eauto|].
        rewrite (G ltac:(lia)). apply (H2 (k - n1)). lia.
      - rewrite (G ltac:(lia)). replace (k - (n1 + n2)) with (k - n1 - n2) by lia. apply H2. lia. }
  all: try (destruct (L K) as (d' & E); rewrite E; eauto; fail).
  - destruct (G K) as (d' & E). rewrite E. cbn. eauto.
  - cbn in G. rewrite (G K). reflexivity.
  - cbn in G. rewrite (G K). reflexivity.
  - cbn in G. rewrite (G K). reflexivity.
Qed.

Lemma dat_ret {A} (a : A) d : dat (dret a) d (Ok (a, d)).
Proof. exists 0. intro k. split; [lia|]. intros _. rewrite Nat.sub_0_r. reflexivity. Qed.

Lemma dat_pure {A} (f : decomp T -> res (A * decomp T)) d : dat (dpure f) d (f d).
Proof. exists 0. intro k. split; [lia|]. intros _. rewrite Nat.sub_0_r. unfold dpure. destruct (f d) as [[a e]| | | |]; cbn; eauto. Qed.

Lemma dat_eq {A} (m : dprog T A) d r r' : dat m d r -> r = r' -> dat m d r'.
Proof. intros H <-. exact H. Qed.

Lemma dat_did {A} (m : dprog T A) d r k a k' d' : dat m d r -> m k d = D_did a k' d' -> r = Ok (a, d').
Proof.
  intros (n & H) E. destruct (H k) as (L & G). destruct (le_lt_dec n k) as [K|K]; [|destruct (L K) as (x & Z); congruence].
  specialize (G K). destruct r as [[b j]| | | |]; cbn in G; [congruence| |congruence..]. destruct G as (x & Z). congruence.
Qed.

(** The methods of the IET do not touch the components. *)
Definition keeps {A} (m : prog T (decomp T) A) : Prop := forall k i d,
  match m k i d with Did _ _ _ d' => d_comps d' = d_comps d | Raised _ d' => d_comps d' = d_comps d | Fails _ => True end.

Lemma keeps_bind {A B} (m : prog T (decomp T) A) (f : A -> prog T (decomp T) B) : keeps m -> (forall a, keeps (f a)) -> keeps (fbind m f).
Proof.
  intros Hm Hf k i d. unfold fbind. specialize (Hm k i d). destruct (m k i d) as [a k1 i1 d1|i1 d1|e]; auto. specialize (Hf a k1 i1 d1).
  destruct (f a k1 i1 d1); congruence.
Qed.
Lemma keeps_ret {A} (a : A) : keeps (fret a).
Proof. intros k i d. reflexivity. Qed.
Lemma keeps_this : keeps this.
Proof. intros k i d. reflexivity. Qed.
Lemma keeps_state : keeps state.
Proof. intros k i d. reflexivity. Qed.
Lemma keeps_put j : keeps (put j).
Proof. intros k i d. reflexivity. Qed.
Lemma keeps_pure {A} (r : res A) : keeps (pure r).
Proof. intros k i d. unfold pure. destruct r; reflexivity || exact I. Qed.
Lemma keeps_change f : (forall d d', f d = Ok d' -> d_comps d' = d_comps d) -> keeps (change f).
Proof. intros H k i d. unfold change. destruct (f d) eqn:E; try reflexivity; try exact I. exact (H _ _ E). Qed.
Lemma keeps_member {A} (f : decomp T -> res (A * decomp T)) : (forall d a d', f d = Ok (a, d') -> d_comps d' = d_comps d) -> keeps (member f).
Proof. intros H k i d. unfold member. destruct k; [reflexivity|]. destruct (f d) as [[a d']| | | |] eqn:E; try reflexivity; try exact I. exact (H _ _ _ E). Qed.
Lemma keeps_query c {A} (f : slen T -> res A) : keeps (query (dec_flens c) f).
Proof. apply keeps_member. intros d a d' E. destruct (f (fl_base (dec_flens c) d)); cbn [bind] in E; try discriminate. injection E as _ <-. reflexivity. Qed.

Ltac keeps_step := intros; cbv zeta; first
  [ apply keeps_bind | apply keeps_ret | apply keeps_this | apply keeps_state | apply keeps_put | apply keeps_pure | apply keeps_query
  | match goal with |- keeps (match ?x with _ => _ end) => destruct x end ].

Lemma keeps_subtract2 c m sub : keeps (fd_subtract2 c m sub).
Proof.
  apply keeps_bind; [apply keeps_this|]. intro i. apply keeps_change. intros d d' E. unfold lwc_subtract2 in E.
  destruct (conns_at d sub); cbn [bind] in E; try discriminate. destruct (conns_at d m); cbn [bind] in E; try discriminate.
  destruct (conn_subtract _ m sub (d_conns d)); cbn [bind] in E; try discriminate. injection E as <-. reflexivity.
Qed.

Lemma keeps_push l : keeps (fd_push l).
Proof.
  apply keeps_bind; [apply keeps_change|intros _; apply keeps_member].
  - intros d d' E. unfold assert_ in E. destruct (negb (memb l (d_stack d))); [|discriminate]. injection E as <-. reflexivity.
  - intros d [] d' E. injection E as <-. reflexivity.
Qed.

Lemma keeps_pop : keeps fd_pop.
Proof.
  apply keeps_bind; [apply keeps_change|intros _; apply keeps_member].
  - intros d d' E. unfold assert_ in E. destruct (negb (length (d_stack d) =? 0)); [|discriminate]. injection E as <-. reflexivity.
  - intros d [] d' E. destruct (sl_pop (d_len d)); cbn [bind] in E; try discriminate. injection E as <-. reflexivity.
Qed.

Lemma keeps_clear : keeps (change (fun d => Ok (set_lens d (d_len d) []))).
Proof. apply keeps_change. intros d d' E. injection E as <-. reflexivity. Qed.

Lemma keeps_subtract c l : keeps (fd_subtract c l).
Proof.
  apply keeps_bind; [apply keeps_state|]. intro d0. destruct (d_stack d0); [apply keeps_ret|]. apply keeps_bind; [apply keeps_member|intros _; apply keeps_bind; [apply keeps_subtract2|intros _; apply keeps_clear]].
  intros d [] d' E. destruct (sl_subtract l (d_len d)); cbn [bind] in E; try discriminate. injection E as <-. reflexivity.
Qed.

Lemma keeps_subrep c l : keeps (fd_subrep c l).
Proof.
  apply keeps_bind; [apply keeps_state|]. intro d0. destruct (d_stack d0); [apply keeps_pure|].
  apply keeps_bind; [apply keeps_member|intro r; apply keeps_bind; [apply keeps_subtract2|intros _; apply keeps_bind; [apply keeps_clear|intros _; apply keeps_ret]]].
  intros d a d' E. destruct (sl_subrep l (d_len d)) as [[? ?]| | | |]; cbn [bind] in E; try discriminate. injection E as _ <-. reflexivity.
Qed.

Lemma keeps_zloop c a rest : forall rpre, keeps (f_zloop (dec_flens c) a rpre rest).
Proof.
  induction rest as [|b rest IH]; intro rpre; cbn [f_zloop]; [apply keeps_pure|]. destruct (Nat.eqb b a).
  - apply keeps_bind; [apply keeps_subrep|]. repeat keeps_step.
  - apply keeps_bind; [apply keeps_push|]. intros _. apply keeps_bind; [apply keeps_query|]. intros []; [|apply IH|];
    (apply keeps_bind; [apply keeps_pop|]; intros _; apply keeps_bind; [apply keeps_subtract|]; intros _; apply keeps_ret).
Qed.

Lemma keeps_zorich c : keeps (f_zorich (dec_flens c)).
Proof. unfold f_zorich. repeat first [apply keeps_zloop | keeps_step]. Qed.
Lemma keeps_saf c : keeps (f_saf (dec_flens c)).
Proof. unfold f_saf. repeat keeps_step. Qed.
Lemma keeps_bosh c : keeps (f_bosh_no_periodic (dec_flens c)).
Proof. unfold f_bosh_no_periodic, f_saf0. repeat first [apply keeps_saf | keeps_step]. Qed.
Lemma keeps_reduce c : keeps (f_reduce (dec_flens c)).
Proof. unfold f_reduce. repeat keeps_step. Qed.
Lemma keeps_similar c k l : keeps (f_similar (dec_flens c) k l).
Proof. induction l as [|a [|b l] IH]; [apply keeps_ret|apply keeps_ret|]. cbn [f_similar]. apply keeps_bind; [apply keeps_query|]. intros []; [exact IH|apply keeps_ret]. Qed.
Lemma keeps_tracker c : keeps (f_tracker (dec_flens c)).
Proof. unfold f_tracker. repeat first [apply keeps_similar | keeps_step]. Qed.
Lemma keeps_swap : keeps f_swap.
Proof. unfold f_swap. repeat keeps_step. Qed.
Lemma keeps_loop c z limit fuel : forall n, keeps (f_loop (dec_flens c) fuel z limit n).
Proof.
  induction fuel as [|fuel IH]; intro n; [apply keeps_pure|]. cbn [f_loop].
  repeat first [apply IH | apply keeps_saf | apply keeps_tracker | apply keeps_zorich | apply keeps_swap | keeps_step].
Qed.
Lemma keeps_finish c found : keeps (f_finish (dec_flens c) found).
Proof. unfold f_finish. repeat first [apply keeps_reduce | apply keeps_bosh | keeps_step]. Qed.
Lemma keeps_induce c fuel limit : keeps (f_induce (dec_flens c) fuel limit).
Proof. unfold f_induce, f_saf0; repeat first [apply keeps_finish | intros; apply keeps_loop | apply keeps_saf | keeps_step]. Qed.
Lemma keeps_safi c : keeps (f_saf_invariant (dec_flens c)).
Proof. unfold f_saf_invariant. repeat first [apply keeps_saf | keeps_step]. Qed.

Lemma set_some {A} c (x y : A) l : nth_error l c = Some x -> exists l', set_nth c y l = Some l'.
Proof.
  revert l. induction c as [|c IH]; intros [|z l] E; try discriminate; cbn [set_nth nth_error] in *; [eauto|]. destruct (IH l E) as (l' & ->). eauto.
Qed.

Lemma dat_on {A} c (p : prog T (decomp T) A) d r : keeps p ->
  (forall x, nth_error (d_comps d) c = Some x -> at_ p (dc_iet x) d (r x)) ->
  dat (on_iet c p) d (x <- comp_at d c ;; '(a, i, d) <- r x ;; d <- comp_set d c (iet_set x i) ;; Ok (a, d)).
Proof.
  intros Hk H. unfold comp_at. destruct (nth_error (d_comps d) c) as [x|] eqn:Ex; cbn [bind].
  2:{ exists 0. intro k. split; [lia|]. intros _. unfold on_iet. rewrite Ex. reflexivity. }
  destruct (H x eq_refl) as (n & Hn). exists n. intro k. destruct (Hn k) as (L & G). specialize (Hk k (dc_iet x) d). unfold on_iet. rewrite Ex. split; intro K.
  - destruct (L K) as (i' & d' & E). rewrite E in *. unfold comp_set. rewrite Hk. destruct (set_some c x (iet_set x i') (d_comps d) Ex) as (l' & ->). eauto.
  - specialize (G K). destruct (r x) as [[[a i'] d']| | | |]; cbn [bind agrees dagrees] in *.
    + rewrite G in *. unfold comp_set. rewrite Hk. destruct (set_some c x (iet_set x i') (d_comps d) Ex) as (l' & ->). reflexivity.
    + destruct G as (i' & d' & E). rewrite E in *. unfold comp_set. rewrite Hk. destruct (set_some c x (iet_set x i') (d_comps d) Ex) as (l' & ->). eauto.
    + rewrite G. reflexivity.
    + rewrite G. reflexivity.
    + rewrite G. reflexivity.
Qed.

Lemma dat_start c d : dat (fd_start c) d (step_start c d).
Proof.
  assert (C : forall x, nth_error (d_comps d) c = Some x -> comp_at d c = Ok x) by (intros x Ex; unfold comp_at; rewrite Ex; reflexivity).
  unfold fd_start, step_start, bosh_cost. eapply dat_bind; [apply dat_pure|]. cbn beta.
  destruct (nth_error (d_comps d) c) as [x|] eqn:Ex; [|replace (comp_at d c) with (@UB (dcomp T)) by (unfold comp_at; rewrite Ex; reflexivity); reflexivity].
  rewrite (C x eq_refl). cbn [bind]. unfold assert_. destruct (negb (fully_decomposed x)); onward.
  eapply dat_bind.
  - apply (dat_on c _ d (fun x => '(v, i) <- saf_invariant (dc_iet x) (d_len d) ;; Ok (v, i, d)) (keeps_safi c)). intros y _.
    unfold f_saf_invariant, saf_invariant. eapply at_bind; [apply at_saf|]. cbn [dec_flens fl_base]. destruct (iet_saf (dc_iet y) (d_len d)) as [[v i1]| | | |]; onward.
    eapply at_bind; [apply at_this|]. cbn beta iota. apply at_ret.
  - unfold comp_at. rewrite Ex. cbn [bind]. destruct (saf_invariant (dc_iet x) (d_len d)) as [[v i]| | | |]; onward.
    destruct (comp_set d c (iet_set x i)) as [d1| | | |]; onward. apply dat_ret.
Qed.

Lemma dat_loop fuel cost c rounds : forall limit d, dat (fd_loop rounds fuel cost limit c) d (step_loop rounds fuel cost limit c d).
Proof.
  induction rounds as [|rounds IH]; intros limit d; [apply (dat_pure (fun _ => OutOfFuel))|]. cbn [fd_loop step_loop]. cbv zeta.
  eapply dat_bind; [apply (dat_on c _ d (fun x => induce (dec_lens c) fuel (match cost with Some k => if (limit <? 2 * k)%Z then limit else k | None => limit end) (dc_iet x) d) (keeps_induce c _ _)); intros x _; apply (at_induce _ _ (dec_fl_ok c))|].
  unfold comp_at. destruct (nth_error (d_comps d) c) as [x|]; onward. match goal with |- context [induce ?a ?b ?c ?d ?e] => destruct (induce a b c d e) as [[[st i] d1]| | | |] end; onward.
  destruct (comp_set d1 c (iet_set x i)) as [d2| | | |]; onward. destruct (is_result st); try apply dat_ret.
  match goal with |- context [if ?b then _ else _] => destruct b end; [apply dat_ret|apply IH].
Qed.

Lemma dat_limited fuel limit c d : dat (fd_limited fuel limit c) d (step_limited fuel limit c d).
Proof.
  unfold fd_limited, step_limited. eapply dat_bind; [apply dat_start|]. destruct (step_start c d) as [[cost d1]| | | |]; onward.
  eapply dat_bind; [apply dat_loop|]. destruct (step_loop fuel fuel cost limit c d1) as [[st d2]| | | |]; onward. apply dat_pure.
Qed.

Lemma dat_unlimited fuel cost c rounds : forall limit d, dat (fd_unlimited rounds fuel cost limit c) d (step_unlimited rounds fuel cost limit c d).
Proof.
  induction rounds as [|rounds IH]; intros limit d; [apply (dat_pure (fun _ => OutOfFuel))|]. cbn [fd_unlimited step_unlimited].
  eapply dat_bind; [apply dat_limited|]. destruct (step_limited fuel limit c d) as [[st d1]| | | |]; onward. destruct (dst_result st); try apply dat_ret.
  destruct cost; (match goal with |- context [if ?b then _ else _] => destruct b end; [apply IH|apply (dat_pure (fun _ => UB))]).
Qed.

Lemma dat_step fuel limit c d : dat (fd_step fuel limit c) d (decomposition_step fuel limit c d).
Proof.
  unfold fd_step, decomposition_step. destruct (limit =? -1)%Z; [|apply dat_limited].
  eapply dat_bind; [apply dat_start|]. destruct (step_start c d) as [[cost d1]| | | |]; onward. apply dat_unlimited.
Qed.

Lemma dat_comp fuel target limit rounds : forall c d, dat (fd_comp_decompose rounds fuel target limit c) d (comp_decompose rounds fuel target limit c d).
Proof.
  induction rounds as [|rounds IH]; intros c d; [apply (dat_pure (fun _ => OutOfFuel))|]. cbn [fd_comp_decompose comp_decompose].
  eapply dat_bind; [apply dat_pure|]. cbn beta. destruct (comp_view d c) as [v| | | |]; onward. destruct (target v); [apply dat_ret|].
  eapply dat_bind; [apply dat_step|]. destruct (decomposition_step fuel limit c d) as [[st d1]| | | |]; onward.
  assert (Go : dat (ok1 <== match dst_additional st with Some c' => fd_comp_decompose rounds fuel target limit c' | None => dret true end ;;
      ok2 <== fd_comp_decompose rounds fuel target limit c ;; dret (ok1 && ok2)) d1
    ('(ok1, d) <- match dst_additional st with Some c' => comp_decompose rounds fuel target limit c' d1 | None => Ok (true, d1) end ;;
     '(ok2, d) <- comp_decompose rounds fuel target limit c d ;; Ok (ok1 && ok2, d))).
  { eapply dat_bind.
    - instantiate (1 := match dst_additional st with Some c' => comp_decompose rounds fuel target limit c' d1 | None => Ok (true, d1) end). destruct (dst_additional st); [apply IH|apply dat_ret].
    - match goal with |- context [bind ?m _] => destruct m as [[ok1 d2]| | | |] end; onward.
      eapply dat_bind; [apply IH|]. destruct (comp_decompose rounds fuel target limit c d2) as [[ok2 d3]| | | |]; onward. apply dat_ret. }
  destruct (dst_result st); try exact Go. apply dat_ret.
Qed.

Lemma dat_decompose rounds fuel target limit d : dat (fd_decompose rounds fuel target limit) d (decompose rounds fuel target limit d).
Proof.
  assert (G : forall cs d, dat (fd_decompose_all rounds fuel target limit cs) d (decompose_all rounds fuel target limit cs d)).
  { clear d. induction cs as [|c cs IH]; intro d; cbn [fd_decompose_all decompose_all]; [apply dat_ret|].
    eapply dat_bind; [apply dat_comp|]. destruct (comp_decompose rounds fuel target limit c d) as [[ok d1]| | | |]; onward. destruct ok; [apply IH|apply dat_ret]. }
  exact (G (seq 0 (length (d_comps d))) d).
Qed.

End FaultDecProof.
