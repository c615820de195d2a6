(** Repeated calls of [induce] end if there is a saddle connection, a periodic point or an
    orbit that is not dense. *)
From Coq Require Import Reals Lra Lia Permutation List ZArith.
From Verif Require Import Base QcTac LenT FM Subspace Lengths IET Spec SpecLin SpecSim SpecRank SpecDense Api RankApi DenseApi.
From Verif Require Import ZorichProof Dyn Saddle ReduceProof SubspaceProof Saf Bosh Path Similar InduceProof InduceCons World Seq DecompRef.
From Verif Require Import Endless RankEnd Rank Keane.
Open Scope nat_scope.

Section Ends.
Context {T : Type} {O : LenOps T} {W : LenLaws T}.

Definition undecided (st : istep T) : Prop :=
  is_result st = LIMIT_REACHED \/ is_result st = WITHOUT_PERIODIC_TRAJECTORY_BOSHERNITZAN.

Lemma finish_undecided found (i : iet T) (s : slen T) st i1 s1 : wf i s -> cache_ok i s ->
  induce_finish sample_lens found i s = Ok (st, i1, s1) -> undecided st ->
  found = false /\ exch_of i1 s1 = exch_of i s.
Proof.
  intros H C E Hst. revert E. unfold induce_finish. cbn [sample_lens li_base].
  destruct (reduce_ok i s H) as [(k & Hk & Hmin & Er)|[Hnr Er]]; rewrite Er; cbn [bind].
  { destruct (rev (i_bottom (left_part i k))); [discriminate|]. destruct (rev (i_top (left_part i k))); [discriminate|].
    injection 1. intros _ _ <-. destruct Hst; discriminate. }
  destruct (i_top i) as [|a X] eqn:Et; [discriminate|]. destruct (i_bottom i) as [|b Y] eqn:Eb; [discriminate|].
  destruct (li_cmp2 sample_lens s a b) as [c| | | |] eqn:Ec; cbn [bind]; try discriminate.
  destruct c.
  { destruct (merge_first i) as [j| | | |]; cbn [bind]; try discriminate. injection 1. intros _ _ <-. destruct Hst; discriminate. }
  all: destruct found; cbn [negb assert_]; [discriminate|].
  all: pose proof (iet_saf_ok i s H C) as Ev; cbv zeta in Ev; set (v := if i_swap i then _ else _) in Ev.
  all: unfold bosh_no_periodic, iet_saf0; rewrite Ev; cbn [bind].
  all: set (i2 := set_saf i (Some v)) in *.
  all: change (i_size i2) with (i_size i).
  all: intros E; split; [reflexivity|];
    assert (G : i1 = i2 /\ s1 = s) by
     (destruct (vis0 v); cbn [bind] in E; [split; congruence|];
      destruct (i_size i <=? 1); cbn [bind] in E; [split; congruence|];
      destruct (bosh_equations i2 s); cbn [bind] in E; try discriminate;
      destruct (ras_equations _ _); cbn [bind] in E; try discriminate;
      destruct (nznn _); cbn [bind] in E; try discriminate; split; congruence).
  all: destruct G as [-> ->]; reflexivity.
Qed.

Theorem induce_undecided limit fuel (i : iet T) (s : slen T) st j t : good i s -> (limit <= INT_MAX)%Z ->
  induce sample_lens fuel limit i s = Ok (st, j, t) -> undecided st ->
  exists m, (limit <= Z.of_nat m)%Z /\ after m (exch_of i s) (exch_of j t) /\
    able (exch_of j t) /\ ~ reducible (exch_of j t) /\ good j t.
Proof.
  intros Hg HL E Hst. pose proof Hg as (H & C & K).
  destruct (induce_ok limit fuel i s HL Hg) as [(G & _)|[(G & _)|(st' & j' & t' & G & Hg1 & P)]]; try (rewrite G in E; discriminate).
  rewrite G in E. injection E as -> -> ->.
  assert (P' : i_size i <> 1 /\ ~ reducible (exch_of j t) /\ ~ heads_equal j t /\ limit <> (-1)%Z).
  { unfold induce_post in P. destruct Hst as [Hst|Hst]; rewrite Hst in P; destruct P as (Hs & R & Nr & Nh & _ & HL1 & _); auto. }
  destruct P' as (Hs & Nr & Nh & HL1).
  enough (Q : exists m, (limit <= Z.of_nat m)%Z /\ after m (exch_of i s) (exch_of j t)).
  { destruct Q as (m & Hm & A). exists m. split; [exact Hm|]. split; [exact A|]. split; [apply heads_able; [apply Hg1 | exact Nh]|]. auto. }
  clear P. revert G. unfold induce. rewrite (proj2 (Nat.eqb_neq _ _) Hs).
  destruct (Z.eqb_spec limit 0) as [->|Nm].
  - cbn [bind]. intros E. destruct (finish_undecided _ _ _ _ _ _ H C E Hst) as (_ & ->). exists 0. split; [lia|].
    split; [apply same_exch_refl | intros k Hk; lia].
  - destruct (iet_saf0_ok i s H C) as (v & Ev & C' & Ez & _). cbn [sample_lens li_base].
    change (mklens _ _ _ _ _ _ _) with (sample_lens (T := T)). rewrite Ev. cbn [bind].
    assert (Hg' : good (set_saf i (Some v)) s) by (apply good_set_saf; assumption).
    destruct (induce_loop sample_lens fuel (vis0 (saf_now i s)) limit 0 (set_saf i (Some v)) s) as [[[f i2] s2]| | | |] eqn:El; cbn [bind]; try discriminate.
    destruct f as [f|]; [|injection 1; intros _ _ <-; destruct Hst; discriminate]. intros E.
    destruct (loop_ok (vis0 (saf_now i s)) limit HL fuel 0%Z (set_saf i (Some v)) s Hg') as [(G & _)|[(G & _)|(f' & i2' & s2' & G & R2 & P2)]];
      try (rewrite G in El; discriminate).
    rewrite G in El. injection El as -> -> ->.
    destruct (finish_undecided _ _ _ _ _ _ (r_wf _ _ _ _ R2) (r_cache _ _ _ _ R2) E Hst) as (-> & ->).
    destruct (loop_after _ limit HL1 fuel 0%Z _ s i2 s2 Hg' G) as (m & Hm & A). exists m. split; [lia|]. exact A.
Qed.

Lemma quiet_after ls : forall (i : iet T) (s : slen T), good i s -> quiet ls i s -> ls <> [] ->
  exists m e, (zsuml ls <= Z.of_nat m)%Z /\ after m (exch_of i s) e /\ able e /\ ~ reducible e.
Proof.
  induction ls as [|l ls IH]; intros i s Hg H Ne; [contradiction|].
  inversion H as [|l' ls' i' s' fuel st j t Hl E Hst H']; subst.
  destruct (induce_undecided l fuel i s st j t Hg ltac:(lia) E Hst) as (m & Hm & A & Ab & Nr & Hg').
  destruct ls as [|l2 ls].
  - exists m, (exch_of j t). split; [simpl; lia|]. auto.
  - destruct (IH j t Hg' H' ltac:(discriminate)) as (m' & e & Hm' & A' & G). exists (m + m'), e.
    split; [simpl in *; lia|]. split; [exact (after_plus _ _ _ _ _ A A')|exact G].
Qed.

Theorem quiet_bounded (i : iet T) (s : slen T) : good i s ->
  has_saddle_connection (exch_of i s) \/ has_periodic_point (exch_of i s) \/ ~ minimal (exch_of i s) ->
  exists N, forall ls, quiet ls i s -> (zsuml ls < N)%Z.
Proof.
  intros Hg R. destruct (keane_ends _ (wf_proper _ _ (proj1 Hg)) R) as (N & HN).
  exists (Z.of_nat N + 1)%Z. intros ls H. destruct ls as [|l ls]; [simpl; lia|].
  destruct (quiet_after _ i s Hg H ltac:(discriminate)) as (m & e & Hm & A & Ab & Nr).
  destruct (Z_lt_le_dec (zsuml (l :: ls)) (Z.of_nat N + 1)) as [G|G]; [exact G|exfalso].
  apply Nr, (HN m e); [lia|exact A|exact Ab].
Qed.
End Ends.

(** The similarity tracker is only asked if the SAF invariant vanishes. *)
Section OnlySaf.
Context {T : Type} {O : LenOps T} {W : LenLaws T}.

Lemma loop_no_tracker limit : forall fuel n (i : iet T) (s : slen T) f j t,
  induce_loop sample_lens fuel false limit n i s = Ok (f, j, t) -> f <> None.
Proof.
  induction fuel as [|fuel IH]; intros n i s f j t H; [discriminate|]. cbn [induce_loop] in H.
  destruct (negb ((limit =? -1)%Z || (n <? limit)%Z)); [injection H; intros _ _ <-; discriminate|]. cbn [bind] in H.
  destruct (zorich sample_lens i s) as [[[f1 i1] s1]| | | |]; try discriminate. cbn [bind] in H.
  destruct f1; [injection H; intros _ _ <-; discriminate|].
  destruct (zorich sample_lens (iet_swap i1) s1) as [[[f2 i2] s2]| | | |]; try discriminate. cbn [bind] in H.
  destruct f2; [injection H; intros _ _ <-; discriminate|].
  destruct (n =? INT_MAX)%Z; [discriminate|]. exact (IH _ _ _ _ _ _ H).
Qed.

Theorem similar_saf fuel limit (i : iet T) (s : slen T) st j t : good i s -> (limit <= INT_MAX)%Z ->
  induce sample_lens fuel limit i s = Ok (st, j, t) -> is_result st = WITHOUT_PERIODIC_TRAJECTORY_AUTO_SIMILAR ->
  vis0 (saf_now i s) = true.
Proof.
  intros Hg HL E Hr. pose proof Hg as (H & C & K).
  destruct (vis0 (saf_now i s)) eqn:V; [reflexivity|exfalso].
  destruct (induce_ok limit fuel i s HL Hg) as [(G & _)|[(G & _)|(st' & j' & t' & G & Hg1 & P)]]; try (rewrite G in E; discriminate).
  rewrite G in E. injection E as -> -> ->. unfold induce_post in P. rewrite Hr in P. destruct P as (Hs & _ & _ & Nz & _).
  revert G. unfold induce. rewrite (proj2 (Nat.eqb_neq _ _) Hs). destruct (Z.eqb_spec limit 0) as [->|_]; [contradiction|].
  destruct (iet_saf0_ok i s H C) as (v & Ev & C' & Ez & _). cbn [sample_lens li_base].
  change (mklens _ _ _ _ _ _ _) with (sample_lens (T := T)). rewrite Ev. cbn [bind]. rewrite V.
  destruct (induce_loop sample_lens fuel false limit 0 (set_saf i (Some v)) s) as [[[f i2] s2]| | | |] eqn:El; cbn [bind]; try discriminate.
  pose proof (loop_no_tracker _ _ _ _ _ _ _ _ El) as Nf. destruct f as [f|]; [|contradiction]. intros E.
  (* [induce_finish] never says so *)
  clear - E Hr. revert E. unfold induce_finish. 
  destruct (reduce i2 _) as [[[r|] i3]| | | |]; cbn [bind]; try discriminate.
  { destruct (rev (i_bottom i3)); [discriminate|]. destruct (rev (i_top i3)); [discriminate|]. injection 1. intros _ _ <-. discriminate. }
  destruct (i_top i3) as [|a X]; [discriminate|]. destruct (i_bottom i3) as [|b Y]; [discriminate|].
  destruct (li_cmp2 sample_lens s2 a b) as [q| | | |]; cbn [bind]; try discriminate.
  destruct q.
  { destruct (merge_first i3) as [jj| | | |]; cbn [bind]; try discriminate. injection 1. intros _ _ <-. discriminate. }
  all: destruct f; cbn [negb assert_]; [discriminate|].
  all: destruct (bosh_no_periodic i3 _) as [[bb i4]| | | |]; cbn [bind]; try discriminate.
  all: destruct bb; injection 1; intros _ _ <-; discriminate.
Qed.
End OnlySaf.
