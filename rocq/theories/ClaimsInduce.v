(** Proofs of the properties in [PropInduce]. *)
From Coq Require Import Reals Lra Permutation Factorial.
From Verif Require Import Base QcTac LenT FM Subspace Lengths IET Spec SpecLin Api.
From Verif Require Import ZorichProof Dyn Saddle ReduceProof SubspaceProof Saf Bosh Path Similar InduceProof InduceCons World Seq SpecSim SelfSim Detect.
Open Scope nat_scope.

Lemma induce_run {T} {O : LenOps T} {W : LenLaws T} fuel limit (i : iet T) (s : slen T) st j t :
  obtainable i s -> (limit <= INT_MAX)%Z -> induce sample_lens fuel limit i s = Ok (st, j, t) ->
  wf i s /\ good j t /\ induce_post limit i s st j t.
Proof.
  intros H%obtainable_good HL E. split; [apply H|].
  destruct (induce_ok limit fuel i s HL H) as [(E1 & _)|[(E1 & _)|(st' & j' & t' & E1 & G & P)]];
    cbv zeta in E1; rewrite E in E1; try discriminate.
  injection E1 as <- <- <-. split; assumption.
Qed.

Lemma heads_first {T} {O : LenOps T} {W : LenLaws T} (i : iet T) (s : slen T) : heads_equal i s <-> first_equal (exch_of i s).
Proof.
  unfold heads_equal, first_equal, exch_of. simpl. split.
  - intros (a & b & Ha & Hb & E). destruct (i_top i) as [|a' X]; [discriminate|]. destruct (i_bottom i) as [|b' Y]; [discriminate|].
    simpl in Ha, Hb. injection Ha as ->. injection Hb as ->. exists a, b, X, Y. auto.
  - intros (a & b & X & Y & -> & -> & E). exists a, b. auto.
Qed.

Lemma hd_rev_last {A} (l : list A) a : hd_error (rev l) = Some a -> exists X, l = X ++ [a].
Proof.
  intros H. destruct (rev l) as [|x r] eqn:E; [discriminate|]. simpl in H. injection H as ->.
  exists (rev r). rewrite <- (rev_involutive l), E. reflexivity.
Qed.

Lemma same_refl e : same_exch e e.
Proof. repeat split. Qed.


Lemma vis0_Forall v : Forall (fun q => q = 0%Qc) v -> vis0 v = true.
Proof. intros H. unfold vis0. apply forallb_forall. intros q Hq. rewrite Forall_forall in H. rewrite (H q Hq). reflexivity. Qed.

Lemma iet_make_shape {T} {O : LenOps T} {W : LenLaws T} (s : slen T) top bottom i : iet_make s top bottom = Ok i -> i = mkiet top bottom false None tracker_init.
Proof.
  unfold iet_make, assert_. repeat (match goal with |- context [if ?b then _ else _] => destruct b end; try discriminate).
  all: destruct (mapM _ _); try discriminate; simpl.
  all: repeat (match goal with |- context [if ?b then _ else _] => destruct b end; try discriminate). all: intros E; injection E; auto.
Qed.

Lemma claim_C22_classification : forall (T : Type) (O : LenOps T) (W : LenLaws T) (i : iet T) (s : slen T) fuel limit st j t,
  obtainable i s -> (limit <= INT_MAX)%Z -> induce sample_lens fuel limit i s = Ok (st, j, t) ->
  (is_result st = CYLINDER <-> length (i_top i) = 1) /\
  (length (i_top i) = 1 -> j = i /\ t = s /\ is_connection st = None /\ is_additional st = None) /\
  (length (i_top i) <> 1 ->
   exists e, rauzy_path (exch_of i s) e /\ (forall c, e_len e c = lamR t c) /\
     match is_result st with
     | CYLINDER => False
     | SEPARATING_CONNECTION =>
       reducible e /\
       exists k r b a, invariant_prefix e k /\ (forall k', invariant_prefix e k' -> k <= k') /\
         same_exch (exch_of j t) (left_of e k) /\
         is_additional st = Some r /\ same_exch (exch_of r t) (right_of e k) /\ i_swap r = false /\
         is_connection st = Some (b, a) /\ last_label (i_bottom j) b /\ last_label (i_top j) a
     | NON_SEPARATING_CONNECTION =>
       ~ reducible e /\ first_equal e /\ merge_step e (exch_of j t) /\ is_additional st = None /\
       exists a b X Y, e_top e = a :: X /\ e_bot e = b :: Y /\ is_connection st = Some (b, a)
     | LIMIT_REACHED =>
       ~ reducible e /\ ~ first_equal e /\ balanced e /\ same_exch e (exch_of j t) /\
       is_connection st = None /\ is_additional st = None
     | WITHOUT_PERIODIC_TRAJECTORY_BOSHERNITZAN =>
       ~ reducible e /\ ~ first_equal e /\ ~ balanced e /\ same_exch e (exch_of j t) /\
       is_connection st = None /\ is_additional st = None
     | WITHOUT_PERIODIC_TRAJECTORY_AUTO_SIMILAR =>
       same_exch e (exch_of j t) /\ is_connection st = None /\ is_additional st = None
     end /\
     i_swap j = i_swap i).
Proof.
  intros T O W i s fuel limit st j t H HL E. destruct (induce_run fuel limit i s st j t H HL E) as (Wf & G & P).
  unfold induce_post in P.
  assert (C : is_result st = CYLINDER <-> length (i_top i) = 1).
  { change (length (i_top i)) with (i_size i). destruct (is_result st) eqn:Er.
    2: split; [intros _; apply P | reflexivity].
    all: split; [discriminate | intros X; exfalso; clear Er; decompose [ex and] P; contradiction]. }
  split; [exact C|]. split.
  - intros Hn. apply C in Hn. rewrite Hn in P. destruct P as (_ & -> & -> & ->). auto.
  - intros Hn. destruct (is_result st) eqn:Er.
    + destruct P as (_ & R & Hr & Hh & Hb & _ & ->). exists (exch_of j t). split; [apply R|]. split; [reflexivity|]. split; [|apply R].
      rewrite heads_first in Hh. split; [exact Hr|]. split; [exact Hh|]. split; [exact Hb|]. split; [apply same_refl|auto].
    + exfalso. apply Hn, P.
    + destruct P as (i1 & k & b & a & _ & R & Hk & Hmin & -> & Hb & Ha & -> & Gr).
      exists (exch_of i1 t). split; [apply R|]. split; [reflexivity|]. split; [|apply R].
      split; [exists k; exact Hk|]. exists k, (right_part i1 k), b, a. split; [exact Hk|]. split; [exact Hmin|].
      split; [apply same_refl|]. split; [reflexivity|]. split; [apply same_refl|]. split; [reflexivity|]. split; [reflexivity|].
      split; apply hd_rev_last; assumption.
    + destruct P as (i1 & a & b & _ & R & Hr & Ha & Hb & Hab & M & Ht & Hs & _ & ->).
      exists (exch_of i1 t). split; [apply R|]. split; [reflexivity|]. split; [|exact Hs].
      split; [exact Hr|]. split; [|split; [exact M|split; [reflexivity|]]].
      * destruct M as (a' & b' & X & Y1 & Y2 & E1 & E2 & E3 & _). exists a', b', X, (Y1 ++ a' :: Y2). auto.
      * destruct (i_top i1) as [|a' X] eqn:E1; [discriminate|]. destruct (i_bottom i1) as [|b' Y] eqn:E2; [discriminate|].
        injection Ha as <-. injection Hb as <-. exists a', b', X, Y. auto.
    + destruct P as (_ & R & Hr & Hh & Hb & _ & ->). exists (exch_of j t). split; [apply R|]. split; [reflexivity|]. split; [|apply R].
      rewrite heads_first in Hh. split; [exact Hr|]. split; [exact Hh|]. split; [exact Hb|]. split; [apply same_refl|auto].
    + destruct P as (_ & R & _ & _ & ->). exists (exch_of j t). split; [apply R|]. split; [reflexivity|]. split; [|apply R].
      split; [apply same_refl|auto].
Qed.

Lemma claim_C23_no_assertion : forall (T : Type) (O : LenOps T) (W : LenLaws T) (i : iet T) (s : slen T) fuel limit,
  obtainable i s -> (limit <= INT_MAX)%Z ->
  induce sample_lens fuel limit i s <> AssertFail /\ induce sample_lens fuel limit i s <> Throw.
Proof.
  intros T O W i s fuel limit H%obtainable_good HL.
  destruct (induce_ok limit fuel i s HL H) as [(E1 & _)|[(E1 & _)|(st' & j' & t' & E1 & _)]];
    cbv zeta in E1; rewrite E1; split; discriminate.
Qed.

Lemma claim_C23_boshernitzan_verdict : forall (T : Type) (O : LenOps T) (W : LenLaws T) (i : iet T) (s : slen T) fuel limit st j t,
  obtainable i s -> (limit <= INT_MAX)%Z -> induce sample_lens fuel limit i s = Ok (st, j, t) ->
  is_result st = WITHOUT_PERIODIC_TRAJECTORY_BOSHERNITZAN ->
  ~ has_periodic_point (exch_of i s) /\ ~ has_periodic_point (exch_of j t).
Proof.
  intros T O W i s fuel limit st j t H HL E Hr. destruct (induce_run fuel limit i s st j t H HL E) as (Wf & G & P).
  unfold induce_post in P. rewrite Hr in P. destruct P as (_ & R & _ & _ & Hb & _).
  assert (Q : ~ has_periodic_point (exch_of j t)).
  { intros Hp. apply Hb, periodic_balanced; [apply wf_proper, G | exact Hp]. }
  split; [|exact Q]. rewrite (reach_periodic i s j t Wf R). exact Q.
Qed.

Lemma claim_C23_periodic_points : forall (T : Type) (O : LenOps T) (W : LenLaws T) (i : iet T) (s : slen T) fuel limit st j t,
  obtainable i s -> (limit <= INT_MAX)%Z -> induce sample_lens fuel limit i s = Ok (st, j, t) ->
  (has_periodic_point (exch_of i s) <->
   has_periodic_point (exch_of j t) \/ exists r, is_additional st = Some r /\ has_periodic_point (exch_of r t)).
Proof.
  intros T O W i s fuel limit st j t H HL E. destruct (induce_run fuel limit i s st j t H HL E) as (Wf & G & P).
  assert (N : forall (A : Prop) (o : option (iet T)), o = None -> (A <-> A \/ exists r, o = Some r /\ has_periodic_point (exch_of r t))).
  { intros A o ->. split; [auto|]. intros [HA|(r & Er & _)]; [exact HA | discriminate]. }
  unfold induce_post in P. destruct (is_result st) eqn:Er.
  - destruct P as (_ & R & _ & _ & _ & _ & ->). rewrite (reach_periodic i s j t Wf R). apply N. reflexivity.
  - destruct P as (_ & -> & -> & ->). apply N. reflexivity.
  - destruct P as (i1 & k & b & a & _ & R & Hk & Hmin & -> & Hb & Ha & -> & Gr).
    rewrite (reach_periodic i s i1 t Wf R). simpl is_additional.
    rewrite (cut_periodic i1 t k (r_wf _ _ _ _ R) Hk). split.
    + intros [A|A]; [left; exact A | right; eexists; split; [reflexivity | exact A]].
    + intros [A|(r & Err & A)]; [left; exact A | right; injection Err as <-; exact A].
  - destruct P as (i1 & a & b & _ & R & Hr & Ha & Hb & Hab & M & Ht & Hs & _ & ->).
    rewrite (merge_reach_periodic i s i1 j t Wf R M). apply N. reflexivity.
  - destruct P as (_ & R & _ & _ & _ & _ & ->). rewrite (reach_periodic i s j t Wf R). apply N. reflexivity.
  - destruct P as (_ & R & _ & _ & ->). rewrite (reach_periodic i s j t Wf R). apply N. reflexivity.
Qed.

Lemma claim_C24_partial : forall (T : Type) (O : LenOps T) (W : LenLaws T) (i : iet T) (s : slen T) fuel limit st j t,
  obtainable i s -> (limit <= INT_MAX)%Z -> induce sample_lens fuel limit i s = Ok (st, j, t) ->
  is_result st = WITHOUT_PERIODIC_TRAJECTORY_AUTO_SIMILAR ->
  tk_top (i_trk j) = i_top j ->
  ~ has_periodic_point (exch_of i s) /\ ~ has_periodic_point (exch_of j t).
Proof.
  intros T O W i s fuel limit st j t H HL E Hr Htop. destruct (induce_run fuel limit i s st j t H HL E) as (Wf & G & P).
  unfold induce_post in P. rewrite Hr in P. destruct P as (_ & R & Hs & _).
  pose proof (similar_aperiodic j t (proj1 G) Hs Htop) as Q.
  split; [|exact Q]. rewrite (reach_periodic i s j t Wf R). exact Q.
Qed.

Lemma claim_C25_terminates : forall (T : Type) (O : LenOps T) (W : LenLaws T) (i : iet T) (s : slen T) u m fuel,
  obtainable i s -> (0 < u)%R -> integral u (exch_of i s) ->
  total (lamR s) (i_top i) = (IZR m * u)%R -> (m <= INT_MAX)%Z -> (m <= Z.of_nat fuel)%Z ->
  exists st j t, induce sample_lens fuel (-1) i s = Ok (st, j, t) /\
    (is_result st = CYLINDER \/ is_result st = SEPARATING_CONNECTION \/ is_result st = NON_SEPARATING_CONNECTION).
Proof.
  intros T O W i s u m fuel H%obtainable_good Hu Hi Hm HM HF.
  destruct (induce_integral u m fuel i s Hu H Hi Hm HM HF) as (st & j & t & E & _ & _ & Hr). exists st, j, t. split; [exact E | exact Hr].
Qed.

Lemma claim_C26_budget : forall (T : Type) (O : LenOps T) (W : LenLaws T) (i : iet T) (s : slen T) fuel limit,
  obtainable i s -> (limit <= INT_MAX)%Z -> limit <> (-1)%Z -> (Z.max 0 limit < Z.of_nat fuel)%Z ->
  exists st j t, induce sample_lens fuel limit i s = Ok (st, j, t).
Proof.
  intros T O W i s fuel limit H%obtainable_good HL Hn HF.
  destruct (induce_ok limit fuel i s HL H) as [(E1 & H0 & [X|X])|[(E1 & X & _)|(st' & j' & t' & E1 & _)]]; cbv zeta in E1.
  - contradiction.
  - lia.
  - contradiction.
  - rewrite E1. eauto.
Qed.

Lemma claim_C26_split : forall (T : Type) (O : LenOps T) (W : LenLaws T) (i : iet T) (s : slen T) fuel m n st i1 s1,
  obtainable i s -> (0 <= m)%Z -> (0 <= n)%Z -> (m + n <= INT_MAX)%Z -> (m + n < Z.of_nat fuel)%Z ->
  induce sample_lens fuel m i s = Ok (st, i1, s1) -> is_result st = LIMIT_REACHED ->
  induce sample_lens fuel (m + n) i s = induce sample_lens fuel n i1 s1.
Proof.
  intros T O W i s fuel m n st i1 s1 H%obtainable_good Hm Hn HM HF E Hr.
  exact (induce_split fuel m n i s st i1 s1 H Hm Hn HM HF E Hr).
Qed.

Lemma claim_C53_genuine : forall (T : Type) (O : LenOps T) (W : LenLaws T) (i : iet T) (s : slen T) fuel limit st j t b a,
  obtainable i s -> (limit <= INT_MAX)%Z -> induce sample_lens fuel limit i s = Ok (st, j, t) ->
  is_connection st = Some (b, a) -> saddle_connection (exch_of i s) b a.
Proof.
  intros T O W i s fuel limit st j t b a H HL E Hc. destruct (induce_run fuel limit i s st j t H HL E) as (Wf & _ & P).
  exact (induce_connection_genuine limit i s st j t b a Wf P Hc).
Qed.

Lemma claim_C59_recognized : forall (T : Type) (O : LenOps T) (W : LenLaws T) (i : iet T) (s : slen T) top bottom v i' n p fuel limit,
  obtainable i s -> iet_make s top bottom = Ok i ->
  saf_invariant i s = Ok (v, i') -> Forall (fun q => q = 0%Qc) v ->
  0 < p -> self_similar (exch_of i s) n p ->
  let rounds := 4 * (n + fact (length top) * p) in
  (Z.of_nat rounds <= INT_MAX)%Z -> (limit = -1 \/ Z.of_nat rounds <= limit)%Z -> rounds <= fuel ->
  ~ has_periodic_point (exch_of i s) /\
  exists st j t, induce sample_lens fuel limit i s = Ok (st, j, t) /\ is_result st = WITHOUT_PERIODIC_TRAJECTORY_AUTO_SIMILAR.
Proof.
  intros T O W i s top bottom v i' n p fuel limit H%obtainable_good Em Es Hz Hp (e1 & e2 & rho & c & R1 & R2 & M) rounds Hm Hl Hf.
  apply iet_make_shape in Em. subst i. pose proof H as (Hw & Hc & _).
  destruct (saf_invariant_ok _ _ Hw Hc) as (w & Ew & _). rewrite Es in Ew. injection Ew as -> _.
  destruct (rounds_labels _ _ _ (wf_proper _ _ Hw) R1) as [P1 L1]. pose proof (Permutation_length L1) as LL. cbn [exch_of e_top i_top] in LL.
  assert (Ne1 : e_top e1 <> []).
  { intros E. apply (proj1 (proj2 (proj2 Hw))). apply length_zero_iff_nil. cbn [i_top]. rewrite LL, E. reflexivity. }
  destruct (self_similar_scaled _ _ _ _ _ P1 Ne1 R2 M) as (e3 & c' & _ & R3 & Sc). rewrite <- LL in R3.
  destruct (induce_recognizes n (fact (length top) * p) fuel limit _ s e1 e3 c' H eq_refl (vis0_Forall _ Hz) Hl Hm Hf) as (Q & j & t & E).
  - pose proof (lt_O_fact (length top)). nia.
  - exact R1.
  - exact R3.
  - exact Sc.
  - split; [exact Q|]. eexists _, j, t. split; [exact E | reflexivity].
Qed.

Lemma claim_C59_same_labels : forall (T : Type) (O : LenOps T) (W : LenLaws T) (i : iet T) (s : slen T) top bottom v i' n p e1 e2 c fuel limit,
  obtainable i s -> iet_make s top bottom = Ok i ->
  saf_invariant i s = Ok (v, i') -> Forall (fun q => q = 0%Qc) v ->
  0 < p -> iter round n (exch_of i s) e1 -> iter round p e1 e2 -> renamed (fun a => a) c e1 e2 ->
  let rounds := 4 * (n + p) in
  (Z.of_nat rounds <= INT_MAX)%Z -> (limit = -1 \/ Z.of_nat rounds <= limit)%Z -> rounds <= fuel ->
  ~ has_periodic_point (exch_of i s) /\
  exists st j t, induce sample_lens fuel limit i s = Ok (st, j, t) /\ is_result st = WITHOUT_PERIODIC_TRAJECTORY_AUTO_SIMILAR.
Proof.
  intros T O W i s top bottom v i' n p e1 e2 c fuel limit H%obtainable_good Em Es Hz Hp R1 R2 M rounds Hm Hl Hf.
  apply iet_make_shape in Em. subst i. pose proof H as (Hw & Hc & _).
  destruct (saf_invariant_ok _ _ Hw Hc) as (w & Ew & _). rewrite Es in Ew. injection Ew as -> _.
  destruct (induce_recognizes n p fuel limit _ s e1 e2 c H eq_refl (vis0_Forall _ Hz) Hl Hm Hf Hp R1 R2) as (Q & j & t & E).
  - apply renamed_id, M.
  - split; [exact Q|]. eexists _, j, t. split; [exact E | reflexivity].
Qed.

