(** Property C103: the period of the points of a cylinder is the length of its right side.

    [decomposition i s tr d] ([DecApi]): [d] is any state that a program can reach with a
    decomposition of the IET [i] with lengths [s].  [towers] is specified in [SpecTower], [floor_ends] in
    [SpecRim], [connection_time] and [steps_of] in [SpecTime], [exchanges] in [CanonApi],
    [cylinder_sides] in [SidesApi]. *)
From Coq Require Import Reals Permutation List ZArith Lra Lia.
From Verif Require Import Base LenT FM Subspace Lengths IET LenInst Sqrt2 Decomp Spec SpecDec SpecTower SpecCanon SpecRim SpecTime SpecSides Api DecApi CanonApi SidesApi Fixtures DecFixtures.
From Verif Require Import ClaimsDecomp ClaimsSides ClaimsPeriod.
Open Scope nat_scope.

(** ** C103: The period of a cylinder is the length of its right side. *)


(** The towers over the components can be chosen such that for every cylinder: the connections on the right
    take [ns] steps, and the number of all these steps, with one step from each connection to the next
    one, is the minimal period of all points of the cylinder.  There is one more step in the cylinder
    whose floors include the one that ends at the right end of the whole IET, which is no singularity: that is
    the cylinder whose label is the last one on the top of the IET. *)
Theorem C103_period : forall (T : Type) (O : LenOps T) (W : LenLaws T) (i : iet T) (s : slen T) tr d,
  decomposition i s tr d ->
  exists Ts, map tw_base Ts = exchanges d /\ towers (exch_of i s) Ts /\
    forall c right left t, cylinder_sides d c right left -> nth_error Ts c = Some t ->
    exists l ns N, e_top (tw_base t) = [l] /\
      Forall2 (fun k n => exists b u, k = mkconn (mksep b PARALLEL) (mksep u ANTIPARALLEL) /\ connection_time (exch_of i s) b u n) right ns /\
      (~ floor_ends (exch_of i s) t l (last (i_top i) 0) -> N = steps_of ns) /\
      (floor_ends (exch_of i s) t l (last (i_top i) 0) -> N = steps_of ns + 1) /\
      (floor_ends (exch_of i s) t l (last (i_top i) 0) <-> l = last (i_top i) 0) /\
      tw_height t l = N /\
      forall k x, on_floor (exch_of i s) t l k x ->
        iter (maps (exch_of i s)) N x x /\ forall m, 1 <= m < N -> ~ iter (maps (exch_of i s)) m x x.
Proof. exact claim_C103_period. Qed.
Print Assumptions C103_period.

(** The times are determined by the IET. *)
Theorem C103_time : forall (T : Type) (O : LenOps T) (W : LenLaws T) (i : iet T) (s : slen T) tr d b u n n',
  decomposition i s tr d -> connection_time (exch_of i s) b u n -> connection_time (exch_of i s) b u n' -> n = n'.
Proof. exact claim_C103_time. Qed.
Print Assumptions C103_time.

(** So two decompositions of one IET agree about the periods: if two cylinders have a connection on the right in
    common, all their points have the same minimal period.  (Nothing is required of the other components,
    cf. C102.) *)
Theorem C103_same : forall (T : Type) (O : LenOps T) (W : LenLaws T) (i : iet T) (s : slen T) tr d tr' d',
  decomposition i s tr d -> decomposition i s tr' d' ->
  exists Ts Ts', map tw_base Ts = exchanges d /\ towers (exch_of i s) Ts /\ map tw_base Ts' = exchanges d' /\ towers (exch_of i s) Ts' /\
    forall c right left t c' right' left' t' k, cylinder_sides d c right left -> nth_error Ts c = Some t ->
      cylinder_sides d' c' right' left' -> nth_error Ts' c' = Some t' -> In k right -> In k right' ->
    exists N, forall x, (exists l j, on_floor (exch_of i s) t l j x) \/ (exists l j, on_floor (exch_of i s) t' l j x) ->
      iter (maps (exch_of i s)) N x x /\ forall m, 1 <= m < N -> ~ iter (maps (exch_of i s)) m x x.
Proof. exact claim_C103_same. Qed.
Print Assumptions C103_same.

(** Lengths seven, five, three and four (C101).  The first cylinder has the single connection of 1 and 1 on the
    right.  It takes no step, so all points of the cylinder are fixed.  The second one has the connections
    of 3 and 2, with eleven steps, and of 2 and 0, with none, and a floor that ends at the right end of the IET:
    the period is (11 + 1) + (0 + 1) + 1 = 14. *)
Definition up_ (a b : label) : connection := mkconn (mksep a PARALLEL) (mksep b ANTIPARALLEL).
Definition down_ (a b : label) : connection := mkconn (mksep a ANTIPARALLEL) (mksep b PARALLEL).

Example C103_time_example : connection_time (exch_of z_iet z_lens) 1 1 0 /\ connection_time (exch_of z_iet z_lens) 3 2 11 /\ connection_time (exch_of z_iet z_lens) 2 0 0.
Proof.
  assert (L0 : lamR z_lens 0 = 7%R) by (vm_compute; lra). assert (L1 : lamR z_lens 1 = 5%R) by (vm_compute; lra).
  assert (L2 : lamR z_lens 2 = 3%R) by (vm_compute; lra). assert (L3 : lamR z_lens 3 = 4%R) by (vm_compute; lra).
  assert (Rt : forall t y, right_end (e_len (exch_of z_iet z_lens)) [0; 1; 2; 3] t y -> y = 7%R \/ y = 12%R \/ y = 15%R \/ y = 19%R).
  { intros t y (X & Y & E & ->). cbn [exch_of e_len]. destruct X as [|? [|? [|? [|? [|? X]]]]]; try discriminate E;
      injection E; intros; subst; cbn [total]; rewrite ?L0, ?L1, ?L2, ?L3; [left|right; left|right; right; left|right; right; right]; lra. }
  assert (NS : forall y, (y <> 7 /\ y <> 12 /\ y <> 15 /\ y <> 19)%R -> ~ singular (exch_of z_iet z_lens) y).
  { intros y N (t & Ht). destruct (Rt t y Ht) as [->|[->|[->| ->]]]; lra. }
  assert (M0 : forall y, (0 <= y < 7)%R -> maps (exch_of z_iet z_lens) y (y + 12)).
  { intros y Hy. exists 0, 0%R, 12%R, 7%R. split; [exists [], [1; 2; 3]; cbn [exch_of e_len e_top total]; rewrite ?L0; repeat split; lra|].
    split; [exists [3; 2; 1], []; cbn [exch_of e_len e_bot total]; rewrite ?L0, ?L1, ?L2, ?L3; repeat split; lra|]. lra. }
  assert (M2 : forall y, (12 <= y < 15)%R -> maps (exch_of z_iet z_lens) y (y - 8)).
  { intros y Hy. exists 2, 12%R, 4%R, 3%R. split; [exists [0; 1], [3]; cbn [exch_of e_len e_top total]; rewrite ?L0, ?L1, ?L2; repeat split; lra|].
    split; [exists [3], [1; 0]; cbn [exch_of e_len e_bot total]; rewrite ?L2, ?L3; repeat split; lra|]. lra. }
  assert (M3 : forall y, (15 <= y < 19)%R -> maps (exch_of z_iet z_lens) y (y - 15)).
  { intros y Hy. exists 3, 15%R, 0%R, 4%R. split; [exists [0; 1; 2], []; cbn [exch_of e_len e_top total]; rewrite ?L0, ?L1, ?L2, ?L3; repeat split; lra|].
    split; [exists [], [2; 1; 0]; cbn [exch_of e_len e_bot total]; rewrite ?L3; repeat split; lra|]. lra. }
  split; [|split].
  - exists 12%R, 12%R. split; [exists [3; 2], [0]; cbn [exch_of e_len total]; rewrite ?L1, ?L2, ?L3; split; [reflexivity|lra]|].
    split; [exists [0], [2; 3]; cbn [exch_of e_len total]; rewrite ?L0, ?L1; split; [reflexivity|lra]|].
    cbn [exch_of e_len e_top e_bot z_iet fresh i_top i_bottom total]. rewrite ?L0, ?L1, ?L2, ?L3. split; [lra|]. split; [lra|]. reflexivity.
  - exists 4%R, 15%R. split; [exists [], [2; 1; 0]; cbn [exch_of e_len total]; rewrite ?L3; split; [reflexivity|lra]|].
    split; [exists [0; 1], [3]; cbn [exch_of e_len total]; rewrite ?L0, ?L1, ?L2; split; [reflexivity|lra]|].
    cbn [exch_of e_len e_top e_bot z_iet fresh i_top i_bottom total]. rewrite ?L0, ?L1, ?L2, ?L3. split; [lra|]. split; [lra|].
    do 3 (eexists; split; [split; [apply NS; lra|apply M0; lra]|]; eexists; split; [split; [apply NS; lra|first [apply M3; lra|apply M2; lra]]|];
      eexists; split; [split; [apply NS; lra|apply M0; lra]|]; try (eexists; split; [split; [apply NS; lra|apply M2; lra]|])). cbn. lra.
  - exists 7%R, 7%R. split; [exists [3], [1; 0]; cbn [exch_of e_len total]; rewrite ?L2, ?L3; split; [reflexivity|lra]|].
    split; [exists [], [1; 2; 3]; cbn [exch_of e_len total]; rewrite ?L0; split; [reflexivity|lra]|].
    cbn [exch_of e_len e_top e_bot z_iet fresh i_top i_bottom total]. rewrite ?L0, ?L1, ?L2, ?L3. split; [lra|]. split; [lra|]. reflexivity.
Qed.

Example C103_example : exists tr d Ts t t', decomposition z_iet z_lens tr d /\ map tw_base Ts = exchanges d /\ towers (exch_of z_iet z_lens) Ts /\ Ts = [t; t'] /\
  cylinder_sides d 0 [up_ 1 1] [down_ 0 2] /\ cylinder_sides d 1 [up_ 3 2; up_ 2 0] [down_ 2 3; down_ 1 1] /\
  e_top (tw_base t) = [1] /\ tw_height t 1 = 1 /\ ~ floor_ends (exch_of z_iet z_lens) t 1 3 /\
  e_top (tw_base t') = [3] /\ tw_height t' 3 = 14 /\ floor_ends (exch_of z_iet z_lens) t' 3 3.
Proof.
  destruct (after_history z_iet z_lens [0; 0; 1] (fun tr d => length (d_comps d) = 2 /\
    match d_comps d with [x; y] => i_top (dc_iet x) = [1] /\ i_top (dc_iet y) = [3] | _ => False end /\
    he_cross d (mkhe 0 1 false) = Ok (SEdge (mkhe 0 1 false) :: [SConn (up_ 1 1)]) /\ he_cross d (mkhe 0 1 true) = Ok (SEdge (mkhe 0 1 true) :: [SConn (down_ 0 2)]) /\
    he_cross d (mkhe 1 3 false) = Ok (SConn (down_ 1 1) :: SEdge (mkhe 1 3 false) :: [SConn (up_ 3 2); SConn (up_ 2 0)]) /\
    he_cross d (mkhe 1 3 true) = Ok (SEdge (mkhe 1 3 true) :: [SConn (down_ 2 3)])) z_obtainable) as (tr & d & H & N & S & E1 & E2 & E3 & E4).
  { vm_compute. repeat split. }
  destruct (claim_C103_period _ _ _ z_iet z_lens tr d H) as (Ts & E & HT & R). destruct C103_time_example as (T1 & T2 & T3).
  assert (U : forall b u n n', connection_time (exch_of z_iet z_lens) b u n -> connection_time (exch_of z_iet z_lens) b u n' -> n = n') by (intros b u n n'; exact (claim_C103_time _ _ _ z_iet z_lens tr d b u n n' H)).
  assert (Hs : cylinder_sides d 0 [up_ 1 1] [down_ 0 2]).
  { destruct (d_comps d) as [|x [|y [|? ?]]] eqn:Ed; try contradiction. exists x, 1, [], [up_ 1 1], [], [down_ 0 2].
    split; [unfold component; rewrite Ed; reflexivity|]. split; [apply S|]. split; [exact E1|]. split; [exact E2|]. split; reflexivity. }
  assert (Hs' : cylinder_sides d 1 [up_ 3 2; up_ 2 0] [down_ 2 3; down_ 1 1]).
  { destruct (d_comps d) as [|x [|y [|? ?]]] eqn:Ed; try contradiction. exists y, 3, [down_ 1 1], [up_ 3 2; up_ 2 0], [], [down_ 2 3].
    split; [unfold component; rewrite Ed; reflexivity|]. split; [apply S|]. split; [exact E3|]. split; [exact E4|]. split; reflexivity. }
  assert (Len : length Ts = 2) by (rewrite <- (map_length tw_base), E; unfold exchanges; rewrite map_length; exact N).
  destruct Ts as [|t [|t' [|? ?]]]; try discriminate.
  destruct (R 0 _ _ t Hs eq_refl) as (l & ns & N1 & El & F & A & _ & Op & Hh & _). destruct (R 1 _ _ t' Hs' eq_refl) as (l' & ns' & N2 & El' & F' & _ & A' & Op' & Hh' & _).
  assert (Eb : l = 1 /\ l' = 3).
  { unfold exchanges in E. destruct (d_comps d) as [|x [|y [|? ?]]] eqn:Ed; try contradiction. cbn [map] in E. injection E as Ex Ey.
    rewrite Ex in El. rewrite Ey in El'. destruct S as (Sx & Sy). cbn in El, El'. rewrite Sx in El. rewrite Sy in El'. injection El as <-. injection El' as <-. auto. }
  destruct Eb as [-> ->]. change (last (i_top z_iet) 0) with 3 in *.
  assert (O1 : ~ floor_ends (exch_of z_iet z_lens) t 1 3) by (intros Z; apply Op in Z; discriminate Z). assert (O2 : floor_ends (exch_of z_iet z_lens) t' 3 3) by (apply Op'; reflexivity).
  rewrite (A O1) in Hh. rewrite (A' O2) in Hh'.
  exists tr, d, [t; t'], t, t'. split; [exact H|]. split; [exact E|]. split; [exact HT|]. split; [reflexivity|]. split; [exact Hs|]. split; [exact Hs'|].
  split; [exact El|]. split; [|split; [exact O1|split; [exact El'|split; [|exact O2]]]].
  - inversion F as [|k n ks ns1 (b & u & Ek & Z) F1]; subst. inversion F1; subst. injection Ek as <- <-. rewrite Hh, (U _ _ _ _ Z T1). reflexivity.
  - inversion F' as [|k n ks ns1 (b & u & Ek & Z) F1]; subst. inversion F1 as [|k' n' ks' ns2 (b' & u' & Ek' & Z') F2]; subst. inversion F2; subst.
    injection Ek as <- <-. injection Ek' as <- <-. rewrite Hh', (U _ _ _ _ Z T2), (U _ _ _ _ Z' T3). reflexivity.
Qed.

(** Before the last step the other component is no cylinder, but the first one is there already. *)
Example C103_same_example : exists tr d tr' d', decomposition z_iet z_lens tr d /\ decomposition z_iet z_lens tr' d' /\
  cylinder_sides d 0 [up_ 1 1] [down_ 0 2] /\ cylinder_sides d' 0 [up_ 1 1] [down_ 0 2] /\ length (d_comps d) = 2 /\ length (d_comps d') = 2 /\
  (exists x, component d 1 x /\ i_top (dc_iet x) = [2; 3]) /\ (exists x, component d' 1 x /\ i_top (dc_iet x) = [3]).
Proof.
  destruct (after_history z_iet z_lens [0; 0] (fun tr d => match d_comps d with [x; y] => i_top (dc_iet x) = [1] /\ i_top (dc_iet y) = [2; 3] | _ => False end /\
    he_cross d (mkhe 0 1 false) = Ok (SEdge (mkhe 0 1 false) :: [SConn (up_ 1 1)]) /\ he_cross d (mkhe 0 1 true) = Ok (SEdge (mkhe 0 1 true) :: [SConn (down_ 0 2)])) z_obtainable) as (tr & d & H & S & E1 & E2).
  { vm_compute. repeat split. }
  destruct (after_history z_iet z_lens [0; 0; 1] (fun tr d => match d_comps d with [x; y] => i_top (dc_iet x) = [1] /\ i_top (dc_iet y) = [3] | _ => False end /\
    he_cross d (mkhe 0 1 false) = Ok (SEdge (mkhe 0 1 false) :: [SConn (up_ 1 1)]) /\ he_cross d (mkhe 0 1 true) = Ok (SEdge (mkhe 0 1 true) :: [SConn (down_ 0 2)])) z_obtainable) as (tr' & d' & H' & S' & E1' & E2').
  { vm_compute. repeat split. }
  exists tr, d, tr', d'. split; [exact H|]. split; [exact H'|].
  destruct (d_comps d) as [|x [|y [|? ?]]] eqn:Ed; try contradiction. destruct (d_comps d') as [|x' [|y' [|? ?]]] eqn:Ed'; try contradiction. destruct S as (Sx & Sy), S' as (Sx' & Sy').
  split; [exists x, 1, [], [up_ 1 1], [], [down_ 0 2]; split; [unfold component; rewrite Ed; reflexivity|auto 6]|].
  split; [exists x', 1, [], [up_ 1 1], [], [down_ 0 2]; split; [unfold component; rewrite Ed'; reflexivity|auto 6]|].
  split; [reflexivity|]. split; [reflexivity|]. split; [exists y|exists y']; (split; [unfold component; rewrite ?Ed, ?Ed'; reflexivity|assumption]).
Qed.
