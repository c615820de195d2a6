(** Property C102: the connections on the right of a cylinder are where its points end.

    [decomposition i s tr d] ([DecApi]): [d] is any state that a program can reach with a
    decomposition of the IET [i] with lengths [s].  [towers] is specified in [SpecTower],
    [floor_ends] in [SpecRim], [same_points] and [same_cylinder] in [SpecCanon], [exchanges] and [resolved]
    in [CanonApi], [cylinder_sides] in [SidesApi], [rotation] in [SpecSides]. *)
From Coq Require Import Reals Permutation List ZArith.
From Verif Require Import Base LenT FM Subspace Lengths IET LenInst Sqrt2 Decomp Spec SpecDec SpecTower SpecCanon SpecRim SpecSides Api DecApi CanonApi SidesApi Fixtures DecFixtures.
From Verif Require Import ClaimsDecomp ClaimsSides ClaimsRim.
Open Scope nat_scope.

(** ** C102: The right side of a cylinder is where its points end. *)


(** The towers over the components can be chosen such that for every cylinder: a connection on the right
    ends at the right end of the top interval [u] if and only if a floor of the cylinder ends there, and a
    connection on the right starts at the right end of the bottom interval [b] if and only if a floor ends at
    the right end of the top interval [b].  (The right ends of the two rows are no singularities.) *)
Theorem C102_right : forall (T : Type) (O : LenOps T) (W : LenLaws T) (i : iet T) (s : slen T) tr d,
  decomposition i s tr d ->
  exists Ts, map tw_base Ts = exchanges d /\ towers (exch_of i s) Ts /\
    forall c right left t, cylinder_sides d c right left -> nth_error Ts c = Some t ->
    exists l, e_top (tw_base t) = [l] /\
      (forall u, u <> last (i_top i) 0 ->
        ((exists b, In (mkconn (mksep b PARALLEL) (mksep u ANTIPARALLEL)) right) <-> floor_ends (exch_of i s) t l u)) /\
      (forall b, b <> last (i_bottom i) 0 ->
        ((exists u, In (mkconn (mksep b PARALLEL) (mksep u ANTIPARALLEL)) right) <-> floor_ends (exch_of i s) t l b)).
Proof. exact claim_C102_right. Qed.
Print Assumptions C102_right.

(** The same for the intervals of all components: when one crosses the half edge of the interval [a] at the bottom,
    the connections behind it end at the right ends of those top intervals, other than [a], at which the
    floors of the column of [a] end.  (Only the last interval at the bottom of a component can also have
    a connection to its last interval on top, at the right end of the component.)
    And each top interval of the original IET is the end of a single column. *)
Theorem C102_columns : forall (T : Type) (O : LenOps T) (W : LenLaws T) (i : iet T) (s : slen T) tr d,
  decomposition i s tr d ->
  exists Ts, map tw_base Ts = exchanges d /\ towers (exch_of i s) Ts /\
    (forall c x t a lb rb, component d c x -> nth_error Ts c = Some t -> In a (i_bottom (dc_iet x)) ->
      he_cross d (mkhe c a false) = Ok (map SConn lb ++ SEdge (mkhe c a false) :: map SConn rb) ->
      forall u, a <> last (i_bottom (dc_iet x)) 0 \/ u <> last (i_top (dc_iet x)) 0 ->
      (exists b, In (mkconn (mksep b PARALLEL) (mksep u ANTIPARALLEL)) rb) <-> u <> a /\ floor_ends (exch_of i s) t a u) /\
    (forall u, In u (i_top i) -> exists c t a, nth_error Ts c = Some t /\ In a (e_top (tw_base t)) /\ floor_ends (exch_of i s) t a u /\
      forall c' t' a', nth_error Ts c' = Some t' -> floor_ends (exch_of i s) t' a' u -> t' = t /\ a' = a).
Proof. exact claim_C102_columns. Qed.
Print Assumptions C102_columns.

(** So the sides are determined by the points: two decompositions of the same IET, and cylinders
    that consist of the same points, have the same right side.  Conversely, when all periodic
    points are in cylinders, two cylinders that have a connection on the right in common are the same. *)
Theorem C102_same : forall (T : Type) (O : LenOps T) (W : LenLaws T) (i : iet T) (s : slen T) tr d tr' d',
  decomposition i s tr d -> decomposition i s tr' d' ->
  exists Ts Ts', map tw_base Ts = exchanges d /\ towers (exch_of i s) Ts /\ map tw_base Ts' = exchanges d' /\ towers (exch_of i s) Ts' /\
    forall c right left t c' right' left' t', cylinder_sides d c right left -> nth_error Ts c = Some t ->
      cylinder_sides d' c' right' left' -> nth_error Ts' c' = Some t' ->
    (same_points (exch_of i s) t t' -> rotation right right') /\
    (resolved (exchanges d) -> resolved (exchanges d') -> forall k, In k right -> In k right' -> same_cylinder (exch_of i s) t t').
Proof. exact claim_C102_same. Qed.
Print Assumptions C102_same.

Definition up_ (a b : label) : connection := mkconn (mksep a PARALLEL) (mksep b ANTIPARALLEL).
Definition down_ (a b : label) : connection := mkconn (mksep a ANTIPARALLEL) (mksep b PARALLEL).

(** Lengths seven, five, three and four (C101): the floors of the first cylinder end at the right end of the
    top interval 1 only, the ones of the second one at the right ends of 0, 2, and 3.  The latter one is
    the right end of everything. *)
Example C102_example : exists tr d Ts t t', decomposition z_iet z_lens tr d /\ exchanges d = map tw_base Ts /\ towers (exch_of z_iet z_lens) Ts /\
  Ts = [t; t'] /\ e_top (tw_base t) = [1] /\ e_top (tw_base t') = [3] /\
  floor_ends (exch_of z_iet z_lens) t 1 1 /\ ~ floor_ends (exch_of z_iet z_lens) t 1 2 /\
  floor_ends (exch_of z_iet z_lens) t' 3 2 /\ floor_ends (exch_of z_iet z_lens) t' 3 0 /\ ~ floor_ends (exch_of z_iet z_lens) t' 3 1.
Proof.
  destruct (after_history z_iet z_lens [0; 0; 1] (fun tr d => length (d_comps d) = 2 /\
    match d_comps d with [x; y] => i_top (dc_iet x) = [1] /\ i_top (dc_iet y) = [3] | _ => False end /\
    he_cross d (mkhe 0 1 false) = Ok (SEdge (mkhe 0 1 false) :: [SConn (up_ 1 1)]) /\ he_cross d (mkhe 0 1 true) = Ok (SEdge (mkhe 0 1 true) :: [SConn (down_ 0 2)]) /\
    he_cross d (mkhe 1 3 false) = Ok (SConn (down_ 1 1) :: SEdge (mkhe 1 3 false) :: [SConn (up_ 3 2); SConn (up_ 2 0)]) /\
    he_cross d (mkhe 1 3 true) = Ok (SEdge (mkhe 1 3 true) :: [SConn (down_ 2 3)])) z_obtainable) as (tr & d & H & N & S & E1 & E2 & E3 & E4).
  { vm_compute. repeat split. }
  destruct (claim_C102_right _ _ _ z_iet z_lens tr d H) as (Ts & E & HT & R).
  assert (Hs : cylinder_sides d 0 [up_ 1 1] [down_ 0 2]).
  { destruct (d_comps d) as [|x [|y [|? ?]]] eqn:Ed; try contradiction. exists x, 1, [], [up_ 1 1], [], [down_ 0 2].
    split; [unfold component; rewrite Ed; reflexivity|]. split; [apply S|]. split; [exact E1|]. split; [exact E2|]. split; reflexivity. }
  assert (Hs' : cylinder_sides d 1 [up_ 3 2; up_ 2 0] [down_ 2 3; down_ 1 1]).
  { destruct (d_comps d) as [|x [|y [|? ?]]] eqn:Ed; try contradiction. exists y, 3, [down_ 1 1], [up_ 3 2; up_ 2 0], [], [down_ 2 3].
    split; [unfold component; rewrite Ed; reflexivity|]. split; [apply S|]. split; [exact E3|]. split; [exact E4|]. split; reflexivity. }
  assert (Len : length Ts = 2) by (rewrite <- (map_length tw_base), E; unfold exchanges; rewrite map_length; exact N).
  destruct Ts as [|t [|t' [|? ?]]]; try discriminate.
  destruct (R 0 _ _ t Hs eq_refl) as (l & El & A & _). destruct (R 1 _ _ t' Hs' eq_refl) as (l' & El' & A' & _).
  assert (Eb : l = 1 /\ l' = 3).
  { unfold exchanges in E. destruct (d_comps d) as [|x [|y [|? ?]]] eqn:Ed; try contradiction. cbn [map] in E. injection E as Ex Ey.
    rewrite Ex in El. rewrite Ey in El'. destruct S as (Sx & Sy). cbn in El, El'. rewrite Sx in El. rewrite Sy in El'. injection El as <-. injection El' as <-. auto. }
  destruct Eb as [-> ->].
  exists tr, d, [t; t'], t, t'. split; [exact H|]. split; [symmetry; exact E|]. split; [exact HT|]. split; [reflexivity|]. split; [exact El|]. split; [exact El'|].
  split; [apply (A 1); [discriminate|exists 1; left; reflexivity]|].
  split; [intros F; apply (A 2) in F; [destruct F as (b & [F|[]]); discriminate F|discriminate]|].
  split; [apply (A' 2); [discriminate|exists 3; left; reflexivity]|].
  split; [apply (A' 0); [discriminate|exists 2; right; left; reflexivity]|].
  intros F. apply (A' 1) in F; [destruct F as (b & [F|[F|[]]]); discriminate F|discriminate].
Qed.

(** After a single step there is one component with three intervals.  The column of 2 ends at the right end of 2
    and at the one of 0, which is no label of the component anymore. *)
Example C102_columns_example : exists tr d Ts t, decomposition z_iet z_lens tr d /\ Ts = [t] /\ map tw_base Ts = exchanges d /\ towers (exch_of z_iet z_lens) Ts /\
  e_top (tw_base t) = [1; 2; 3] /\ he_cross d (mkhe 0 2 false) = Ok (SEdge (mkhe 0 2 false) :: [SConn (up_ 2 0)]) /\
  floor_ends (exch_of z_iet z_lens) t 2 0 /\ ~ floor_ends (exch_of z_iet z_lens) t 2 1 /\ ~ floor_ends (exch_of z_iet z_lens) t 3 0.
Proof.
  destruct (after_history z_iet z_lens [0] (fun tr d =>
    match d_comps d with [x] => i_top (dc_iet x) = [1; 2; 3] /\ i_bottom (dc_iet x) = [1; 3; 2] | _ => False end /\
    he_cross d (mkhe 0 2 false) = Ok (SEdge (mkhe 0 2 false) :: [SConn (up_ 2 0)]) /\ he_cross d (mkhe 0 3 false) = Ok [SEdge (mkhe 0 3 false)]) z_obtainable) as (tr & d & H & S & E1 & E2).
  { vm_compute. repeat split. }
  destruct (claim_C102_columns _ _ _ z_iet z_lens tr d H) as (Ts & E & HT & R & _).
  destruct (d_comps d) as [|x [|? ?]] eqn:Ed; try contradiction. destruct S as (S1 & S2).
  assert (Hx : component d 0 x) by (unfold component; rewrite Ed; reflexivity).
  pose proof E as E'. unfold exchanges in E'. rewrite Ed in E'. destruct Ts as [|t [|? ?]]; try discriminate. cbn [map] in E'. injection E' as Eb.
  assert (I2 : In 2 (i_bottom (dc_iet x))) by (rewrite S2; right; right; left; reflexivity).
  assert (I3 : In 3 (i_bottom (dc_iet x))) by (rewrite S2; right; left; reflexivity).
  pose proof (R 0 x t 2 [] [up_ 2 0] Hx eq_refl I2 E1) as R2. pose proof (R 0 x t 3 [] [] Hx eq_refl I3 E2) as R3. rewrite S1, S2 in R2, R3.
  exists tr, d, [t], t. split; [exact H|]. split; [reflexivity|]. split; [exact E|]. split; [exact HT|].
  split; [rewrite Eb; exact S1|]. split; [exact E1|].
  split; [apply (R2 0); [right; discriminate|exists 2; left; reflexivity]|]. split; intros F.
  - assert (N1 : 2 <> last [1; 3; 2] 0 \/ 1 <> last [1; 2; 3] 0) by (right; discriminate).
    assert (N2 : 1 <> 2) by discriminate. destruct (proj2 (R2 1 N1) (conj N2 F)) as (b & Q).
    destruct Q as [Q|Q]; [discriminate Q|destruct Q].
  - assert (N3 : 3 <> last [1; 3; 2] 0 \/ 0 <> last [1; 2; 3] 0) by (left; discriminate).
    assert (N0 : 0 <> 3) by discriminate. destruct (proj2 (R3 0 N3) (conj N0 F)) as (b & Q). destruct Q.
Qed.
