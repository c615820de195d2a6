(** Property C101: the sides of a cylinder do not depend on the way in which it is found.

    [decomposition i s tr d] ([DecApi]): [d] is any state that a program can reach with a
    decomposition of the IET [i] with lengths [s].  [cylinder_sides] is specified in
    [SidesApi], [cyclically] and [rotation] in [SpecSides], [turn] in [SpecGlue]; [turn] only refers
    to the two rows of the original IET. *)
From Coq Require Import Reals Permutation List ZArith.
From Verif Require Import Base LenT FM Subspace Lengths IET LenInst Sqrt2 Decomp Spec SpecDec SpecGlue SpecSides Api DecApi SidesApi Fixtures DecFixtures.
From Verif Require Import ClaimsDecomp ClaimsSides.
Open Scope nat_scope.

(** ** C101: The sides of a cylinder are always the same. *)


(** Each component with a single interval has sides, and they can be read off in one way only;
    its perimeter consists of the two half edges and of these sides. *)
Theorem C101_sides : forall (T : Type) (O : LenOps T) (W : LenLaws T) (i : iet T) (s : slen T) tr d c x,
  decomposition i s tr d -> component d c x -> length (i_top (dc_iet x)) = 1 ->
  exists right left p, cylinder_sides d c right left /\
    (forall right' left', cylinder_sides d c right' left' -> right' = right /\ left' = left) /\
    comp_perimeter d c = Ok p /\ length p = 2 + length right + length left /\
    forall k, In (SConn k) p <-> In k right \/ In k left.
Proof. exact claim_C101_sides. Qed.
Print Assumptions C101_sides.

(** The connections on the right go up, the ones on the left go down, and all are saddle connections of the
    original IET.  One gets around each side turning at the vertices: behind the connection that ends in the
    separatrix [r] comes the one that starts in the separatrix that [r] follows around the
    vertex.  This also holds from the last one to the first one. *)
Theorem C101_walk : forall (T : Type) (O : LenOps T) (W : LenLaws T) (i : iet T) (s : slen T) tr d c right left,
  decomposition i s tr d -> cylinder_sides d c right left ->
  (forall k, In k right -> exists b t, k = mkconn (mksep b PARALLEL) (mksep t ANTIPARALLEL) /\ direct_connection (exch_of i s) b t) /\
  (forall k, In k left -> exists b t, k = mkconn (mksep t ANTIPARALLEL) (mksep b PARALLEL) /\ direct_connection (exch_of i s) b t) /\
  forall k k', cyclically right k k' \/ cyclically left k k' ->
    turn (fun b => mksep b PARALLEL) (fun t => mksep t ANTIPARALLEL) (i_top i) (i_bottom i) (cn_source k') (cn_target k).
Proof. exact claim_C101_walk. Qed.
Print Assumptions C101_walk.

(** Two decompositions of the same IET: if a cylinder of the one and a cylinder of the other one have a
    connection on the right in common, then they have the same connections on the right, in the same
    cyclic order.  The same holds for the left. *)
Theorem C101_same : forall (T : Type) (O : LenOps T) (W : LenLaws T) (i : iet T) (s : slen T) tr d c right left tr' d' c' right' left',
  decomposition i s tr d -> decomposition i s tr' d' -> cylinder_sides d c right left -> cylinder_sides d' c' right' left' ->
  (forall k, In k right -> In k right' -> rotation right right') /\ (forall k, In k left -> In k left' -> rotation left left').
Proof. exact claim_C101_same. Qed.
Print Assumptions C101_same.

(** Once there are only cylinders in the second decomposition, it has the sides of all the cylinders that
    the first one has found. *)
Theorem C101_all : forall (T : Type) (O : LenOps T) (W : LenLaws T) (i : iet T) (s : slen T) tr d c right left tr' d',
  decomposition i s tr d -> decomposition i s tr' d' -> cylinder_sides d c right left ->
  (forall c x, component d' c x -> length (i_top (dc_iet x)) = 1) ->
  (right <> [] -> exists c' right' left', cylinder_sides d' c' right' left' /\ rotation right right') /\
  (left <> [] -> exists c' right' left', cylinder_sides d' c' right' left' /\ rotation left left').
Proof. exact claim_C101_all. Qed.
Print Assumptions C101_all.

Definition up_ (a b : label) : connection := mkconn (mksep a PARALLEL) (mksep b ANTIPARALLEL).
Definition down_ (a b : label) : connection := mkconn (mksep a ANTIPARALLEL) (mksep b PARALLEL).

(** Lengths seven, five, three and four: two cylinders.  The right side of the second one closes up at the
    right end of the IET: behind the connection from 2 to 0 comes the one from 3 to 2. *)
Example C101_example : exists tr d, decomposition z_iet z_lens tr d /\
  (forall c x, component d c x -> length (i_top (dc_iet x)) = 1) /\
  cylinder_sides d 0 [up_ 1 1] [down_ 0 2] /\ cylinder_sides d 1 [up_ 3 2; up_ 2 0] [down_ 2 3; down_ 1 1] /\
  cyclically [up_ 3 2; up_ 2 0] (up_ 2 0) (up_ 3 2) /\
  turn (fun b => mksep b PARALLEL) (fun t => mksep t ANTIPARALLEL) (i_top z_iet) (i_bottom z_iet) (mksep 3 PARALLEL) (mksep 0 ANTIPARALLEL).
Proof.
  destruct (after_history z_iet z_lens [0; 0; 1] (fun tr d => map (fun x => length (i_top (dc_iet x))) (d_comps d) = [1; 1] /\
    match d_comps d with [x; y] => i_top (dc_iet x) = [1] /\ i_top (dc_iet y) = [3] | _ => False end /\
    he_cross d (mkhe 0 1 false) = Ok (SEdge (mkhe 0 1 false) :: [SConn (up_ 1 1)]) /\ he_cross d (mkhe 0 1 true) = Ok (SEdge (mkhe 0 1 true) :: [SConn (down_ 0 2)]) /\
    he_cross d (mkhe 1 3 false) = Ok (SConn (down_ 1 1) :: SEdge (mkhe 1 3 false) :: [SConn (up_ 3 2); SConn (up_ 2 0)]) /\
    he_cross d (mkhe 1 3 true) = Ok (SEdge (mkhe 1 3 true) :: [SConn (down_ 2 3)])) z_obtainable) as (tr & d & H & N & S & E1 & E2 & E3 & E4).
  { vm_compute. repeat split. }
  exists tr, d. split; [exact H|]. split; [|split; [|split; [|split]]].
  - intros c x Hx. apply nth_error_In, (in_map (fun x => length (i_top (dc_iet x)))) in Hx. rewrite N in Hx. destruct Hx as [Hx|[Hx|[]]]; symmetry; exact Hx.
  - destruct (d_comps d) as [|x [|y [|? ?]]] eqn:Ed; try contradiction. exists x, 1, [], [up_ 1 1], [], [down_ 0 2].
    split; [unfold component; rewrite Ed; reflexivity|]. split; [apply S|]. split; [exact E1|]. split; [exact E2|]. split; reflexivity.
  - destruct (d_comps d) as [|x [|y [|? ?]]] eqn:Ed; try contradiction. exists y, 3, [down_ 1 1], [up_ 3 2; up_ 2 0], [], [down_ 2 3].
    split; [unfold component; rewrite Ed; reflexivity|]. split; [apply S|]. split; [exact E3|]. split; [exact E4|]. split; reflexivity.
  - right. exists [up_ 2 0]. split; reflexivity.
  - apply (turn_up_end (fun b => mksep b PARALLEL) (fun t => mksep t ANTIPARALLEL) [0; 1; 2; 3] [3; 2; 1; 0] 3 0).
    + exists [], 2, [1; 0]. reflexivity.
    + exists [0; 1; 2]. reflexivity.
    + exists [3; 2; 1]. reflexivity.
Qed.

(** One step earlier only one of the cylinders has been found.  It has the same sides. *)
Example C101_early_example : exists tr d, decomposition z_iet z_lens tr d /\
  cylinder_sides d 0 [up_ 1 1] [down_ 0 2] /\ exists x, component d 1 x /\ length (i_top (dc_iet x)) = 2.
Proof.
  destruct (after_history z_iet z_lens [0; 0] (fun tr d =>
    match d_comps d with [x; y] => i_top (dc_iet x) = [1] /\ length (i_top (dc_iet y)) = 2 | _ => False end /\
    he_cross d (mkhe 0 1 false) = Ok (SEdge (mkhe 0 1 false) :: [SConn (up_ 1 1)]) /\ he_cross d (mkhe 0 1 true) = Ok (SEdge (mkhe 0 1 true) :: [SConn (down_ 0 2)])) z_obtainable) as (tr & d & H & S & E1 & E2).
  { vm_compute. repeat split. }
  exists tr, d. split; [exact H|]. destruct (d_comps d) as [|x [|y [|? ?]]] eqn:Ed; try contradiction. split.
  - exists x, 1, [], [up_ 1 1], [], [down_ 0 2]. split; [unfold component; rewrite Ed; reflexivity|]. split; [apply S|]. split; [exact E1|]. split; [exact E2|]. split; reflexivity.
  - exists y. split; [unfold component; rewrite Ed; reflexivity|apply S].
Qed.
