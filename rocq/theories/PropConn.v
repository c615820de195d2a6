(** Property C86: the components of a decomposition form one connected surface.

    [decomposition i s tr d] ([DecApi]): [d] is any state that a program can reach with a
    decomposition of the IET [i] with lengths [s].  [beside] ([ConnApi]): two components have a
    connection in common. *)
From Coq Require Import Reals Permutation.
From Verif Require Import Base LenT FM Subspace Lengths IET LenInst Sqrt2 Decomp Spec SpecDec Api DecApi ConnApi Fixtures DecFixtures.
From Verif Require Import ClaimsConn.
Open Scope nat_scope.

(** ** C86: The components form one connected surface. *)

(** From each component one gets to each other one by crossing connections. *)
Theorem C86_connected : forall (T : Type) (O : LenOps T) (W : LenLaws T) (i : iet T) (s : slen T) tr d c x c' x',
  decomposition i s tr d -> component d c x -> component d c' x' -> exists n, iter (beside d) n c c'.
Proof. exact claim_C86_connected. Qed.
Print Assumptions C86_connected.

(** All perimeters together have twice as many sides as there are labels in the IET and
    components, less one: the number of glued sides minus the number of components never changes. *)
Theorem C86_sides : forall (T : Type) (O : LenOps T) (W : LenLaws T) (i : iet T) (s : slen T) tr d,
  decomposition i s tr d ->
  exists ps, mapM (comp_perimeter d) (seq 0 (length (d_comps d))) = Ok ps /\
    length (concat ps) + 2 = 2 * (length (i_top i) + length (d_comps d)).
Proof. exact claim_C86_sides. Qed.
Print Assumptions C86_sides.

(** There are not more components than labels. *)
Theorem C86_components : forall (T : Type) (O : LenOps T) (W : LenLaws T) (i : iet T) (s : slen T) tr d,
  decomposition i s tr d -> 1 <= length (d_comps d) <= length (i_top i).
Proof. exact claim_C86_components. Qed.
Print Assumptions C86_components.

(** Here a minimal component with two intervals and a cylinder are left; they have a connection in
    common. *)
Example C86_example : exists tr d, decomposition m_iet m_lens tr d /\ length (d_comps d) = 2 /\
  (exists p q, comp_perimeter d 0 = Ok p /\ comp_perimeter d 1 = Ok q /\ length p = 6 /\ length q = 6) /\ beside d 0 1.
Proof.
  apply (after_history _ _ [0; 0; 1]); [exact m_obtainable|]. vm_compute. split; [reflexivity|]. split; [do 2 eexists; repeat split|].
  do 2 eexists. exists (mkconn (mksep 0 PARALLEL) (mksep 2 ANTIPARALLEL)). split; [reflexivity|]. split; [reflexivity|]. split; vm_compute; tauto.
Qed.
