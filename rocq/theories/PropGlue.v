(** Property C85: how the components of a decomposition fit together.

    [decomposition i s tr d] ([DecApi]): [d] is any state that a program can reach with a
    decomposition of the IET [i] with lengths [s].  [boundary] ([GlueApi]) walks around a component with
    the public interface; [item], [next], [polygon], [turn], [glued] are specified in [SpecGlue].
    At the right end of the interval [b] on the bottom there is the separatrix [b PARALLEL], at
    the right end of [t] on the top there is [t ANTIPARALLEL]. *)
From Coq Require Import Reals Permutation.
From Verif Require Import Base LenT FM Subspace Lengths IET LenInst Sqrt2 Decomp Spec SpecDec SpecGlue Api DecApi GlueApi Fixtures DecFixtures.
From Verif Require Import ClaimsGlue.
Open Scope nat_scope.

(** ** C85: The components are glued to the surface of the original IET. *)

(** The sides of the boundary of a component are those of its perimeter, in the same
    cyclic order. *)
Theorem C85_boundary : forall (T : Type) (O : LenOps T) (W : LenLaws T) (i : iet T) (s : slen T) tr d c x,
  decomposition i s tr d -> component d c x ->
  exists w p q, boundary d c = Ok w /\ comp_perimeter d c = Ok (p ++ q) /\ filter is_side w = map as_item (q ++ p).
Proof. exact claim_C85_boundary. Qed.
Print Assumptions C85_boundary.

(** Over all components, each side occurs once, and so does the side to which it is glued. *)
Theorem C85_sides : forall (T : Type) (O : LenOps T) (W : LenLaws T) (i : iet T) (s : slen T) tr d,
  decomposition i s tr d ->
  exists Ws, boundaries d = Ok Ws /\ NoDup (filter is_side (concat Ws)) /\
    forall x, In x (filter is_side (concat Ws)) -> In (glued x) (filter is_side (concat Ws)).
Proof. exact claim_C85_sides. Qed.
Print Assumptions C85_sides.

(** Gluing the sides gives a surface with the same vertices: around them the separatrices come in the same cyclic order as
    for the polygon of the original IET. *)
Theorem C85_fit : forall (T : Type) (O : LenOps T) (W : LenLaws T) (i : iet T) (s : slen T) tr d Ws r r',
  decomposition i s tr d -> boundaries d = Ok Ws ->
  next Ws r r' <-> next [polygon (fun b => mksep b PARALLEL) (fun t => mksep t ANTIPARALLEL) (i_top i) (i_bottom i)] r r'.
Proof. exact claim_C85_fit. Qed.
Print Assumptions C85_fit.

(** The same in terms of the two rows of the original IET. *)
Theorem C85_rows : forall (T : Type) (O : LenOps T) (W : LenLaws T) (i : iet T) (s : slen T) tr d Ws r r',
  decomposition i s tr d -> boundaries d = Ok Ws ->
  next Ws r r' <-> turn (fun b => mksep b PARALLEL) (fun t => mksep t ANTIPARALLEL) (i_top i) (i_bottom i) r r'.
Proof. exact claim_C85_rows. Qed.
Print Assumptions C85_rows.

(** Each separatrix of the original IET is followed by exactly one other and follows exactly
    one other. *)
Theorem C85_cycles : forall (T : Type) (O : LenOps T) (W : LenLaws T) (i : iet T) (s : slen T) tr d Ws r,
  decomposition i s tr d -> boundaries d = Ok Ws ->
  (direction (fun b => mksep b PARALLEL) (fun t => mksep t ANTIPARALLEL) (i_top i) (i_bottom i) r <-> exists r', next Ws r r') /\
  (direction (fun b => mksep b PARALLEL) (fun t => mksep t ANTIPARALLEL) (i_top i) (i_bottom i) r <-> exists r', next Ws r' r) /\
  (forall r1 r2, next Ws r r1 -> next Ws r r2 -> r1 = r2) /\ (forall r1 r2, next Ws r1 r -> next Ws r2 r -> r1 = r2).
Proof. exact claim_C85_cycles. Qed.
Print Assumptions C85_cycles.

Definition P_ (l : label) : separatrix := mksep l PARALLEL.
Definition A_ (l : label) : separatrix := mksep l ANTIPARALLEL.

(** Here a minimal component with two intervals and a cylinder are left. *)
Definition m_boundaries : list (list (item separatrix)) :=
  [[Edge 2 false; Sep (P_ 2); Edge 0 false; Conn (P_ 0) (A_ 2); Edge 2 true; Sep (A_ 0); Edge 0 true; Conn (A_ 1) (P_ 3)];
   [Conn (A_ 2) (P_ 0); Edge 4 false; Conn (P_ 4) (A_ 3); Conn (P_ 3) (A_ 1); Edge 4 true; Conn (A_ 3) (P_ 4)]].

Example C85_example : exists tr d, decomposition m_iet m_lens tr d /\ boundaries d = Ok m_boundaries.
Proof. apply (after_history _ _ [0; 0; 1]); [exact m_obtainable|]. vm_compute. reflexivity. Qed.

(** Behind the separatrix on the right of the bottom interval 2, in the first component, comes the one on the right of the top
    interval 2; on the way the interval 2 is crossed.  It is a connection, too. *)
Example C85_example_next : next m_boundaries (P_ 2) (A_ 2).
Proof.
  left. eapply (sees_edge _ (nth 0 m_boundaries []) _ 2 false); [left; reflexivity|left; exists [], (skipn 2 (nth 0 m_boundaries [])); reflexivity|].
  eapply (sees_conn _ (nth 0 m_boundaries []) _ (P_ 0)); [left; reflexivity|]. left. exists (firstn 3 (nth 0 m_boundaries [])), (skipn 5 (nth 0 m_boundaries [])). reflexivity.
Qed.

Example C85_example_turn : turn P_ A_ (i_top m_iet) (i_bottom m_iet) (P_ 2) (A_ 2).
Proof.
  apply turn_up.
  - exists [3], 0, [4; 1]. reflexivity.
  - exists [1; 0], 3, [4]. reflexivity.
Qed.
