(** Properties C73 and C74: what a decomposition says about return times and about the
    group of the lengths.

    [decomposition i s tr d] ([DecApi]): [d] is any state that a program can reach with a
    decomposition of the IET [i] with lengths [s]; [injected_decomposition] ([InjApi]): also with
    injected connections.  [towers], [in_base], [on_floor], [area]
    are specified in [SpecTower], [generated] and [measured_by] in [SpecGroup]. *)
From Coq Require Import Reals Permutation.
From Verif Require Import Base LenT FM Subspace Lengths IET LenInst Sqrt2 Decomp Spec SpecDec SpecTower SpecGroup Api DecApi InjApi Fixtures DecFixtures.
From Verif Require Import ClaimsTower.
Open Scope nat_scope.

(** ** C73: The components are the bases of towers that fill the original interval. *)

(** Over each interval of each component stands a column of intervals that the original
    exchange visits one after the other; no two of them overlap, together they are the whole
    domain, and so widths times heights sum up to its length. *)
Theorem C73_towers : forall (T : Type) (O : LenOps T) (W : LenLaws T) (i : iet T) (s : slen T) tr d,
  decomposition i s tr d ->
  exists Ts, map tw_base Ts = map (comp_exch d) (d_comps d) /\ towers (exch_of i s) Ts.
Proof. exact claim_C73_towers. Qed.
Print Assumptions C73_towers.

(** The heights are the return times: the orbit of a point of a component is in no component
    for [tw_height - 1] steps and then at the point to which the exchange of the component
    sends it. *)
Theorem C73_return : forall (T : Type) (O : LenOps T) (W : LenLaws T) (i : iet T) (s : slen T) tr d Ts t a y,
  decomposition i s tr d -> map tw_base Ts = map (comp_exch d) (d_comps d) -> towers (exch_of i s) Ts ->
  In t Ts -> in_base t a y ->
  exists z, maps (tw_base t) (y - tw_at t) (z - tw_at t) /\ iter (maps (exch_of i s)) (tw_height t a) y z /\
    forall k w, 1 <= k < tw_height t a -> iter (maps (exch_of i s)) k y w -> forall t' a', In t' Ts -> ~ in_base t' a' w.
Proof. exact claim_C73_return. Qed.
Print Assumptions C73_return.

(** No orbit visits two components. *)
Theorem C73_orbits : forall (T : Type) (O : LenOps T) (W : LenLaws T) (i : iet T) (s : slen T) tr d Ts t t' a k a' k' x x' n,
  decomposition i s tr d -> map tw_base Ts = map (comp_exch d) (d_comps d) -> towers (exch_of i s) Ts ->
  In t Ts -> In t' Ts -> on_floor (exch_of i s) t a k x -> iter (maps (exch_of i s)) n x x' -> on_floor (exch_of i s) t' a' k' x' ->
  t = t'.
Proof. exact claim_C73_orbits. Qed.
Print Assumptions C73_orbits.

(** In the tower over a cylinder all points are periodic, and the height is their common
    (smallest) period. *)
Theorem C73_periods : forall (T : Type) (O : LenOps T) (W : LenLaws T) (i : iet T) (s : slen T) tr d Ts t a k x,
  decomposition i s tr d -> map tw_base Ts = map (comp_exch d) (d_comps d) -> towers (exch_of i s) Ts ->
  In t Ts -> e_top (tw_base t) = [a] -> on_floor (exch_of i s) t a k x ->
  iter (maps (exch_of i s)) (tw_height t a) x x /\
  forall n, 1 <= n < tw_height t a -> ~ iter (maps (exch_of i s)) n x x.
Proof. exact claim_C73_periods. Qed.
Print Assumptions C73_periods.

(** All this is also true for decompositions into which connections have been injected. *)
Theorem C73_injected : forall (T : Type) (O : LenOps T) (W : LenLaws T) (i : iet T) (s : slen T) J tr d,
  injected_decomposition i s J tr d ->
  exists Ts, map tw_base Ts = map (comp_exch d) (d_comps d) /\ towers (exch_of i s) Ts.
Proof. exact claim_C73_injected. Qed.
Print Assumptions C73_injected.

(** Lengths seven, five, three and four: two cylinders of widths five and one remain; their
    heights are one and fourteen, and 5 * 1 + 1 * 14 is the total length. *)
Example C73_example : exists tr d, decomposition z_iet z_lens tr d /\
  map (fun x => i_top (dc_iet x)) (d_comps d) = [[1]; [3]] /\ map (nth_error (sl_lens (d_len d))) [1; 3] = [Some 5; Some 1]%Z.
Proof. apply (after_history _ _ [0; 0; 1]); [exact z_obtainable|]. vm_compute. split; reflexivity. Qed.

Example C73_example_heights : forall tr d Ts, decomposition z_iet z_lens tr d ->
  map (fun x => i_top (dc_iet x)) (d_comps d) = [[1]; [3]] -> map (nth_error (sl_lens (d_len d))) [1; 3] = [Some 5; Some 1]%Z ->
  map tw_base Ts = map (comp_exch d) (d_comps d) -> towers (exch_of z_iet z_lens) Ts ->
  exists t t', Ts = [t; t'] /\ 5 * tw_height t 1 + tw_height t' 3 = 19.
Proof. exact heights_example. Qed.

(** ** C74: Decomposing does not change the group that is generated by the lengths. *)

Theorem C74_group : forall (T : Type) (O : LenOps T) (W : LenLaws T) (i : iet T) (s : slen T) tr d r,
  decomposition i s tr d ->
  generated (is_length (map (comp_exch d) (d_comps d))) r <-> generated (is_length [exch_of i s]) r.
Proof. exact claim_C74_group. Qed.
Print Assumptions C74_group.

(** In particular the common measures are the same: when the lengths are integers, the
    greatest common divisor of the widths is the one of the lengths. *)
Theorem C74_measures : forall (T : Type) (O : LenOps T) (W : LenLaws T) (i : iet T) (s : slen T) tr d u,
  decomposition i s tr d ->
  measured_by u (map (comp_exch d) (d_comps d)) <-> measured_by u [exch_of i s].
Proof. exact claim_C74_measures. Qed.
Print Assumptions C74_measures.

Theorem C74_injected : forall (T : Type) (O : LenOps T) (W : LenLaws T) (i : iet T) (s : slen T) J tr d r,
  injected_decomposition i s J tr d ->
  generated (is_length (map (comp_exch d) (d_comps d))) r <-> generated (is_length [exch_of i s]) r.
Proof. exact claim_C74_injected. Qed.
Print Assumptions C74_injected.

(** The widths five and one of the cylinders have no common divisor, as the lengths seven,
    five, three and four. *)
Example C74_example : exists tr d, decomposition z_iet z_lens tr d /\
  map (fun x => map (fun l => nth l (sl_lens (d_len d)) 0%Z) (i_top (dc_iet x))) (d_comps d) = [[5]; [1]]%Z.
Proof. apply (after_history _ _ [0; 0; 1]); [exact z_obtainable|]. vm_compute. reflexivity. Qed.
