(** Properties C96 and C97: the cylinders do not depend on the way in which they are found.

    [decomposition i s tr d] ([DecApi]): [d] is any state that a program can reach with a
    decomposition of the IET [i] with lengths [s]; [injected_decomposition] ([InjApi]): also
    with injected connections; [family] ([FinalApi]): what any calls have made of one IET.
    [resolved] is specified in [CanonApi], [widths], [cylinders], [noncylinders], [same_cylinder]
    and [same_points] in [SpecCanon], [towers] in [SpecTower], [minimal] in [SpecDense]. *)
From Coq Require Import Reals Permutation List ZArith.
From Verif Require Import Base LenT FM Subspace Lengths IET LenInst Sqrt2 Decomp Spec SpecDec SpecTower SpecDense SpecCanon Api DecApi InjApi FinalApi CanonApi Fixtures DecFixtures.
From Verif Require Import ClaimsDecomp ClaimsCanon.
Open Scope nat_scope.

(** ** C96: Everything that finds all the cylinders finds the same cylinders. *)

(** Two decompositions of the same IET, in which every component has a single interval or no
    periodic points: the widths of the cylinders are the same, up to their order.  So neither
    limits nor targets nor the order of the steps matter. *)
Theorem C96_widths : forall (T : Type) (O : LenOps T) (W : LenLaws T) (i : iet T) (s : slen T) tr d tr' d',
  decomposition i s tr d -> decomposition i s tr' d' -> resolved (exchanges d) -> resolved (exchanges d') ->
  Permutation (widths (exchanges d)) (widths (exchanges d')).
Proof. exact claim_C96_widths. Qed.
Print Assumptions C96_widths.

(** Not only the widths: the cylinders consist of the same points and the periods are the
    same ([same_cylinder]).  [Us] are the cylinders of the second decomposition in the order
    of the first one. *)
Theorem C96_cylinders : forall (T : Type) (O : LenOps T) (W : LenLaws T) (i : iet T) (s : slen T) tr d tr' d' Ts Ts',
  decomposition i s tr d -> decomposition i s tr' d' -> resolved (exchanges d) -> resolved (exchanges d') ->
  map tw_base Ts = exchanges d -> towers (exch_of i s) Ts -> map tw_base Ts' = exchanges d' -> towers (exch_of i s) Ts' ->
  exists Us, Permutation (cylinders Ts') Us /\ Forall2 (same_cylinder (exch_of i s)) (cylinders Ts) Us.
Proof. exact claim_C96_cylinders. Qed.
Print Assumptions C96_cylinders.

(** The periodic points are the ones in the towers over the cylinders. *)
Theorem C96_periodic : forall (T : Type) (O : LenOps T) (W : LenLaws T) (i : iet T) (s : slen T) tr d Ts y,
  decomposition i s tr d -> resolved (exchanges d) -> map tw_base Ts = exchanges d -> towers (exch_of i s) Ts ->
  (0 <= y < size (exch_of i s))%R ->
  (periodic (maps (exch_of i s)) y <-> exists t a k, In t (cylinders Ts) /\ on_floor (exch_of i s) t a k y).
Proof. exact claim_C96_periodic. Qed.
Print Assumptions C96_periodic.

(** The flags say when this is the case, in histories in which the labels were in place
    whenever a step answered AUTO_SIMILAR (C28). *)
Theorem C96_flags : forall (T : Type) (O : LenOps T) (W : LenLaws T) (i : iet T) (s : slen T) tr d tr' d',
  straight i s tr d -> straight i s tr' d' ->
  (forall c x, component d c x \/ component d' c x -> dc_cylinder x = Some true \/ dc_wpt x = Some true) ->
  Permutation (widths (exchanges d)) (widths (exchanges d')).
Proof. exact claim_C96_flags. Qed.
Print Assumptions C96_flags.

(** Injected connections do not matter either. *)
Theorem C96_injected : forall (T : Type) (O : LenOps T) (W : LenLaws T) (i : iet T) (s : slen T) J tr d J' tr' d',
  injected_decomposition i s J tr d -> injected_decomposition i s J' tr' d' -> resolved (exchanges d) -> resolved (exchanges d') ->
  Permutation (widths (exchanges d)) (widths (exchanges d')).
Proof. exact claim_C96_injected. Qed.
Print Assumptions C96_injected.

(** When what is not a cylinder has dense orbits only (C76), then also the other components
    consist of the same points; in particular there are as many of them. *)
Theorem C96_dense : forall (T : Type) (O : LenOps T) (W : LenLaws T) (i : iet T) (s : slen T) tr d tr' d' Ts Ts',
  decomposition i s tr d -> decomposition i s tr' d' ->
  (forall e, In e (exchanges d) \/ In e (exchanges d') -> length (e_top e) = 1 \/ minimal e) ->
  map tw_base Ts = exchanges d -> towers (exch_of i s) Ts -> map tw_base Ts' = exchanges d' -> towers (exch_of i s) Ts' ->
  (exists Us, Permutation (cylinders Ts') Us /\ Forall2 (same_cylinder (exch_of i s)) (cylinders Ts) Us) /\
  (exists Us, Permutation (noncylinders Ts') Us /\ Forall2 (same_points (exch_of i s)) (noncylinders Ts) Us) /\
  length (d_comps d) = length (d_comps d').
Proof. exact claim_C96_dense. Qed.
Print Assumptions C96_dense.

(** Two decompositions of lengths seven, five, three and four, by different steps: in the one
    the cylinders are in the other order. *)
Example C96_example : exists tr d tr' d', decomposition z_iet z_lens tr d /\ decomposition z_iet z_lens tr' d' /\ tr <> tr' /\
  map (fun x => i_top (dc_iet x)) (d_comps d) = [[1]; [3]] /\ length (d_comps d') = 2 /\
  resolved (exchanges d) /\ resolved (exchanges d').
Proof.
  destruct (after_history z_iet z_lens [0; 0; 1] (fun tr d => length tr = 3 /\ map (fun x => i_top (dc_iet x)) (d_comps d) = [[1]; [3]]) z_obtainable) as (tr & d & H & L & E).
  { vm_compute. split; reflexivity. }
  destruct (after_history z_iet z_lens [0; 0; 1; 1; 0] (fun tr d => length tr = 5 /\ map (fun x => length (i_top (dc_iet x))) (d_comps d) = [1; 1]) z_obtainable) as (tr' & d' & H' & L' & E').
  { vm_compute. split; reflexivity. }
  exists tr, d, tr', d'. split; [exact H|]. split; [exact H'|]. split; [intros Q; rewrite Q, L' in L; discriminate|]. split; [exact E|].
  split; [apply (f_equal (@length _)) in E'; rewrite map_length in E'; exact E'|]. split.
  - intros e He. left. apply in_map_iff in He as (x & <- & Hx). apply (in_map (fun x => i_top (dc_iet x))) in Hx. rewrite E in Hx. cbn in *.
    destruct Hx as [Hx|[Hx|[]]]; rewrite <- Hx; reflexivity.
  - intros e He. left. apply in_map_iff in He as (x & <- & Hx). apply (in_map (fun x => length (i_top (dc_iet x)))) in Hx. rewrite E' in Hx. cbn in *.
    destruct Hx as [Hx|[Hx|[]]]; rewrite <- Hx; reflexivity.
Qed.

(** With a component that is no cylinder. *)
Example C96_mixed_example : exists tr d, straight m_iet m_lens tr d /\
  (forall c x, component d c x -> dc_cylinder x = Some true \/ dc_wpt x = Some true) /\ length (d_comps d) = 2.
Proof.
  destruct (after_history m_iet m_lens [0; 0; 1; 1; 0] (fun tr d =>
    map (fun x => (dc_cylinder x, dc_wpt x)) (d_comps d) = [(Some false, Some true); (Some true, Some false)] /\
    Forall (fun st => dst_result st <> D_WITHOUT_PERIODIC_TRAJECTORY_AUTO_SIMILAR) tr) m_obtainable) as (tr & d & H & E & F).
  - vm_compute. split; [reflexivity|]. repeat constructor; discriminate.
  - exists tr, d. split; [apply (proj2 (claim_C28_included _ _ _ _ _ _ _)); [exact H|apply Forall_forall; exact F]|]. split.
    + intros c x Hx. apply nth_error_In, (in_map (fun x => (dc_cylinder x, dc_wpt x))) in Hx. rewrite E in Hx.
      destruct Hx as [Hx|[Hx|[]]]; injection Hx as <- <-; auto.
    + apply (f_equal (@length _)) in E. rewrite map_length in E. exact E.
Qed.

(** ** C97: Decomposing by hand finds the same cylinders. *)

(** Whatever a program makes of an IET by calling swap, zorichInduction, reduce and induce on
    it and on the parts that are split off: when every part has a single interval or no
    periodic points, the widths of the cylinders are always the same. *)
Theorem C97_widths : forall (T : Type) (O : LenOps T) (W : LenLaws T) (i : iet T) (s : slen T) l t l' t',
  obtainable i s -> family i s l t -> family i s l' t' ->
  resolved (map (fun j => exch_of j t) l) -> resolved (map (fun j => exch_of j t') l') ->
  Permutation (widths (map (fun j => exch_of j t) l)) (widths (map (fun j => exch_of j t') l')).
Proof. exact claim_C97_widths. Qed.
Print Assumptions C97_widths.

(** And they are the ones that a decomposition finds. *)
Theorem C97_decomposition : forall (T : Type) (O : LenOps T) (W : LenLaws T) (i : iet T) (s : slen T) l t tr d,
  family i s l t -> decomposition i s tr d ->
  resolved (map (fun j => exch_of j t) l) -> resolved (exchanges d) ->
  Permutation (widths (map (fun j => exch_of j t) l)) (widths (exchanges d)).
Proof. exact claim_C97_decomposition. Qed.
Print Assumptions C97_decomposition.

(** Inducing and swapping first does not matter: as long as nothing has been split off, a
    decomposition of what has become of the IET finds the cylinders of the IET. *)
Theorem C97_induced : forall (T : Type) (O : LenOps T) (W : LenLaws T) (i : iet T) (s : slen T) j t tr d tr' d',
  family i s [j] t -> decomposition i s tr d -> decomposition j t tr' d' ->
  resolved (exchanges d) -> resolved (exchanges d') ->
  Permutation (widths (exchanges d)) (widths (exchanges d')).
Proof. exact claim_C97_induced. Qed.
Print Assumptions C97_induced.

(** The cylinders of the example above by hand, with a swap in between. *)
Example C97_example : exists l t, family z_iet z_lens l t /\ map i_top l = [[1]; [0]] /\ map (nth_error (sl_lens t)) [1; 0] = [Some 5; Some 1]%Z.
Proof.
  assert (Q : match by_hand [(0, op_swap); (0, op_induce 20 20); (0, op_induce 20 20); (0, op_swap); (1, op_induce 20 20); (1, op_induce 20 20)] [z_iet] z_lens with
    Some (l, t) => map i_top l = [[1]; [0]] /\ map (nth_error (sl_lens t)) [1; 0] = [Some 5; Some 1]%Z | None => False end) by (vm_compute; split; reflexivity).
  destruct (by_hand _ [z_iet] z_lens) as [[l t]|] eqn:E; [|contradiction]. exists l, t. split; [|exact Q].
  refine (by_hand_family z_iet z_lens _ _ _ _ _ _ (fam_start _ _) E). repeat constructor; vm_compute; discriminate.
Qed.

(** The cylinders of the example after a call of zorichInduction and a swap. *)
Example C97_induced_example : exists j t tr d, family z_iet z_lens [j] t /\ decomposition j t tr d /\ sl_lens t <> sl_lens z_lens /\
  length (d_comps d) = 2 /\ resolved (exchanges d).
Proof.
  destruct (after_history (fst z_later) (snd z_later) [0; 0; 1; 1; 0] (fun tr d => map (fun x => length (i_top (dc_iet x))) (d_comps d) = [1; 1]) z_later_obtainable) as (tr & d & H & E).
  { vm_compute. reflexivity. }
  exists (fst z_later), (snd z_later), tr, d. split; [exact z_later_family|]. split; [exact H|]. split; [vm_compute; discriminate|].
  split; [apply (f_equal (@length _)) in E; rewrite map_length in E; exact E|].
  intros e He. left. apply in_map_iff in He as (x & <- & Hx). apply (in_map (fun x => length (i_top (dc_iet x)))) in Hx. rewrite E in Hx. cbn in *.
  destruct Hx as [Hx|[Hx|[]]]; rewrite <- Hx; reflexivity.
Qed.
