(** Properties C27-C36, C38, C46, C48, C52 and C54: decompositions.

    [decomposition i s tr d] ([DecApi]): [d] is any state that a program can reach with a
    decomposition of the IET [i] with lengths [s]; [tr] are the results of the steps it
    made.  [component d c x]: [x] is the component number [c].  [piece], [tiles], [maps],
    [periodic], [direct_connection], ... are the independent specification ([Spec],
    [SpecDec]).  The arguments [rounds] and [fuel] bound loops and recursions of the model;
    running out of them ([OutOfFuel]) is not a result, and larger bounds give the same
    result ([C27_bounds]). *)
From Coq Require Import Reals Permutation.
From Verif Require Import Base LenT FM Subspace Lengths IET LenInst Sqrt2 Decomp Spec SpecDec Api DecApi Fixtures DecFixtures.
From Verif Require Import ClaimsDecomp.
Open Scope nat_scope.

(** ** C27: decompose returning true establishes the target everywhere. *)

Theorem C27_target : forall (T : Type) (O : LenOps T) (W : LenLaws T) (i : iet T) (s : slen T) tr d rounds fuel target limit d',
  decomposition i s tr d -> (limit <= INT_MAX)%Z -> decompose rounds fuel target limit d = Ok (true, d') ->
  forall c, c < length (d_comps d') -> exists v, comp_view d' c = Ok v /\ target v = true.
Proof. exact claim_C27_target. Qed.
Print Assumptions C27_target.

(** Decomposing one component: the target holds for it and for those created on the way;
    whatever the answer, the others look as before. *)
Theorem C27_component : forall (T : Type) (O : LenOps T) (W : LenLaws T) (i : iet T) (s : slen T) tr d rounds fuel target limit c ok d',
  decomposition i s tr d -> (limit <= INT_MAX)%Z -> c < length (d_comps d) ->
  comp_decompose rounds fuel target limit c d = Ok (ok, d') ->
  length (d_comps d) <= length (d_comps d') /\
  (ok = true -> forall c', c' < length (d_comps d') -> c' = c \/ length (d_comps d) <= c' ->
     exists v, comp_view d' c' = Ok v /\ target v = true) /\
  (ok = false -> limit <> (-1)%Z) /\
  (forall c', c' < length (d_comps d) -> c' <> c -> comp_view d' c' = comp_view d c').
Proof. exact claim_C27_component. Qed.
Print Assumptions C27_component.

(** A call of decompose is a sequence of steps, so that everything that is said about
    histories of steps below also covers it; it never trips an assertion and never throws. *)
Theorem C27_history : forall (T : Type) (O : LenOps T) (W : LenLaws T) (i : iet T) (s : slen T) tr d rounds fuel target limit,
  decomposition i s tr d -> (limit <= INT_MAX)%Z ->
  (forall ok d', decompose rounds fuel target limit d = Ok (ok, d') ->
     (exists tr', decomposition i s (tr ++ tr') d') /\ (ok = false -> limit <> (-1)%Z)) /\
  (forall c ok d', c < length (d_comps d) -> comp_decompose rounds fuel target limit c d = Ok (ok, d') ->
     exists tr', decomposition i s (tr ++ tr') d') /\
  (decompose rounds fuel target limit d = UB -> limit = (-1)%Z) /\
  decompose rounds fuel target limit d <> AssertFail /\ decompose rounds fuel target limit d <> Throw.
Proof. exact claim_C27_history. Qed.
Print Assumptions C27_history.

(** Larger bounds give the same result. *)
Theorem C27_bounds : forall (T : Type) (O : LenOps T) rounds rounds' fuel fuel' target limit c (d : decomp T),
  rounds <= rounds' -> fuel <= fuel' ->
  (decompose rounds fuel target limit d = OutOfFuel \/
   decompose rounds fuel target limit d = decompose rounds' fuel' target limit d) /\
  (decomposition_step fuel limit c d = OutOfFuel \/
   decomposition_step fuel limit c d = decomposition_step fuel' limit c d).
Proof. exact claim_C27_bounds. Qed.
Print Assumptions C27_bounds.

Example C27_example : exists tr d, decomposition m_iet m_lens tr d /\
  match decompose 10 100 default_target (-1) d with
  | Ok (ok, d') => ok = true /\ length (d_comps d) = 1 /\ length (d_comps d') = 2
  | _ => False
  end.
Proof. apply (after_history _ _ []); [exact m_obtainable|]. vm_compute. repeat split. Qed.

(** ** C28: Component flags are truthful. *)

Theorem C28_cylinder : forall (T : Type) (O : LenOps T) (W : LenLaws T) (i : iet T) (s : slen T) tr d c x,
  decomposition i s tr d -> component d c x ->
  (dc_cylinder x = Some true -> length (i_top (dc_iet x)) = 1 /\
     forall y, (0 <= y < size (comp_exch d x))%R -> maps (comp_exch d x) y y) /\
  ~ (dc_cylinder x = Some true /\ dc_wpt x = Some true) /\
  dc_keane x <> Some true.
Proof. exact claim_C28_cylinder. Qed.
Print Assumptions C28_cylinder.

(** Once a component is known to be a cylinder this is never revoked. *)
Theorem C28_cylinder_kept : forall (T : Type) (O : LenOps T) (W : LenLaws T) (i : iet T) (s : slen T) tr d fuel limit c st d' c' x,
  decomposition i s tr d -> (limit <= INT_MAX)%Z -> c < length (d_comps d) ->
  decomposition_step fuel limit c d = Ok (st, d') -> component d c' x -> dc_cylinder x = Some true ->
  exists y, component d' c' y /\ dc_cylinder y = Some true.
Proof. exact claim_C28_cylinder_kept. Qed.
Print Assumptions C28_cylinder_kept.

(** Full statement: for all histories ([decomposition]).  Proved: truth and persistence of
    [withoutPeriodicTrajectory] in histories in which the labels were in place whenever a step answered
    AUTO_SIMILAR, in particular when no step did.  Missing: flags that stem from
    other AUTO_SIMILAR verdicts, see [C24_partial] and [C24_refuted]. *)
Theorem C28_partial : forall (T : Type) (O : LenOps T) (W : LenLaws T) (i : iet T) (s : slen T) tr d c x,
  straight i s tr d -> component d c x -> dc_wpt x = Some true ->
  ~ has_periodic_point (comp_exch d x) /\
  forall fuel limit c' st d', (limit <= INT_MAX)%Z -> c' < length (d_comps d) ->
    decomposition_step fuel limit c' d = Ok (st, d') ->
    exists y, component d' c y /\ dc_wpt y = Some true.
Proof. exact claim_C28_partial. Qed.
Print Assumptions C28_partial.

(** All histories without such verdicts are included. *)
Theorem C28_included : forall (T : Type) (O : LenOps T) (W : LenLaws T) (i : iet T) (s : slen T) tr d,
  (straight i s tr d -> decomposition i s tr d) /\
  (decomposition i s tr d -> (forall st, In st tr -> dst_result st <> D_WITHOUT_PERIODIC_TRAJECTORY_AUTO_SIMILAR) -> straight i s tr d).
Proof. exact claim_C28_included. Qed.
Print Assumptions C28_included.

Example C28_example : exists tr d, straight m_iet m_lens tr d /\
  map (fun x => (dc_cylinder x, dc_wpt x)) (d_comps d) = [(Some false, Some true); (Some true, Some false)].
Proof.
  destruct (after_history m_iet m_lens [0; 0; 1; 1; 0] (fun tr d =>
    map (fun x => (dc_cylinder x, dc_wpt x)) (d_comps d) = [(Some false, Some true); (Some true, Some false)] /\
    Forall (fun st => dst_result st <> D_WITHOUT_PERIODIC_TRAJECTORY_AUTO_SIMILAR) tr) m_obtainable) as (tr & d & H & E & F).
  - vm_compute. split; [reflexivity|]. repeat constructor; discriminate.
  - exists tr, d. split; [|exact E]. apply C28_included; [exact H|]. apply Forall_forall. exact F.
Qed.

(** The IET of Arnoux and Yoccoz: the flag stems from AUTO_SIMILAR. *)
Example C28_example_similar : exists tr d, straight ay_iet ay_lens tr d /\
  map dst_result tr = [D_WITHOUT_PERIODIC_TRAJECTORY_AUTO_SIMILAR] /\ map dc_wpt (d_comps d) = [Some true].
Proof.
  destruct (dec_make ay_iet ay_lens) as [d| | | |] eqn:E; try (vm_compute in E; discriminate).
  destruct (decomposition_step 60 (-1) 0 d) as [[st d']| | | |] eqn:E'.
  2-5: exfalso; vm_compute in E; injection E as <-; vm_compute in E'; discriminate.
  exists ([] ++ [st]), d'.
  assert (Q : match (d <- dec_make ay_iet ay_lens ;; decomposition_step 60 (-1) 0 d) with
              | Ok (st, d') => dst_result st = D_WITHOUT_PERIODIC_TRAJECTORY_AUTO_SIMILAR /\ map dc_wpt (d_comps d') = [Some true] /\
                               map (fun x => tk_top (i_trk (dc_iet x))) (d_comps d') = map (fun x => i_top (dc_iet x)) (d_comps d')
              | _ => False end) by (vm_compute; repeat split).
  rewrite E in Q. cbn [bind] in Q. rewrite E' in Q. destruct Q as (Q1 & Q2 & Q3).
  split; [|cbn; rewrite Q1; split; [reflexivity|exact Q2]].
  eapply sh_step; [apply sh_new; [exact ay_obtainable|exact E]| | |exact E'|].
  - vm_compute. discriminate.
  - vm_compute in E. injection E as <-. vm_compute. auto.
  - intros _ x Hx. unfold component in Hx. pose proof (map_nth_error (fun x => tk_top (i_trk (dc_iet x))) _ _ Hx) as A.
    pose proof (map_nth_error (fun x => i_top (dc_iet x)) _ _ Hx) as B. rewrite Q3 in A. congruence.
Qed.

(** ** C29: Decomposing an IET with commensurable lengths terminates with cylinders. *)

Theorem C29_cylinders : forall (T : Type) (O : LenOps T) (W : LenLaws T) (i : iet T) (s : slen T) d u m rounds fuel,
  obtainable i s -> dec_make i s = Ok d -> (0 < u)%R -> integral u (exch_of i s) ->
  total (lamR s) (i_top i) = (IZR m * u)%R -> (m < 2147483646)%Z ->
  length (i_top i) < rounds -> length (i_top i) < fuel -> (Z.max 64 (2 * m + 2) < Z.of_nat fuel)%Z ->
  exists d', decompose rounds fuel default_target (-1) d = Ok (true, d') /\
    forall c x, component d' c x -> dc_cylinder x = Some true.
Proof. exact claim_C29_cylinders. Qed.
Print Assumptions C29_cylinders.

(** With a limit, decompose terminates for all lengths. *)
Theorem C29_limited : forall (T : Type) (O : LenOps T) (W : LenLaws T) (i : iet T) (s : slen T) tr d rounds fuel limit,
  decomposition i s tr d -> (limit <= INT_MAX)%Z -> limit <> (-1)%Z ->
  length (i_top i) < rounds -> length (i_top i) < fuel -> (limit < Z.of_nat fuel)%Z ->
  exists ok d', decompose rounds fuel default_target limit d = Ok (ok, d').
Proof. exact claim_C29_limited. Qed.
Print Assumptions C29_limited.

Example C29_example : obtainable z_iet z_lens /\ integral 1 (exch_of z_iet z_lens) /\
  total (lamR z_lens) (i_top z_iet) = (IZR 19 * 1)%R /\
  match (d <- dec_make z_iet z_lens ;; decompose 5 65 default_target (-1) d) with
  | Ok (ok, d) => ok = true /\ length (d_comps d) = 2
  | _ => False
  end.
Proof.
  split; [exact z_obtainable|]. split; [|split].
  - intros a [<-|[<-|[<-|[<-|[]]]]]; eexists; cbn; rewrite Rmult_1_r; reflexivity.
  - cbn. ring.
  - vm_compute. split; reflexivity.
Qed.

(** ** C30: Registered connections are consistent. *)

(** [lefts d], [rights d]: all connections left and right of half edges. *)
Theorem C30_consistent : forall (T : Type) (O : LenOps T) (W : LenLaws T) (i : iet T) (s : slen T) tr d,
  decomposition i s tr d ->
  (forall e l k, he_left d e = Ok l -> In k l -> In k (lefts d) /\ exists t b, k = mkconn (mksep t ANTIPARALLEL) (mksep b PARALLEL)) /\
  (forall e r k, he_right d e = Ok r -> In k r -> In k (rights d) /\ exists b t, k = mkconn (mksep b PARALLEL) (mksep t ANTIPARALLEL)) /\
  NoDup (map cn_source (lefts d ++ rights d)) /\ NoDup (map cn_target (lefts d ++ rights d)) /\
  (forall k, In k (lefts d) <-> In (conn_neg k) (rights d)) /\
  dec_check d = Ok tt.
Proof. exact claim_C30_consistent. Qed.
Print Assumptions C30_consistent.

Example C30_example : exists tr d, decomposition m_iet m_lens tr d /\
  rights d = [par 0 2; par 4 3; par 3 1] /\ lefts d = [anti 1 3; anti 3 4; anti 2 0].
Proof. apply (after_history _ _ [0; 0; 1]); [exact m_obtainable|]. vm_compute. split; reflexivity. Qed.

(** ** C31: Connections right of a half edge form a continuous chain. *)

Theorem C31_chain : forall (T : Type) (O : LenOps T) (W : LenLaws T) (i : iet T) (s : slen T) tr d c x l,
  decomposition i s tr d -> component d c x -> In l (i_bottom (dc_iet x)) ->
  exists cs r, he_right d (mkhe c l false) = Ok cs /\ chained l cs r /\
    (last_label (i_bottom (dc_iet x)) l -> he_separatrix d (mkhe c l false) = Ok None) /\
    (~ last_label (i_bottom (dc_iet x)) l -> he_separatrix d (mkhe c l false) = Ok (Some (mksep r PARALLEL))).
Proof. exact claim_C31_chain. Qed.
Print Assumptions C31_chain.

(** At a top half edge nothing is ever collapsed to the right. *)
Theorem C31_top : forall (T : Type) (O : LenOps T) (W : LenLaws T) (i : iet T) (s : slen T) tr d c x l,
  decomposition i s tr d -> component d c x -> In l (i_top (dc_iet x)) ->
  he_right d (mkhe c l true) = Ok [] /\
  (last_label (i_top (dc_iet x)) l -> he_separatrix d (mkhe c l true) = Ok None) /\
  (~ last_label (i_top (dc_iet x)) l -> he_separatrix d (mkhe c l true) = Ok (Some (mksep l ANTIPARALLEL))).
Proof. exact claim_C31_top. Qed.
Print Assumptions C31_top.

Example C31_example : exists tr d, decomposition m_iet m_lens tr d /\
  he_right d (mkhe 1 4 false) = Ok [par 4 3; par 3 1] /\ he_separatrix d (mkhe 0 2 false) = Ok (Some (mksep 2 PARALLEL)).
Proof. apply (after_history _ _ [0; 0; 1]); [exact m_obtainable|]. vm_compute. split; reflexivity. Qed.

(** ** C32: Every lost interval is accounted for by a connection. *)

Theorem C32_number : forall (T : Type) (O : LenOps T) (W : LenLaws T) (i : iet T) (s : slen T) tr d,
  decomposition i s tr d ->
  length (rights d) + list_sum (map (fun x => length (i_top (dc_iet x)) - 1) (d_comps d)) = length (i_top i) - 1 /\
  length (lefts d) = length (rights d) /\
  ((forall c x, component d c x -> dc_cylinder x = Some true) -> length (rights d) = length (i_top i) - 1).
Proof. exact claim_C32_number. Qed.
Print Assumptions C32_number.

Example C32_example : exists tr d, decomposition z_iet z_lens tr d /\
  length (rights d) = 3 /\ map dc_cylinder (d_comps d) = [Some true; Some true].
Proof. apply (after_history _ _ [0; 0; 1; 1; 0]); [exact z_obtainable|]. vm_compute. split; reflexivity. Qed.

(** ** C33: Components partition the surviving labels. *)

Theorem C33_partition : forall (T : Type) (O : LenOps T) (W : LenLaws T) (i : iet T) (s : slen T) tr d,
  decomposition i s tr d ->
  NoDup (flat_map (fun x => i_top (dc_iet x)) (d_comps d)) /\
  (forall c x, component d c x -> valid_input (d_len d) (i_top (dc_iet x)) (i_bottom (dc_iet x)) /\
     incl (i_top (dc_iet x)) (i_top i) /\ i_swap (dc_iet x) = false) /\
  sl_stack (d_len d) = [].
Proof. exact claim_C33_partition. Qed.
Print Assumptions C33_partition.

(** A step on component [c]: all other components look as before; if (and only if) it
    answers SEPARATING_CONNECTION there is one more component and the labels of [c] are
    distributed to the two; NON_SEPARATING_CONNECTION removes one label of [c]; otherwise
    its labels are the same. *)
Theorem C33_step : forall (T : Type) (O : LenOps T) (W : LenLaws T) (i : iet T) (s : slen T) tr d fuel limit c x st d',
  decomposition i s tr d -> (limit <= INT_MAX)%Z -> component d c x ->
  decomposition_step fuel limit c d = Ok (st, d') ->
  (forall c', c' < length (d_comps d) -> c' <> c -> comp_view d' c' = comp_view d c') /\
  exists y, component d' c y /\
    match dst_result st with
    | D_SEPARATING_CONNECTION => exists z, dst_additional st = Some (length (d_comps d)) /\ component d' (length (d_comps d)) z /\
        length (d_comps d') = length (d_comps d) + 1 /\ Permutation (i_top (dc_iet y) ++ i_top (dc_iet z)) (i_top (dc_iet x))
    | D_NON_SEPARATING_CONNECTION => dst_additional st = None /\ length (d_comps d') = length (d_comps d) /\
        exists a, Permutation (a :: i_top (dc_iet y)) (i_top (dc_iet x))
    | _ => dst_additional st = None /\ length (d_comps d') = length (d_comps d) /\ Permutation (i_top (dc_iet y)) (i_top (dc_iet x))
    end.
Proof. exact claim_C33_step. Qed.
Print Assumptions C33_step.

Example C33_example : exists tr d, decomposition m_iet m_lens tr d /\
  map (fun x => i_top (dc_iet x)) (d_comps d) = [[0; 2]; [3; 4]] /\
  map dst_result tr = [D_NON_SEPARATING_CONNECTION; D_SEPARATING_CONNECTION].
Proof. apply (after_history _ _ [0; 0]); [exact m_obtainable|]. vm_compute. split; reflexivity. Qed.

(** ** C34: Half edge navigation laws. *)

Theorem C34_navigation : forall (T : Type) (O : LenOps T) (W : LenLaws T) (i : iet T) (s : slen T) tr d c x,
  decomposition i s tr d -> component d c x ->
  exists ts bs, top_contour d c = Ok ts /\ bottom_contour d c = Ok bs /\
    map he_label ts = i_top (dc_iet x) /\ map he_label bs = i_bottom (dc_iet x) /\
    NoDup ts /\ NoDup bs /\ (forall e, In e ts <-> In (he_neg e) bs) /\
    (forall es, es = ts \/ es = bs -> forall k e, nth_error es k = Some e ->
       (he_top e = true <-> In e ts) /\
       he_component d e = Ok c /\ he_neg (he_neg e) = e /\ he_label (he_neg e) = he_label e /\ he_neg e <> e /\
       he_next d e = Ok (nth_error es (k + 1)) /\
       he_previous d e = Ok (match k with 0 => None | S k' => nth_error es k' end)).
Proof. exact claim_C34_navigation. Qed.
Print Assumptions C34_navigation.

(** next and previous are inverse to each other. *)
Theorem C34_inverse : forall (T : Type) (O : LenOps T) (W : LenLaws T) (i : iet T) (s : slen T) tr d c x e e',
  decomposition i s tr d -> component d c x -> he_comp e = c -> he_comp e' = c ->
  in_row x (he_top e) (he_label e) -> in_row x (he_top e') (he_label e') ->
  (he_next d e = Ok (Some e') <-> he_previous d e' = Ok (Some e)).
Proof. exact claim_C34_inverse. Qed.
Print Assumptions C34_inverse.

Example C34_example : exists tr d, decomposition m_iet m_lens tr d /\
  he_next d (mkhe 1 4 false) = Ok (Some (mkhe 1 3 false)) /\ he_previous d (mkhe 1 3 false) = Ok (Some (mkhe 1 4 false)).
Proof. apply (after_history _ _ [0; 0]); [exact m_obtainable|]. vm_compute. split; reflexivity. Qed.

(** ** C35, C36: Perimeters and crossings. *)

(** The perimeter never fails and lists exactly the half edges of the two contours and the
    connections left and right of them, each once. *)
Theorem C35_perimeter : forall (T : Type) (O : LenOps T) (W : LenLaws T) (i : iet T) (s : slen T) tr d c x,
  decomposition i s tr d -> component d c x ->
  exists p, comp_perimeter d c = Ok p /\ NoDup p /\
    (forall e, In (SEdge e) p <-> he_comp e = c /\ in_row x (he_top e) (he_label e)) /\
    (forall k, In (SConn k) p <-> exists e cs, he_comp e = c /\ in_row x (he_top e) (he_label e) /\
       (he_left d e = Ok cs \/ he_right d e = Ok cs) /\ In k cs).
Proof. exact claim_C35_perimeter. Qed.
Print Assumptions C35_perimeter.

(** Walking along the bottom from left to right and back along the top, the sides crossed
    are those of the perimeter in cyclic order (it starts with the first half edge). *)
Theorem C36_cross : forall (T : Type) (O : LenOps T) (W : LenLaws T) (i : iet T) (s : slen T) tr d c x,
  decomposition i s tr d -> component d c x ->
  exists bs ts css p q first, bottom_contour d c = Ok bs /\ top_contour d c = Ok ts /\ mapM (he_cross d) (bs ++ rev ts) = Ok css /\
    comp_perimeter d c = Ok (p ++ q) /\ q ++ p = concat css /\ NoDup (concat css) /\
    hd_error bs = Some first /\ hd_error (p ++ q) = Some (SEdge first).
Proof. exact claim_C36_cross. Qed.
Print Assumptions C36_cross.

(** Crossing one half edge: counterclockwise, i.e. from left to right for the bottom and
    from right to left for the top (connections next to the half edge come first in
    [left] and [right] for the bottom and last for the top). *)
Theorem C36_order : forall (T : Type) (O : LenOps T) (d : decomp T) e l r,
  he_left d e = Ok l -> he_right d e = Ok r ->
  he_cross d e = Ok (if he_top e then map SConn r ++ SEdge e :: map SConn (rev l) else map SConn (rev l) ++ SEdge e :: map SConn r).
Proof. exact claim_C36_order. Qed.
Print Assumptions C36_order.

Example C35_example : exists tr d, decomposition m_iet m_lens tr d /\
  comp_perimeter d 1 = Ok [SEdge (mkhe 1 4 false); SConn (par 4 3); SConn (par 3 1); SEdge (mkhe 1 4 true); SConn (anti 3 4); SConn (anti 2 0)] /\
  he_cross d (mkhe 1 4 false) = Ok [SConn (anti 2 0); SEdge (mkhe 1 4 false); SConn (par 4 3); SConn (par 3 1)].
Proof. apply (after_history _ _ [0; 0; 1]); [exact m_obtainable|]. vm_compute. split; reflexivity. Qed.

(** ** C58: The path reported with a connection. *)


(** With a separating connection comes the rest of the perimeter of the component (after the step), walked
    the other way: the connection and the path have the same end points. *)
Theorem C58_separating : forall (T : Type) (O : LenOps T) (W : LenLaws T) (i : iet T) (s : slen T) tr d c x fuel limit st d',
  decomposition i s tr d -> component d c x -> (limit <= INT_MAX)%Z -> decomposition_step fuel limit c d = Ok (st, d') ->
  dst_result st = D_SEPARATING_CONNECTION ->
  exists k w p q, dst_connection st = Some k /\ dst_equivalent st = Some w /\
    comp_perimeter d' c = Ok (p ++ SConn k :: q) /\ w = reversed (q ++ p).
Proof. exact claim_C58_separating. Qed.
Print Assumptions C58_separating.

(** With a non-separating connection [k], which is now one of those right of the bottom
    half edge [b] (and continues the connections [R1] that were there before), comes the
    path back along [R1], the bottom half edge [b], the connections [L1] left of it that
    were there before, the connections [L2] that were left of the top half edge [t] where
    [k] ends and the half edge [t] itself, which does not exist anymore after the step. *)
Theorem C58_nonseparating : forall (T : Type) (O : LenOps T) (W : LenLaws T) (i : iet T) (s : slen T) tr d c x fuel limit st d',
  decomposition i s tr d -> component d c x -> (limit <= INT_MAX)%Z -> decomposition_step fuel limit c d = Ok (st, d') ->
  dst_result st = D_NON_SEPARATING_CONNECTION ->
  exists y k w b t L1 L2 L3 R1 R2, component d' c y /\ dst_connection st = Some k /\ dst_equivalent st = Some w /\
    in_row y false b /\ ~ in_row y true t /\
    he_left d' (mkhe c b false) = Ok (L1 ++ L2 ++ L3) /\ he_right d' (mkhe c b false) = Ok (R1 ++ k :: R2) /\
    chained b (R1 ++ [k]) t /\
    w = map (fun k => SConn (conn_neg k)) (rev R1) ++ SEdge (mkhe c b false) :: map (fun k => SConn (conn_neg k)) (L1 ++ L2) ++ [SEdge (mkhe c t true)].
Proof. exact claim_C58_nonseparating. Qed.
Print Assumptions C58_nonseparating.

(** No other step reports a path. *)
Theorem C58_none : forall (T : Type) (O : LenOps T) (W : LenLaws T) (i : iet T) (s : slen T) tr d c x fuel limit st d',
  decomposition i s tr d -> component d c x -> (limit <= INT_MAX)%Z -> decomposition_step fuel limit c d = Ok (st, d') ->
  dst_result st <> D_SEPARATING_CONNECTION -> dst_result st <> D_NON_SEPARATING_CONNECTION -> dst_equivalent st = None /\ dst_connection st = None.
Proof. exact claim_C58_none. Qed.
Print Assumptions C58_none.

Example C58_example : exists tr d, decomposition m_iet m_lens tr d /\
  map (fun st => (dst_result st, dst_connection st, dst_equivalent st)) tr =
  [(D_NON_SEPARATING_CONNECTION, Some (par 3 1), Some [SEdge (mkhe 0 3 false); SEdge (mkhe 0 1 true)]);
   (D_SEPARATING_CONNECTION, Some (par 0 2),
    Some [SEdge (mkhe 0 0 false); SEdge (mkhe 0 2 false); SConn (par 3 1); SEdge (mkhe 0 0 true); SEdge (mkhe 0 2 true)]);
   (D_NON_SEPARATING_CONNECTION, Some (par 4 3), Some [SEdge (mkhe 1 4 false); SConn (par 0 2); SEdge (mkhe 1 3 true)])] /\
  comp_perimeter d 0 = Ok [SEdge (mkhe 0 2 false); SEdge (mkhe 0 0 false); SConn (par 0 2); SEdge (mkhe 0 2 true); SEdge (mkhe 0 0 true); SConn (anti 1 3)] /\
  he_left d (mkhe 1 4 false) = Ok [anti 2 0] /\ he_right d (mkhe 1 4 false) = Ok [par 4 3; par 3 1].
Proof. apply (after_history _ _ [0; 0; 1]); [exact m_obtainable|]. vm_compute. repeat split; reflexivity. Qed.

(** ** C38: Recording connections does not disturb the dynamics. *)

(** [induce] on the IET of a component (with the recording lengths) and on the same IET
    with plain lengths: same answer, same IET, same lengths. *)
Theorem C38_transparent : forall (T : Type) (O : LenOps T) (W : LenLaws T) (i : iet T) (s : slen T) tr d c x fuel limit,
  decomposition i s tr d -> component d c x -> (limit <= INT_MAX)%Z ->
  match induce sample_lens fuel limit (dc_iet x) (d_len d) with
  | Ok (st, j, t) => exists d', induce (dec_lens c) fuel limit (dc_iet x) d = Ok (st, j, d') /\ d_len d' = t /\ d_comps d' = d_comps d
  | OutOfFuel => induce (dec_lens c) fuel limit (dc_iet x) d = OutOfFuel
  | UB => induce (dec_lens c) fuel limit (dc_iet x) d = UB
  | _ => False
  end.
Proof. exact claim_C38_transparent. Qed.
Print Assumptions C38_transparent.

Example C38_example : exists tr d, decomposition m_iet m_lens tr d /\
  match nth_error (d_comps d) 1 with
  | Some x => match induce sample_lens 9 (-1) (dc_iet x) (d_len d) with Ok (st, _, _) => is_result st = NON_SEPARATING_CONNECTION | _ => False end
  | None => False
  end.
Proof. apply (after_history _ _ [0; 0]); [exact m_obtainable|]. vm_compute. reflexivity. Qed.

(** ** C46: inject records exactly the given connections. *)

(** For any state: a successful inject at a half edge without connections makes exactly the
    given ones appear there, and nothing else changes.  Crossing the half edge lists them
    counterclockwise in the given order (the left ones from the half edge outwards). *)
Theorem C46_result : forall (T : Type) (O : LenOps T) (d : decomp T) e ls rs L R d',
  inject d e ls rs = Ok (L, R, d') -> he_left d e = Ok [] -> he_right d e = Ok [] ->
  L = map (fun p => mkconn (mksep (fst p) ANTIPARALLEL) (mksep (snd p) PARALLEL)) ls /\
  R = map (fun p => mkconn (mksep (fst p) PARALLEL) (mksep (snd p) ANTIPARALLEL)) rs /\
  he_cross d' e = Ok (if he_top e then map SConn (rev R) ++ SEdge e :: map SConn L else map SConn (rev L) ++ SEdge e :: map SConn R) /\
  (forall e', he_label e' <> he_label e \/ he_top e' <> he_top e -> he_left d' e' = he_left d e' /\ he_right d' e' = he_right d e') /\
  d_comps d' = d_comps d /\ d_len d' = d_len d.
Proof. exact claim_C46_result. Qed.
Print Assumptions C46_result.

(** In a reachable state it succeeds if the separatrices of the new connections are
    distinct and not those of any connection that is already there. *)
Theorem C46_succeeds : forall (T : Type) (O : LenOps T) (W : LenLaws T) (i : iet T) (s : slen T) tr d e ls rs,
  decomposition i s tr d -> In (he_label e) (i_top i) -> he_left d e = Ok [] -> he_right d e = Ok [] ->
  let new := map (fun p => mkconn (mksep (fst p) ANTIPARALLEL) (mksep (snd p) PARALLEL)) ls ++
             map (fun p => mkconn (mksep (fst p) PARALLEL) (mksep (snd p) ANTIPARALLEL)) rs in
  NoDup (flat_map (fun k => [cn_source k; cn_target k]) new) ->
  (forall k k' z, In k new -> In k' (lefts d ++ rights d) -> z = cn_source k \/ z = cn_target k -> cn_source k' <> z /\ cn_target k' <> z) ->
  exists L R d', inject d e ls rs = Ok (L, R, d').
Proof. exact claim_C46_succeeds. Qed.
Print Assumptions C46_succeeds.

Example C46_example : exists tr d, decomposition m_iet m_lens tr d /\
  match inject d (mkhe 0 0 true) [(7, 8)] [(5, 6); (6, 9)] with
  | Ok (L, R, d') => L = [anti 7 8] /\ R = [par 5 6; par 6 9] /\
      he_cross d' (mkhe 0 0 true) = Ok [SConn (par 6 9); SConn (par 5 6); SEdge (mkhe 0 0 true); SConn (anti 7 8)]
  | _ => False
  end.
Proof. apply (after_history _ _ []); [exact m_obtainable|]. vm_compute. repeat split. Qed.

(** ** C48: decompositionStep respects its limit and does not overflow. *)

(** With a limit, the step terminates: rounds beyond the limit are never needed. *)
Theorem C48_terminates : forall (T : Type) (O : LenOps T) (W : LenLaws T) (i : iet T) (s : slen T) tr d c x fuel limit,
  decomposition i s tr d -> component d c x -> (limit <= INT_MAX)%Z -> limit <> (-1)%Z ->
  length (i_top i) < fuel -> (limit < Z.of_nat fuel)%Z ->
  exists st d', decomposition_step fuel limit c d = Ok (st, d').
Proof. exact claim_C48_terminates. Qed.
Print Assumptions C48_terminates.

(** A step with a limit does what [safInvariant()] and then one [induce(k)] for some [k] up
    to the limit does on a copy of the component's IET: in total no more rounds than the
    limit allows, and at least one if the limit is positive.  It gives up only when all of
    them are used. *)
Theorem C48_budget : forall (T : Type) (O : LenOps T) (W : LenLaws T) (i : iet T) (s : slen T) tr d c x fuel limit st d',
  decomposition i s tr d -> component d c x -> (0 <= limit <= INT_MAX)%Z ->
  decomposition_step fuel limit c d = Ok (st, d') ->
  exists v i0 k f ist j y, saf_invariant (dc_iet x) (d_len d) = Ok (v, i0) /\ (0 <= k <= limit)%Z /\ (0 < limit -> 0 < k)%Z /\
    induce sample_lens f k i0 (d_len d) = Ok (ist, j, d_len d') /\ dst_result st = dresult_of (is_result ist) /\
    component d' c y /\ dc_iet y = j /\
    (forall r, is_result ist = SEPARATING_CONNECTION -> is_additional ist = Some r ->
       exists z, component d' (length (d_comps d)) z /\ dc_iet z = r) /\
    (dst_result st = D_LIMIT_REACHED -> k = limit).
Proof. exact claim_C48_budget. Qed.
Print Assumptions C48_budget.

(** The unlimited step can overflow its counter [limit], which doubles until some induction
    succeeds ([C48_refuted] in [PropMachine]).  It does not if the lengths are multiples of
    some [u > 0] with fewer than 2147483646 units in total, and then it terminates; overflow
    is the only way in which it can fail. *)
Theorem C48_unlimited : forall (T : Type) (O : LenOps T) (W : LenLaws T) (i : iet T) (s : slen T) tr d c x fuel,
  decomposition i s tr d -> component d c x -> length (i_top i) < fuel ->
  (forall u m, (0 < u)%R -> integral u (comp_exch d x) -> total (lamR (d_len d)) (i_top (dc_iet x)) = (IZR m * u)%R ->
     (m < 2147483646)%Z -> (Z.max 64 (2 * m + 2) < Z.of_nat fuel)%Z ->
     exists st d', decomposition_step fuel (-1) c d = Ok (st, d') /\ dst_result st <> D_LIMIT_REACHED) /\
  (forall limit, (limit <= INT_MAX)%Z -> decomposition_step fuel limit c d <> AssertFail /\ decomposition_step fuel limit c d <> Throw /\
     (decomposition_step fuel limit c d = UB -> limit = (-1)%Z)).
Proof. exact claim_C48_unlimited. Qed.
Print Assumptions C48_unlimited.

Example C48_example : exists tr d, decomposition z_iet z_lens tr d /\
  match decomposition_step 6 0 0 d, decomposition_step 6 3 0 d with
  | Ok (st, d'), Ok (st', _) => dst_result st = D_LIMIT_REACHED /\ dst_result st' = D_NON_SEPARATING_CONNECTION
  | _, _ => False
  end.
Proof. apply (after_history _ _ []); [exact z_obtainable|]. vm_compute. split; reflexivity. Qed.

(** ** C52: The decomposition reflects the dynamics of the original IET. *)

(** The components are first return maps of the original exchange to disjoint intervals
    that every orbit meets. *)
Theorem C52_tiles : forall (T : Type) (O : LenOps T) (W : LenLaws T) (i : iet T) (s : slen T) tr d,
  decomposition i s tr d ->
  exists P, map fst P = map (comp_exch d) (d_comps d) /\ tiles (exch_of i s) P.
Proof. exact claim_C52_tiles. Qed.
Print Assumptions C52_tiles.

(** So the original has a periodic point iff some component has one; all its points are
    periodic iff this holds in all components, in particular if these are cylinders. *)
Theorem C52_periodic : forall (T : Type) (O : LenOps T) (W : LenLaws T) (i : iet T) (s : slen T) tr d,
  decomposition i s tr d ->
  (has_periodic_point (exch_of i s) <-> exists c x, component d c x /\ has_periodic_point (comp_exch d x)) /\
  ((forall y, (0 <= y < size (exch_of i s))%R -> periodic (maps (exch_of i s)) y) <->
   (forall c x y, component d c x -> (0 <= y < size (comp_exch d x))%R -> periodic (maps (comp_exch d x)) y)) /\
  ((forall c x, component d c x -> dc_cylinder x = Some true) ->
   forall y, (0 <= y < size (exch_of i s))%R -> periodic (maps (exch_of i s)) y).
Proof. exact claim_C52_periodic. Qed.
Print Assumptions C52_periodic.

Example C52_example : exists tr d, decomposition z_iet z_lens tr d /\
  map dc_cylinder (d_comps d) = [Some true; Some true] /\ Forall (fun st => dst_result st <> D_LIMIT_REACHED) tr.
Proof.
  apply (after_history _ _ [0; 0; 1; 1; 0]); [exact z_obtainable|]. vm_compute. split; [reflexivity|]. repeat constructor; discriminate.
Qed.

(** ** C54: The connections of a decomposition are saddle connections of the original IET. *)

(** [direct_connection e b t]: the orbit of the right end point of the bottom interval [b]
    reaches the right end point of the top interval [t] without meeting another one.  Every
    connection stored in a decomposition, or reported by a step, is one of the original
    exchange, and the ones a component still has are found at its half edges. *)
Theorem C54_genuine : forall (T : Type) (O : LenOps T) (W : LenLaws T) (i : iet T) (s : slen T) tr d,
  decomposition i s tr d ->
  (forall b t, In (mkconn (mksep b PARALLEL) (mksep t ANTIPARALLEL)) (rights d) -> direct_connection (exch_of i s) b t) /\
  (forall b t, In (mkconn (mksep t ANTIPARALLEL) (mksep b PARALLEL)) (lefts d) -> direct_connection (exch_of i s) b t) /\
  (forall c x b t b' t', component d c x -> he_separatrix d (mkhe c b false) = Ok (Some (mksep b' PARALLEL)) ->
     he_separatrix d (mkhe c t true) = Ok (Some (mksep t' ANTIPARALLEL)) ->
     In b (i_bottom (dc_iet x)) -> In t (i_top (dc_iet x)) ->
     direct_connection (comp_exch d x) b t -> direct_connection (exch_of i s) b' t') /\
  (forall fuel limit c st d' k, (limit <= INT_MAX)%Z -> c < length (d_comps d) ->
     decomposition_step fuel limit c d = Ok (st, d') -> dst_connection st = Some k ->
     exists b t, k = mkconn (mksep b PARALLEL) (mksep t ANTIPARALLEL) /\ direct_connection (exch_of i s) b t).
Proof. exact claim_C54_genuine. Qed.
Print Assumptions C54_genuine.

(** When all components have a single interval, all of them have been found. *)
Theorem C54_complete : forall (T : Type) (O : LenOps T) (W : LenLaws T) (i : iet T) (s : slen T) tr d b t,
  decomposition i s tr d -> (forall c x, component d c x -> length (i_top (dc_iet x)) = 1) ->
  direct_connection (exch_of i s) b t ->
  In (mkconn (mksep b PARALLEL) (mksep t ANTIPARALLEL)) (rights d) /\ In (mkconn (mksep t ANTIPARALLEL) (mksep b PARALLEL)) (lefts d).
Proof. exact claim_C54_complete. Qed.
Print Assumptions C54_complete.

Example C54_example : exists tr d, decomposition z_iet z_lens tr d /\
  map (fun x => length (i_top (dc_iet x))) (d_comps d) = [1; 1] /\ rights d = [par 1 1; par 3 2; par 2 0].
Proof. apply (after_history _ _ [0; 0; 1]); [exact z_obtainable|]. vm_compute. split; reflexivity. Qed.
