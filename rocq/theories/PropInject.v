(** Decompositions with injected connections. *)
From Coq Require Import Reals Permutation.
From Verif Require Import Base QcTac LenT FM Subspace Lengths IET LenInst Sqrt2 Decomp Spec SpecDec Api DecApi InjApi Fixtures DecFixtures InjFixtures ClaimsInject.
Open Scope nat_scope.

(** ** C54: Connections are saddle connections of the original IET. *)

(** Every connection of the decomposition has been reported by exactly one step, and is
    still there at the end. *)
Theorem C54_reported : forall (T : Type) (O : LenOps T) (W : LenLaws T) (i : iet T) (s : slen T) tr d,
  decomposition i s tr d -> Permutation (rights d) (reported tr).
Proof. exact claim_C54_reported. Qed.
Print Assumptions C54_reported.

Example C54_reported_example : exists tr d, decomposition m_iet m_lens tr d /\ reported tr = [par 3 1; par 0 2; par 4 3].
Proof. apply (after_history _ _ [0; 0; 1]); [exact m_obtainable|]. vm_compute. reflexivity. Qed.

(** ** C62: Injected connections do not change the dynamics. *)

(** Whatever has been injected before or in between, the components are those of a
    decomposition without injections, the steps reported the same, and from now on a step,
    or a whole decomposition with a target that does not look at connections, has the same
    outcome on both. *)
Theorem C62_transparent : forall (T : Type) (O : LenOps T) (W : LenLaws T) (i : iet T) (s : slen T) J tr d,
  injected_decomposition i s J tr d ->
  exists tr0 d0, without_injections i s J tr d tr0 d0 /\
    (forall fuel limit c, length (i_top i) < fuel -> (limit <= INT_MAX)%Z -> c < length (d_comps d) ->
       same_outcome (fun r0 r => without_injections i s J (tr ++ [fst r]) (snd r) (tr0 ++ [fst r0]) (snd r0))
         (decomposition_step fuel limit c d0) (decomposition_step fuel limit c d)) /\
    (forall rounds fuel target limit, length (i_top i) < fuel -> (limit <= INT_MAX)%Z -> ignores_connections target ->
       same_outcome (fun r0 r => fst r = fst r0 /\
           exists tr' tr0', injected_decomposition i s J (tr ++ tr') (snd r) /\ without_injections i s J (tr ++ tr') (snd r) tr0' (snd r0))
         (decompose rounds fuel target limit d0) (decompose rounds fuel target limit d)).
Proof. exact claim_C62_transparent. Qed.
Print Assumptions C62_transparent.

(** In particular no step fails an assertion or throws because of injected connections. *)
Theorem C62_safe : forall (T : Type) (O : LenOps T) (W : LenLaws T) (i : iet T) (s : slen T) J tr d fuel limit c,
  injected_decomposition i s J tr d -> (limit <= INT_MAX)%Z -> c < length (d_comps d) ->
  match decomposition_step fuel limit c d with
  | Ok _ | OutOfFuel => True
  | UB => limit = (-1)%Z
  | Throw | AssertFail => False
  end.
Proof. exact claim_C62_safe. Qed.
Print Assumptions C62_safe.

(** With commensurable lengths, a decomposition into which connections have been injected at
    the start ends with cylinders only. *)
Theorem C62_cylinders : forall (T : Type) (O : LenOps T) (W : LenLaws T) (i : iet T) (s : slen T) J d u m rounds fuel,
  injected_decomposition i s J [] d -> (0 < u)%R -> integral u (exch_of i s) ->
  total (lamR s) (i_top i) = (IZR m * u)%R -> (m < 2147483646)%Z ->
  length (i_top i) < rounds -> length (i_top i) < fuel -> (Z.max 64 (2 * m + 2) < Z.of_nat fuel)%Z ->
  exists d', decompose rounds fuel default_target (-1) d = Ok (true, d') /\
    forall c x, component d' c x -> dc_cylinder x = Some true.
Proof. exact claim_C62_cylinders. Qed.
Print Assumptions C62_cylinders.

Example C62_example : exists J tr d, injected_decomposition j_iet j_lens J tr d /\
  length J = 4 /\ map dst_result tr = [D_NON_SEPARATING_CONNECTION; D_CYLINDER] /\ reported tr = [par 5 3] /\
  reported (match (d <- dec_make j_iet j_lens ;; play [0; 0] d) with Ok (tr, _) => tr | _ => [] end) = [par 1 0] /\
  stretch J (par 1 0) = par 5 3.
Proof. apply (after_calls_history _ _ (j_injections ++ [Step 0; Step 0])); [exact j_obtainable|]. vm_compute. repeat split. Qed.

(** ** C63: Injected connections are kept, and are taken into account. *)

(** The connections are the injected ones and the ones that the decomposition without
    injections has, but with those starting where the chains of injected connections end. *)
Theorem C63_kept : forall (T : Type) (O : LenOps T) (W : LenLaws T) (i : iet T) (s : slen T) J tr d,
  injected_decomposition i s J tr d ->
  exists tr0 d0, without_injections i s J tr d tr0 d0 /\
    Permutation (rights d) (injected_rights J ++ map (stretch J) (rights d0)) /\
    Permutation (lefts d) (injected_lefts J ++ map (stretch J) (lefts d0)) /\
    Permutation (rights d) (injected_rights J ++ reported tr).
Proof. exact claim_C63_kept. Qed.
Print Assumptions C63_kept.

(** The connections at the half edges of the components: those to the left keep their order,
    those to the right form a chain that begins, for a bottom half edge, with the injected
    connections, and consists, for a top half edge, of the injected ones; and [separatrix()]
    is at its end. *)
Theorem C63_half_edges : forall (T : Type) (O : LenOps T) (W : LenLaws T) (i : iet T) (s : slen T) J tr d,
  injected_decomposition i s J tr d ->
  exists tr0 d0, without_injections i s J tr d tr0 d0 /\
    forall c x e, component d c x -> he_comp e = c -> in_row x (he_top e) (he_label e) ->
      (exists l l0 a, he_left d e = Ok l /\ he_left d0 e = Ok l0 /\ interleaved a (map (stretch J) l0) l /\ incl a (injected_lefts J)) /\
      (exists cs y r, he_right d e = Ok cs /\ chained y cs r /\
         if he_top e then r = he_label e /\ map (fun k => sp_label (cn_source k)) cs = behind_top J (he_label e)
         else y = he_label e /\ exists more, map (fun k => sp_label (cn_target k)) cs = behind_bottom J (he_label e) ++ more) /\
      (exists o, he_separatrix d0 e = Ok o /\ he_separatrix d e = Ok (option_map (stretched J) o)).
Proof. exact claim_C63_half_edges. Qed.
Print Assumptions C63_half_edges.

Example C63_example : exists J tr d, injected_decomposition j_iet j_lens J tr d /\
  he_right d (mkhe 0 1 false) = Ok [par 1 4; par 4 5; par 5 3; par 3 0; par 0 2] /\
  he_left d (mkhe 0 1 true) = Ok [anti 3 5; anti 4 1].
Proof. apply (after_calls_history _ _ (j_injections ++ [Step 0; Step 0])); [exact j_obtainable|]. vm_compute. repeat split. Qed.

Example C63_example_top : exists J tr d, injected_decomposition j_iet j_lens J tr d /\
  he_right d (mkhe 0 0 true) = Ok [par 2 3; par 3 0] /\ he_separatrix d (mkhe 0 0 true) = Ok (Some (mksep 2 ANTIPARALLEL)).
Proof. apply (after_calls_history _ _ [Inject (mkhe 0 0 true) [] [(3, 0); (2, 3)]]); [exact j_obtainable|]. vm_compute. repeat split. Qed.

(** ** C64: Consistent injections are accepted and stay consistent. *)

(** Before the first step, an injection that is part of a consistent set of injections is
    accepted, in whatever order they are made, and returns the injected connections. *)
Theorem C64_accepted : forall (T : Type) (O : LenOps T) (W : LenLaws T) (i : iet T) (s : slen T) J e ls rs rest d x,
  injected_decomposition i s J [] d -> consistent (i_top i) (J ++ mkinj e ls rs :: rest) ->
  component d (he_comp e) x -> in_row x (he_top e) (he_label e) ->
  ls = [] \/ he_left d e = Ok [] ->
  exists d', inject d e ls rs = Ok (map left_conn ls, map right_conn rs, d') /\
    injected_decomposition i s (J ++ [mkinj e ls rs]) [] d'.
Proof. exact claim_C64_accepted. Qed.
Print Assumptions C64_accepted.

(** After consistent injections the consistency check never fails, whatever steps follow, and
    no two connections start at the same separatrix. *)
Theorem C64_check : forall (T : Type) (O : LenOps T) (W : LenLaws T) (i : iet T) (s : slen T) J tr d,
  injected_decomposition i s J tr d -> consistent (i_top i) J ->
  dec_check d = Ok tt /\ NoDup (map cn_source (lefts d ++ rights d)).
Proof. exact claim_C64_check. Qed.
Print Assumptions C64_check.

(** And the perimeter of every component exists, as described in C35 and C36. *)
Theorem C64_perimeter : forall (T : Type) (O : LenOps T) (W : LenLaws T) (i : iet T) (s : slen T) J tr d c x,
  injected_decomposition i s J tr d -> consistent (i_top i) J -> component d c x ->
  (exists p, comp_perimeter d c = Ok p /\ NoDup p /\
    (forall e, In (SEdge e) p <-> he_comp e = c /\ in_row x (he_top e) (he_label e)) /\
    (forall k, In (SConn k) p <-> exists e cs, he_comp e = c /\ in_row x (he_top e) (he_label e) /\
       (he_left d e = Ok cs \/ he_right d e = Ok cs) /\ In k cs)) /\
  exists bs ts css p q first, bottom_contour d c = Ok bs /\ top_contour d c = Ok ts /\ mapM (he_cross d) (bs ++ rev ts) = Ok css /\
    comp_perimeter d c = Ok (p ++ q) /\ q ++ p = concat css /\ NoDup (concat css) /\
    hd_error bs = Some first /\ hd_error (p ++ q) = Some (SEdge first).
Proof. exact claim_C64_perimeter. Qed.
Print Assumptions C64_perimeter.

Example C64_example : exists J tr d, injected_decomposition j_iet j_lens J tr d /\ consistent (i_top j_iet) J /\
  length J = 4 /\ map dst_result tr = [D_NON_SEPARATING_CONNECTION; D_CYLINDER] /\ length (rights d) = 5 /\
  comp_perimeter d 0 = Ok [SEdge (mkhe 0 1 false); SConn (par 1 4); SConn (par 4 5); SConn (par 5 3); SConn (par 3 0); SConn (par 0 2);
    SEdge (mkhe 0 1 true); SConn (anti 4 1); SConn (anti 3 5); SConn (anti 2 0); SConn (anti 5 4); SConn (anti 0 3)].
Proof.
  destruct (after_calls_history j_iet j_lens (j_injections ++ [Step 0; Step 0]) (fun J tr d => consistentb (i_top j_iet) J = true /\
    length J = 4 /\ map dst_result tr = [D_NON_SEPARATING_CONNECTION; D_CYLINDER] /\ length (rights d) = 5 /\
    comp_perimeter d 0 = Ok [SEdge (mkhe 0 1 false); SConn (par 1 4); SConn (par 4 5); SConn (par 5 3); SConn (par 3 0); SConn (par 0 2);
      SEdge (mkhe 0 1 true); SConn (anti 4 1); SConn (anti 3 5); SConn (anti 2 0); SConn (anti 5 4); SConn (anti 0 3)]) j_obtainable) as (J & tr & d & H & C & Q).
  - vm_compute. repeat split.
  - exists J, tr, d. split; [exact H|]. split; [apply consistentb_ok; exact C|exact Q].
Qed.

(** In the middle of the injections: the connections to the left are injected before the
    connections to the right that they are the reverse of. *)
Example C64_example_accepted : exists J d, injected_decomposition j_iet j_lens J [] d /\
  consistent (i_top j_iet) (J ++ mkinj (mkhe 0 1 true) [(4, 1)] [] :: [mkinj (mkhe 0 1 false) [] [(1, 4); (4, 5)]; mkinj (mkhe 0 0 false) [] [(0, 2)]]) /\
  he_left d (mkhe 0 1 true) = Ok [] /\ lefts d = [anti 0 3; anti 5 4; anti 2 0] /\ rights d = [par 3 0].
Proof.
  destruct (after_calls_history j_iet j_lens [Inject (mkhe 0 0 true) [(2, 0); (5, 4); (0, 3)] [(3, 0)]] (fun J tr d => tr = [] /\
    consistentb (i_top j_iet) (J ++ mkinj (mkhe 0 1 true) [(4, 1)] [] :: [mkinj (mkhe 0 1 false) [] [(1, 4); (4, 5)]; mkinj (mkhe 0 0 false) [] [(0, 2)]]) = true /\
    he_left d (mkhe 0 1 true) = Ok [] /\ lefts d = [anti 0 3; anti 5 4; anti 2 0] /\ rights d = [par 3 0]) j_obtainable) as (J & tr & d & H & E & C & Q).
  - vm_compute. repeat split.
  - subst tr. exists J, d. split; [exact H|]. split; [apply consistentb_ok; exact C|exact Q].
Qed.
