(** Property C104: a cylinder is final, and no other decomposition cuts it.

    [decomposition i s tr d] ([DecApi]): [d] is any state that a program can reach with a
    decomposition of the IET [i] with lengths [s].  [towers] and [on_floor] are specified in [SpecTower],
    [cylinders], [widths] and [same_cylinder] in [SpecCanon], [exchanges] and [resolved] in [CanonApi], [cylinder_sides] in
    [SidesApi]. *)
From Coq Require Import Reals Permutation List ZArith Lra Lia.
From Verif Require Import Base LenT FM Subspace Lengths IET LenInst Sqrt2 Decomp Spec SpecDec SpecTower SpecCanon SpecSides Api DecApi CanonApi SidesApi Fixtures DecFixtures.
From Verif Require Import Canon ClaimsDecomp ClaimsCanon ClaimsSides ClaimsMeet.
Open Scope nat_scope.

(** ** C104: A cylinder is found as a whole. *)


(** Two cylinders of two decompositions of an IET, at any time, have no point in common or they are the same: they
    have the same width, the same period and consist of the same points.  In contrast to C96, the
    decompositions need not be complete. *)
Theorem C104_cylinders : forall (T : Type) (O : LenOps T) (W : LenLaws T) (i : iet T) (s : slen T) tr d tr' d' Ts Ts' t t' a k a' k' x,
  decomposition i s tr d -> decomposition i s tr' d' ->
  map tw_base Ts = exchanges d -> towers (exch_of i s) Ts -> map tw_base Ts' = exchanges d' -> towers (exch_of i s) Ts' ->
  In t (cylinders Ts) -> In t' (cylinders Ts') -> on_floor (exch_of i s) t a k x -> on_floor (exch_of i s) t' a' k' x ->
  same_cylinder (exch_of i s) t t'.
Proof. exact claim_C104_cylinders. Qed.
Print Assumptions C104_cylinders.

(** And the components that are no cylinders yet contain cylinders as a whole only: if a point of a cylinder [t'] is
    over the component of [t], all points of the cylinder are; if it is on a floor of [t], all points of
    its floor of [t'] are on that floor.  So the cylinder is not wider than the interval of the component. *)
Theorem C104_inside : forall (T : Type) (O : LenOps T) (W : LenLaws T) (i : iet T) (s : slen T) tr d tr' d' Ts Ts' t t' a k a' k' x,
  decomposition i s tr d -> decomposition i s tr' d' ->
  map tw_base Ts = exchanges d -> towers (exch_of i s) Ts -> map tw_base Ts' = exchanges d' -> towers (exch_of i s) Ts' ->
  In t Ts -> In t' (cylinders Ts') -> on_floor (exch_of i s) t a k x -> on_floor (exch_of i s) t' a' k' x ->
  (forall v, on_floor (exch_of i s) t' a' k' v -> on_floor (exch_of i s) t a k v) /\
  (forall b' j' v, on_floor (exch_of i s) t' b' j' v -> exists b j, on_floor (exch_of i s) t b j v) /\
  (e_len (tw_base t') a' <= e_len (tw_base t) a)%R.
Proof. exact claim_C104_inside. Qed.
Print Assumptions C104_inside.

(** What has been found at any time is final: when in the state [d'] all periodic points are in cylinders
    ([resolved]), then every cylinder of [d] is one of [d'], with the same width, the same period and the same points,
    and [d'] has no fewer cylinders. *)
Theorem C104_final : forall (T : Type) (O : LenOps T) (W : LenLaws T) (i : iet T) (s : slen T) tr d tr' d' Ts Ts',
  decomposition i s tr d -> decomposition i s tr' d' -> resolved (exchanges d') ->
  map tw_base Ts = exchanges d -> towers (exch_of i s) Ts -> map tw_base Ts' = exchanges d' -> towers (exch_of i s) Ts' ->
  (forall t, In t (cylinders Ts) -> exists t', In t' (cylinders Ts') /\ same_cylinder (exch_of i s) t t') /\
  length (widths (exchanges d)) <= length (widths (exchanges d')).
Proof. exact claim_C104_final. Qed.
Print Assumptions C104_final.

(** So one connection on the right of a cylinder determines it (cf. C102, where all periodic points have to be in
    cylinders). *)
Theorem C104_connection : forall (T : Type) (O : LenOps T) (W : LenLaws T) (i : iet T) (s : slen T) tr d tr' d',
  decomposition i s tr d -> decomposition i s tr' d' ->
  exists Ts Ts', map tw_base Ts = exchanges d /\ towers (exch_of i s) Ts /\ map tw_base Ts' = exchanges d' /\ towers (exch_of i s) Ts' /\
    forall c right left t c' right' left' t' k, cylinder_sides d c right left -> nth_error Ts c = Some t ->
      cylinder_sides d' c' right' left' -> nth_error Ts' c' = Some t' -> In k right -> In k right' -> same_cylinder (exch_of i s) t t'.
Proof. exact claim_C104_connection. Qed.
Print Assumptions C104_connection.

Definition up_ (a b : label) : connection := mkconn (mksep a PARALLEL) (mksep b ANTIPARALLEL).
Definition down_ (a b : label) : connection := mkconn (mksep a ANTIPARALLEL) (mksep b PARALLEL).

(** Lengths seven, five, three and four (C101).  After two steps there is a cylinder and a component of two
    intervals, in which there are periodic points that are in no cylinder yet; so this state is not complete.
    After the third step there are two cylinders.  The first one is the same, and the second one is inside the
    component of two intervals. *)
Example C104_example : exists tr d tr' d' Ts Ts' t u t' u', decomposition z_iet z_lens tr d /\ decomposition z_iet z_lens tr' d' /\
  map tw_base Ts = exchanges d /\ towers (exch_of z_iet z_lens) Ts /\ map tw_base Ts' = exchanges d' /\ towers (exch_of z_iet z_lens) Ts' /\
  Ts = [t; u] /\ Ts' = [t'; u'] /\ e_top (tw_base t) = [1] /\ e_top (tw_base u) = [2; 3] /\ e_top (tw_base t') = [1] /\ e_top (tw_base u') = [3] /\
  resolved (exchanges d') /\ same_cylinder (exch_of z_iet z_lens) t t' /\
  exists a k a' k' x, on_floor (exch_of z_iet z_lens) u a k x /\ on_floor (exch_of z_iet z_lens) u' a' k' x.
Proof.
  destruct (after_history z_iet z_lens [0; 0] (fun tr d => match d_comps d with [x; y] => i_top (dc_iet x) = [1] /\ i_top (dc_iet y) = [2; 3] | _ => False end /\
    he_cross d (mkhe 0 1 false) = Ok (SEdge (mkhe 0 1 false) :: [SConn (up_ 1 1)]) /\ he_cross d (mkhe 0 1 true) = Ok (SEdge (mkhe 0 1 true) :: [SConn (down_ 0 2)])) z_obtainable) as (tr & d & H & S & E1 & E2).
  { vm_compute. repeat split. }
  destruct (after_history z_iet z_lens [0; 0; 1] (fun tr d => match d_comps d with [x; y] => i_top (dc_iet x) = [1] /\ i_top (dc_iet y) = [3] | _ => False end /\
    he_cross d (mkhe 0 1 false) = Ok (SEdge (mkhe 0 1 false) :: [SConn (up_ 1 1)]) /\ he_cross d (mkhe 0 1 true) = Ok (SEdge (mkhe 0 1 true) :: [SConn (down_ 0 2)])) z_obtainable) as (tr' & d' & H' & S' & E1' & E2').
  { vm_compute. repeat split. }
  destruct (claim_C104_connection _ _ _ z_iet z_lens tr d tr' d' H H') as (Ts & Ts' & E & HT & E' & HT' & Q).
  pose proof E as F. pose proof E' as F'. unfold exchanges in F, F'.
  destruct (d_comps d) as [|x [|y [|? ?]]] eqn:Ed; try contradiction. destruct (d_comps d') as [|x' [|y' [|? ?]]] eqn:Ed'; try contradiction. destruct S as (Sx & Sy), S' as (Sx' & Sy').
  destruct Ts as [|t [|u [|? ?]]]; try discriminate. destruct Ts' as [|t' [|u' [|? ?]]]; try discriminate. cbn [map] in F, F'. injection F as F1 F2. injection F' as F1' F2'.
  exists tr, d, tr', d', [t; u], [t'; u'], t, u, t', u'. split; [exact H|]. split; [exact H'|]. split; [exact E|]. split; [exact HT|]. split; [exact E'|]. split; [exact HT'|].
  split; [reflexivity|]. split; [reflexivity|]. split; [rewrite F1; exact Sx|]. split; [rewrite F2; exact Sy|]. split; [rewrite F1'; exact Sx'|]. split; [rewrite F2'; exact Sy'|].
  split; [rewrite <- E'; intros e [<-|[<-|[]]]; left; [rewrite F1'; cbn; rewrite Sx'|rewrite F2'; cbn; rewrite Sy']; reflexivity|].
  assert (Sm : same_cylinder (exch_of z_iet z_lens) t t').
  { apply (Q 0 [up_ 1 1] [down_ 0 2] t 0 [up_ 1 1] [down_ 0 2] t' (up_ 1 1)); [|reflexivity| |reflexivity|left; reflexivity|left; reflexivity].
    - exists x, 1, [], [up_ 1 1], [], [down_ 0 2]. split; [unfold component; rewrite Ed; reflexivity|auto 6].
    - exists x', 1, [], [up_ 1 1], [], [down_ 0 2]. split; [unfold component; rewrite Ed'; reflexivity|auto 6]. }
  split; [exact Sm|].
  pose proof (dec_ready z_iet z_lens tr' d' [t'; u'] H' E' HT') as R'. pose proof (proj1 (history_proper z_iet z_lens tr d H)) as P0.
  destruct (points_nonempty (exch_of z_iet z_lens) [t'; u'] u' R' (or_intror (or_introl eq_refl))) as (a' & k' & v & Fv); [rewrite F2'; cbn; rewrite Sy'; discriminate|].
  destruct (proj1 (proj2 (proj2 HT)) v (floor_dom (exch_of z_iet z_lens) P0 u' a' k' v (proj1 HT' u' (or_intror (or_introl eq_refl))) Fv)) as (t2 & a & k & [<-|[<-|[]]] & F).
  - exfalso. destruct Sm as (_ & _ & _ & _ & _ & _ & Sp). destruct (proj1 (Sp v) (ex_intro _ a (ex_intro _ k F))) as (b & j & G).
    destruct (towers_once (exch_of z_iet z_lens) [t'; u'] HT' t' u' b j a' k' v (or_introl eq_refl) (or_intror (or_introl eq_refl)) G Fv) as (Eq & _).
    apply (f_equal (fun t => e_top (tw_base t))) in Eq. rewrite F1', F2' in Eq. cbn in Eq. rewrite Sx', Sy' in Eq. discriminate Eq.
  - exists a, k, a', k', v. auto.
Qed.
