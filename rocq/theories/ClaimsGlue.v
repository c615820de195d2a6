(** Proofs of the properties in [PropGlue]. *)
From Coq Require Import Reals Lra Lia Permutation.
From Verif Require Import Base QcTac LenT FM Subspace Lengths IET Decomp Spec SpecDec SpecGlue Api DecApi GlueApi.
From Verif Require Import ZorichProof InduceProof World Dyn DecompSim DecompInv DecompRef DecompStep DecompNav DecompCons PerimProof DecompAll DecompBudget ClaimsDecomp.
From Verif Require Import Glue GlueDec GlueBnd GluePoly LenInst Fixtures.
Open Scope nat_scope.

Lemma word_start e : word (fun _ => no_conns) e = polygon (fun b => mksep b PARALLEL) (fun t => mksep t ANTIPARALLEL) (e_top e) (e_bot e).
Proof. reflexivity. Qed.

Lemma glue_ok {T} {O : LenOps T} {W : LenLaws T} (i : iet T) (s : slen T) tr d : decomposition i s tr d ->
  dec_ok (exch_of i s) d /\
  forall r r', next [polygon (fun b => mksep b PARALLEL) (fun t => mksep t ANTIPARALLEL) (i_top i) (i_bottom i)] r r' <-> next (map (word (d_conns d)) (pieces d)) r r'.
Proof.
  intros (d0 & Hi & E0 & S)%history_steps. destruct (made_ok i s d0 Hi E0) as (H0 & P0 & _ & _ & F0).
  destruct (steps_ok _ _ _ _ H0 S) as (H1 & A & _). destruct (dk_inv _ _ H0) as (D & C). split; [exact H1|].
  intros r r'. pose proof (asteps_next _ _ _ _ _ A D C r r') as Q. unfold links_of in Q. rewrite P0, F0 in Q. cbn [map] in Q. rewrite word_start in Q.
  unfold next. setoid_rewrite sees_linked. exact Q.
Qed.

Lemma rows_ok {T} {O : LenOps T} {W : LenLaws T} (i : iet T) (s : slen T) tr d : decomposition i s tr d ->
  NoDup (i_top i) /\ Permutation (i_top i) (i_bottom i) /\ i_top i <> [].
Proof.
  intros H. destruct (glue_ok i s tr d H) as (H1 & _). destruct (dk_inv _ _ H1) as (D & C). destruct (ci_start _ _ _ _ C) as (N & P & _).
  split; [exact N|]. split; [exact P|]. destruct (ci_open _ _ _ _ C) as (e & He & _). destruct (ci_proper _ _ _ _ C e He) as [_ Ne].
  intro Z. apply Ne. destruct (e_top e) as [|l ls] eqn:El; [reflexivity|]. exfalso.
  assert (I : In l (e_top (exch_of i s))) by (apply (ci_keys _ _ _ _ _ C), in_live; exists e; rewrite El; split; [exact He|left; reflexivity]).
  cbn in I. rewrite Z in I. exact I.
Qed.
Lemma claim_C85_boundary : forall (T : Type) (O : LenOps T) (W : LenLaws T) (i : iet T) (s : slen T) tr d c x,
  decomposition i s tr d -> component d c x ->
  exists w p q, boundary d c = Ok w /\ comp_perimeter d c = Ok (p ++ q) /\ filter is_side w = map as_item (q ++ p).
Proof.
  intros T O W i s tr d c x H Hx. destruct (claim_C36_cross T O W i s tr d c x H Hx) as (bs & ts & css & p & q & fst & E1 & E2 & E3 & E4 & E5 & _).
  destruct (glue_ok i s tr d H) as (H1 & _). apply nth_error_split in Hx as (C1 & C2 & Hc & <-).
  exists (word (d_conns d) (exch_of (dc_iet x) (d_len d))), p, q. split; [exact (boundary_word _ d H1 C1 C2 x Hc)|]. split; [exact E4|].
  rewrite E5. rewrite word_sides.
  pose proof (comp_here d C1 C2 x Hc) as Hx. pose proof (comp_swap _ d H1 C1 C2 x Hc) as Sw.
  rewrite (bottom_contour_ok d _ x Hx Sw) in E1. rewrite (top_contour_ok d _ x Hx Sw) in E2. injection E1 as <-. injection E2 as <-.
  rewrite <- map_rev, mapM_app in E3.
  rewrite (mapM_map _ _ (fun l => crossing d (length C1) l false)) in E3 by (intros a Ha; apply he_cross_ok, (comp_bottom_keys _ d H1 C1 C2 x Hc), Ha). cbn [bind] in E3.
  rewrite (mapM_map _ _ (fun l => crossing d (length C1) l true)) in E3 by (intros a Ha; apply he_cross_ok, (comp_keys _ d H1 C1 C2 x Hc), in_rev, Ha). cbn [bind] in E3.
  injection E3 as <-. rewrite concat_app, <- !flat_map_concat_map, map_app, !map_flat_map. cbn [e_bot e_top exch_of].
  f_equal; apply flat_map_ext; intro l; [exact (eq_sym (crossing_items d C1 l false))|exact (eq_sym (crossing_items d C1 l true))].
Qed.

Lemma claim_C85_sides : forall (T : Type) (O : LenOps T) (W : LenLaws T) (i : iet T) (s : slen T) tr d,
  decomposition i s tr d ->
  exists Ws, boundaries d = Ok Ws /\ NoDup (filter is_side (concat Ws)) /\
    forall x, In x (filter is_side (concat Ws)) -> In (glued x) (filter is_side (concat Ws)).
Proof.
  intros T O W i s tr d H. destruct (glue_ok i s tr d H) as (H1 & _).
  exists (map (word (d_conns d)) (pieces d)). split; [exact (boundaries_words _ d H1)|]. split; [exact (sides_nodup _ d H1)|exact (sides_glued _ d H1)].
Qed.

Lemma claim_C85_fit : forall (T : Type) (O : LenOps T) (W : LenLaws T) (i : iet T) (s : slen T) tr d Ws r r',
  decomposition i s tr d -> boundaries d = Ok Ws ->
  next Ws r r' <-> next [polygon (fun b => mksep b PARALLEL) (fun t => mksep t ANTIPARALLEL) (i_top i) (i_bottom i)] r r'.
Proof.
  intros T O W i s tr d Ws r r' H E. destruct (glue_ok i s tr d H) as (H1 & Hn). rewrite (boundaries_words _ d H1) in E. injection E as <-.
  symmetry. apply Hn.
Qed.

Lemma claim_C85_rows : forall (T : Type) (O : LenOps T) (W : LenLaws T) (i : iet T) (s : slen T) tr d Ws r r',
  decomposition i s tr d -> boundaries d = Ok Ws ->
  next Ws r r' <-> turn (fun b => mksep b PARALLEL) (fun t => mksep t ANTIPARALLEL) (i_top i) (i_bottom i) r r'.
Proof.
  intros T O W i s tr d Ws r r' H E. rewrite (claim_C85_fit T O W i s tr d Ws r r' H E).
  destruct (rows_ok i s tr d H) as (N & P & Ne). apply poly_next; assumption.
Qed.

Lemma claim_C85_cycles : forall (T : Type) (O : LenOps T) (W : LenLaws T) (i : iet T) (s : slen T) tr d Ws r,
  decomposition i s tr d -> boundaries d = Ok Ws ->
  (direction (fun b => mksep b PARALLEL) (fun t => mksep t ANTIPARALLEL) (i_top i) (i_bottom i) r <-> exists r', next Ws r r') /\
  (direction (fun b => mksep b PARALLEL) (fun t => mksep t ANTIPARALLEL) (i_top i) (i_bottom i) r <-> exists r', next Ws r' r) /\
  (forall r1 r2, next Ws r r1 -> next Ws r r2 -> r1 = r2) /\ (forall r1 r2, next Ws r1 r -> next Ws r2 r -> r1 = r2).
Proof.
  intros T O W i s tr d Ws r H E. destruct (rows_ok i s tr d H) as (N & P & Ne).
  pose proof (fun r r' => claim_C85_rows T O W i s tr d Ws r r' H E) as Q.
  assert (I1 : forall a b, mksep a PARALLEL = mksep b PARALLEL -> a = b) by (intros a b Z; injection Z; auto).
  assert (I2 : forall a b, mksep a ANTIPARALLEL = mksep b ANTIPARALLEL -> a = b) by (intros a b Z; injection Z; auto).
  assert (I3 : forall a b, mksep a PARALLEL <> mksep b ANTIPARALLEL) by (intros a b Z; discriminate Z).
  split; [|split; [|split]].
  - split.
    + intro D. destruct (turn_total _ _ I1 _ _ N P _ D) as (r' & Z). exists r'. apply Q, Z.
    + intros (r' & Z). apply Q in Z. apply (turn_direction _ _ I1 _ _ N P _ _ Z).
  - split.
    + intro D. destruct (turn_onto _ _ I1 _ _ N P _ D) as (r' & Z). exists r'. apply Q, Z.
    + intros (r' & Z). apply Q in Z. apply (turn_direction _ _ I1 _ _ N P _ _ Z).
  - intros r1 r2 Z1 Z2. apply Q in Z1. apply Q in Z2. exact (turn_unique _ _ I1 I2 I3 _ _ N P _ _ _ Z1 Z2).
  - intros r1 r2 Z1 Z2. apply Q in Z1. apply Q in Z2. exact (turn_injective _ _ I1 I2 I3 _ _ N P _ _ _ Z1 Z2).
Qed.

