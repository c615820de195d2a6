(** Proofs of the properties in [PropMeet]. *)
From Coq Require Import Reals Lra Lia Permutation List ZArith.
From Verif Require Import Base QcTac LenT FM Subspace Lengths IET LenInst Sqrt2 Decomp Spec SpecDec SpecTower SpecCanon SpecRim SpecGlue SpecSides Api DecApi GlueApi CanonApi SidesApi Fixtures DecFixtures.
From Verif Require Import ZorichProof InduceProof World Dyn Saddle Direct DecompSim DecompInv DecompRef DecompStep DecompNav DecompCons PerimProof DecompAll DecompBudget.
From Verif Require Import Tower Canon Rim Meet Sides ClaimsDecomp ClaimsCanon ClaimsSides ClaimsRim.
Open Scope nat_scope.

Lemma history_proper {T : Type} {O : LenOps T} {W : LenLaws T} (i : iet T) s tr d : decomposition i s tr d -> proper (exch_of i s) /\ e_top (exch_of i s) <> [].
Proof.
  intros (d0 & Hi & E0 & S)%history_steps. destruct (made_ok i s d0 Hi E0) as (H0 & P0 & _). destruct (dk_inv _ _ H0) as (D0 & C0).
  apply (ci_proper _ _ _ _ C0). rewrite P0. left. reflexivity.
Qed.

Lemma count_below {A B} (Rel : A -> B -> Prop) : forall l l', (forall a, In a l -> exists b, In b l' /\ Rel a b) ->
  ForallOrdPairs (fun a a' => forall b, Rel a b -> Rel a' b -> False) l -> length l <= length l'.
Proof.
  induction l as [|a l IH]; intros l' H F; [cbn; lia|]. inversion F as [|? ? Fa Fl]; subst. destruct (H a (or_introl eq_refl)) as (b & Ib & Rb).
  apply in_split in Ib as (X & Y & ->). rewrite app_length. cbn [length]. rewrite Nat.add_succ_r, <- app_length. apply le_n_S, IH; [|exact Fl].
  intros a' Ia'. destruct (H a' (or_intror Ia')) as (b' & Ib' & Rb'). exists b'. split; [|exact Rb']. apply in_app_or in Ib'. apply in_or_app.
  destruct Ib' as [Ib'|[<-|Ib']]; auto. exfalso. rewrite Forall_forall in Fa. exact (Fa a' Ia' b Rb Rb').
Qed.

Lemma claim_C104_cylinders : forall (T : Type) (O : LenOps T) (W : LenLaws T) (i : iet T) (s : slen T) tr d tr' d' Ts Ts' t t' a k a' k' x,
  decomposition i s tr d -> decomposition i s tr' d' ->
  map tw_base Ts = exchanges d -> towers (exch_of i s) Ts -> map tw_base Ts' = exchanges d' -> towers (exch_of i s) Ts' ->
  In t (cylinders Ts) -> In t' (cylinders Ts') -> on_floor (exch_of i s) t a k x -> on_floor (exch_of i s) t' a' k' x ->
  same_cylinder (exch_of i s) t t'.
Proof.
  intros T O W i s tr d tr' d' Ts Ts' t t' a k a' k' x H H' E HT E' HT' (I & b & Et)%in_cylinders (I' & b' & Et')%in_cylinders F F'.
  pose proof (history_ok _ _ _ _ H) as Ok0. destruct (dk_inv _ _ Ok0) as (D & C).
  assert (a = b) by (destruct F as (_ & y & (Ia & _) & _); rewrite Et in Ia; destruct Ia as [<-|[]]; reflexivity). subst b.
  assert (a' = b') by (destruct F' as (_ & y & (Ia & _) & _); rewrite Et' in Ia; destruct Ia as [<-|[]]; reflexivity). subst b'.
  exact (cylinders_meet (exch_of i s) (ci_start _ _ _ _ C) Ts Ts' t a k t' a' k' x (dec_ready i s tr d Ts H E HT) (dec_ready i s tr' d' Ts' H' E' HT') I I' Et Et' F F').
Qed.

Lemma claim_C104_inside : forall (T : Type) (O : LenOps T) (W : LenLaws T) (i : iet T) (s : slen T) tr d tr' d' Ts Ts' t t' a k a' k' x,
  decomposition i s tr d -> decomposition i s tr' d' ->
  map tw_base Ts = exchanges d -> towers (exch_of i s) Ts -> map tw_base Ts' = exchanges d' -> towers (exch_of i s) Ts' ->
  In t Ts -> In t' (cylinders Ts') -> on_floor (exch_of i s) t a k x -> on_floor (exch_of i s) t' a' k' x ->
  (forall v, on_floor (exch_of i s) t' a' k' v -> on_floor (exch_of i s) t a k v) /\
  (forall b' j' v, on_floor (exch_of i s) t' b' j' v -> exists b j, on_floor (exch_of i s) t b j v) /\
  (e_len (tw_base t') a' <= e_len (tw_base t) a)%R.
Proof.
  intros T O W i s tr d tr' d' Ts Ts' t t' a k a' k' x H H' E HT E' HT' I (I' & b' & Et')%in_cylinders F F'.
  pose proof (history_ok _ _ _ _ H) as Ok0. destruct (dk_inv _ _ Ok0) as (D & C). pose proof (ci_start _ _ _ _ C) as P0.
  assert (a' = b') by (destruct F' as (_ & y & (Ia & _) & _); rewrite Et' in Ia; destruct Ia as [<-|[]]; reflexivity). subst b'.
  pose proof (dec_ready i s tr d Ts H E HT) as R. pose proof (dec_ready i s tr' d' Ts' H' E' HT') as R'.
  split; [exact (floor_inside (exch_of i s) P0 Ts Ts' t a k t' a' k' x R R' I I' Et' F F')|].
  split; [exact (cylinder_inside (exch_of i s) P0 Ts Ts' t a k t' a' k' x R R' I I' Et' F F')|exact (cylinder_width (exch_of i s) P0 Ts Ts' t a k t' a' k' x R R' I I' Et' F F')].
Qed.

Lemma claim_C104_final : forall (T : Type) (O : LenOps T) (W : LenLaws T) (i : iet T) (s : slen T) tr d tr' d' Ts Ts',
  decomposition i s tr d -> decomposition i s tr' d' -> resolved (exchanges d') ->
  map tw_base Ts = exchanges d -> towers (exch_of i s) Ts -> map tw_base Ts' = exchanges d' -> towers (exch_of i s) Ts' ->
  (forall t, In t (cylinders Ts) -> exists t', In t' (cylinders Ts') /\ same_cylinder (exch_of i s) t t') /\
  length (widths (exchanges d)) <= length (widths (exchanges d')).
Proof.
  intros T O W i s tr d tr' d' Ts Ts' H H' Re E HT E' HT'. pose proof (proj1 (history_proper i s tr d H)) as P0.
  pose proof (dec_ready i s tr d Ts H E HT) as R. pose proof (dec_sorted i s tr' d' Ts' H' E' HT' Re) as (R' & Cm').
  assert (Main : forall t, In t (cylinders Ts) -> exists t', In t' (cylinders Ts') /\ same_cylinder (exch_of i s) t t').
  { intros t (I & a & Et)%in_cylinders. destruct (points_nonempty (exch_of i s) Ts t R I) as (b & k & x & F); [rewrite Et; discriminate|].
    assert (b = a) by (destruct F as (_ & y & (Ib & _) & _); rewrite Et in Ib; destruct Ib as [<-|[]]; reflexivity). subst b.
    pose proof (floor_dom (exch_of i s) P0 t a k x (proj1 HT t I) F) as Dm.
    assert (Px : periodic (maps (exch_of i s)) x) by (exists (tw_height t a); split; [destruct F; lia|exact (cylinder_periodic (exch_of i s) P0 Ts HT (proj2 R) t a k x I Et F)]).
    destruct (periodic_floor (exch_of i s) P0 Ts' HT' (proj2 R') Cm' x Dm Px) as (t' & a' & k' & I' & Et' & F').
    exists t'. split; [apply in_cylinders; split; [exact I'|exists a'; exact Et']|]. exact (cylinders_meet (exch_of i s) P0 Ts Ts' t a k t' a' k' x R R' I I' Et Et' F F'). }
  split; [exact Main|]. rewrite <- E, <- E'.
  assert (Ln : forall Us, length (widths (map tw_base Us)) = length (cylinders Us)).
  { intros Us. unfold widths, cylinders. induction Us as [|t Us IH]; [reflexivity|]. cbn [map flat_map filter]. rewrite app_length, IH. destruct (e_top (tw_base t)) as [|a [|b l]]; reflexivity. }
  rewrite !Ln. apply (count_below (same_cylinder (exch_of i s))); [exact Main|].
  apply (fop_impl_in (fun t t' => forall u, same_points (exch_of i s) t u -> same_points (exch_of i s) t' u -> False)).
  - intros t t' _ _ Q u (_ & _ & _ & _ & _ & _ & S) (_ & _ & _ & _ & _ & _ & S'). exact (Q u S S').
  - apply apart_distinct; [|apply fop_filter, HT]. intros t (I & a & Et)%in_cylinders. apply (points_nonempty (exch_of i s) Ts t R I). rewrite Et. discriminate.
Qed.

Lemma claim_C104_connection : forall (T : Type) (O : LenOps T) (W : LenLaws T) (i : iet T) (s : slen T) tr d tr' d',
  decomposition i s tr d -> decomposition i s tr' d' ->
  exists Ts Ts', map tw_base Ts = exchanges d /\ towers (exch_of i s) Ts /\ map tw_base Ts' = exchanges d' /\ towers (exch_of i s) Ts' /\
    forall c right left t c' right' left' t' k, cylinder_sides d c right left -> nth_error Ts c = Some t ->
      cylinder_sides d' c' right' left' -> nth_error Ts' c' = Some t' -> In k right -> In k right' -> same_cylinder (exch_of i s) t t'.
Proof.
  intros T O W i s tr d tr' d' H H'. destruct (dec_rimmed i s tr d H) as (Ts & E & HT & D & C & R). destruct (dec_rimmed i s tr' d' H') as (Ts' & E' & HT' & D' & C' & R').
  exists Ts, Ts'. split; [exact E|]. split; [exact HT|]. split; [exact E'|]. split; [exact HT'|].
  intros c right left t c' right' left' t' k Hs Ht Hs' Ht' Hk Hk'.
  destruct (claim_C101_walk T O W i s tr d c right left H Hs) as (Q & _).
  destruct (right_labels i s tr d D c right left H C Hs) as (x & l & Hx & One & A & B). destruct (right_labels i s tr' d' D' c' right' left' H' C' Hs') as (x' & l' & Hx' & One' & A' & B').
  pose proof (tower_at d Ts c x t E Hx Ht) as Eb. pose proof (tower_at d' Ts' c' x' t' E' Hx' Ht') as Eb'.
  assert (Et : e_top (tw_base t) = [l]) by (rewrite Eb; cbn; exact One). assert (Et' : e_top (tw_base t') = [l']) by (rewrite Eb'; cbn; exact One').
  assert (Il : In l (e_top (tw_base t))) by (rewrite Et; left; reflexivity). assert (Il' : In l' (e_top (tw_base t'))) by (rewrite Et'; left; reflexivity).
  apply nth_error_In in Ht, Ht'. pose proof (ci_start _ _ _ _ C) as P0.
  destruct (Q k Hk) as (b & u & -> & Z).
  assert (Nu : u <> last (i_top i) 0).
  { intros Eu. destruct (direct_not_last _ _ _ P0 Z) as (_ & X & y & Y & EX). cbn [exch_of e_top] in EX. pose proof (proj1 P0) as ND. cbn [exch_of e_top] in ND.
    rewrite EX in ND, Eu. apply NoDup_remove_2 in ND. apply ND. apply in_or_app. right. rewrite Eu. rewrite last_app_cons, last_cons. apply last_in. discriminate. }
  assert (F : floor_ends (exch_of i s) t l u) by (apply (R t l u Ht Il), (A u Nu); exists b; exact Hk).
  assert (F' : floor_ends (exch_of i s) t' l' u) by (apply (R' t' l' u Ht' Il'), (A' u Nu); exists b; exact Hk').
  destruct (ends_meet _ _ _ _ _ _ F F') as (j & j' & y & G & G').
  exact (cylinders_meet (exch_of i s) P0 Ts Ts' t l j t' l' j' y (dec_ready i s tr d Ts H E HT) (dec_ready i s tr' d' Ts' H' E' HT') Ht Ht' Et Et' G G').
Qed.

