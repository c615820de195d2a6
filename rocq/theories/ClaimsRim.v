(** Proofs of the properties in [PropRim]. *)
From Coq Require Import Reals Lra Lia Permutation List ZArith.
From Verif Require Import Base QcTac LenT FM Subspace Lengths IET LenInst Sqrt2 Decomp Spec SpecDec SpecTower SpecCanon SpecRim SpecGlue SpecSides Api DecApi GlueApi CanonApi SidesApi Fixtures DecFixtures.
From Verif Require Import ZorichProof InduceProof World Dyn Saddle Direct DecompSim DecompInv DecompRef DecompStep DecompNav DecompCons PerimProof DecompAll DecompBudget.
From Verif Require Import Tower Canon Rim Sides ClaimsDecomp ClaimsCanon ClaimsSides.
Open Scope nat_scope.

Section Aux.
Context {T : Type} {O : LenOps T} {W : LenLaws T}.

Lemma links_targets l xs u : (exists b, In (right_conn (b, u)) (links l xs)) <-> In u xs.
Proof.
  revert l. induction xs as [|x xs IH]; intro l; cbn [links In].
  - split; [intros (b & [])|intros []].
  - split.
    + intros (b & [E|Hb]); [injection E as _ E; left; exact E|right; apply (IH x); exists b; exact Hb].
    + intros [->|Hu]; [exists l; left; reflexivity|]. apply (IH x) in Hu as (b & Hb). exists b. right. exact Hb.
Qed.

Lemma links_sources l xs b : (exists u, In (right_conn (b, u)) (links l xs)) <-> In b (removelast (l :: xs)).
Proof.
  revert l. induction xs as [|x xs IH]; intro l; cbn [links].
  - cbn. split; [intros (u & [])|intros []].
  - change (removelast (l :: x :: xs)) with (l :: removelast (x :: xs)). cbn [In]. rewrite <- IH. split.
    + intros (u & [E|Hb]); [injection E as E _; left; exact E|right; exists u; exact Hb].
    + intros [->|(u & Hu)]; [exists x; left; reflexivity|]. exists u. right. exact Hu.
Qed.

Definition rimmed (i : iet T) (s : slen T) (d : decomp T) (Ts : list tower) : Prop :=
  map tw_base Ts = exchanges d /\ towers (exch_of i s) Ts /\ exists D, conn_inv (exch_of i s) (pieces d) (d_conns d) D /\
    forall t a c, In t Ts -> In a (e_top (tw_base t)) -> (In c (a :: D a) <-> floor_ends (exch_of i s) t a c).

Lemma dec_rimmed (i : iet T) s tr d : decomposition i s tr d -> exists Ts, rimmed i s d Ts.
Proof.
  intros (d0 & Hi & E0 & S)%history_steps. destruct (made_ok i s d0 Hi E0) as (H0 & P0 & _ & _ & F0).
  destruct (steps_ok _ _ _ _ H0 S) as (H1 & A & _).
  destruct (dk_inv _ _ H0) as (D0 & C0). pose proof (ci_start _ _ _ _ C0) as Pr.
  assert (Ne : e_top (exch_of i s) <> []) by (apply (ci_proper _ _ _ _ C0); rewrite P0; left; reflexivity).
  rewrite P0, F0 in A.
  destruct (asteps_rims (exch_of i s) _ _ _ _ A (fun _ => []) [mktower (exch_of i s) 0%R (fun _ => 1)]) as (D & Ts & C & E & HT & HR).
  - apply conn_inv_init; assumption.
  - reflexivity.
  - apply towers_start, Pr.
  - constructor; [apply rims_start|constructor].
  - exists Ts. split; [exact E|]. split; [exact HT|]. exists D. split; [exact C|]. exact (rims_exact _ _ _ _ Ts C E HT HR).
Qed.

(** The connections on the right of a cylinder, and the labels that they come from. *)
Lemma right_labels (i : iet T) s tr d D c right left : decomposition i s tr d -> conn_inv (exch_of i s) (pieces d) (d_conns d) D ->
  cylinder_sides d c right left -> exists x l, component d c x /\ i_top (dc_iet x) = [l] /\
    (forall u, u <> last (i_top i) 0 -> ((exists b, In (right_conn (b, u)) right) <-> In u (l :: D l))) /\
    (forall b, b <> last (i_bottom i) 0 -> ((exists u, In (right_conn (b, u)) right) <-> In b (l :: D l))).
Proof.
  intros H C Hs. pose proof (history_ok _ _ _ _ H) as Ok0.
  destruct (sides_are i s tr d c right left H Hs) as (x & l & lb & lt & Hx & One & _ & _ & _ & _ & R & _). exists x, l. split; [exact Hx|]. split; [exact One|].
  pose proof Hx as Hc. apply component_mid in Hc as (C1 & C2 & HD & _).
  assert (Bot : i_bottom (dc_iet x) = [l]).
  { pose proof (comp_perm _ d Ok0 C1 C2 x HD) as Pm. rewrite One in Pm. apply Permutation_length_1_inv in Pm. exact Pm. }
  assert (Ie : In (comp_exch d x) (pieces d)) by (unfold pieces; apply (in_map (comp_exch d)), (nth_error_In _ _ Hx)).
  assert (Ch : right_conns (d_conns d l) = links l (D l ++ (if Nat.eqb l (last (i_top i) 0) then [] else [l]))).
  { unfold right_conns. rewrite (ci_topR _ _ _ _ C l). cbn [app]. rewrite (ci_chain _ _ _ _ C (comp_exch d x) l Ie); [|cbn; rewrite One; left; reflexivity].
    f_equal. f_equal. unfold tail_of, lst. cbn [comp_exch exch_of e_top e_bot]. rewrite One, Bot. cbn [last]. rewrite Nat.eqb_refl. reflexivity. }
  assert (R' : forall k, In k right <-> In k (links l (D l ++ (if Nat.eqb l (last (i_top i) 0) then [] else [l])))) by (intros k; rewrite R, Ch; reflexivity).
  split.
  - intros u Nu. transitivity (In u (D l ++ (if Nat.eqb l (last (i_top i) 0) then [] else [l]))).
    + rewrite <- (links_targets l). split; intros (b & Hb); exists b; apply R'; exact Hb.
    + rewrite in_app_iff. cbn [In]. destruct (Nat.eqb_spec l (last (i_top i) 0)) as [E|E]; cbn [In]; intuition congruence.
  - intros b Nb. transitivity (In b (removelast (l :: D l ++ (if Nat.eqb l (last (i_top i) 0) then [] else [l])))).
    + rewrite <- (links_sources l). split; intros (u & Hu); exists u; apply R'; exact Hu.
    + destruct (Nat.eqb_spec l (last (i_top i) 0)) as [E|E].
      * rewrite app_nil_r. assert (La : last (l :: D l) 0 = last (i_bottom i) 0).
        { destruct (ci_open _ _ _ _ C) as (e & He & L1 & L2). cbn [exch_of e_top e_bot] in L1, L2. unfold lst in L1, L2.
          destruct (ci_parts _ _ _ _ C) as (NDl & _). unfold pieces in He. apply in_split in Ie as (E1 & E2 & Ep).
          assert (Ee : e = comp_exch d x).
          { change (map _ _) with (pieces d) in He. rewrite Ep in He, NDl. apply in_app_or in He. destruct (ci_proper _ _ _ _ C e) as [_ Ne]; [rewrite Ep; apply in_or_app; exact He|].
            assert (Il : In l (e_top e)) by (rewrite E, <- L1; apply last_in, Ne).
            destruct He as [He|[He|He]]; [exfalso|symmetry; exact He|exfalso];
              (refine (pieces_disjoint E1 (comp_exch d x) E2 e l NDl _ _ Il); [apply in_or_app; auto|cbn; rewrite One; left; reflexivity]). }
          subst e. cbn [comp_exch exch_of e_top e_bot] in L2. rewrite Bot in L2. cbn [last] in L2. rewrite <- L2. clear. 
          destruct (D l) as [|y ys]; [reflexivity|]. apply last_cons. }
        assert (Sp : l :: D l = removelast (l :: D l) ++ [last (l :: D l) 0]) by (apply app_removelast_last; discriminate).
        rewrite Sp at 2. rewrite La. rewrite in_app_iff. cbn [In]. intuition congruence.
      * rewrite app_comm_cons, removelast_last. reflexivity.
Qed.

Lemma tower_at (d : decomp T) Ts c x t : map tw_base Ts = exchanges d -> component d c x -> nth_error Ts c = Some t -> tw_base t = comp_exch d x.
Proof.
  intros E Hx Ht. apply (map_nth_error tw_base) in Ht. rewrite E in Ht. unfold exchanges in Ht. unfold component in Hx.
  rewrite (map_nth_error (comp_exch d) c _ Hx) in Ht. injection Ht as Ht. symmetry. exact Ht.
Qed.

End Aux.

Lemma claim_C102_right : forall (T : Type) (O : LenOps T) (W : LenLaws T) (i : iet T) (s : slen T) tr d,
  decomposition i s tr d ->
  exists Ts, map tw_base Ts = exchanges d /\ towers (exch_of i s) Ts /\
    forall c right left t, cylinder_sides d c right left -> nth_error Ts c = Some t ->
    exists l, e_top (tw_base t) = [l] /\
      (forall u, u <> last (i_top i) 0 ->
        ((exists b, In (mkconn (mksep b PARALLEL) (mksep u ANTIPARALLEL)) right) <-> floor_ends (exch_of i s) t l u)) /\
      (forall b, b <> last (i_bottom i) 0 ->
        ((exists u, In (mkconn (mksep b PARALLEL) (mksep u ANTIPARALLEL)) right) <-> floor_ends (exch_of i s) t l b)).
Proof.
  intros T O W i s tr d H. destruct (dec_rimmed i s tr d H) as (Ts & E & HT & D & C & R). exists Ts. split; [exact E|]. split; [exact HT|].
  intros c right left t Hs Ht. destruct (right_labels i s tr d D c right left H C Hs) as (x & l & Hx & One & A & B). exists l.
  pose proof (tower_at d Ts c x t E Hx Ht) as Eb.
  assert (Et : e_top (tw_base t) = [l]) by (rewrite Eb; cbn; exact One). split; [exact Et|].
  assert (Il : In l (e_top (tw_base t))) by (rewrite Et; left; reflexivity). apply nth_error_In in Ht.
  split; [intros u Nu; rewrite <- (R t l u Ht Il); exact (A u Nu)|intros b Nb; rewrite <- (R t l b Ht Il); exact (B b Nb)].
Qed.

Lemma claim_C102_columns : forall (T : Type) (O : LenOps T) (W : LenLaws T) (i : iet T) (s : slen T) tr d,
  decomposition i s tr d ->
  exists Ts, map tw_base Ts = exchanges d /\ towers (exch_of i s) Ts /\
    (forall c x t a lb rb, component d c x -> nth_error Ts c = Some t -> In a (i_bottom (dc_iet x)) ->
      he_cross d (mkhe c a false) = Ok (map SConn lb ++ SEdge (mkhe c a false) :: map SConn rb) ->
      forall u, a <> last (i_bottom (dc_iet x)) 0 \/ u <> last (i_top (dc_iet x)) 0 ->
      (exists b, In (mkconn (mksep b PARALLEL) (mksep u ANTIPARALLEL)) rb) <-> u <> a /\ floor_ends (exch_of i s) t a u) /\
    (forall u, In u (i_top i) -> exists c t a, nth_error Ts c = Some t /\ In a (e_top (tw_base t)) /\ floor_ends (exch_of i s) t a u /\
      forall c' t' a', nth_error Ts c' = Some t' -> floor_ends (exch_of i s) t' a' u -> t' = t /\ a' = a).
Proof.
  intros T O W i s tr d H. destruct (dec_rimmed i s tr d H) as (Ts & E & HT & D & C & R). exists Ts. split; [exact E|]. split; [exact HT|].
  pose proof (history_ok _ _ _ _ H) as Ok0. split.
  - intros c x t a lb rb Hx Ht Ia Cr u Na. pose proof Hx as Hc. apply component_mid in Hc as (C1 & C2 & HD & _).
    pose proof (comp_perm _ d Ok0 C1 C2 x HD) as Pm. assert (Ia' : In a (i_top (dc_iet x))) by (apply (Permutation_in _ (Permutation_sym Pm)), Ia).
    assert (Ka : In a (d_keys d)) by (apply (comp_keys _ d Ok0 C1 C2 x HD), Ia').
    rewrite (he_cross_ok d _ a false Ka) in Cr. injection Cr as Cr. unfold crossing, lft, rgt in Cr. rewrite <- map_rev in Cr. apply split_edge in Cr as [_ Cr].
    assert (Ie : In (comp_exch d x) (pieces d)) by (unfold pieces; apply (in_map (comp_exch d)), (nth_error_In _ _ Hx)).
    assert (Ch : exists tl, bottomRight (d_conns d a) = links a (D a ++ tl) /\ ~ In u tl).
    { exists (tail_of (lst (e_top (exch_of i s))) (comp_exch d x) a). split; [exact (ci_chain _ _ _ _ C (comp_exch d x) a Ie Ia')|]. unfold tail_of, lst. cbn [comp_exch exch_of e_top e_bot].
      destruct (Nat.eqb_spec a (last (i_bottom (dc_iet x)) 0)); [destruct (Nat.eqb _ _); [intros []|]|intros []]. intros [Q|[]]. destruct Na; congruence. }
    destruct Ch as (tl & Ch & Ntl). rewrite <- Cr, Ch. rewrite <- (R t a u (nth_error_In _ _ Ht)); [|rewrite (tower_at d Ts c x t E Hx Ht); exact Ia'].
    pose proof (links_targets a (D a ++ tl) u) as L. unfold right_conn in L. cbn in L. rewrite L, in_app_iff.
    assert (Nd : ~ In a (D a)).
    { intros Q. pose proof (Permutation_NoDup (ci_part _ _ _ _ C) (proj1 (ci_start _ _ _ _ C))) as ND. 
      assert (Il : In a (live (pieces d))) by (apply in_live; exists (comp_exch d x); split; [exact Ie|exact Ia']).
      apply in_split in Il as (L1 & L2 & El). rewrite El, flat_map_app in ND. cbn [flat_map] in ND. apply NoDup_app_l in ND as (_ & ND & _).
      change ((a :: D a) ++ flat_map (fun l => l :: D l) L2) with (a :: (D a ++ flat_map (fun l => l :: D l) L2)) in ND. apply NoDup_cons_iff in ND. apply (proj1 ND), in_or_app. left. exact Q. }
    cbn [In]. split.
    + intros [Q|Q]; [|contradiction]. split; [intros ->; contradiction|right; exact Q].
    + intros (N & [Q|Q]); [congruence|left; exact Q].
  - intros u Iu. change (In u (e_top (exch_of i s))) in Iu. apply (Permutation_in _ (ci_part _ _ _ _ C)) in Iu. apply in_flat_map in Iu as (a & Ia & Hu).
    apply in_live in Ia as (e & He & Ia). change (pieces d) with (exchanges d) in He. rewrite <- E in He. apply in_map_iff in He as (t & <- & It).
    destruct (In_nth_error _ _ It) as (c & Hc). pose proof (proj1 (R t a u It Ia) Hu) as F. exists c, t, a. split; [exact Hc|]. split; [exact Ia|]. split; [exact F|].
    intros c' t' a' Hc' F'. destruct (ends_meet _ _ _ _ _ _ F' F) as (k & k' & y & G & G').
    destruct (towers_once (exch_of i s) Ts HT t' t a' k a k' y (nth_error_In _ _ Hc') It G G') as (-> & -> & _). auto.
Qed.

Lemma claim_C102_same : forall (T : Type) (O : LenOps T) (W : LenLaws T) (i : iet T) (s : slen T) tr d tr' d',
  decomposition i s tr d -> decomposition i s tr' d' ->
  exists Ts Ts', map tw_base Ts = exchanges d /\ towers (exch_of i s) Ts /\ map tw_base Ts' = exchanges d' /\ towers (exch_of i s) Ts' /\
    forall c right left t c' right' left' t', cylinder_sides d c right left -> nth_error Ts c = Some t ->
      cylinder_sides d' c' right' left' -> nth_error Ts' c' = Some t' ->
    (same_points (exch_of i s) t t' -> rotation right right') /\
    (resolved (exchanges d) -> resolved (exchanges d') -> forall k, In k right -> In k right' -> same_cylinder (exch_of i s) t t').
Proof.
  intros T O W i s tr d tr' d' H H'. destruct (dec_rimmed i s tr d H) as (Ts & E & HT & D & C & R). destruct (dec_rimmed i s tr' d' H') as (Ts' & E' & HT' & D' & C' & R').
  exists Ts, Ts'. split; [exact E|]. split; [exact HT|]. split; [exact E'|]. split; [exact HT'|].
  intros c right left t c' right' left' t' Hs Ht Hs' Ht'.
  destruct (claim_C101_walk T O W i s tr d c right left H Hs) as (Q & _). destruct (claim_C101_walk T O W i s tr' d' c' right' left' H' Hs') as (Q' & _).
  destruct (claim_C101_same T O W i s tr d c right left tr' d' c' right' left' H H' Hs Hs') as (Ro & _).
  destruct (right_labels i s tr d D c right left H C Hs) as (x & l & Hx & One & A & B). destruct (right_labels i s tr' d' D' c' right' left' H' C' Hs') as (x' & l' & Hx' & One' & A' & B').
  pose proof (tower_at d Ts c x t E Hx Ht) as Eb. pose proof (tower_at d' Ts' c' x' t' E' Hx' Ht') as Eb'.
  assert (Et : e_top (tw_base t) = [l]) by (rewrite Eb; cbn; exact One). assert (Et' : e_top (tw_base t') = [l']) by (rewrite Eb'; cbn; exact One').
  assert (Il : In l (e_top (tw_base t))) by (rewrite Et; left; reflexivity). assert (Il' : In l' (e_top (tw_base t'))) by (rewrite Et'; left; reflexivity).
  apply nth_error_In in Ht, Ht'. pose proof (ci_start _ _ _ _ C) as P0.
  assert (Nl : forall b u, direct_connection (exch_of i s) b u -> u <> last (i_top i) 0).
  { intros b u Z Eu. destruct (direct_not_last _ _ _ P0 Z) as (_ & X & y & Y & EX). cbn [exch_of e_top] in EX. destruct P0 as (ND & _). cbn [exch_of e_top] in ND.
    rewrite EX in ND, Eu. apply NoDup_remove_2 in ND. apply ND. apply in_or_app. right. rewrite Eu. rewrite last_app_cons, last_cons. apply last_in. discriminate. }
  (* a floor of one tower ends where a floor of the other one does *)
  assert (Move : forall (D1 D2 : label -> list label) Ts1 Ts2 t1 t2 l1 l2 d2 u, towers (exch_of i s) Ts1 -> towers (exch_of i s) Ts2 -> In t1 Ts1 -> In t2 Ts2 ->
    conn_inv (exch_of i s) (pieces d2) (d_conns d2) D2 -> map tw_base Ts2 = exchanges d2 ->
    (forall t a c, In t Ts2 -> In a (e_top (tw_base t)) -> (In c (a :: D2 a) <-> floor_ends (exch_of i s) t a c)) ->
    e_top (tw_base t2) = [l2] -> same_points (exch_of i s) t1 t2 -> floor_ends (exch_of i s) t1 l1 u -> floor_ends (exch_of i s) t2 l2 u).
  { intros D1 D2 Ts1 Ts2 t1 t2 l1 l2 d2 u HT1 HT2 I1 I2 C2 E2 R2 El2 S F.
    pose proof (Permutation_in _ (ci_part _ _ _ _ C2) (proj1 F)) as Hc. apply in_flat_map in Hc as (a' & Ha' & Hc).
    apply in_live in Ha' as (e & He & Ha'). change (pieces d2) with (exchanges d2) in He. rewrite <- E2 in He. apply in_map_iff in He as (t3 & <- & I3).
    apply (R2 t3 a' u I3 Ha') in Hc. destruct (ends_meet _ _ _ _ _ _ F Hc) as (k & k' & y & F1 & F3).
    destruct (proj1 (S y) (ex_intro _ l1 (ex_intro _ k F1))) as (a2 & k2 & F2).
    destruct (towers_once (exch_of i s) Ts2 HT2 t3 t2 a' k' a2 k2 y I3 I2 F3 F2) as (-> & _). rewrite El2 in Ha'. destruct Ha' as [<-|[]]. exact Hc. }
  split.
  - intros S.
    assert (Sub : forall k, In k right -> In k right').
    { intros k Hk. destruct (Q k Hk) as (b & u & -> & Z). pose proof (Nl b u Z) as Nu.
      assert (F : floor_ends (exch_of i s) t l u) by (apply (R t l u Ht Il), (A u Nu); exists b; exact Hk).
      pose proof (Move D D' Ts Ts' t t' l l' d' u HT HT' Ht Ht' C' E' R' Et' S F) as F'. apply (R' t' l' u Ht' Il') in F'. apply (A' u Nu) in F' as (b' & Hb').
      destruct (Q' _ Hb') as (b2 & u2 & Ek & Z'). injection Ek as -> ->. rewrite (direct_source _ P0 _ _ _ Z Z'). exact Hb'. }
    destruct right as [|k right]; [|apply (Ro k); [left; reflexivity|apply Sub; left; reflexivity]].
    destruct right' as [|k' right']; [exists [], []; split; reflexivity|]. exfalso. destruct (Q' k' (or_introl eq_refl)) as (b & u & Ek & Z). pose proof (Nl b u Z) as Nu.
    assert (F : floor_ends (exch_of i s) t' l' u) by (apply (R' t' l' u Ht' Il'), (A' u Nu); exists b; left; exact Ek).
    pose proof (Move D' D Ts' Ts t' t l' l d u HT' HT Ht' Ht C E R Et (same_points_sym _ _ _ S) F) as F'. apply (R t l u Ht Il) in F'. apply (A u Nu) in F' as (b' & []).
  - intros Re Re' k Hk Hk'. destruct (Q k Hk) as (b & u & -> & Z). pose proof (Nl b u Z) as Nu.
    assert (F : floor_ends (exch_of i s) t l u) by (apply (R t l u Ht Il), (A u Nu); exists b; exact Hk).
    assert (F' : floor_ends (exch_of i s) t' l' u) by (apply (R' t' l' u Ht' Il'), (A' u Nu); exists b; exact Hk').
    destruct (ends_meet _ _ _ _ _ _ F F') as (j & j' & y & G & G').
    destruct (cylinder_partner (exch_of i s) P0 Ts Ts' t l (dec_sorted i s tr d Ts H E HT Re) (dec_sorted i s tr' d' Ts' H' E' HT' Re') Ht Et) as (t2 & a2 & I2 & Et2 & SC).
    pose proof SC as (_ & _ & _ & _ & _ & _ & S). destruct (proj1 (S y) (ex_intro _ l (ex_intro _ j G))) as (a3 & k3 & G3).
    destruct (towers_once (exch_of i s) Ts' HT' t2 t' a3 k3 l' j' y I2 Ht' G3 G') as (-> & _). exact SC.
Qed.

