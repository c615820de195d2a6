(** Proofs of the properties in [PropFound]. *)
From Coq Require Import Reals Lra Lia Permutation List ZArith.
From Verif Require Import Base QcTac LenT FM Subspace Lengths IET LenInst Sqrt2 Decomp Spec SpecDec Api DecApi InjApi FoundApi Fixtures DecFixtures KeaneFixtures.
From Verif Require Import ZorichProof InduceProof World Dyn Saddle Direct Bosh DecompSim DecompInv DecompRef DecompStep DecompNav DecompCons DecompAll DecompBudget Keane Path Rank Rank2 Endless RankEnd RankDec EndsDec Back.
From Verif Require Import ClaimsDecomp ClaimsInject ClaimsKeane.
Open Scope nat_scope.

Section Aux.
Context {T : Type} {O : LenOps T} {W : LenLaws T}.

Lemma dec_back (i : iet T) s tr d : decomposition i s tr d ->
  dec_ok (exch_of i s) d /\ exists D, conn_inv (exch_of i s) (pieces d) (d_conns d) D /\ back (exch_of i s) (pieces d) D.
Proof.
  intros (d0 & Hi & E0 & S)%history_steps. destruct (made_ok i s d0 Hi E0) as (H0 & P0 & _ & _ & F0).
  destruct (steps_ok _ _ _ _ H0 S) as (H1 & A & _). split; [exact H1|].
  destruct (dk_inv _ _ H0) as (D0 & C0). pose proof (ci_start _ _ _ _ C0) as Pr.
  assert (Ne : e_top (exch_of i s) <> []).
  { destruct (ci_proper _ _ _ _ C0 (exch_of i s)) as [_ Ne]; [rewrite P0; left; reflexivity|exact Ne]. }
  pose proof (conn_inv_init _ Pr Ne) as C. rewrite P0, F0 in A.
  exact (asteps_back _ _ _ _ _ A _ C (back_init _)).
Qed.

Lemma not_last_label (l : list label) a : a <> lst l -> ~ last_label l a.
Proof. intros N (X & ->). apply N. unfold lst. rewrite last_snoc. reflexivity. Qed.

Lemma iter_rz_length e m : proper e -> (forall k, k < m -> able (Nat.iter k rz e)) ->
  proper (Nat.iter m rz e) /\ length (e_top (Nat.iter m rz e)) = length (e_top e).
Proof.
  intros P. induction m as [|m IH]; intros Ab; [split; [exact P|reflexivity]|].
  destruct IH as [Pm Lm]; [intros k Hk; apply Ab; lia|]. specialize (Ab m (Nat.lt_succ_diag_r m)). simpl. split; [exact (rz_proper _ Pm Ab)|].
  rewrite <- Lm. symmetry. apply Permutation_length. exact (path_labels _ _ Pm (move_path _ _ _ _ (go_move _ Pm Ab))).
Qed.

Lemma later_length e e' m : proper e -> later m e e' -> length (e_top e') = length (e_top e).
Proof. intros P ((A & _) & Ab). destruct (iter_rz_length e m P Ab) as [_ L]. rewrite <- A. exact L. Qed.

Lemma bosh_component (i : iet T) s tr d c x : decomposition i s tr d -> component d c x ->
  bosh_no_saddle (dc_iet x) (d_len d) = Ok true -> ~ has_saddle_connection (comp_exch d x).
Proof.
  intros H Hx E (b & t & Hs). pose proof (proj1 (dk_good _ _ (history_ok _ _ _ _ H) x (nth_error_In _ _ Hx))) as (Wf & _).
  pose proof (wf_proper _ _ Wf) as P. destruct (saddle_not_last _ _ _ P Hs) as [Nt Nb].
  destruct (bosh_no_saddle_ok _ _ Wf) as (r & E1 & Hr). rewrite E in E1. injection E1 as <-.
  destruct (proj1 Hr eq_refl) as [_ G]. apply (G t b Nt Nb). exact (saddle_connectable _ _ _ P Hs).
Qed.
End Aux.
Lemma claim_C100_inside : forall (T : Type) (O : LenOps T) (W : LenLaws T) (i : iet T) (s : slen T) tr d b t,
  decomposition i s tr d -> direct_connection (exch_of i s) b t ->
  In (mkconn (mksep b PARALLEL) (mksep t ANTIPARALLEL)) (rights d) \/
  exists c x l, component d c x /\ In l (i_bottom (dc_iet x)) /\ In t (i_top (dc_iet x)) /\
    he_separatrix d (mkhe c l false) = Ok (Some (mksep b PARALLEL)) /\
    he_separatrix d (mkhe c t true) = Ok (Some (mksep t ANTIPARALLEL)) /\
    direct_connection (comp_exch d x) l t.
Proof.
  intros T O W i s tr d b t H Q. destruct (dec_back i s tr d H) as (Ok0 & D & C & B).
  destruct (found_or_inside _ _ _ _ b t C B Q) as [F|(e & l & He & Hl & Nl & El & Qe)].
  - left. rewrite (rights_eq _ d Ok0). exact F.
  - right. pose proof He as Hx. unfold pieces in Hx. apply in_map_iff in Hx as (x & <- & Hx).
    apply In_nth_error in Hx as (c & Hx). exists c, x, l. cbn in Hl, Nl. pose proof Hx as Hc. apply component_mid in Hc as (C1 & C2 & HD & Ec).
    destruct (ci_proper _ _ _ _ C _ He) as [Pe _]. pose proof Pe as (NT & Pp & _). cbn in NT, Pp.
    destruct (direct_not_last _ _ _ Pe Qe) as [_ (U & y & V & EU)]. cbn in EU.
    assert (Ht : In t (i_top (dc_iet x))) by (rewrite EU; apply in_or_app; right; left; reflexivity).
    assert (Hl' : In l (i_top (dc_iet x))) by exact (Permutation_in _ (Permutation_sym Pp) Hl).
    split; [exact Hx|]. split; [exact Hl|]. split; [exact Ht|]. split; [|split; [|exact Qe]].
    + destruct (claim_C31_chain T O W i s tr d c x l H Hx Hl) as (cs & r & _ & _ & _ & E4).
      assert (Ech : rgt d l false = links l (D l)).
      { unfold rgt. rewrite (ci_chain _ _ _ _ C _ l He Hl'). unfold tail_of. destruct (Nat.eqb_spec l (lst (e_bot (exch_of (dc_iet x) (d_len d))))) as [Z|_]; [contradiction|].
        rewrite app_nil_r. reflexivity. }
      destruct (separatrix_at_bottom _ d Ok0 C1 C2 x HD l Hl') as (ls & L1 & L2).
      assert (Same : links l ls = links l (D l)) by congruence. apply (f_equal (map cn_target)) in Same. rewrite !links_target in Same.
      apply (f_equal (map sp_label)) in Same. rewrite !map_map, !map_id in Same. subst ls. rewrite El in L2.
      specialize (E4 (not_last_label _ _ Nl)). rewrite E4.
      unfold he_separatrix in E4. apply bind_ok in E4 as ([n|] & _ & E4); [|discriminate]. cbn [he_top he_label] in E4. rewrite L2 in E4. cbn [bind] in E4.
      injection E4 as <-. reflexivity.
    + destruct (claim_C31_top T O W i s tr d c x t H Hx Ht) as (_ & _ & E). apply E.
      intros Z. apply (row_last (i_top (dc_iet x)) U t (y :: V) NT EU) in Z. discriminate.
Qed.

Lemma claim_C100_exact : forall (T : Type) (O : LenOps T) (W : LenLaws T) (i : iet T) (s : slen T) tr d,
  decomposition i s tr d -> exhausted d ->
  (forall b t, direct_connection (exch_of i s) b t <-> In (mkconn (mksep b PARALLEL) (mksep t ANTIPARALLEL)) (rights d)) /\
  (forall b t, direct_connection (exch_of i s) b t <-> In (mkconn (mksep t ANTIPARALLEL) (mksep b PARALLEL)) (lefts d)) /\
  (has_saddle_connection (exch_of i s) <-> rights d <> []).
Proof.
  intros T O W i s tr d H Ex. destruct (claim_C54_genuine T O W i s tr d H) as (G1 & G2 & _).
  assert (A : forall b t, direct_connection (exch_of i s) b t -> In (mkconn (mksep b PARALLEL) (mksep t ANTIPARALLEL)) (rights d)).
  { intros b t Q. destruct (claim_C100_inside T O W i s tr d b t H Q) as [F|(c & x & l & Hx & Hl & Ht & E1 & _ & R)]; [exact F|exfalso].
    destruct (Ex c x Hx) as [One|No].
    - destruct (dec_back i s tr d H) as (Ok0 & D & C & _). pose proof (nth_error_In _ _ Hx) as Ix.
      destruct (ci_proper _ _ _ _ C (comp_exch d x)) as [Pe _]; [apply (in_map (comp_exch d)), Ix|].
      destruct (direct_not_last _ _ _ Pe R) as [_ (U & y & V & EU)]. cbn in EU. rewrite EU, app_length in One. cbn in One. lia.
    - apply No. exists l, t. apply direct_saddle, R. }
  pose proof (history_ok _ _ _ _ H) as Ok0. split; [|split].
  - intros b t. split; [apply A|apply G1].
  - intros b t. split; [|apply G2]. intros Q. apply (Permutation_in _ (Permutation_sym (conns_reverse _ d Ok0))). apply in_map_iff.
    exists (right_conn (b, t)). split; [reflexivity|exact (A b t Q)].
  - destruct (dk_inv _ _ Ok0) as (D & C). split.
    + intros (b & t & S) Z. destruct (saddle_first _ b t (ci_start _ _ _ _ C) S) as (t' & Q). apply A in Q. rewrite Z in Q. exact Q.
    + intros N. destruct (rights d) as [|k r] eqn:E; [congruence|]. destruct (conns_right _ d Ok0 k) as (b & t & -> & Q); [rewrite E; left; reflexivity|].
      exists b, t. apply direct_saddle, Q.
Qed.

Lemma claim_C100_same : forall (T : Type) (O : LenOps T) (W : LenLaws T) (i : iet T) (s : slen T) tr d tr' d',
  decomposition i s tr d -> decomposition i s tr' d' -> exhausted d -> exhausted d' ->
  Permutation (rights d) (rights d') /\ Permutation (lefts d) (lefts d') /\ Permutation (reported tr) (reported tr').
Proof.
  intros T O W i s tr d tr' d' H H' Ex Ex'.
  assert (P : Permutation (rights d) (rights d')).
  { assert (N : forall tr d, decomposition i s tr d -> NoDup (rights d)).
    { intros tr0 d0 H0. pose proof (conns_sources _ d0 (history_ok _ _ _ _ H0)) as N. rewrite map_app in N. apply NoDup_app_l in N. exact (NoDup_map_inv _ _ (proj1 (proj2 N))). }
    apply NoDup_Permutation; [exact (N _ _ H)|exact (N _ _ H')|]. intros k. split; intros K.
    - destruct (conns_right _ d (history_ok _ _ _ _ H) k K) as (b & t & -> & Q). apply (claim_C100_exact T O W i s tr' d' H' Ex'). exact Q.
    - destruct (conns_right _ d' (history_ok _ _ _ _ H') k K) as (b & t & -> & Q). apply (claim_C100_exact T O W i s tr d H Ex). exact Q. }
  split; [exact P|]. split.
  - rewrite (conns_reverse _ d (history_ok _ _ _ _ H)), (conns_reverse _ d' (history_ok _ _ _ _ H')). apply Permutation_map, P.
  - rewrite <- (claim_C54_reported T O W i s tr d H), <- (claim_C54_reported T O W i s tr' d' H'). exact P.
Qed.

Lemma claim_C100_eventually : forall (T : Type) (O : LenOps T) (W : LenLaws T) (i : iet T) (s : slen T) tr
    (D : nat -> decomp T) (fuel choice : nat -> nat) (limit : nat -> Z) (st : nat -> dstep),
  decomposition i s tr (D 0) ->
  (forall n, (1 <= limit n <= INT_MAX)%Z /\ choice n < length (d_comps (D n)) /\
     decomposition_step (fuel n) (limit n) (choice n) (D n) = Ok (st n, D (S n))) ->
  (forall n c, c < length (d_comps (D n)) ->
     (exists k, n <= k /\ choice k = c /\ dst_result (st k) = D_CYLINDER) \/
     (forall m, exists k, m <= k /\ choice k = c /\
        (dst_result (st k) = D_LIMIT_REACHED \/ dst_result (st k) = D_WITHOUT_PERIODIC_TRAJECTORY_BOSHERNITZAN))) ->
  exists N, forall n, N <= n -> exhausted (D n) /\
    forall b t, direct_connection (exch_of i s) b t <-> In (mkconn (mksep b PARALLEL) (mksep t ANTIPARALLEL)) (rights (D n)).
Proof.
  intros T O W i s tr D fuel choice limit st H Run Fair.
  destruct (claim_C76_history T O W i s tr D fuel choice limit st H Run) as (N & N1 & N2).
  assert (Hist : forall n, exists tr', decomposition i s tr' (D n)).
  { induction n as [|n (tr' & IH)]; [exists tr; exact H|]. destruct (Run n) as (HL & Hc & E). exists (tr' ++ [st n]).
    eapply dh_step; [exact IH|apply HL|exact Hc|exact E]. }
  assert (Hok : forall n, dec_ok (exch_of i s) (D n)) by (intros n; destruct (Hist n) as (tr' & H'); exact (history_ok _ _ _ _ H')).
  assert (NC : forall n, N <= n -> ~ connects (st n)) by (intros n Hn [C|C]; destruct (N1 n Hn); contradiction).
  assert (St : forall n, N <= n -> forall c e, at_ (D n) c e -> exists e' m, at_ (D (S n)) c e' /\ later m e e').
  { intros n Hle c e He. destruct (Run n) as (HL & Hc & E).
    assert (Wk : RankApi.worked (D n) [st n] (D (S n))) by (econstructor; [right; exact HL|exact Hc|exact E|constructor]).
    destruct (worked_later _ _ _ _ (Hok n) Wk) as (_ & B & _); [intros s' [<-|[]]; exact (NC n Hle)|]. exact (B c e He). }
  assert (Go : forall n k, N <= n -> n <= k -> forall c e, at_ (D n) c e -> exists e' m, at_ (D k) c e' /\ later m e e').
  { intros n k Hn Hk c e He. induction Hk as [|k Hk (e1 & m1 & A1 & L1)]; [exists e, 0; split; [exact He|apply later_0, agree_refl]|].
    destruct (St k ltac:(lia) c e1 A1) as (e2 & m2 & A2 & L2). exists e2, (m1 + m2). split; [exact A2|exact (later_plus _ _ _ _ _ L1 L2)]. }
  assert (Ex : forall n, N <= n -> exhausted (D n)).
  { intros n Hn c x Hx. assert (Hc : c < length (d_comps (D n))) by (apply nth_error_Some; unfold component in Hx; rewrite Hx; discriminate).
    destruct (Fair n c Hc) as [(k & Hk & Ck & Rk)|Inf]; [left|right; apply (N2 n c x Hn Hx Inf)].
    destruct (Go n k Hn Hk c (exch_of (dc_iet x) (d_len (D n)))) as (e' & m & (y & Hy & ->) & L); [exists x; split; [exact Hx|reflexivity]|].
    assert (Pe : proper (exch_of (dc_iet x) (d_len (D n)))) by (apply wf_proper, (dk_good _ _ (Hok n) x (nth_error_In _ _ Hx))).
    apply later_length in L; [|exact Pe]. cbn in L. rewrite <- L.
    destruct (Run k) as (HL & Hc' & E). destruct (big_call _ _ _ _ _ _ _ (Hok k) (proj2 HL) Hc' E) as (C1 & z & C2 & HD & LC & P).
    pose proof (sp_case _ _ _ _ _ _ _ P) as PC. unfold dstep_post in PC. rewrite Rk in PC. destruct PC as (i' & Sz & _).
    rewrite HD, nth_error_app2 in Hy by lia. replace (c - length C1) with 0 in Hy by lia. cbn in Hy. injection Hy as <-. exact Sz. }
  exists N. intros n Hn. split; [exact (Ex n Hn)|]. destruct (Hist n) as (tr' & H'). apply (claim_C100_exact T O W i s tr' (D n) H' (Ex n Hn)).
Qed.

