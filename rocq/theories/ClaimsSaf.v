(** Proofs of the properties in [PropSaf]. *)
From Coq Require Import Reals Lra Permutation.
From Verif Require Import Base QcTac LenT FM Subspace Lengths IET Spec SpecLin Api.
From Verif Require Import ZorichProof Dyn Saddle ReduceProof SubspaceProof Saf Bosh Path Similar InduceProof InduceCons World Seq.
Open Scope nat_scope.

Lemma saf_value {T} {O : LenOps T} {W : LenLaws T} (i : iet T) (s : slen T) v i' : good i s -> saf_invariant i s = Ok (v, i') -> v = saf_now i s.
Proof.
  intros (Wf & C & _) E. destruct (saf_invariant_ok i s Wf C) as (w & E1 & _). rewrite E in E1. injection E1 as -> _. reflexivity.
Qed.

Lemma vis0_forall (v : vec) : vis0 v = true <-> Forall (fun q => q = 0%Qc) v.
Proof.
  rewrite vis0_spec. split.
  - intros ->. induction (length v); simpl; constructor; auto.
  - induction 1 as [|x v Hx Hv IH]; simpl; [reflexivity|]. rewrite Hx at 1. f_equal. exact IH.
Qed.

Lemma claim_C11_saf_invariant : forall (T : Type) (O : LenOps T) (W : LenLaws T) (i : iet T) (s : slen T) j t,
  obtainable i s -> inducing i s 0 j t ->
  exists v i' j', saf_invariant i s = Ok (v, i') /\ saf_invariant j t = Ok (v, j').
Proof.
  intros T O W i s j t H%obtainable_good I. pose proof (inducing_ok i s 0 j t H I) as R.
  destruct H as (Wf & C & _). destruct (rel_good _ _ _ _ _ R) as (Wf' & C' & _).
  destruct (saf_invariant_ok i s Wf C) as (v1 & E1 & _). destruct (saf_invariant_ok j t Wf' C') as (v2 & E2 & _).
  rewrite (rel_saf _ _ _ _ _ R) in E2. unfold par in E2. simpl in E2.
  do 3 eexists. split; [exact E1 | exact E2].
Qed.

Lemma claim_C12_value : forall (T : Type) (O : LenOps T) (W : LenLaws T) (i : iet T) (s : slen T),
  obtainable i s ->
  exists i', saf_invariant i s = Ok (saf_vector (l_deg T) (coordinate s) (i_top i) (i_bottom i), i').
Proof.
  intros T O W i s H%obtainable_good. destruct H as (Wf & C & _).
  destruct (saf_invariant_ok i s Wf C) as (v1 & E1 & _). eexists. rewrite E1, saf_now_vector by exact Wf. reflexivity.
Qed.

Lemma claim_C12_swap : forall (T : Type) (O : LenOps T) (W : LenLaws T) (i : iet T) (s : slen T) v i',
  obtainable i s -> saf_invariant i s = Ok (v, i') ->
  exists i'', saf_invariant (iet_swap i) s = Ok (map Qcopp v, i'').
Proof.
  intros T O W i s v i' H%obtainable_good E. rewrite (saf_value i s v i' H E).
  destruct (good_swap i s H) as (Wf & C & _). destruct (saf_invariant_ok _ s Wf C) as (v1 & E1 & _).
  eexists. rewrite E1, swap_saf by apply H. rewrite vneg_opp. reflexivity.
Qed.

Lemma claim_C12_reduce : forall (T : Type) (O : LenOps T) (W : LenLaws T) (i : iet T) (s : slen T) v i' l r,
  obtainable i s -> saf_invariant i s = Ok (v, i') -> reduce i s = Ok (Some r, l) ->
  exists vl l' vr r', saf_invariant l s = Ok (vl, l') /\ saf_invariant r s = Ok (vr, r') /\
    length vl = length v /\ length vr = length v /\ forall k, nth k v 0%Qc = (nth k vl 0 + nth k vr 0)%Qc.
Proof.
  intros T O W i s v i' l r H%obtainable_good E Er. rewrite (saf_value i s v i' H E).
  destruct H as (Wf & C & K).
  destruct (reduce_ok i s Wf) as [(k & Hk & _ & E1)|[_ E1]]; rewrite Er in E1; [|discriminate]. injection E1 as -> ->.
  destruct (good_cut i s k True Wf K Hk) as [(W1 & C1 & _) (W2 & C2 & _)].
  destruct (saf_invariant_ok _ s W1 C1) as (v1 & E1 & _). destruct (saf_invariant_ok _ s W2 C2) as (v2 & E2 & _).
  assert (L : length (saf_now (left_part i k) s) = length (saf_now (right_part i k) s)).
  { unfold saf_now, saf_of, saf_vector. rewrite !map_length. reflexivity. }
  assert (Q : saf_now i s = vadd (saf_now (left_part i k) s) (saf_now (right_part i k) s)).
  { unfold saf_now. destruct Hk as [Hk1 Hk2]. simpl in Hk1, Hk2.
    transitivity (saf_of (lamT s) (firstn k (i_top i) ++ skipn k (i_top i)) (firstn k (i_bottom i) ++ skipn k (i_bottom i))); [rewrite !firstn_skipn; reflexivity|].
    apply (saf_of_cut (lamT s) (firstn k (i_top i)) (skipn k (i_top i)) (firstn k (i_bottom i)) (skipn k (i_bottom i)));
      [pose proof (firstn_skipn k (i_top i)) as Q; rewrite Q; apply Wf | exact Hk2|].
    destruct W2 as (_ & P2 & _). exact P2. }
  do 4 eexists. split; [exact E1|]. split; [exact E2|]. rewrite Q.
  rewrite vadd_length by exact L. split; [reflexivity|]. split; [symmetry; exact L|].
  intros n. apply vadd_nth. exact L.
Qed.

Lemma claim_C13_commensurable : forall (T : Type) (O : LenOps T) (W : LenLaws T) (i : iet T) (s : slen T) v i',
  obtainable i s -> saf_invariant i s = Ok (v, i') ->
  (commensurable (lamR s) (i_top i) -> Forall (fun q => q = 0%Qc) v) /\
  (l_deg T = 1 -> v = []).
Proof.
  intros T O W i s v i' H%obtainable_good E. rewrite (saf_value i s v i' H E). split.
  - intros Hc. apply vis0_forall, vis0_spec. apply saf_commensurable; [apply H | exact Hc].
  - intros Hd. unfold saf_now, saf_of, saf_vector. rewrite Hd. reflexivity.
Qed.

Lemma claim_C14_no_periodic_trajectory : forall (T : Type) (O : LenOps T) (W : LenLaws T) (i : iet T) (s : slen T) i',
  obtainable i s -> bosh_no_periodic i s = Ok (true, i') -> ~ has_periodic_point (exch_of i s).
Proof.
  intros T O W i s i' H%obtainable_good E Hp. destruct H as (Wf & C & _).
  destruct (bosh_no_periodic_ok i s Wf C) as (b & v & E1 & _ & Hb). rewrite E in E1. injection E1 as <- _.
  apply (proj1 Hb); [reflexivity|]. apply periodic_balanced; [apply wf_proper, Wf | exact Hp].
Qed.

Lemma claim_C14_decides : forall (T : Type) (O : LenOps T) (W : LenLaws T) (i : iet T) (s : slen T),
  obtainable i s ->
  exists r i', bosh_no_periodic i s = Ok (r, i') /\ (r = true <-> ~ balanced (exch_of i s)).
Proof.
  intros T O W i s H%obtainable_good. destruct H as (Wf & C & _).
  destruct (bosh_no_periodic_ok i s Wf C) as (b & v & E1 & _ & Hb). do 2 eexists. split; [exact E1 | exact Hb].
Qed.

Lemma claim_C15_no_saddle_connection : forall (T : Type) (O : LenOps T) (W : LenLaws T) (i : iet T) (s : slen T) t b,
  obtainable i s -> bosh_no_saddle2 i s t b = Ok true -> ~ saddle_connection (exch_of i s) b t.
Proof.
  intros T O W i s t b H%obtainable_good E Hs. destruct H as (Wf & C & _). pose proof (wf_proper _ _ Wf) as P.
  destruct (saddle_not_last _ _ _ P Hs) as [Nt Nb].
  destruct (bosh_no_saddle2_ok i s t b Wf Nt Nb) as (r & E1 & Hr). rewrite E in E1. injection E1 as <-.
  apply (proj1 Hr); [reflexivity|]. exact (saddle_connectable _ _ _ P Hs).
Qed.

Lemma claim_C15_decides : forall (T : Type) (O : LenOps T) (W : LenLaws T) (i : iet T) (s : slen T) t b,
  obtainable i s -> not_last (i_top i) t -> not_last (i_bottom i) b ->
  exists r, bosh_no_saddle2 i s t b = Ok r /\ (r = true <-> ~ connectable (exch_of i s) b t).
Proof.
  intros T O W i s t b H%obtainable_good Nt Nb. apply bosh_no_saddle2_ok; [apply H | exact Nt | exact Nb].
Qed.

Lemma claim_C16_no_saddle_connection_at_all : forall (T : Type) (O : LenOps T) (W : LenLaws T) (i : iet T) (s : slen T),
  obtainable i s -> bosh_no_saddle i s = Ok true -> ~ has_saddle_connection (exch_of i s).
Proof.
  intros T O W i s H%obtainable_good E (b & t & Hs). destruct H as (Wf & C & _). pose proof (wf_proper _ _ Wf) as P.
  destruct (saddle_not_last _ _ _ P Hs) as [Nt Nb].
  destruct (bosh_no_saddle_ok i s Wf) as (r & E1 & Hr). rewrite E in E1. injection E1 as <-.
  destruct (proj1 Hr eq_refl) as [_ G]. apply (G t b Nt Nb). exact (saddle_connectable _ _ _ P Hs).
Qed.

Lemma claim_C16_conjunction : forall (T : Type) (O : LenOps T) (W : LenLaws T) (i : iet T) (s : slen T),
  obtainable i s -> 2 <= length (i_top i) ->
  exists r, bosh_no_saddle i s = Ok r /\
    (r = true <-> forall t b, not_last (i_top i) t -> not_last (i_bottom i) b -> bosh_no_saddle2 i s t b = Ok true).
Proof.
  intros T O W i s H%obtainable_good Hn. destruct H as (Wf & C & _).
  destruct (bosh_no_saddle_ok i s Wf) as (r & E1 & Hr). exists r. split; [exact E1|]. rewrite Hr. split.
  - intros [_ G] t b Nt Nb. destruct (bosh_no_saddle2_ok i s t b Wf Nt Nb) as (q & E & Hq).
    rewrite E. f_equal. apply Hq. exact (G t b Nt Nb).
  - intros G. split; [exact Hn|]. intros t b Nt Nb. destruct (bosh_no_saddle2_ok i s t b Wf Nt Nb) as (q & E & Hq).
    apply Hq. rewrite (G t b Nt Nb) in E. injection E as <-. reflexivity.
Qed.

Lemma claim_C16_rejects_end_points : forall (T : Type) (O : LenOps T) (W : LenLaws T) (i : iet T) (s : slen T) t b,
  obtainable i s -> In t (i_top i) -> In b (i_bottom i) -> ~ (not_last (i_top i) t /\ not_last (i_bottom i) b) ->
  bosh_no_saddle2 i s t b = Throw.
Proof.
  intros T O W i s t b H%obtainable_good It Ib Hn. apply bosh_no_saddle2_throws; [apply H | exact It | exact Ib|].
  destruct (Classical_Prop.classic (not_last (i_top i) t)) as [G|G]; [right; tauto | left; exact G].
Qed.

Lemma claim_C17_shortcut : forall (T : Type) (O : LenOps T) (W : LenLaws T) (i : iet T) (s : slen T) v i',
  obtainable i s -> saf_invariant i s = Ok (v, i') ->
  (Forall (fun q => q = 0%Qc) v \/ length (i_top i) = 1) ->
  exists eqs r, bosh_equations i s = Ok eqs /\ ras_equations eqs (vzero (length eqs)) = Ok r /\ nznn r = Ok true.
Proof.
  intros T O W i s v i' H%obtainable_good E Hv. rewrite (saf_value i s v i' H E) in Hv. destruct H as (Wf & C & _).
  assert (B : balanced (exch_of i s)).
  { destruct (Classical_Prop.classic (balanced (exch_of i s))) as [B|B]; [exact B|]. exfalso.
    destruct Hv as [Hv|Hv].
    - apply vis0_forall in Hv. destruct (saf_zero_solution i s Wf Hv) as (g & Hg & HS).
      apply B. eapply positive_balanced; eassumption.
    - destruct Wf as (N & P & Hne & _). destruct (i_top i) as [|a [|? ?]] eqn:Et; [contradiction| |simpl in Hv; lia].
      apply Permutation_length_1_inv in P. apply B. exists (fun _ => 1). simpl. rewrite Et. split; [exists a; simpl; auto|].
      simpl. unfold Spec.shift. simpl. rewrite Et, P. simpl. rewrite Nat.eqb_refl. lra. }
  destruct (bosh_space i s Wf) as (r & Er & L & Hh & Hm).
  destruct (bosh_equations i s) as [eqs| | | |]; try discriminate. cbn [bind] in Er.
  exists eqs, r. split; [reflexivity|]. split; [exact Er|].
  destruct (nznn_ok r L Hh) as (b & Eb & Hb). rewrite Eb. f_equal. apply Hb.
  apply (bosh_space_balanced i s r Wf L Hm). exact B.
Qed.

Lemma claim_C51_equations : forall (T : Type) (O : LenOps T) (W : LenLaws T) (i : iet T) (s : slen T),
  obtainable i s ->
  let column a := map (fun k => displacement (coordinate s k) (i_top i) (i_bottom i) a) (seq 0 (l_deg T)) in
  bosh_equations i s = Ok (map (fun k => map (fun a => nth k (column a) 0%Qc) (i_top i)) (seq 0 (l_deg T))) /\
  (forall a, lin (column a) (basis T) = shift (exch_of i s) a).
Proof.
  intros T O W i s H%obtainable_good column. destruct H as (Wf & C & _).
  assert (Q : forall k a, displacement (coordinate s k) (i_top i) (i_bottom i) a = displacement (co (lamT s) k) (i_top i) (i_bottom i) a).
  { intros k a. unfold displacement. f_equal; apply before_ext; intros; apply coordinate_co. }
  split.
  - rewrite bosh_equations_ok by exact Wf. f_equal. apply map_ext_in. intros k Hk. apply map_ext. intros a.
    apply in_seq in Hk. unfold column. rewrite <- Q. symmetry.
    apply (tab_nth (l_deg T) (fun k => displacement (coordinate s k) (i_top i) (i_bottom i) a)). lia.
  - intros a. rewrite <- tshift_val, val_coef. f_equal.
    rewrite (tab_of (l_coef (tshift (lamT s) (i_top i) (i_bottom i) a)) (l_deg T)) by apply coef_length.
    unfold column, tab. apply map_ext. intros k. rewrite tshift_co. apply Q.
Qed.

Lemma claim_C51_values : forall (T : Type) (O : LenOps T) (W : LenLaws T) (i : iet T) (s : slen T) t b,
  obtainable i s -> not_last (i_top i) t -> not_last (i_bottom i) b ->
  exists rho x y, bosh_values i s t b = Ok (l_coef rho) /\ val rho = (y - x)%R /\
    right_end (lamR s) (i_bottom i) b x /\ right_end (lamR s) (i_top i) t y.
Proof.
  intros T O W i s t b H%obtainable_good Ht Hb. destruct H as (Wf & C & _).
  pose proof Wf as (N & P & Hne & Hp & _). pose proof (Permutation_NoDup P N) as Nb.
  destruct (next_label_ok _ _ N Ht) as (X & t' & Y & Et & Nt).
  destruct (next_label_ok _ _ Nb Hb) as (X' & b' & Y' & Eb & Nbl).
  exists (l_sub (tbefore (lamT s) (i_top i) t') (tbefore (lamT s) (i_bottom i) b')),
    (left_end (lamR s) (i_bottom i) b'), (left_end (lamR s) (i_top i) t').
  split; [|split; [|split]].
  - unfold bosh_values. rewrite Nt, Nbl, label_to_coefficients_ok by exact Wf. cbn [bind].
    rewrite translation_ok by exact Wf. cbn [bind]. rewrite vneg_tab. f_equal.
    set (rho := l_sub _ _). rewrite (tab_of (l_coef rho) (l_deg T) (coef_length rho)). apply tab_ext. intros k _. unfold rho.
    rewrite coef_sub_nth, !tbefore_co. ring.
  - rewrite val_sub, !tbefore_val. rewrite !(left_end_ext (fun c => val (lamT s c)) (lamR s)) by apply val_lamT. reflexivity.
  - exact (right_end_next (lamR s) X' b b' Y' _ Nb Eb).
  - exact (right_end_next (lamR s) X t t' Y _ N Et).
Qed.

