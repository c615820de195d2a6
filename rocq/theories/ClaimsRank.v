(** Proofs of the properties in [PropRank]. *)
From Coq Require Import Reals Lra Lia Permutation QArith Qcanon.
From Verif Require Import Base QcTac LenT FM Subspace Lengths IET Decomp Spec SpecDec SpecRank Api DecApi RankApi.
From Verif Require Import ZorichProof Saf Bosh Path InduceProof InduceCons World Seq DecompInv DecompRef DecompStep DecompAll DecompBudget ClaimsSaf ClaimsInduce.
From Verif Require Import RankEnd Rank RankDec.
Open Scope nat_scope.

Lemma claim_C60_quadratic : forall (T : Type) (O : LenOps T) (W : LenLaws T) (i : iet T) (s : slen T),
  obtainable i s -> l_deg T = 2 -> rank_two (exch_of i s).
Proof.
  intros T O W i s H%obtainable_good Hd. apply degree_two; [apply H | exact Hd].
Qed.

Lemma claim_C60_calls : forall (T : Type) (O : LenOps T) (W : LenLaws T) (i : iet T) (s : slen T),
  obtainable i s -> rank_two (exch_of i s) ->
  exists N, forall ls, stalls ls i s -> (zsuml ls < N)%Z.
Proof.
  intros T O W i s H%obtainable_good R. exact (stalls_bounded i s H R).
Qed.

Lemma claim_C60_call : forall (T : Type) (O : LenOps T) (W : LenLaws T) (i : iet T) (s : slen T),
  obtainable i s -> rank_two (exch_of i s) ->
  exists N, forall limit fuel, (N <= limit <= INT_MAX)%Z -> (limit < Z.of_nat fuel)%Z ->
    exists st j t, induce sample_lens fuel limit i s = Ok (st, j, t) /\ is_result st <> LIMIT_REACHED.
Proof.
  intros T O W i s H R. destruct (stalls_bounded i s (obtainable_good i s H) R) as (N & HN). exists (Z.max N 0).
  intros limit fuel HL HF. destruct (claim_C26_budget T O W i s fuel limit H ltac:(lia) ltac:(lia) ltac:(lia)) as (st & j & t & E).
  exists st, j, t. split; [exact E|]. intros Hr.
  assert (Q : stalls [limit] i s) by (econstructor; [lia | exact E | exact Hr | constructor]).
  specialize (HN _ Q). unfold zsuml in HN. simpl in HN. lia.
Qed.

Lemma claim_C60_saf : forall (T : Type) (O : LenOps T) (W : LenLaws T) (i : iet T) (s : slen T) v i' fuel limit st j t,
  obtainable i s -> saf_invariant i s = Ok (v, i') -> Forall (fun q => q = 0%Qc) v -> (limit <= INT_MAX)%Z ->
  induce sample_lens fuel limit i s = Ok (st, j, t) -> is_result st <> WITHOUT_PERIODIC_TRAJECTORY_BOSHERNITZAN.
Proof.
  intros T O W i s v i' fuel limit st j t H Es Hz HL E Hr. destruct (induce_run fuel limit i s st j t H HL E) as (Wf & G & P).
  unfold induce_post in P. rewrite Hr in P. destruct P as (_ & R & _ & _ & Hb & _). apply Hb.
  rewrite (saf_value i s v i' (obtainable_good i s H) Es) in Hz.
  destruct (saf_zero_solution j t (proj1 G)) as (g & Hg & HS).
  - rewrite (reach_saf i s j t Wf R). unfold vis0. apply forallb_forall. rewrite Forall_forall in Hz. intros q Hq. rewrite (Hz q Hq). reflexivity.
  - exact (positive_balanced j t g (proj1 G) Hg HS).
Qed.

Lemma claim_C61_history : forall (T : Type) (O : LenOps T) (W : LenLaws T) (i : iet T) (s : slen T) tr (D : nat -> decomp T) (results : nat -> list dstep),
  decomposition i s tr (D 0) -> rank_two (exch_of i s) -> (forall n, worked (D n) (results n) (D (S n))) ->
  exists N, forall n st, N <= n -> In st (results n) -> final st.
Proof.
  intros T O W i s tr D results H R Wk.
  destruct (endless_history (exch_of i s) D (fun n tr' => tr' = results n) (history_ok _ _ _ _ H) (history_rank _ _ _ _ H R)) as (N & HN).
  - intros n. eauto.
  - intros n tr' ->. apply Wk.
  - exists N. intros n st Hn Hin. destruct (HN n _ st Hn eq_refl Hin) as [NC NL]. unfold final. unfold connects in NC.
    assert (Hk : dec_ok (exch_of i s) (D n)).
    { clear - H Wk. induction n as [|n IH]; [exact (history_ok _ _ _ _ H) | exact (proj1 (worked_ok _ _ _ _ IH (Wk n)))]. }
    destruct (dst_result st) eqn:Er; try tauto. exfalso. exact (worked_no_keane _ _ _ _ Hk (Wk n) st Hin Er).
Qed.

Lemma claim_C61_decompose : forall (T : Type) (O : LenOps T) (W : LenLaws T) (i : iet T) (s : slen T) tr d rounds fuel limit,
  decomposition i s tr d -> rank_two (exch_of i s) -> (1 <= limit <= INT_MAX)%Z ->
  length (i_top i) < rounds -> length (i_top i) < fuel -> (limit < Z.of_nat fuel)%Z ->
  exists n d1 d2, retried rounds fuel limit n d d1 /\ decompose rounds fuel default_target limit d1 = Ok (true, d2) /\
    forall c x, component d2 c x -> dc_cylinder x = Some true \/ dc_wpt x = Some true.
Proof.
  intros T O W i s tr d rounds fuel limit H R HL HR HF HF'.
  destruct (decompose_decides i s tr d rounds fuel limit H R HL HR HF HF') as (n & d1 & d2 & A & B & C).
  exists n, d1, d2. split; [exact A|]. split; [exact B|]. intros c x Hx. apply C. exact (nth_error_In _ _ Hx).
Qed.

Lemma claim_C61_unlimited : forall (T : Type) (O : LenOps T) (W : LenLaws T) (i : iet T) (s : slen T) tr d c x v j,
  decomposition i s tr d -> rank_two (exch_of i s) -> component d c x ->
  saf_invariant (dc_iet x) (d_len d) = Ok (v, j) -> ~ Forall (fun q => q = 0%Qc) v ->
  exists F, forall fuel, F <= fuel -> exists st d', decomposition_step fuel (-1) c d = Ok (st, d').
Proof.
  intros T O W i s tr d c x v j H R Hx Es Hv. pose proof (history_rank _ _ _ _ H R x (nth_error_In _ _ Hx)) as Rx.
  apply (unlimited_decides (exch_of i s) d c x v j (history_ok _ _ _ _ H) Hx Rx Es).
  destruct (vis0 v) eqn:E; [|reflexivity]. exfalso. apply Hv. apply Forall_forall. intros q Hq. unfold vis0 in E.
  rewrite forallb_forall in E. specialize (E q Hq). apply Qc_eq_bool_correct in E. exact E.
Qed.

