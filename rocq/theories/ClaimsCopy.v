(** Proofs of the properties in PropCopy.v. *)
From Coq Require Import Reals Permutation Lia.
From Verif Require Import Base QcTac LenT FM Subspace Lengths IET Decomp LenInst Sqrt2 Spec SpecDec Api DecApi InjApi Fixtures DecFixtures InjFixtures.
From Verif Require Import ZorichProof ReduceProof InduceProof World DecompSim DecompInv DecompNav DecompRef DecompStep DecompAll DecompEnds DecompMore DecompBudget InjStep InjHist InjMore InjCheck.
Open Scope nat_scope.
Lemma claim_C71_iet : forall (T : Type) (O : LenOps T) (W : LenLaws T) (i : iet T) (s : slen T) J tr d c x,
  injected_decomposition i s J tr d -> component d c x ->
  exists j t, comp_iet d c = Ok (j, t) /\ obtainable j t /\ iet_make t (i_top (dc_iet x)) (i_bottom (dc_iet x)) = Ok j /\
    exch_of j t = comp_exch d x /\ i_swap j = false.
Proof.
  intros T O W i s J tr d2 c x H Hx. destruct (injected_history i s J tr d2 H) as (tr0 & d & Hh & LK & _). pose proof (history_ok _ _ _ _ Hh) as Hd.
  assert (Ec : d_comps d = d_comps d2) by apply LK. assert (El : d_len d = d_len d2) by apply LK.
  destruct (dk_good _ _ Hd x) as [G Sw]; [rewrite Ec; exact (nth_error_In _ _ Hx)|]. rewrite El in G.
  assert (V : valid_input (sl_forget (d_len d2)) (i_top (dc_iet x)) (i_bottom (dc_iet x))) by (destruct G as ((V1 & V2 & V3 & V4 & _) & _); split; [exact V1|split; [exact V2|split; [exact V3|exact V4]]]).
  exists (fresh (i_top (dc_iet x)) (i_bottom (dc_iet x))), (sl_forget (d_len d2)). unfold comp_iet. rewrite (comp_at_nth d2 c x Hx). cbn [bind].
  rewrite (fresh_made _ _ _ V). split; [reflexivity|]. split.
  - eexists. split; [apply (h_new [] _ (i_top (dc_iet x)) (i_bottom (dc_iet x))); [constructor|exact V|intros ? _ []|apply fresh_made; exact V]|left; reflexivity].
  - split; [reflexivity|]. split; [reflexivity|reflexivity].
Qed.

Lemma claim_C71_again : forall (T : Type) (O : LenOps T) (W : LenLaws T) (i : iet T) (s : slen T) J tr d c x j t,
  injected_decomposition i s J tr d -> component d c x -> comp_iet d c = Ok (j, t) ->
  exists d', dec_make j t = Ok d' /\ decomposition j t [] d'.
Proof.
  intros T O W i s J tr d c x j t H Hx E. destruct (claim_C71_iet T O W i s J tr d c x H Hx) as (j' & t' & E' & Ob & _). rewrite E in E'. injection E' as <- <-.
  destruct (obtainable_valid j t Ob) as [V S]. destruct (dec_make_ok j t V S) as (d' & Ed & _). exists d'. split; [exact Ed|]. constructor; assumption.
Qed.

