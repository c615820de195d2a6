(** Lengths spanned by two numbers: repeated calls of [induce] decide. *)
From Coq Require Import Reals Lra Lia Permutation List ZArith.
From Verif Require Import Base QcTac LenT FM Subspace Lengths IET Spec SpecLin SpecSim SpecRank Api.
From Verif Require Import ZorichProof Dyn Saddle ReduceProof SubspaceProof Saf Bosh Path Similar InduceProof InduceCons World Seq SelfSim Detect DecompRef.
From Verif Require Import RankApi Endless Rank2 RankEnd.
Open Scope nat_scope.

Section Rank.
Context {T : Type} {O : LenOps T} {W : LenLaws T}.

Lemma degree_two (i : iet T) (s : slen T) : wf i s -> l_deg T = 2 -> rank_two (exch_of i s).
Proof.
  intros (N & Pe & Ne & Hp & _) Hd.
  pose proof basis_length as Hb. rewrite Hd in Hb. destruct basis as [|b [|b' [|]]] eqn:Eb; try discriminate.
  assert (V : forall x, val x = (Qc2R (nth 0 (l_coef x) 0%Qc) * b + Qc2R (nth 1 (l_coef x) 0%Qc) * b')%R).
  { intros x. rewrite val_coef, Eb. pose proof (coef_length x) as Hx. rewrite Hd in Hx.
    destruct (l_coef x) as [|q [|q' [|]]]; try discriminate. unfold lin. simpl. ring. }
  set (q := fun k a => match nth_error (sl_lens s) a with Some x => nth k (l_coef x) 0%Qc | None => 0%Qc end).
  destruct (common_denominator (q 0) (i_top i)) as (d & Hd0 & Hd1). destruct (common_denominator (q 1) (i_top i)) as (d' & Hd0' & Hd1').
  exists (b / IZR d)%R, (b' / IZR d')%R. cbn [exch_of e_top e_len]. intros a Ha.
  destruct (Hd1 a Ha) as (n & Hn). destruct (Hd1' a Ha) as (n' & Hn'). exists n, n'.
  unfold lamR. unfold q in Hn, Hn'. destruct (Hp a Ha) as (x & Hx & _). rewrite Hx in *. rewrite V, <- Hn, <- Hn'.
  field. split; apply not_0_IZR; lia.
Qed.

Lemma heads_able (i : iet T) (s : slen T) : wf i s -> ~ heads_equal i s -> able (exch_of i s).
Proof.
  intros (N & Pe & Ne & _) H. unfold able, exch_of. simpl. destruct (i_top i) as [|a X] eqn:Et; [contradiction|].
  destruct (i_bottom i) as [|b Y] eqn:Eb; [apply Permutation_sym, Permutation_nil in Pe; discriminate|].
  exists a, b, X, Y. split; [reflexivity|]. split; [reflexivity|]. intros E. apply H. exists a, b. rewrite Et, Eb. auto.
Qed.

Lemma after_decrease e e' : proper e -> rauzy_path e e' -> (total (e_len e') (e_top e') < total (e_len e) (e_top e))%R ->
  exists m, 1 <= m /\ after m e e'.
Proof.
  intros P R D. destruct (path_after e e' P R) as (m & Hm). exists m. split; [|exact Hm].
  destruct m; [|lia]. exfalso. destruct Hm as [S _]. simpl in S. destruct S as (A & _ & C). rewrite <- A in D.
  rewrite (total_ext (e_len e') (e_len e)) in D by (intros; symmetry; apply C). lra.
Qed.

Lemma loop_after saf0 limit : (limit <> -1)%Z -> forall fuel n (i : iet T) (s : slen T) j t, good i s ->
  induce_loop sample_lens fuel saf0 limit n i s = Ok (Some false, j, t) ->
  exists m, (limit - n <= Z.of_nat m)%Z /\ after m (exch_of i s) (exch_of j t).
Proof.
  intros HL fuel. induction fuel as [|fuel IH]; intros n i s j t Hg; [discriminate|].
  rewrite iteration_unfold. pose proof Hg as (H & C & K).
  destruct (negb ((limit =? -1)%Z || (n <? limit)%Z)) eqn:En.
  { injection 1 as <- <-. exists 0. apply negb_true_iff, orb_false_iff in En. rewrite Z.ltb_ge in En. split; [lia|].
    split; [apply same_exch_refl | intros k Hk; lia]. }
  destruct (tracking_ok saf0 i s Hg) as (b & i1 & E1 & R1 & Et & Eb & K1 & _). cbn [sample_lens li_base]. rewrite E1. cbn [bind].
  destruct b; [discriminate|].
  pose proof (r_wf _ _ _ _ R1) as H1. pose proof (r_cache _ _ _ _ R1) as C1.
  destruct (iteration_ok i1 s H1 C1) as (f & i2 & s2 & E2 & R2 & Et2 & _ & Hf & Hdec).
  change (mklens _ _ _ _ _ _ _) with (sample_lens (T := T)) in *. rewrite E2. cbn [bind].
  destruct f; [discriminate|]. destruct (Z.eqb_spec n INT_MAX) as [Ei|Ei]; [discriminate|]. intros E.
  assert (Hg2 : good i2 s2).
  { split; [exact (r_wf _ _ _ _ R2)|]. split; [exact (r_cache _ _ _ _ R2)|].
    exact (trk_extend False True i1 s i2 s2 H1 K1 R2 Et2 ltac:(intros _; right; apply Hdec; reflexivity)). }
  destruct (IH (n + 1)%Z i2 s2 j t Hg2 E) as (m & Hm & A).
  destruct (after_decrease (exch_of i1 s) (exch_of i2 s2) (wf_proper _ _ H1) (r_path _ _ _ _ R2) (Hdec eq_refl)) as (m1 & Hm1 & A1).
  exists (m1 + m). split; [lia|]. apply (after_plus m1 m _ (exch_of i2 s2)); [|exact A].
  replace (exch_of i s) with (exch_of i1 s) by (unfold exch_of; congruence). exact A1.
Qed.

(** If the limit is reached, then that many rounds have been made; and the criteria failed
    at the stage that was reached. *)
Theorem induce_after limit fuel (i : iet T) (s : slen T) st j t : good i s -> (limit <= INT_MAX)%Z ->
  induce sample_lens fuel limit i s = Ok (st, j, t) -> is_result st = LIMIT_REACHED ->
  exists m, (limit <= Z.of_nat m)%Z /\ after m (exch_of i s) (exch_of j t) /\
    able (exch_of j t) /\ ~ reducible (exch_of j t) /\ balanced (exch_of j t) /\ good j t.
Proof.
  intros Hg HL E Hst. pose proof Hg as (H & C & K).
  destruct (induce_ok limit fuel i s HL Hg) as [(G & _)|[(G & _)|(st' & j' & t' & G & Hg1 & P)]]; try (rewrite G in E; discriminate).
  rewrite G in E. injection E as -> -> ->. unfold induce_post in P. rewrite Hst in P. destruct P as (Hs & R & Nr & Nh & Bal & HL1 & _).
  enough (Q : exists m, (limit <= Z.of_nat m)%Z /\ after m (exch_of i s) (exch_of j t)).
  { destruct Q as (m & Hm & A). exists m. split; [exact Hm|]. split; [exact A|]. split; [apply heads_able; [apply Hg1 | exact Nh]|]. auto. }
  revert G. unfold induce. rewrite (proj2 (Nat.eqb_neq _ _) Hs).
  destruct (Z.eqb_spec limit 0) as [->|Nm].
  - cbn [bind]. intros E. destruct (finish_limit _ _ _ _ _ _ H C E Hst) as (-> & (v & Ev & _) & _).
    rewrite (iet_saf_ok i s H C) in Ev. injection Ev as _ <-. exists 0. split; [lia|].
    split; [apply same_exch_refl | intros k Hk; lia].
  - destruct (iet_saf0_ok i s H C) as (v & Ev & C' & Ez & _). cbn [sample_lens li_base].
    change (mklens _ _ _ _ _ _ _) with (sample_lens (T := T)). rewrite Ev. cbn [bind].
    assert (Hg' : good (set_saf i (Some v)) s) by (apply good_set_saf; assumption).
    destruct (induce_loop sample_lens fuel (vis0 (saf_now i s)) limit 0 (set_saf i (Some v)) s) as [[[f i2] s2]| | | |] eqn:El; cbn [bind]; try discriminate.
    destruct f as [[|]|]; [| |injection 1; intros _ _ <-; discriminate]; intros E.
    { exfalso. exact (finish_found _ _ _ _ _ _ E Hst). }
    destruct (loop_ok (vis0 (saf_now i s)) limit HL fuel 0%Z (set_saf i (Some v)) s Hg') as [(G & _)|[(G & _)|(f' & i2' & s2' & G & R2 & P2)]];
      try (rewrite G in El; discriminate).
    rewrite G in El. injection El as -> -> ->.
    destruct (finish_limit _ _ _ _ _ _ (r_wf _ _ _ _ R2) (r_cache _ _ _ _ R2) E Hst) as (-> & (w & Ew & _) & _).
    rewrite (iet_saf_ok i2 s2 (r_wf _ _ _ _ R2) (r_cache _ _ _ _ R2)) in Ew. injection Ew as _ <-.
    destruct (loop_after _ limit HL1 fuel 0%Z _ s i2 s2 Hg' G) as (m & Hm & A). exists m. split; [lia|]. exact A.
Qed.

Lemma stalls_after ls : forall (i : iet T) (s : slen T), good i s -> stalls ls i s -> ls <> [] ->
  exists m e, (zsuml ls <= Z.of_nat m)%Z /\ after m (exch_of i s) e /\ able e /\ ~ reducible e /\ balanced e.
Proof.
  induction ls as [|l ls IH]; intros i s Hg H Ne; [contradiction|].
  inversion H as [|l' ls' i' s' fuel st j t Hl E Hst H']; subst.
  destruct (induce_after l fuel i s st j t Hg ltac:(lia) E Hst) as (m & Hm & A & Ab & Nr & Ba & Hg').
  destruct ls as [|l2 ls].
  - exists m, (exch_of j t). split; [simpl; lia|]. auto.
  - destruct (IH j t Hg' H' ltac:(discriminate)) as (m' & e & Hm' & A' & G). exists (m + m'), e.
    split; [simpl in *; lia|]. split; [exact (after_plus _ _ _ _ _ A A')|exact G].
Qed.

Theorem stalls_bounded (i : iet T) (s : slen T) : good i s -> rank_two (exch_of i s) ->
  exists N, forall ls, stalls ls i s -> (zsuml ls < N)%Z.
Proof.
  intros Hg R. destruct (settled _ (wf_proper _ _ (proj1 Hg)) R) as (N & HN).
  exists (Z.of_nat N + 1)%Z. intros ls H. destruct ls as [|l ls]; [simpl; lia|].
  destruct (stalls_after _ i s Hg H ltac:(discriminate)) as (m & e & Hm & A & Ab & Nr & Ba).
  destruct (Z_lt_le_dec (zsuml (l :: ls)) (Z.of_nat N + 1)) as [G|G]; [exact G|exfalso].
  destruct (HN m e ltac:(lia) A Ab) as [Q|Q]; contradiction.
Qed.
End Rank.
