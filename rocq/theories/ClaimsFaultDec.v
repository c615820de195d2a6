(** Proofs of the theorems in [PropFaultDec]. *)
From Coq Require Import Reals Permutation Lia Lra.
From Verif Require Import Base QcTac LenT FM Subspace Lengths IET LenInst Sqrt2 Spec Api RatioApi Decomp DecApi Fault FaultDec Fixtures DecFixtures.
From Verif Require Import ZorichProof ReduceProof Saf InduceProof World DecompSim DecompInv DecompRef DecompStep DecompAll DecompBudget FaultProof FaultDecProof FaultDecLeft.
Open Scope nat_scope.
Lemma claim_C92_step : forall (T : Type) (O : LenOps T) (fuel : nat) (limit : Z) (c : nat) (d : decomp T), exists n, forall k,
  (k < n -> exists d', fd_step fuel limit c k d = D_raised d') /\
  (n <= k ->
    match decomposition_step fuel limit c d with
    | Ok (st, d') => fd_step fuel limit c k d = D_did st (k - n) d'
    | Throw => exists d', fd_step fuel limit c k d = D_raised d'
    | AssertFail => fd_step fuel limit c k d = D_fails F_assert
    | UB => fd_step fuel limit c k d = D_fails F_undefined
    | OutOfFuel => fd_step fuel limit c k d = D_fails F_fuel
    end).
Proof.
  intros T O fuel limit c d. exact (dat_step fuel limit c d).
Qed.

Lemma claim_C92_decompose : forall (T : Type) (O : LenOps T) (rounds fuel : nat) (target : cview T -> bool) (limit : Z) (d : decomp T), exists n, forall k,
  (k < n -> exists d', fd_decompose rounds fuel target limit k d = D_raised d') /\
  (n <= k ->
    match decompose rounds fuel target limit d with
    | Ok (b, d') => fd_decompose rounds fuel target limit k d = D_did b (k - n) d'
    | Throw => exists d', fd_decompose rounds fuel target limit k d = D_raised d'
    | AssertFail => fd_decompose rounds fuel target limit k d = D_fails F_assert
    | UB => fd_decompose rounds fuel target limit k d = D_fails F_undefined
    | OutOfFuel => fd_decompose rounds fuel target limit k d = D_fails F_fuel
    end).
Proof.
  intros T O rounds fuel target limit d. exact (dat_decompose rounds fuel target limit d).
Qed.

Lemma rescue {T} {O : LenOps T} {W : LenLaws T} (s : slen T) top bot : valid_input s top bot -> exists j, iet_make (sl_clear s) top bot = Ok j /\ obtainable j (sl_clear s).
Proof.
  intro C. assert (C' : valid_input (sl_clear s) top bot) by exact C. exists (fresh top bot). pose proof (fresh_made _ _ _ C') as M. split; [exact M|].
  exists [fresh top bot]. split; [|left; reflexivity]. apply (h_new [] _ top bot); [constructor|exact C'|intros ? _ []|exact M].
Qed.

Lemma valid_same {T} {O : LenOps T} {W : LenLaws T} (s s' : slen T) top bot : sl_lens s' = sl_lens s -> valid_input s top bot -> valid_input s' top bot.
Proof. unfold valid_input, posl. intros -> H. exact H. Qed.

Lemma valid_swap {T} {O : LenOps T} {W : LenLaws T} (s : slen T) top bot : valid_input s top bot -> valid_input s bot top.
Proof.
  intros (A & B & C & D). split; [exact (Permutation_NoDup B A)|]. split; [apply Permutation_sym, B|].
  split; [intro E; subst; apply Permutation_sym, Permutation_nil in B; contradiction|]. intros l Hl. apply D. exact (Permutation_in _ (Permutation_sym B) Hl).
Qed.

Lemma exch_same {T} {O : LenOps T} {W : LenLaws T} (i j : iet T) (s s' : slen T) : i_top i = i_top j -> i_bottom i = i_bottom j -> sl_lens s = sl_lens s' -> exch_of i s = exch_of j s'.
Proof. intros A B C. unfold exch_of, lamR. rewrite A, B, C. reflexivity. Qed.
Lemma claim_C92_partial : forall (T : Type) (O : LenOps T) (W : LenLaws T) (i : iet T) (s : slen T) (tr : list dstep) (d : decomp T) (fuel : nat) (limit : Z) (c : nat) (x : dcomp T) (k : nat) (d' : decomp T),
  decomposition i s tr d -> component d c x -> (limit <= INT_MAX)%Z -> length (d_keys d) < fuel ->
  fd_step fuel limit c k d = D_raised d' ->
  exists i',
    component d' c (iet_set x i') /\ length (d_comps d') = length (d_comps d) /\
    (forall c', c' <> c -> nth_error (d_comps d') c' = nth_error (d_comps d) c') /\
    (forall l, ~ In l (i_top (dc_iet x)) -> lamR (d_len d') l = lamR (d_len d) l /\ d_conns d' l = d_conns d l) /\
    (forall l, topRight (d_conns d' l) = topRight (d_conns d l) /\ bottomRight (d_conns d' l) = bottomRight (d_conns d l)) /\
    Permutation (flat_map (fun l => topLeft (d_conns d' l) ++ bottomLeft (d_conns d' l)) (i_top i))
                (flat_map (fun l => topLeft (d_conns d l) ++ bottomLeft (d_conns d l)) (i_top i)) /\
    (exists p q p' q', i_bottom i' = p ++ q /\ i_bottom i' = p' ++ q' /\ sl_stack (d_len d') = p /\ d_stack d' = p') /\
    (exists e, rauzy_path (comp_exch d x) e /\
      if i_swap i' then exch_of i' (d_len d') = flip e
      else exch_of i' (d_len d') = e \/ exists n, invariant_prefix e n /\ exch_of i' (d_len d') = left_of e n) /\
    (forall y, In y (d_comps d') -> exists j, iet_make (sl_clear (d_len d')) (i_top (dc_iet y)) (i_bottom (dc_iet y)) = Ok j /\ obtainable j (sl_clear (d_len d'))).
Proof.
  intros T O W i s tr d fuel limit c x k d' H Hc HL Hf E. pose proof (DecompBudget.history_ok _ _ _ _ H) as K. destruct (nth_split _ _ _ Hc) as (C1 & C2 & Ec & <-).
  destruct (fd_step_raised _ _ _ _ _ _ _ _ _ K Ec HL Hf E) as (i' & Ec' & j & d1 & R & Ky & Cn & Ln & St & Sh).
  assert (Hx : In x (d_comps d)) by (rewrite Ec; apply in_middle; auto). destruct (dk_good _ _ K x Hx) as [(Wf & _) Sw].
  pose proof (cpath_moved _ _ _ _ (wf_proper _ _ Wf) (proj2 R)) as M. pose proof (r_wf _ _ _ _ (proj1 R)) as Wj. pose proof (r_swap _ _ _ _ (proj1 R)) as Swj. rewrite Sw in Swj.
  assert (Kt : d_keys d = i_top i) by exact (dk_keys _ _ K).
  assert (Fr : forall l, ~ In l (i_top (dc_iet x)) -> nth_error (sl_lens (d_len d')) l = nth_error (sl_lens (d_len d)) l) by (intros l Hl; rewrite Ln; exact (r_frame _ _ _ _ (proj1 R) l Hl)).
  exists i'. split; [unfold component; rewrite Ec'; apply nth_error_mid|]. split; [rewrite Ec', Ec, !app_length; reflexivity|].
  split.
  { intros c' N. rewrite Ec', Ec. destruct (lt_dec c' (length C1)) as [L|L]; [rewrite !nth_error_app1 by exact L; reflexivity|]. rewrite !nth_error_app2 by lia.
    destruct (c' - length C1) eqn:Q; [lia|reflexivity]. }
  split; [intros l Hl; split; [unfold lamR; rewrite (Fr l Hl); reflexivity|rewrite Cn; exact (mv_out _ _ _ _ M l Hl)]|].
  split; [intro l; rewrite Cn; split; [exact (mv_topR _ _ _ _ M l)|exact (mv_botR _ _ _ _ M l)]|].
  split.
  { apply (Permutation_count_occ conn_dec). intro y. rewrite Cn. apply (mv_left _ _ _ _ M (i_top i) y).
    - destruct (obtainable_good i s (history_start _ _ _ _ H)) as ((N & _) & _). exact N.
    - intros l Hl. rewrite <- Kt. exact (dk_label _ _ x l K Hx Hl). }
  destruct St as ((q & St1) & (q' & St2)). split; [exists (sl_stack (d_len d')), q, (d_stack d'), q'; auto|].
  assert (V : valid_input (d_len d') (i_top i') (i_bottom i') /\ exists e, rauzy_path (comp_exch d x) e /\
      if i_swap i' then exch_of i' (d_len d') = flip e
      else exch_of i' (d_len d') = e \/ exists n, invariant_prefix e n /\ exch_of i' (d_len d') = left_of e n).
  { pose proof (valid_same _ _ _ _ Ln (wf_valid _ _ Wj)) as V. destruct Sh as [(A & B & C)|[(A & B & C)|(n & Hn & ->)]].
    - rewrite A, B, C, Swj. split; [exact V|]. exists (exch_of j (d_len d1)). split; [exact (r_path _ _ _ _ (proj1 R))|]. left. apply exch_same; assumption.
    - rewrite A, B, C, Swj. split; [apply valid_swap, V|]. exists (exch_of j (d_len d1)). split; [exact (r_path _ _ _ _ (proj1 R))|]. cbn [negb].
      rewrite (exch_same i' (iet_swap j) (d_len d') (d_len d1)); [reflexivity|assumption..].
    - destruct (wf_cut j (d_len d1) n Wj Hn) as (H1 & _). split; [exact (valid_same _ _ _ _ Ln (wf_valid _ _ H1))|]. exists (exch_of j (d_len d1)). split; [exact (r_path _ _ _ _ (proj1 R))|].
      cbn [left_part set_saf set_labels i_swap]. rewrite Swj. right. exists n. split; [exact Hn|]. rewrite (exch_same (left_part j n) (left_part j n) (d_len d') (d_len d1)); [reflexivity..|exact Ln]. }
  destruct V as (V & P). split; [exact P|]. intros y Hy. apply rescue. rewrite Ec' in Hy. apply in_middle in Hy as [->|Hy]; [exact V|].
  assert (Hy' : In y (d_comps d)) by (rewrite Ec; apply in_middle; auto). destruct (dk_good _ _ K y Hy') as [(Wy & _) _].
  destruct (wf_valid _ _ Wy) as (A & B & C & D). split; [exact A|]. split; [exact B|]. split; [exact C|]. intros l Hl. destruct (D l Hl) as (z & Ez & Pz). exists z. split; [|exact Pz].
  rewrite Fr; [exact Ez|]. intro Hl'. exact (dk_disjoint _ _ C1 x C2 y l K Ec Hy Hl' Hl).
Qed.

Section Where.
Context {T : Type} {O : LenOps T} {W : LenLaws T}.
Variables (i : iet T) (s : slen T) (fuel : nat) (target : cview T -> bool) (limit : Z).
Hypothesis HL : (limit <= INT_MAX)%Z.

Definition from_step (tr : list dstep) (d' : decomp T) : Prop :=
  exists tr' d1 c x k, decomposition i s (tr ++ tr') d1 /\ component d1 c x /\ fd_step fuel limit c k d1 = D_raised d'.

Lemma from_later tr tr' d' : from_step (tr ++ tr') d' -> from_step tr d'.
Proof. intros (tr2 & d1 & c & x & k & H & R). exists (tr' ++ tr2), d1, c, x, k. rewrite app_assoc. auto. Qed.

Lemma comp_did rounds c tr d b d' : decomposition i s tr d -> c < length (d_comps d) -> length (d_keys d) < fuel -> comp_decompose rounds fuel target limit c d = Ok (b, d') ->
  exists tr', decomposition i s (tr ++ tr') d' /\ length (d_comps d) <= length (d_comps d') /\ d_keys d' = d_keys d.
Proof.
  intros H Hc Hf E. pose proof (DecompBudget.history_ok _ _ _ _ H) as K. destruct (nth_error (d_comps d) c) as [x|] eqn:En; [|apply nth_error_None in En; lia]. destruct (nth_split _ _ _ En) as (C1 & C2 & Ec & <-).
  destruct (comp_decompose_ok _ fuel target limit HL rounds d C1 x C2 K Ec Hf) as [Q|[(Q & _)|(ok & d1 & y & extra & tr' & Q & G & S & _)]]; rewrite E in Q; try discriminate. injection Q as <- <-.
  pose proof (steps_history i s _ _ _ S tr H) as H'. exists tr'. split; [exact H'|]. split; [rewrite (cg_comps _ _ _ _ _ _ _ _ G), Ec, !app_length; cbn [length]; rewrite app_length; lia|].
  rewrite (history_keys _ _ _ _ H), (history_keys _ _ _ _ H'). reflexivity.
Qed.

Lemma comp_where : forall rounds c tr d k d', decomposition i s tr d -> c < length (d_comps d) -> length (d_keys d) < fuel ->
  fd_comp_decompose rounds fuel target limit c k d = D_raised d' -> from_step tr d'.
Proof.
  induction rounds as [|rounds IH]; intros c tr d k d' H Hc Hf E; [discriminate|]. cbn [fd_comp_decompose] in E. pose proof (DecompBudget.history_ok _ _ _ _ H) as K.
  destruct (nth_error (d_comps d) c) as [x|] eqn:En; [|apply nth_error_None in En; lia]. destruct (nth_split _ _ _ En) as (C1 & C2 & Ec & <-).
  unfold dbind at 1, dpure in E. rewrite (comp_view_ok _ _ _ _ _ K Ec) in E. cbn [bind] in E. destruct (target (view_of d x)); [discriminate|].
  unfold dbind at 1 in E. destruct (fd_step fuel limit (length C1) k d) as [st k1 d1|d1|e] eqn:Q; [|injection E as <-|discriminate].
  2:{ exists [], d, (length C1), x, k. rewrite app_nil_r. auto. }
  pose proof (dat_did _ _ _ _ _ _ _ (dat_step fuel limit (length C1) d) Q) as D. pose proof (dh_step _ _ _ _ _ _ _ _ _ H HL Hc D) as H1.
  destruct (step_call _ _ _ _ _ _ _ K HL Hf Hc D) as (C1' & x' & C2' & Ec' & Lc & P). destruct (step_change _ _ _ _ _ _ _ K Ec' P) as (y & extra & G & A & _).
  pose proof (cg_comps _ _ _ _ _ _ _ _ G) as E1. assert (Hf1 : length (d_keys d1) < fuel) by (rewrite (history_keys _ _ _ _ H1), <- (history_keys _ _ _ _ H); exact Hf).
  assert (L1 : length (d_comps d) <= length (d_comps d1)) by (rewrite E1, Ec', !app_length; cbn [length]; rewrite app_length; lia).
  assert (Add : forall c', dst_additional st = Some c' -> c' < length (d_comps d1)).
  { intros c' Ea. rewrite Ea in A. destruct A as (-> & _ & z & -> & _). rewrite E1, Ec', !app_length. cbn [length]. rewrite app_length. cbn. lia. }
  apply (from_later tr [st]).
  assert (Go : (ok1 <== match dst_additional st with Some c' => fd_comp_decompose rounds fuel target limit c' | None => dret true end ;;
      ok2 <== fd_comp_decompose rounds fuel target limit (length C1) ;; dret (ok1 && ok2)) k1 d1 = D_raised d' -> from_step (tr ++ [st]) d').
  { clear E. intro E. unfold dbind at 1 in E.
    assert (Two : forall tr2 k2 d2 (ok1 : bool), decomposition i s ((tr ++ [st]) ++ tr2) d2 -> length (d_comps d1) <= length (d_comps d2) -> d_keys d2 = d_keys d1 ->
      (ok2 <== fd_comp_decompose rounds fuel target limit (length C1) ;; dret (ok1 && ok2)) k2 d2 = D_raised d' -> from_step (tr ++ [st]) d').
    { intros tr2 k2 d2 ok1 H2 L2 K2 Z. unfold dbind in Z. destruct (fd_comp_decompose rounds fuel target limit (length C1) k2 d2) eqn:Q2; try discriminate. injection Z as <-.
      apply (from_later _ tr2). apply (IH (length C1) _ d2 k2 _ H2); [lia|rewrite K2; exact Hf1|exact Q2]. }
    destruct (dst_additional st) as [c'|] eqn:Ea.
    - destruct (fd_comp_decompose rounds fuel target limit c' k1 d1) as [ok1 k2 d2|d2|e] eqn:Q1; [|injection E as <-; exact (IH c' _ d1 k1 _ H1 (Add c' eq_refl) Hf1 Q1)|discriminate].
      pose proof (dat_did _ _ _ _ _ _ _ (dat_comp fuel target limit rounds c' d1) Q1) as D1. destruct (comp_did rounds c' _ d1 ok1 d2 H1 (Add c' eq_refl) Hf1 D1) as (tr2 & H2 & L2 & K2). exact (Two tr2 k2 d2 ok1 H2 L2 K2 E).
    - unfold dret at 1 in E. apply (Two [] k1 d1 true); [rewrite app_nil_r; exact H1|lia|reflexivity|exact E]. }
  destruct (dst_result st); try exact (Go E). discriminate.
Qed.

Lemma decompose_where rounds tr d k d' : decomposition i s tr d -> length (d_keys d) < fuel -> fd_decompose rounds fuel target limit k d = D_raised d' -> from_step tr d'.
Proof.
  intros H Hf. unfold fd_decompose. assert (Hin : forall c, In c (seq 0 (length (d_comps d))) -> c < length (d_comps d)) by (intros c Hc; apply in_seq in Hc; lia).
  revert Hin. generalize (seq 0 (length (d_comps d))). intros cs Hin E. revert tr d k H Hf Hin E. induction cs as [|c cs IH]; intros tr d k H Hf Hin E; cbn [fd_decompose_all] in E; [discriminate|].
  unfold dbind at 1 in E. destruct (fd_comp_decompose rounds fuel target limit c k d) as [ok k1 d1|d1|e] eqn:Q; [|injection E as <-; exact (comp_where rounds c tr d k _ H (Hin c (or_introl eq_refl)) Hf Q)|discriminate].
  pose proof (dat_did _ _ _ _ _ _ _ (dat_comp fuel target limit rounds c d) Q) as D. destruct (comp_did rounds c tr d ok d1 H (Hin c (or_introl eq_refl)) Hf D) as (tr1 & H1 & L1 & K1).
  destruct ok; [|discriminate]. apply (from_later tr tr1). apply (IH _ d1 k1 H1); [rewrite K1; exact Hf| |exact E]. intros c' Hc'. specialize (Hin c' (or_intror Hc')). lia.
Qed.

End Where.
Lemma claim_C92_where : forall (T : Type) (O : LenOps T) (W : LenLaws T) (i : iet T) (s : slen T) (tr : list dstep) (d : decomp T) (rounds fuel : nat) (target : cview T -> bool) (limit : Z) (k : nat) (d' : decomp T),
  decomposition i s tr d -> (limit <= INT_MAX)%Z -> length (d_keys d) < fuel ->
  fd_decompose rounds fuel target limit k d = D_raised d' ->
  exists tr' d1 c x k1, decomposition i s (tr ++ tr') d1 /\ component d1 c x /\ fd_step fuel limit c k1 d1 = D_raised d'.
Proof.
  intros T O W i s tr d rounds fuel target limit k d' H HL Hf E. exact (decompose_where i s fuel target limit HL rounds tr d k d' H Hf E).
Qed.

Lemma claim_C92_stack_refuted : exists (i : iet Z) (s : slen Z) (d : decomp Z) (k : nat) (d' : decomp Z),
  decomposition i s [] d /\ fd_decompose 20 100 default_target (-1) k d = D_raised d' /\
  forall k', 40 <= k' -> fd_decompose 20 100 default_target (-1) k' d' = D_fails F_assert.
Proof.
  exists z_iet, z_lens. destruct (dec_make z_iet z_lens) as [d| | | |] eqn:E; try (vm_compute in E; discriminate). exists d, 2. pose proof (dh_new _ _ d z_obtainable E) as H.
  vm_compute in E. injection E as <-. eexists. split; [exact H|]. split; [vm_compute; reflexivity|].
  intros k' Hk. do 40 (destruct k' as [|k']; [lia|]). vm_compute. reflexivity.
Qed.

Lemma claim_C92_lost_refuted : exists (i : iet Z) (s : slen Z) (d : decomp Z) (k : nat) (d' : decomp Z),
  decomposition i s [] d /\ fd_decompose 20 100 default_target (-1) k d = D_raised d' /\
  (exists d1, decompose 20 100 default_target (-1) d = Ok (true, d1) /\ map (fun x => i_top (dc_iet x)) (d_comps d1) = [[1]; [3]]) /\
  forall k', 40 <= k' -> exists k'' d1, fd_decompose 20 100 default_target (-1) k' d' = D_did true k'' d1 /\ map (fun x => i_top (dc_iet x)) (d_comps d1) = [[1]].
Proof.
  exists z_iet, z_lens. destruct (dec_make z_iet z_lens) as [d| | | |] eqn:E; try (vm_compute in E; discriminate). exists d, 10. pose proof (dh_new _ _ d z_obtainable E) as H.
  vm_compute in E. injection E as <-. eexists. split; [exact H|]. split; [vm_compute; reflexivity|].
  split; [eexists; split; [vm_compute; reflexivity|reflexivity]|].
  intros k' Hk. do 40 (destruct k' as [|k']; [lia|]). eexists _, _. split; [vm_compute; reflexivity|reflexivity].
Qed.

Lemma claim_C92_wrong_refuted : exists (i : iet Z) (s : slen Z) (d : decomp Z) (k : nat) (d' : decomp Z),
  decomposition i s [] d /\ fd_decompose 20 100 default_target (-1) k d = D_raised d' /\
  (exists d1 x, decompose 20 100 default_target (-1) d = Ok (true, d1) /\
     component d1 0 x /\ i_top (dc_iet x) = [1] /\ dc_cylinder x = Some true /\ nth_error (sl_lens (d_len d1)) 1 = Some 10%Z) /\
  forall k', 40 <= k' -> exists k'' d1 x, fd_decompose 20 100 default_target (-1) k' d' = D_did true k'' d1 /\
     component d1 0 x /\ i_top (dc_iet x) = [1] /\ dc_cylinder x = Some true /\ nth_error (sl_lens (d_len d1)) 1 = Some 2%Z.
Proof.
  assert (Ho : obtainable (fresh [0; 1; 2; 3] [1; 0; 3; 2]) (mkslen [] [20; 30; 9; 6]%Z)) by (apply fresh_obtainable; vm_compute; reflexivity).
  exists (fresh [0; 1; 2; 3] [1; 0; 3; 2]), (mkslen [] [20; 30; 9; 6]%Z). destruct (dec_make (fresh [0; 1; 2; 3] [1; 0; 3; 2]) (mkslen [] [20; 30; 9; 6]%Z)) as [d| | | |] eqn:E; try (vm_compute in E; discriminate).
  exists d, 5. pose proof (dh_new _ _ d Ho E) as H.
  vm_compute in E. injection E as <-. eexists. split; [exact H|]. split; [vm_compute; reflexivity|].
  split; [eexists _, _; split; [vm_compute; reflexivity|]; split; [reflexivity|]; split; [reflexivity|]; split; reflexivity|].
  intros k' Hk. do 40 (destruct k' as [|k']; [lia|]). eexists _, _, _. split; [vm_compute; reflexivity|]. split; [reflexivity|]. split; [reflexivity|]. split; reflexivity.
Qed.

