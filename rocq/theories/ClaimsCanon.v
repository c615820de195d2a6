(** Proofs of the properties in [PropCanon]. *)
From Coq Require Import Reals Lra Lia Permutation List ZArith.
From Verif Require Import Base QcTac LenT FM Subspace Lengths IET LenInst Sqrt2 Decomp Spec SpecDec SpecTower SpecDense SpecCanon Api DecApi InjApi FinalApi CanonApi Fixtures DecFixtures.
From Verif Require Import ReduceProof ZorichProof Dyn Path Saf Bosh Saddle Direct Similar InduceProof InduceCons World Seq Endless DecompSim DecompInv DecompRef DecompStep DecompAll DecompBudget DecompDyn Tower Canon Pieces Final.
From Verif Require Import ClaimsDecomp ClaimsInject ClaimsTower ClaimsFinal.
Open Scope nat_scope.

Section Aux.
Context {T : Type} {O : LenOps T} {W : LenLaws T}.

Lemma dec_nonempty (i : iet T) s tr d x : decomposition i s tr d -> In x (d_comps d) -> e_top (comp_exch d x) <> [].
Proof.
  intros (d0 & Hi & E0 & S)%history_steps Hx. destruct (made_ok i s d0 Hi E0) as (H0 & P0 & _).
  destruct (steps_ok _ _ _ _ H0 S) as (H1 & _). destruct (dk_inv _ _ H1) as (D & C).
  apply (ci_proper _ _ _ _ C (comp_exch d x)). apply (in_map (comp_exch d)), Hx.
Qed.

Lemma dec_ready (i : iet T) s tr d Ts : decomposition i s tr d -> map tw_base Ts = exchanges d -> towers (exch_of i s) Ts ->
  ready (exch_of i s) Ts.
Proof. intros H E HT. split; [exact HT|]. intros t I. exact (towers_proper i s tr d Ts t H E I). Qed.

Lemma dec_sorted (i : iet T) s tr d Ts : decomposition i s tr d -> map tw_base Ts = exchanges d -> towers (exch_of i s) Ts ->
  resolved (exchanges d) -> sorted (exch_of i s) Ts.
Proof.
  intros H E HT R. split; [exact (dec_ready i s tr d Ts H E HT)|]. intros t I. apply (in_map tw_base) in I. rewrite E in I.
  destruct (R _ I) as [L|N]; [left|right; exact N]. destruct (e_top (tw_base t)) as [|a [|b l]]; try discriminate. exists a. reflexivity.
Qed.

Lemma dec_pieces e0 (i : iet T) s tr d : proper e0 -> decomposition i s tr d -> pieces e0 [exch_of i s] -> pieces e0 (exchanges d).
Proof.
  intros Pr (d0 & Hi & E0 & S)%history_steps H. destruct (made_ok i s d0 Hi E0) as (H0 & P0 & _).
  destruct (steps_ok _ _ _ _ H0 S) as (H1 & A & _). destruct (dk_inv _ _ H0) as (D & C).
  apply (pieces_asteps e0 (exch_of i s) _ _ _ _ D Pr C A). rewrite P0. exact H.
Qed.

Lemma op_pieces e0 o (i : iet T) s i' extra s' E1 E2 : proper e0 -> good i s -> op_legal o -> run_op o i s = Ok (i', extra, s') ->
  pieces e0 (E1 ++ exch_of i s :: E2) -> pieces e0 (E1 ++ map (fun j => exch_of j s') (i' :: extra) ++ E2).
Proof.
  intros P0 G Lg E HP. pose proof G as (H & C & K). pose proof (wf_proper _ _ H) as P. 
  assert (Refl : forall j, i_top j = i_top i -> i_bottom j = i_bottom i -> pieces e0 (E1 ++ map (fun j => exch_of j s) [j] ++ E2)).
  { intros j Q1 Q2. cbn [map app]. unfold exch_of at 1. rewrite Q1, Q2. exact HP. }
  assert (Reach : forall j t, reach i s j t -> pieces e0 (E1 ++ map (fun j => exch_of j t) [j] ++ E2)).
  { intros j t R. cbn [map app]. exact (pieces_path e0 E1 _ E2 _ P0 P (r_path _ _ _ _ R) HP). }
  destruct o as [| | |fuel limit| | | |t b]; cbn [run_op] in E.
  - injection E as <- <- <-. cbn [map app]. rewrite swap_exch. apply pieces_flip, HP.
  - destruct (good_zorich i s G) as (f & i1 & s1 & Q & G' & R). rewrite Q in E. injection E as <- <- <-. apply Reach, R.
  - destruct (reduce_ok i s H) as [(k & Hk & _ & Q)|[_ Q]]; rewrite Q in E; cbn [bind] in E; injection E as <- <- <-.
    + cbn [map app]. exact (pieces_cut e0 E1 _ E2 k P Hk HP).
    + apply Refl; reflexivity.
  - destruct (induce_ok limit fuel i s (proj2 Lg) G) as [(Q & A)|[(Q & A)|(st & i1 & s1 & Q & G' & Po)]]; rewrite Q in E; cbn [bind] in E; try discriminate.
    injection E as <- <- <-. unfold induce_post in Po. destruct (is_result st).
    + destruct Po as (_ & R & _ & _ & _ & _ & Est). rewrite Est. apply Reach, R.
    + destruct Po as (_ & Est & -> & ->). rewrite Est. apply Refl; reflexivity.
    + destruct Po as (i2 & k & b & t & _ & R & Hk & _ & -> & _ & _ & -> & G2). cbn [is_additional map app].
      exact (pieces_cut e0 E1 _ E2 k (wf_proper _ _ (r_wf _ _ _ _ R)) Hk (Reach _ _ R)).
    + destruct Po as (i2 & a & b & _ & R & _ & _ & _ & _ & M & _ & _ & _ & ->). cbn [is_additional map app].
      exact (pieces_merge e0 E1 _ E2 _ P0 (wf_proper _ _ (r_wf _ _ _ _ R)) M (Reach _ _ R)).
    + destruct Po as (_ & R & _ & _ & _ & _ & Est). rewrite Est. apply Reach, R.
    + destruct Po as (_ & R & _ & _ & Est). rewrite Est. apply Reach, R.
  - destruct (saf_invariant_ok i s H C) as (v & Q & _). rewrite Q in E. injection E as <- <- <-. apply Refl; reflexivity.
  - destruct (bosh_no_periodic_ok i s H C) as (r & v & Q & _). rewrite Q in E. injection E as <- <- <-. apply Refl; reflexivity.
  - destruct (bosh_no_saddle_ok i s H) as (r & Q & _). rewrite Q in E. injection E as <- <- <-. apply Refl; reflexivity.
  - destruct (bosh_no_saddle2 i s t b); try discriminate. injection E as <- <- <-. apply Refl; reflexivity.
Qed.

Lemma family_pieces (i : iet T) s l t : good i s -> family i s l t -> pieces (exch_of i s) (map (fun j => exch_of j t) l).
Proof.
  intros G F. pose proof (wf_proper _ _ (proj1 G)) as P0. induction F as [|l1 j l2 t o j' extra t' F IH Ho E].
  - apply pieces_start, P0.
  - pose proof (family_world i s _ t G F) as (Hg & _).
    rewrite map_app in IH. cbn [map] in IH. assert (Gj : good j t) by (apply Hg, in_elt).
    apply (op_pieces _ o j t j' extra t' _ _ P0 Gj Ho E) in IH. revert IH. rewrite map_app. cbn [map]. rewrite map_app. apply pieces_agree.
    pose proof (family_other i s l1 j l2 t o j' extra t' G F Ho E) as Ot.
    assert (Sub : forall l, (forall y, In y l -> agree (exch_of y t) (exch_of y t')) -> Forall2 agree (map (fun j => exch_of j t) l) (map (fun j => exch_of j t') l)).
    { clear. induction l as [|y l IH]; intro H; cbn [map]; constructor; [apply H; left; reflexivity|apply IH; intros; apply H; right; assumption]. }
    assert (Ref : forall l, Forall2 agree l l) by (clear; induction l as [|y l IH]; constructor; [apply agree_refl|exact IH]).
    apply Forall2_app; [apply Sub; intros y Hy; apply Ot, in_or_app; auto|]. apply (Forall2_app (R := agree) (l1 := exch_of j' t' :: map (fun j0 => exch_of j0 t') extra) (l1' := exch_of j' t' :: map (fun j0 => exch_of j0 t') extra)); [apply Ref|].
    apply Sub. intros y Hy. apply Ot, in_or_app. auto.
Qed.

Lemma family_proper (i : iet T) s l t : good i s -> family i s l t -> forall e, In e (map (fun j => exch_of j t) l) -> proper e.
Proof.
  intros G F e He. apply in_map_iff in He as (j & <- & Hj). apply wf_proper. apply (family_world i s l t G F), Hj.
Qed.

(** Calls on the IETs of a family. *)
Fixpoint by_hand (cs : list (nat * op)) (l : list (iet T)) (t : slen T) : option (list (iet T) * slen T) :=
  match cs with
  | [] => Some (l, t)
  | (n, o) :: cs =>
    match nth_error l n with
    | Some j => match run_op o j t with Ok (j', extra, t') => by_hand cs (firstn n l ++ j' :: extra ++ skipn (S n) l) t' | _ => None end
    | None => None
    end
  end.

Lemma by_hand_family (i : iet T) s cs : Forall (fun c => op_legal (snd c)) cs -> forall l t l' t', family i s l t -> by_hand cs l t = Some (l', t') -> family i s l' t'.
Proof.
  induction 1 as [|[n o] cs Ho Hc IH]; intros l t l' t' F E; cbn [by_hand] in E; [injection E as <- <-; exact F|].
  destruct (nth_error l n) as [j|] eqn:En; [|discriminate]. destruct (run_op o j t) as [[[j' extra] t1]| | | |] eqn:Er; try discriminate.
  refine (IH _ _ _ _ _ E). apply (fam_call i s (firstn n l) j (skipn (S n) l) t o j' extra t1); [|exact Ho|exact Er].
  replace (firstn n l ++ j :: skipn (S n) l) with l; [exact F|]. clear -En. revert n En.
  induction l as [|y l IH]; intros [|n] En; try discriminate; cbn in *; [congruence|]. f_equal. apply IH, En.
Qed.
End Aux.

(** The IET of the examples after a call of [zorichInduction] and a swap. *)
Definition z_later : iet Z * slen Z :=
  match by_hand [(0, op_zorich); (0, op_swap)] [z_iet] z_lens with Some ([j], t) => (j, t) | _ => (z_iet, z_lens) end.

Lemma z_later_family : family z_iet z_lens [fst z_later] (snd z_later).
Proof.
  assert (E : by_hand [(0, op_zorich); (0, op_swap)] [z_iet] z_lens = Some ([fst z_later], snd z_later)) by (vm_compute; reflexivity).
  refine (by_hand_family z_iet z_lens _ _ _ _ _ _ (fam_start _ _) E). repeat constructor; vm_compute; discriminate.
Qed.

Lemma z_later_obtainable : obtainable (fst z_later) (snd z_later).
Proof.
  assert (E1 : run_op op_zorich z_iet z_lens = Ok (iet_swap (fst z_later), [], snd z_later)) by (vm_compute; reflexivity).
  assert (E2 : run_op op_swap (iet_swap (fst z_later)) (snd z_later) = Ok (fst z_later, [], snd z_later)) by (vm_compute; reflexivity).
  refine (step_obtainable _ _ op_swap _ _ _ _ (step_obtainable _ _ op_zorich _ _ _ _ z_obtainable Logic.I E1 (or_introl eq_refl)) Logic.I E2 (or_introl eq_refl)).
Qed.
Lemma claim_C96_widths : forall (T : Type) (O : LenOps T) (W : LenLaws T) (i : iet T) (s : slen T) tr d tr' d',
  decomposition i s tr d -> decomposition i s tr' d' -> resolved (exchanges d) -> resolved (exchanges d') ->
  Permutation (widths (exchanges d)) (widths (exchanges d')).
Proof.
  intros T O W i s tr d tr' d' H H' R R'. destruct (comps_proper i s tr d H) as (P0 & _).
  destruct (claim_C73_towers T O W i s tr d H) as (Ts & E & HT). destruct (claim_C73_towers T O W i s tr' d' H') as (Ts' & E' & HT').
  unfold exchanges. rewrite <- E, <- E'. apply (same_widths (exch_of i s) P0); [exact (dec_sorted i s tr d Ts H E HT R)|exact (dec_sorted i s tr' d' Ts' H' E' HT' R')].
Qed.

Lemma claim_C96_cylinders : forall (T : Type) (O : LenOps T) (W : LenLaws T) (i : iet T) (s : slen T) tr d tr' d' Ts Ts',
  decomposition i s tr d -> decomposition i s tr' d' -> resolved (exchanges d) -> resolved (exchanges d') ->
  map tw_base Ts = exchanges d -> towers (exch_of i s) Ts -> map tw_base Ts' = exchanges d' -> towers (exch_of i s) Ts' ->
  exists Us, Permutation (cylinders Ts') Us /\ Forall2 (same_cylinder (exch_of i s)) (cylinders Ts) Us.
Proof.
  intros T O W i s tr d tr' d' Ts Ts' H H' R R' E HT E' HT'. destruct (comps_proper i s tr d H) as (P0 & _).
  apply (same_cylinders (exch_of i s) P0); [exact (dec_sorted i s tr d Ts H E HT R)|exact (dec_sorted i s tr' d' Ts' H' E' HT' R')].
Qed.

Lemma claim_C96_periodic : forall (T : Type) (O : LenOps T) (W : LenLaws T) (i : iet T) (s : slen T) tr d Ts y,
  decomposition i s tr d -> resolved (exchanges d) -> map tw_base Ts = exchanges d -> towers (exch_of i s) Ts ->
  (0 <= y < size (exch_of i s))%R ->
  (periodic (maps (exch_of i s)) y <-> exists t a k, In t (cylinders Ts) /\ on_floor (exch_of i s) t a k y).
Proof.
  intros T O W i s tr d Ts y H R E HT D. destruct (comps_proper i s tr d H) as (P0 & _).
  destruct (dec_sorted i s tr d Ts H E HT R) as ((_ & PT) & Cm). split.
  - intro Q. destruct (periodic_floor (exch_of i s) P0 Ts HT PT Cm y D Q) as (t & a & k & I & Et & F).
    exists t, a, k. split; [apply in_cylinders; eauto|exact F].
  - intros (t & a & k & I & F). apply in_cylinders in I as (I & b & Et).
    assert (a = b) by (destruct F as (_ & z & (Ia & _) & _); rewrite Et in Ia; destruct Ia as [->|[]]; reflexivity). subst b.
    exists (tw_height t a). split; [destruct F; lia|]. exact (proj1 (towers_cylinder _ Ts P0 HT t a k y I (PT t I) Et F)).
Qed.

Lemma claim_C96_flags : forall (T : Type) (O : LenOps T) (W : LenLaws T) (i : iet T) (s : slen T) tr d tr' d',
  straight i s tr d -> straight i s tr' d' ->
  (forall c x, component d c x \/ component d' c x -> dc_cylinder x = Some true \/ dc_wpt x = Some true) ->
  Permutation (widths (exchanges d)) (widths (exchanges d')).
Proof.
  intros T O W i s tr d tr' d' H H' F.
  assert (G : forall tr d, straight i s tr d -> (forall c x, component d c x -> dc_cylinder x = Some true \/ dc_wpt x = Some true) ->
    decomposition i s tr d /\ resolved (exchanges d)).
  { clear. intros tr d H F. assert (Hd : decomposition i s tr d) by (apply (claim_C28_included T O W i s tr d), H). split; [exact Hd|].
    intros e He. apply in_map_iff in He as (x & <- & Hx). apply In_nth_error in Hx as (c & Hc). destruct (F c x Hc) as [Q|Q].
    - left. apply (claim_C28_cylinder T O W i s tr d c x Hd Hc). exact Q.
    - right. apply (claim_C28_partial T O W i s tr d c x H Hc Q). }
  destruct (G tr d H) as (Hd & R); [intros; eapply F; eauto|]. destruct (G tr' d' H') as (Hd' & R'); [intros; eapply F; eauto|].
  exact (claim_C96_widths T O W i s tr d tr' d' Hd Hd' R R').
Qed.

Lemma claim_C96_injected : forall (T : Type) (O : LenOps T) (W : LenLaws T) (i : iet T) (s : slen T) J tr d J' tr' d',
  injected_decomposition i s J tr d -> injected_decomposition i s J' tr' d' -> resolved (exchanges d) -> resolved (exchanges d') ->
  Permutation (widths (exchanges d)) (widths (exchanges d')).
Proof.
  intros T O W i s J tr d J' tr' d' H H' R R'.
  destruct (claim_C62_transparent T O W i s J tr d H) as (tr0 & d0 & (H0 & El & Ec & _) & _).
  destruct (claim_C62_transparent T O W i s J' tr' d' H') as (tr1 & d1 & (H1 & El' & Ec' & _) & _).
  assert (E : exchanges d = exchanges d0) by (unfold exchanges, comp_exch; rewrite <- El, <- Ec; reflexivity).
  assert (E' : exchanges d' = exchanges d1) by (unfold exchanges, comp_exch; rewrite <- El', <- Ec'; reflexivity).
  rewrite E in *. rewrite E' in *. exact (claim_C96_widths T O W i s tr0 d0 tr1 d1 H0 H1 R R').
Qed.

Lemma claim_C96_dense : forall (T : Type) (O : LenOps T) (W : LenLaws T) (i : iet T) (s : slen T) tr d tr' d' Ts Ts',
  decomposition i s tr d -> decomposition i s tr' d' ->
  (forall e, In e (exchanges d) \/ In e (exchanges d') -> length (e_top e) = 1 \/ minimal e) ->
  map tw_base Ts = exchanges d -> towers (exch_of i s) Ts -> map tw_base Ts' = exchanges d' -> towers (exch_of i s) Ts' ->
  (exists Us, Permutation (cylinders Ts') Us /\ Forall2 (same_cylinder (exch_of i s)) (cylinders Ts) Us) /\
  (exists Us, Permutation (noncylinders Ts') Us /\ Forall2 (same_points (exch_of i s)) (noncylinders Ts) Us) /\
  length (d_comps d) = length (d_comps d').
Proof.
  intros T O W i s tr d tr' d' Ts Ts' H H' M E HT E' HT'. destruct (comps_proper i s tr d H) as (P0 & _).
  assert (G : forall tr d Ts, decomposition i s tr d -> (forall e, In e (exchanges d) -> length (e_top e) = 1 \/ minimal e) ->
    map tw_base Ts = exchanges d -> towers (exch_of i s) Ts -> worked_out (exch_of i s) Ts).
  { clear. intros tr d Ts H M E HT. split; [exact (dec_ready i s tr d Ts H E HT)|]. intros t I. apply (in_map tw_base) in I. rewrite E in I.
    split.
    - apply in_map_iff in I as (x & <- & Hx). exact (dec_nonempty i s tr d x H Hx).
    - destruct (M _ I) as [L|N]; [left|right; exact N]. destruct (e_top (tw_base t)) as [|a [|b l]]; try discriminate. exists a. reflexivity. }
  pose proof (G tr d Ts H (fun e He => M e (or_introl He)) E HT) as S. pose proof (G tr' d' Ts' H' (fun e He => M e (or_intror He)) E' HT') as S'.
  destruct (same_cylinders (exch_of i s) P0 Ts Ts' (settled_sorted _ _ S) (settled_sorted _ _ S')) as (Us & A1 & A2).
  destruct (same_others (exch_of i s) P0 Ts Ts' S S') as (Vs & B1 & B2).
  split; [eauto|]. split; [eauto|].
  assert (Len : forall l, length l = length (cylinders l) + length (noncylinders l)).
  { clear. unfold cylinders, noncylinders. induction l as [|t l IH]; [reflexivity|]. cbn [filter]. destruct (e_top (tw_base t)) as [|a [|b m]]; cbn [length]; lia. }
  assert (L1 : length (d_comps d) = length Ts) by (rewrite <- (map_length tw_base Ts), E; symmetry; apply map_length).
  assert (L2 : length (d_comps d') = length Ts') by (rewrite <- (map_length tw_base Ts'), E'; symmetry; apply map_length).
  rewrite L1, L2, (Len Ts), (Len Ts'), (Permutation_length A1), (Permutation_length B1).
  assert (FL : forall (A B : Type) (Rel : A -> B -> Prop) l m, Forall2 Rel l m -> length l = length m) by (clear; induction 1; cbn; congruence).
  rewrite (FL _ _ _ _ _ A2), (FL _ _ _ _ _ B2). reflexivity.
Qed.

Lemma claim_C97_widths : forall (T : Type) (O : LenOps T) (W : LenLaws T) (i : iet T) (s : slen T) l t l' t',
  obtainable i s -> family i s l t -> family i s l' t' ->
  resolved (map (fun j => exch_of j t) l) -> resolved (map (fun j => exch_of j t') l') ->
  Permutation (widths (map (fun j => exch_of j t) l)) (widths (map (fun j => exch_of j t') l')).
Proof.
  intros T O W i s l t l' t' G%obtainable_good F F' R R'.
  apply (pieces_widths (exch_of i s)); [apply wf_proper, G|apply family_pieces; assumption|apply family_pieces; assumption|].
  intros e [He|He]; (split; [|auto]).
  - exact (family_proper i s l t G F e He).
  - exact (family_proper i s l' t' G F' e He).
Qed.

Lemma claim_C97_decomposition : forall (T : Type) (O : LenOps T) (W : LenLaws T) (i : iet T) (s : slen T) l t tr d,
  family i s l t -> decomposition i s tr d ->
  resolved (map (fun j => exch_of j t) l) -> resolved (exchanges d) ->
  Permutation (widths (map (fun j => exch_of j t) l)) (widths (exchanges d)).
Proof.
  intros T O W i s l t tr d F H R R'. assert (G : good i s) by (apply obtainable_good; destruct (history_steps _ _ _ _ H) as (d0 & Hi & _); exact Hi).
  pose proof (wf_proper _ _ (proj1 G)) as P0. apply (pieces_widths (exch_of i s) _ _ P0).
  - apply family_pieces; assumption.
  - apply (dec_pieces _ i s tr d P0 H). apply pieces_start, P0.
  - intros e [He|He]; (split; [|auto]).
    + eapply family_proper; eassumption.
    + apply in_map_iff in He as (x & <- & Hx). apply (comps_proper i s tr d H), Hx.
Qed.

Lemma claim_C97_induced : forall (T : Type) (O : LenOps T) (W : LenLaws T) (i : iet T) (s : slen T) j t tr d tr' d',
  family i s [j] t -> decomposition i s tr d -> decomposition j t tr' d' ->
  resolved (exchanges d) -> resolved (exchanges d') ->
  Permutation (widths (exchanges d)) (widths (exchanges d')).
Proof.
  intros T O W i s j t tr d tr' d' F H H' R R'. assert (G : good i s) by (apply obtainable_good; destruct (history_steps _ _ _ _ H) as (d0 & Hi & _); exact Hi).
  pose proof (wf_proper _ _ (proj1 G)) as P0. apply (pieces_widths (exch_of i s) _ _ P0).
  - apply (dec_pieces _ i s tr d P0 H). apply pieces_start, P0.
  - apply (dec_pieces _ j t tr' d' P0 H'). exact (family_pieces i s [j] t G F).
  - intros e [He|He]; (split; [|auto]); apply in_map_iff in He as (x & <- & Hx).
    + apply (comps_proper i s tr d H), Hx.
    + apply (comps_proper j t tr' d' H'), Hx.
Qed.

