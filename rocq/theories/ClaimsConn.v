(** Proofs of the properties in [PropConn]. *)
From Coq Require Import Reals Lra Lia Permutation.
From Verif Require Import Base QcTac LenT FM Subspace Lengths IET Decomp Spec SpecDec SpecGlue Api DecApi GlueApi ConnApi.
From Verif Require Import ZorichProof InduceProof World Dyn DecompSim DecompInv DecompRef DecompStep DecompNav DecompCons PerimProof DecompAll DecompBudget ClaimsDecomp.
From Verif Require Import Glue GlueDec GlueBnd GlueConn ClaimsGlue LenInst Fixtures.
Open Scope nat_scope.

Lemma joined_ok {T} {O : LenOps T} {W : LenLaws T} (i : iet T) (s : slen T) tr d : decomposition i s tr d ->
  dec_ok (exch_of i s) d /\ joined (map (word (d_conns d)) (pieces d)).
Proof.
  intros (d0 & Hi & E0 & S)%history_steps. destruct (made_ok i s d0 Hi E0) as (H0 & P0 & _ & _ & F0).
  destruct (steps_ok _ _ _ _ H0 S) as (H1 & A & _). split; [exact H1|]. destruct (dk_inv _ _ H0) as (D & C).
  apply (asteps_joined _ _ _ _ _ A D C). rewrite P0. apply joined_one.
Qed.

Lemma cv_inj k p : In (cv k) (map as_item p) -> In (SConn k) p.
Proof.
  intros (x & E & Hx)%in_map_iff. destruct x as [k'|e]; [|discriminate]. unfold cv in E. cbn in E. injection E as E1 E2.
  destruct k as [a b], k' as [a' b']. cbn in E1, E2. subst. exact Hx.
Qed.

Lemma all_sides {T} {O : LenOps T} {W : LenLaws T} (i : iet T) (s : slen T) tr d : decomposition i s tr d ->
  forall n, n <= length (d_comps d) -> exists ps, mapM (comp_perimeter d) (seq 0 n) = Ok ps /\
    length (concat ps) = length (filter is_side (concat (map (word (d_conns d)) (map (fun x => exch_of (dc_iet x) (d_len d)) (firstn n (d_comps d)))))).
Proof.
  intros H. induction n as [|n IH]; intros Hn; [exists []; split; reflexivity|].
  destruct (IH ltac:(lia)) as (ps & E & L). destruct (nth_error (d_comps d) n) as [x|] eqn:Hx; [|apply nth_error_None in Hx; lia].
  destruct (claim_C85_boundary T O W i s tr d n x H Hx) as (w & p & q & E1 & E2 & E3).
  destruct (glue_ok i s tr d H) as (H1 & _). pose proof Hx as Hx'. apply nth_error_split in Hx' as (C1 & C2 & Hc & Hl).
  pose proof (boundary_word _ d H1 C1 C2 x Hc) as Q. rewrite Hl in Q. rewrite Q in E1. injection E1 as <-.
  exists (ps ++ [p ++ q]). split.
  - rewrite seq_S, mapM_app, E. cbn [bind Nat.add mapM]. rewrite E2. reflexivity.
  - rewrite concat_app, app_length, L. cbn [concat]. rewrite app_nil_r.
    assert (Hf : firstn (S n) (d_comps d) = firstn n (d_comps d) ++ [x]).
    { rewrite Hc. rewrite <- Hl. rewrite !firstn_app, Nat.sub_diag. replace (S (length C1) - length C1) with 1 by lia. rewrite (firstn_all2 C1 (n := S (length C1))) by lia. rewrite firstn_all. cbn [firstn]. rewrite app_nil_r. reflexivity. }
    rewrite Hf, !map_app, concat_app, filter_app. cbn [map concat]. rewrite app_nil_r. rewrite E3, !app_length, map_length, app_length. lia.
Qed.

Lemma live_size {T} {O : LenOps T} {W : LenLaws T} (i : iet T) (s : slen T) tr d : decomposition i s tr d ->
  length (live (pieces d)) = list_sum (map (fun x => length (i_top (dc_iet x)) - 1) (d_comps d)) + length (d_comps d) /\
  length (d_comps d) <= length (live (pieces d)) <= length (i_top i) /\ 1 <= length (d_comps d).
Proof.
  intros Hh. pose proof (history_ok _ _ _ _ Hh) as H. destruct (dk_inv _ _ H) as (D & C).
  assert (Q : forall x, In x (d_comps d) -> 1 <= length (i_top (dc_iet x))).
  { intros x Hx. destruct (ci_proper _ _ _ _ C (exch_of (dc_iet x) (d_len d))) as (_ & N); [unfold pieces; apply in_map_iff; eauto|].
    cbn [e_top exch_of] in N. destruct (i_top (dc_iet x)); [contradiction|cbn; lia]. }
  assert (S : length (live (pieces d)) = list_sum (map (fun x => length (i_top (dc_iet x)) - 1) (d_comps d)) + length (d_comps d)).
  { unfold live, pieces. clear - Q. induction (d_comps d) as [|x l IH]; [reflexivity|]. cbn [map flat_map list_sum fold_right length]. rewrite app_length.
    rewrite IH by (intros y Hy; apply Q; right; exact Hy). pose proof (Q x (or_introl eq_refl)). cbn [e_top exch_of]. unfold list_sum. lia. }
  pose proof (ci_part _ _ _ _ C) as P. apply Permutation_length in P. cbn [e_top exch_of] in P.
  assert (L : length (live (pieces d)) <= length (flat_map (fun l => l :: D l) (live (pieces d)))).
  { clear. generalize (live (pieces d)) as l0. induction l0 as [|a l IH]; [apply Nat.le_refl|]. cbn [flat_map length]. rewrite app_length. cbn [length]. lia. }
  split; [exact S|]. split; [lia|]. destruct (rows_ok i s tr d Hh) as (_ & _ & Ne).
  destruct (d_comps d) eqn:Ed; [|cbn; lia]. exfalso. unfold pieces in P. rewrite Ed in P. cbn in P. destruct (i_top i); [contradiction|discriminate].
Qed.
Lemma claim_C86_connected : forall (T : Type) (O : LenOps T) (W : LenLaws T) (i : iet T) (s : slen T) tr d c x c' x',
  decomposition i s tr d -> component d c x -> component d c' x' -> exists n, iter (beside d) n c c'.
Proof.
  intros T O W i s tr d c x c' x' H Hx Hx'. destruct (joined_ok i s tr d H) as (H1 & J).
  assert (L : length (map (word (d_conns d)) (pieces d)) = length (d_comps d)) by (unfold pieces; rewrite !map_length; reflexivity).
  destruct (J c c') as (n & Hn); [rewrite L; apply nth_error_Some; unfold component in Hx; congruence|rewrite L; apply nth_error_Some; unfold component in Hx'; congruence|].
  exists n. clear Hx Hx' J. revert c Hn. induction n as [|n IH]; intros c; cbn [iter]; [auto|].
  intros (m & (k & K1 & K2) & Hn). exists m. split; [|exact (IH m Hn)].
  assert (Q : forall c0 k0, has (map (word (d_conns d)) (pieces d)) c0 k0 -> exists p, comp_perimeter d c0 = Ok p /\ In (SConn k0) p).
  { intros c0 k0 (w & Hw & Hk). unfold pieces in Hw. rewrite map_map in Hw. rewrite nth_error_map in Hw.
    destruct (nth_error (d_comps d) c0) as [y|] eqn:Hy; [|discriminate]. injection Hw as <-.
    destruct (claim_C85_boundary T O W i s tr d c0 y H Hy) as (w & p & q & E1 & E2 & E3).
    apply nth_error_split in Hy as (C1 & C2 & Hc & Hl). pose proof (boundary_word _ d H1 C1 C2 y Hc) as Q. rewrite Hl in Q. rewrite Q in E1. injection E1 as <-.
    exists (p ++ q). split; [exact E2|]. assert (Hf : In (cv k0) (map as_item (q ++ p))) by (rewrite <- E3; apply filter_In; auto).
    apply cv_inj in Hf. apply in_app_iff. apply in_app_iff in Hf. tauto. }
  destruct (Q _ _ K1) as (p & E1 & I1). destruct (Q _ _ K2) as (p' & E2 & I2). exists p, p', k. auto.
Qed.

Lemma claim_C86_sides : forall (T : Type) (O : LenOps T) (W : LenLaws T) (i : iet T) (s : slen T) tr d,
  decomposition i s tr d ->
  exists ps, mapM (comp_perimeter d) (seq 0 (length (d_comps d))) = Ok ps /\
    length (concat ps) + 2 = 2 * (length (i_top i) + length (d_comps d)).
Proof.
  intros T O W i s tr d H. destruct (all_sides i s tr d H (length (d_comps d)) (le_n _)) as (ps & E & L).
  exists ps. split; [exact E|]. rewrite firstn_all in L. destruct (glue_ok i s tr d H) as (H1 & _).
  pose proof (Permutation_length (sides_own _ d H1)) as Q. unfold pieces in Q. rewrite L.
  destruct (claim_C32_number T O W i s tr d H) as (N1 & N2 & _). destruct (live_size i s tr d H) as (S1 & S2 & S3).
  assert (P : Permutation (flat_map (fun l => left_conns (d_conns d l) ++ right_conns (d_conns d l)) (live (pieces d))) (lefts d ++ rights d)).
  { apply NoDup_Permutation; [eapply NoDup_map_of, live_conns_nodup; exact H1|eapply NoDup_map_of, conns_sources; exact H1|apply (live_conns _ d H1)]. }
  apply Permutation_length in P. rewrite app_length in P. fold (pieces d) in Q |- *. unfold pieces in Q |- *. rewrite Q, app_length, map_length. fold (pieces d). rewrite P.
  assert (E2 : forall A (l : list A) (g : A -> list item), (forall a, length (g a) = 2) -> length (flat_map g l) = 2 * length l).
  { clear. intros A l g G. induction l as [|a l IH]; [reflexivity|]. cbn [flat_map length]. rewrite app_length, G, IH. lia. }
  rewrite E2 by reflexivity. lia.
Qed.

Lemma claim_C86_components : forall (T : Type) (O : LenOps T) (W : LenLaws T) (i : iet T) (s : slen T) tr d,
  decomposition i s tr d -> 1 <= length (d_comps d) <= length (i_top i).
Proof.
  intros T O W i s tr d H. destruct (live_size i s tr d H) as (S1 & S2 & S3). lia.
Qed.

