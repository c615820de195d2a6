(** Lengths that are commensurable, over any number type: the similarity test never succeeds. *)
From Coq Require Import List Reals Lra Lia Permutation.
From Verif Require Import Base QcTac LenT FM Subspace Lengths IET Api ZorichProof ReduceProof Saf InduceProof InduceCons World.
From Verif Require Import Spec Dyn Path Direct Detect Decomp DecompSim DecompInv DecompRef.
Open Scope nat_scope.

Section Core.
Context {T : Type} {O : LenOps T} {W : LenLaws T}.

Lemma deg_pos (i : iet T) (s : slen T) : wf i s -> 1 <= l_deg T.
Proof.
  intros (_ & _ & Ne & Po & _). destruct (l_deg T) as [|] eqn:E; [exfalso|lia].
  destruct (i_top i) as [|a X]; [congruence|]. pose proof (Po a (or_introl eq_refl)) as Ha. apply posl_lamR in Ha.
  assert (V : forall x : T, val x = 0%R).
  { intro x. rewrite val_coef. pose proof basis_length as Lb. rewrite E in Lb. destruct basis; [|discriminate].
    pose proof (coef_length x) as Lx. rewrite E in Lx. destruct (l_coef x); [reflexivity|discriminate]. }
  unfold lamR in Ha. destruct (nth_error (sl_lens s) a) as [x|]; [rewrite V in Ha|]; lra.
Qed.

Definition core (strict : Prop) (i : iet T) (s : slen T) : Prop :=
  wf i s /\ cache_ok i s /\ trk_ok strict i s /\ exists u, (0 < u)%R /\ integral u (exch_of i s).

Lemma core_good i s : core True i s -> good i s.
Proof. intros (A & B & C & _). repeat split; auto; apply A. Qed.

Lemma core_saf i s v j : core True i s -> iet_saf i s = Ok (v, j) -> core True j s.
Proof.
  intros (A & B & C & D) E. rewrite (iet_saf_ok i s A B) in E. injection E as _ <-.
  split; [exact A|]. split; [reflexivity|]. split; [exact C|exact D].
Qed.

Lemma trk_weak i s : trk_ok True i s -> trk_ok False i s.
Proof.
  intros [G|[G|(e1 & G1 & G2 & G3 & G4 & G5 & G6 & G7 & _)]]; [left; exact G | right; left; exact G|].
  right; right. exists e1. repeat (split; [assumption|]). intros [].
Qed.

Lemma core_step i s i2 s2 : core False i s -> iteration sample_lens i s = Ok (false, i2, s2) -> core True i2 s2 /\ Permutation (i_top i) (i_top i2) /\ i_swap i2 = i_swap i.
Proof.
  intros (A & B & C & u & Hu & Hi) E. destruct (iteration_ok i s A B) as (f & j & t & E' & R & Et & _ & _ & D).
  rewrite E in E'. injection E' as <- <- <-. split; [|split; [exact (reach_labels _ _ _ _ A R)|exact (r_swap _ _ _ _ R)]].
  split; [exact (r_wf _ _ _ _ R)|]. split; [exact (r_cache _ _ _ _ R)|]. split.
  - exact (trk_extend False True i s i2 s2 A C R Et (fun _ => or_intror (D eq_refl))).
  - exists u. split; [exact Hu|]. exact (path_integral u _ _ (wf_proper _ _ A) (r_path _ _ _ _ R) Hi).
Qed.

Lemma core_track i s : core True i s -> exists k, tracker_loop (i_trk i) i s = Ok (false, k) /\ core False (set_trk i k) s.
Proof.
  intros (A & B & C & u & Hu & Hi). destruct (track_ok i s A C) as (r & k & E & K & N).
  destruct r; [exfalso; exact (integral_not_similar u (set_trk i k) s Hu A Hi (proj2 (N eq_refl)))|].
  exists k. split; [exact E|]. split; [exact A|]. split; [exact B|]. split; [exact K|]. exists u. auto.
Qed.

Lemma core_weak i s : core True i s -> core False i s.
Proof. intros (A & B & C & D). split; [exact A|]. split; [exact B|]. split; [apply trk_weak; exact C|exact D]. Qed.

(** ** In a decomposition *)

Definition dcore (k : nat) (strict : Prop) (i : iet T) (d : decomp T) : Prop :=
  core strict i (d_len d) /\ i_swap i = false /\ fits k (i_top i) d.

Lemma dcore_step k i d i2 d2 : dcore k False i d -> iteration (dec_lens k) i d = Ok (false, i2, d2) -> dcore k True i2 d2.
Proof.
  intros (A & B & F) E. destruct (iteration_sim k i d (proj1 A) B F) as (f & j & t & g & E1 & E2 & _).
  rewrite E in E2. injection E2 as <- <- ->. destruct (core_step i (d_len d) i2 t A E1) as (A2 & P & S).
  split; [exact A2|]. split; [rewrite S; exact B|]. apply (fits_perm _ _ _ _ P), fits_with. exact F.
Qed.

(** Every component is in a good state; [extra] are IETs that are about to become components. *)
Record sound (extra : list (iet T)) (d : decomp T) : Prop := {
  so_stack : d_stack d = [];
  so_good : forall i, In i (comp_iets d ++ extra) -> good i (d_len d) /\ i_swap i = false;
  so_nodup : NoDup (used (comp_iets d ++ extra));
  so_keys : incl (used (comp_iets d ++ extra)) (d_keys d);
}.

Lemma used_app a b : used (a ++ b) = @used T a ++ used b.
Proof. apply flat_map_app. Qed.

Lemma sound_fits d C1 x C2 : sound [] d -> d_comps d = C1 ++ x :: C2 -> fits (length C1) (i_top (dc_iet x)) d.
Proof.
  intros [S G N K] E. rewrite app_nil_r in *. unfold comp_iets in *. rewrite E in N, K. rewrite map_app in N, K. cbn [map] in N, K.
  split; [exact S|]. split.
  - intros l Hl. apply K. rewrite used_app. apply in_or_app. right. cbn. apply in_or_app. left. exact Hl.
  - rewrite E. apply alone_mid. intros y a Hy Ha Hy'.
    rewrite used_app in N. cbn in N. apply NoDup_app_inv in N. destruct N as (_ & N2 & N3).
    apply NoDup_app_inv in N2. destruct N2 as (_ & _ & N4). apply in_app_or in Hy. destruct Hy as [Hy|Hy].
    + apply (N3 a); [|apply in_or_app; left; exact Ha]. unfold used. apply in_flat_map. exists (dc_iet y). split; [apply in_map; exact Hy|exact Hy'].
    + apply (N4 a Ha). apply in_flat_map. exists (dc_iet y). split; [apply in_map; exact Hy|exact Hy'].
Qed.

(** Replacing a component by parts of it. *)
Lemma sound_replace d C1 x C2 y extra (d' : decomp T) : sound [] d -> d_comps d = C1 ++ x :: C2 ->
  d_stack d' = [] -> d_keys d' = d_keys d -> d_comps d' = C1 ++ y :: C2 ->
  sl_stack (d_len d') = [] -> length (sl_lens (d_len d')) = length (sl_lens (d_len d)) ->
  (forall l, ~ In l (i_top (dc_iet x)) -> nth_error (sl_lens (d_len d')) l = nth_error (sl_lens (d_len d)) l) ->
  (forall i, In i (dc_iet y :: extra) -> good i (d_len d') /\ i_swap i = false) ->
  NoDup (used (dc_iet y :: extra)) -> incl (used (dc_iet y :: extra)) (i_top (dc_iet x)) -> sound extra d'.
Proof.
  intros So E St Ke E' S0 Le Fr G N I. pose proof (sound_fits d C1 x C2 So E) as (_ & Kx & _).
  destruct So as [_ G0 N0 K0]. rewrite app_nil_r in *. unfold comp_iets in *. rewrite E in N0, K0, G0.
  rewrite map_app in *. cbn [map] in *.
  assert (P : Permutation ((map dc_iet C1 ++ dc_iet y :: map dc_iet C2) ++ extra) ((dc_iet y :: extra) ++ map dc_iet C1 ++ map dc_iet C2)).
  { rewrite <- app_assoc. cbn [app]. rewrite <- Permutation_middle. constructor. rewrite app_assoc. apply Permutation_app_comm. }
  assert (P0 : Permutation (map dc_iet C1 ++ dc_iet x :: map dc_iet C2) (dc_iet x :: map dc_iet C1 ++ map dc_iet C2)) by (symmetry; apply Permutation_middle).
  assert (PU : forall a b, Permutation a b -> Permutation (used a) (@used T b)) by (intros; apply Permutation_flat_map; assumption).
  assert (N1 : NoDup (i_top (dc_iet x) ++ used (map dc_iet C1 ++ map dc_iet C2))).
  { apply (Permutation_NoDup (PU _ _ P0)) in N0. exact N0. }
  apply NoDup_app_inv in N1. destruct N1 as (_ & N2 & N3).
  constructor; unfold comp_iets; rewrite ?E', ?map_app; cbn [map].
  - exact St.
  - intros i Hi. apply (Permutation_in _ P) in Hi. apply in_app_or in Hi. destruct Hi as [Hi|Hi]; [apply G; exact Hi|].
    destruct (G0 i) as [G1 S1]; [apply (Permutation_in _ (Permutation_sym P0)); right; exact Hi|]. split; [|exact S1].
    apply (good_frame i (d_len d)); auto. intros l Hl. apply Fr. intro Hx. apply (N3 l Hx). apply in_flat_map. exists i. auto.
  - apply (Permutation_NoDup (PU _ _ (Permutation_sym P))). rewrite used_app. apply NoDup_app_intro; auto.
  - rewrite Ke. intros l Hl. apply (Permutation_in _ (PU _ _ P)) in Hl. rewrite used_app in Hl. apply in_app_or in Hl.
    destruct Hl as [Hl|Hl]; [apply Kx, I, Hl|]. apply K0. apply (Permutation_in _ (PU _ _ (Permutation_sym P0))). cbn. apply in_or_app. right. exact Hl.
Qed.

Lemma firstn_skipn_nodup {X} k (l : list X) : NoDup l -> NoDup (firstn k l ++ skipn k l).
Proof. rewrite firstn_skipn. auto. Qed.

Lemma sound_induce d C1 x C2 fuel limit st i' d1 : sound [] d -> d_comps d = C1 ++ x :: C2 -> (limit <= INT_MAX)%Z ->
  induce (dec_lens (length C1)) fuel limit (dc_iet x) d = Ok (st, i', d1) ->
  exists e, comp_set d1 (length C1) (iet_set x i') = Ok e /\ sound (match is_additional st with Some j => [j] | None => [] end) e /\
    d_comps d1 = d_comps d /\ sl_stack (d_len d1) = [] /\ length (sl_lens (d_len d1)) = length (sl_lens (d_len d)) /\
    (forall l, ~ In l (i_top (dc_iet x)) -> nth_error (sl_lens (d_len d1)) l = nth_error (sl_lens (d_len d)) l).
Proof.
  intros So E Hl Ei. pose proof (sound_fits d C1 x C2 So E) as F.
  destruct (so_good _ _ So (dc_iet x)) as [Gx Sx].
  { rewrite app_nil_r. unfold comp_iets. rewrite E. apply in_map. apply in_or_app. right. left. reflexivity. }
  destruct (dinduce_ok (length C1) limit fuel (dc_iet x) d Hl Gx Sx F) as [(E1 & _)|[(E1 & _)|(st' & j & d' & E1 & Gj & St & Ke & Co & P)]]; rewrite Ei in E1; try discriminate.
  injection E1 as <- <- <-. pose proof Co as Co0. rewrite E in Co. eexists. split; [apply (comp_set_mid d1 C1 x C2); exact Co|].
  assert (Sl : sl_stack (d_len d1) = []) by apply Gj.
  assert (R : (i' = dc_iet x /\ d1 = d /\ is_additional st = None) \/
    exists i1, reach (dc_iet x) (d_len d) i1 (d_len d1) /\
      (forall i, In i (i' :: match is_additional st with Some j => [j] | None => [] end) -> good i (d_len d1) /\ i_swap i = false) /\
      NoDup (used (i' :: match is_additional st with Some j => [j] | None => [] end)) /\
      incl (used (i' :: match is_additional st with Some j => [j] | None => [] end)) (i_top i1)).
  { assert (Plain : creach (dc_iet x) d i' d1 -> is_additional st = None -> exists i1, reach (dc_iet x) (d_len d) i1 (d_len d1) /\
      (forall i, In i (i' :: match is_additional st with Some j => [j] | None => [] end) -> good i (d_len d1) /\ i_swap i = false) /\
      NoDup (used (i' :: match is_additional st with Some j => [j] | None => [] end)) /\
      incl (used (i' :: match is_additional st with Some j => [j] | None => [] end)) (i_top i1)).
    { intros [R _] ->. exists i'. split; [exact R|]. split; [|split; [|]].
      - intros i [<-|[]]. split; [exact Gj|]. rewrite (r_swap _ _ _ _ R). exact Sx.
      - cbn. rewrite app_nil_r. apply Gj.
      - cbn. rewrite app_nil_r. apply incl_refl. }
    unfold dinduce_post in P. destruct (is_result st).
    - right. apply Plain; [apply P|]. destruct P as (_ & _ & _ & _ & _ & _ & ->). reflexivity.
    - left. destruct P as (_ & -> & -> & ->). auto.
    - right. destruct P as (i1 & k & b & t & _ & [R _] & Ip & _ & -> & _ & _ & -> & Gr). exists i1. split; [exact R|]. cbn [is_additional].
      pose proof (r_wf _ _ _ _ R) as W1. split; [|split].
      + intros i [<-|[<-|[]]]; [split; [exact Gj|]; cbn; rewrite (r_swap _ _ _ _ R); exact Sx|]. split; [exact Gr|reflexivity].
      + cbn. rewrite app_nil_r. apply firstn_skipn_nodup, W1.
      + cbn. rewrite app_nil_r, firstn_skipn. apply incl_refl.
    - right. destruct P as (i1 & a & b & _ & [R _] & _ & _ & _ & _ & _ & Et & Es & ->). exists i1. split; [exact R|]. cbn [is_additional].
      split; [|split].
      + intros i [<-|[]]. split; [exact Gj|]. rewrite Es. exact Sx.
      + cbn. rewrite app_nil_r. apply Gj.
      + cbn. rewrite app_nil_r, Et. intros l Hlt. destruct (i_top i1); [exact Hlt|right; exact Hlt].
    - right. apply Plain; [apply P|]. destruct P as (_ & _ & _ & _ & _ & _ & ->). reflexivity.
    - right. apply Plain; [apply P|]. destruct P as (_ & _ & _ & _ & ->). reflexivity. }
  destruct R as [(-> & -> & ->)|(i1 & R & G & N & I)];
    (split; [|split; [exact Co0|split; [exact Sl|split; [first [exact (r_len _ _ _ _ R)|reflexivity]|first [exact (r_frame _ _ _ _ R)|reflexivity]]]]]).
  - eapply sound_replace; [exact So|exact E|exact St|reflexivity|reflexivity|exact Sl|reflexivity|reflexivity| | |].
    + intros i [<-|[]]. split; assumption.
    + cbn. rewrite app_nil_r. apply Gx.
    + cbn. rewrite app_nil_r. apply incl_refl.
  - eapply sound_replace; [exact So|exact E|exact St|exact Ke|reflexivity|exact Sl|exact (r_len _ _ _ _ R)|exact (r_frame _ _ _ _ R)|exact G|exact N|].
    intros l Hl'. apply I in Hl'. apply (Permutation_in _ (Permutation_sym (reach_labels _ _ _ _ (proj1 Gx) R))). exact Hl'.
Qed.

(** Other changes. *)
Lemma sound_set d k x i s v : sound [] d -> nth_error (d_comps d) k = Some x -> iet_saf (dc_iet x) (d_len d) = Ok (v, i) ->
  comp_set d k (iet_set x i) = Ok s -> sound [] s.
Proof.
  intros So E Es Hs. destruct (nth_split _ _ _ E) as (C1 & C2 & Ec & <-).
  destruct (so_good _ _ So (dc_iet x)) as [Gx Sx].
  { rewrite app_nil_r. unfold comp_iets. rewrite Ec. apply in_map. apply in_or_app. right. left. reflexivity. }
  rewrite (iet_saf_ok _ _ (proj1 Gx) (proj1 (proj2 Gx))) in Es. injection Es as _ <-.
  rewrite (comp_set_mid d C1 x C2 _ Ec) in Hs. injection Hs as <-.
  eapply sound_replace; [exact So|exact Ec|exact (so_stack _ _ So)|reflexivity|reflexivity|apply Gx|reflexivity|reflexivity| | |].
  - intros j [<-|[]]. split; [|exact Sx]. cbn. apply good_set_saf; [exact Gx|reflexivity].
  - cbn. rewrite app_nil_r. apply Gx.
  - cbn. rewrite app_nil_r. apply incl_refl.
Qed.

Lemma sound_flags X d d2 : sound X d -> d_len d2 = d_len d -> d_stack d2 = d_stack d -> d_keys d2 = d_keys d -> comp_iets d2 = comp_iets d -> sound X d2.
Proof. intros [] E1 E2 E3 E4. constructor; rewrite ?E1, ?E2, ?E3, ?E4; assumption. Qed.

Lemma comp_set_iets (d : decomp T) k x y e : nth_error (d_comps d) k = Some x -> dc_iet y = dc_iet x -> comp_set d k y = Ok e ->
  d_len e = d_len d /\ d_stack e = d_stack d /\ d_keys e = d_keys d /\ comp_iets e = comp_iets d.
Proof.
  intros E Ey Hs. destruct (nth_split _ _ _ E) as (C1 & C2 & Ec & <-). rewrite (comp_set_mid d C1 x C2 _ Ec) in Hs. injection Hs as <-.
  repeat split. unfold comp_iets. cbn. rewrite Ec, !map_app. cbn. rewrite Ey. reflexivity.
Qed.

Lemma sound_make i s d : good i s -> dec_make i s = Ok d -> sound [] d.
Proof.
  intros (Wi & _) E. destruct (dec_make_ok i s) as (d' & E' & Dk & Ps & El & Ec & _).
  { destruct Wi as (N & P & Ne & Po & _). split; [exact N|]. split; [exact P|]. split; [exact Ne|]. intros l Hl. exact (Po l Hl). }
  { apply Wi. }
  rewrite E in E'. injection E' as <-. constructor; rewrite ?app_nil_r.
  - exact (dk_stack _ _ Dk).
  - intros j Hj. unfold comp_iets in Hj. apply in_map_iff in Hj. destruct Hj as (x & <- & Hx). exact (dk_good _ _ Dk x Hx).
  - exact (dk_nodup _ _ Dk).
  - intros l Hl. unfold used in Hl. apply in_flat_map in Hl. destruct Hl as (j & Hj & Hl). unfold comp_iets in Hj. apply in_map_iff in Hj.
    destruct Hj as (x & <- & Hx). exact (dk_label _ _ x l Dk Hx Hl).
Qed.
End Core.
