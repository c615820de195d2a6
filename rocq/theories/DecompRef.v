(** The model of the decomposition performs the moves of [DecompInv] and never fails. *)
From Coq Require Import Reals Permutation Lia Lra.
From Verif Require Import Base QcTac LenT FM Subspace Lengths IET Api ZorichProof ReduceProof Saf InduceProof InduceCons World.
From Verif Require Import Spec Dyn Path Direct Decomp DecompSim DecompInv.
Open Scope nat_scope.

Section Ref.
Context {T : Type} {O : LenOps T} {W : LenLaws T}.

(** * Components *)

(** The exchanges that the components denote. *)
Definition pieces (d : decomp T) : list exch := map (fun x => exch_of (dc_iet x) (d_len d)) (d_comps d).

Definition comp_iets (d : decomp T) : list (iet T) := map dc_iet (d_comps d).

Lemma live_pieces d : live (pieces d) = used (comp_iets d).
Proof. unfold pieces, comp_iets, used, live. induction (d_comps d) as [|x l IH]; [reflexivity|]. simpl. rewrite IH. reflexivity. Qed.

Lemma nth_split (l : list (dcomp T)) c x : nth_error l c = Some x -> exists C1 C2, l = C1 ++ x :: C2 /\ length C1 = c.
Proof. apply nth_error_split. Qed.

Lemma comp_at_mid (d : decomp T) C1 x C2 : d_comps d = C1 ++ x :: C2 -> comp_at d (length C1) = Ok x.
Proof. intro E. unfold comp_at. rewrite E, nth_error_app2, Nat.sub_diag by lia. reflexivity. Qed.

Lemma set_nth_mid {A} (C1 : list A) x C2 y : set_nth (length C1) y (C1 ++ x :: C2) = Some (C1 ++ y :: C2).
Proof. induction C1 as [|z C1 IH]; [reflexivity|]. simpl. rewrite IH. reflexivity. Qed.

Lemma comp_set_mid (d : decomp T) C1 x C2 y : d_comps d = C1 ++ x :: C2 ->
  comp_set d (length C1) y = Ok (set_comps d (C1 ++ y :: C2)).
Proof. intro E. unfold comp_set. rewrite E, set_nth_mid. reflexivity. Qed.

Lemma views_mid C1 (x : dcomp T) C2 v :
  views_with (length C1) v (C1 ++ x :: C2) =
  map (fun x => i_view (dc_iet x)) C1 ++ v :: map (fun x => i_view (dc_iet x)) C2.
Proof. induction C1 as [|z C1 IH]; [reflexivity|]. simpl. rewrite IH. reflexivity. Qed.

Lemma on_top_views a (C : list (dcomp T)) : (forall x, In x C -> ~ In a (i_top (dc_iet x))) ->
  existsb (on_top a) (map (fun x => i_view (dc_iet x)) C) = false.
Proof.
  induction C as [|x C IH]; intro H; [reflexivity|]. simpl. rewrite IH by (intros y Hy; apply H; right; exact Hy).
  specialize (H x (or_introl eq_refl)). unfold on_top, i_view. simpl.
  destruct (i_top (dc_iet x)) as [|y X]; [reflexivity|].
  destruct (Nat.eqb_spec y a) as [->|]; [|reflexivity]. exfalso. apply H. left. reflexivity.
Qed.

Lemma alone_mid C1 (x : dcomp T) C2 ls : 
  (forall y a, In y (C1 ++ C2) -> In a ls -> ~ In a (i_top (dc_iet y))) -> alone (length C1) ls (C1 ++ x :: C2).
Proof.
  intros H a X sw Ha. rewrite views_mid, existsb_app. cbn [existsb].
  rewrite !on_top_views.
  - cbn [on_top fst snd]. rewrite Nat.eqb_refl. cbn [andb orb]. apply Bool.orb_false_r.
  - intros y Hy. apply (H y a); [apply in_or_app; auto|exact Ha].
  - intros y Hy. apply (H y a); [apply in_or_app; auto|exact Ha].
Qed.

(** * The invariant of a decomposition *)

Record dec_ok (e0 : exch) (d : decomp T) : Prop := {
  dk_stack : d_stack d = [];
  dk_keys : d_keys d = e_top e0;
  dk_good : forall x, In x (d_comps d) -> good (dc_iet x) (d_len d) /\ i_swap (dc_iet x) = false;
  dk_keane : forall x, In x (d_comps d) -> dc_keane x <> Some true;
  dk_inv : exists D, conn_inv e0 (pieces d) (d_conns d) D;
}.

Lemma dk_nodup e0 d : dec_ok e0 d -> NoDup (used (comp_iets d)).
Proof. intros H. destruct (dk_inv _ _ H) as (D & C). rewrite <- live_pieces. apply (ci_parts _ _ _ _ C). Qed.

Lemma dk_label e0 d x l : dec_ok e0 d -> In x (d_comps d) -> In l (i_top (dc_iet x)) -> In l (d_keys d).
Proof.
  intros H Hx Hl. destruct (dk_inv _ _ H) as (D & C). rewrite (dk_keys _ _ H). eapply ci_keys; [exact C|].
  apply in_live. exists (exch_of (dc_iet x) (d_len d)). split; [|exact Hl].
  unfold pieces. apply in_map_iff. exists x. auto.
Qed.

Lemma dk_disjoint e0 d C1 x C2 y l : dec_ok e0 d -> d_comps d = C1 ++ x :: C2 -> In y (C1 ++ C2) ->
  In l (i_top (dc_iet x)) -> ~ In l (i_top (dc_iet y)).
Proof.
  intros H E Hy Hl. destruct (dk_inv _ _ H) as (D & C). destruct (ci_parts _ _ _ _ C) as (ND & _).
  unfold pieces in ND. rewrite E, map_app in ND. cbn [map] in ND.
  apply (pieces_disjoint _ _ _ (exch_of (dc_iet y) (d_len d)) l ND); [|exact Hl].
  rewrite <- map_app. apply (in_map (fun x => exch_of (dc_iet x) (d_len d)) _ _ Hy).
Qed.

Lemma dk_fits e0 d C1 x C2 : dec_ok e0 d -> d_comps d = C1 ++ x :: C2 -> fits (length C1) (i_top (dc_iet x)) d.
Proof.
  intros H E. split; [apply (dk_stack _ _ H)|]. split.
  - intros l Hl. eapply dk_label; [exact H| |exact Hl]. rewrite E. apply in_middle. auto.
  - rewrite E. apply alone_mid. intros y a Hy Ha. eapply dk_disjoint; eassumption.
Qed.

(** Construction *)

Lemma dec_make_ok i s : valid_input s (i_top i) (i_bottom i) -> sl_stack s = [] ->
  exists d, dec_make i s = Ok d /\ dec_ok (exch_of i s) d /\ pieces d = [exch_of i s] /\ d_len d = s /\
    d_comps d = [mkdcomp (mkiet (i_top i) (i_bottom i) false None tracker_init) None None None] /\
    d_conns d = fun _ => no_conns.
Proof.
  intros (ND & Pm & Ne & Po) St. unfold dec_make. rewrite iet_make_ok by assumption. cbn [bind].
  eexists. split; [reflexivity|]. split; [|auto].
  constructor; simpl; auto.
  - intros x [<-|[]]. simpl. split; [|reflexivity]. apply good_make; assumption.
  - intros x [<-|[]]. simpl. discriminate.
  - exists (fun _ => []). apply conn_inv_init; [|exact Ne].
    split; [exact ND|]. split; [exact Pm|]. intros a Ha. destruct (Po a Ha) as (y & E & Hy).
    simpl. unfold lamR. rewrite E. exact Hy.
Qed.

(** * Frames *)

(** What a step on component [c] leaves alone. *)
Record others (c : nat) (d d' : decomp T) : Prop := {
  ot_comps : forall j, j <> c -> j < length (d_comps d) -> nth_error (d_comps d') j = nth_error (d_comps d) j;
  ot_count : length (d_comps d) <= length (d_comps d');
  ot_lens : forall x l, nth_error (d_comps d) c = Some x -> ~ In l (i_top (dc_iet x)) ->
    nth_error (sl_lens (d_len d')) l = nth_error (sl_lens (d_len d)) l;
  ot_conns : forall x l, nth_error (d_comps d) c = Some x -> ~ In l (i_top (dc_iet x)) ->
    d_conns d' l = d_conns d l;
  ot_labels : forall x y, nth_error (d_comps d) c = Some x -> nth_error (d_comps d') c = Some y ->
    incl (i_top (dc_iet y)) (i_top (dc_iet x));
  ot_len : length (sl_lens (d_len d')) = length (sl_lens (d_len d));
}.

(** * Induction on one component *)

Lemma asteps_reach e0 d C1 x C2 i1 (d1 : decomp T) : dec_ok e0 d -> d_comps d = C1 ++ x :: C2 ->
  creach (dc_iet x) d i1 d1 ->
  asteps (pieces d) (d_conns d)
    (map (fun y => exch_of (dc_iet y) (d_len d1)) C1 ++ exch_of i1 (d_len d1) ::
     map (fun y => exch_of (dc_iet y) (d_len d1)) C2) (d_conns d1).
Proof.
  intros H E [R C]. unfold pieces. rewrite E, map_app. cbn [map].
  assert (Fr : forall y, In y (C1 ++ C2) -> agree (exch_of (dc_iet y) (d_len d)) (exch_of (dc_iet y) (d_len d1))).
  { intros y Hy. split; [reflexivity|]. split; [reflexivity|]. intros a Ha. simpl. symmetry. apply lamR_agree.
    apply (r_frame _ _ _ _ R). intro Ha'.
    apply (dk_disjoint _ _ _ _ _ y a H E Hy Ha'). destruct Ha as [Ha|Ha]; [exact Ha|].
    assert (Hg : good (dc_iet y) (d_len d)).
    { apply (dk_good _ _ H). rewrite E. apply in_middle. auto. }
    apply (Permutation_in _ (Permutation_sym (proj1 (proj2 (proj1 Hg))))). exact Ha. }
  eapply as_step; [apply a_path; exact C|]. apply asteps_one. apply a_agree; [|reflexivity].
  apply Forall2_app; [|constructor; [apply agree_refl|]].
  - assert (Q : forall y, In y C1 -> In y (C1 ++ C2)) by (intros; apply in_or_app; auto). clear - Fr Q.
    induction C1 as [|y C1 IH]; [constructor|]. cbn [map]. constructor; [apply Fr, Q; left; reflexivity|].
    assert (forall C, incl C C1 -> Forall2 agree (map (fun y => exch_of (dc_iet y) (d_len d)) C) (map (fun y => exch_of (dc_iet y) (d_len d1)) C)) as G.
    { intros C. induction C as [|z C IHC]; intro I; [constructor|]. cbn [map]. constructor.
      - apply Fr, Q. right. apply I. left. reflexivity.
      - apply IHC. intros w Hw. apply I. right. exact Hw. }
    apply G. apply incl_refl.
  - assert (forall C, incl C C2 -> Forall2 agree (map (fun y => exch_of (dc_iet y) (d_len d)) C) (map (fun y => exch_of (dc_iet y) (d_len d1)) C)) as G.
    { intros C'. induction C' as [|z C' IHC]; intro I; [constructor|]. cbn [map]. constructor.
      - apply Fr, in_or_app. right. apply I. left. reflexivity.
      - apply IHC. intros w Hw. apply I. right. exact Hw. }
    apply G. apply incl_refl.
Qed.

(** Replacing one component, and adding some. *)
Lemma replace_ok e0 d C1 x C2 y extra (d' : decomp T) : dec_ok e0 d -> d_comps d = C1 ++ x :: C2 ->
  d_stack d' = [] -> d_keys d' = d_keys d -> d_comps d' = C1 ++ y :: C2 ++ extra ->
  sl_stack (d_len d') = [] -> length (sl_lens (d_len d')) = length (sl_lens (d_len d)) ->
  (forall c, ~ In c (i_top (dc_iet x)) -> nth_error (sl_lens (d_len d')) c = nth_error (sl_lens (d_len d)) c) ->
  (forall z, In z (y :: extra) -> good (dc_iet z) (d_len d') /\ i_swap (dc_iet z) = false /\ dc_keane z <> Some true) ->
  asteps (pieces d) (d_conns d) (pieces d') (d_conns d') -> dec_ok e0 d'.
Proof.
  intros H E Hst Hk E' Hs Hl Hf Hn A. 
  assert (In' : forall z, In z (d_comps d') -> In z (C1 ++ C2) \/ In z (y :: extra)).
  { intros z Hz. rewrite E' in Hz. apply in_middle in Hz. destruct Hz as [->|Hz]; [right; left; reflexivity|].
    rewrite app_assoc in Hz. apply in_app_or in Hz. destruct Hz; [left; assumption|right; right; assumption]. }
  assert (In0 : forall z, In z (C1 ++ C2) -> In z (d_comps d)) by (intros z Hz; rewrite E; apply in_middle; auto).
  constructor; auto.
  - rewrite Hk. apply (dk_keys _ _ H).
  - intros z Hz. destruct (In' z Hz) as [Hz'|Hz'].
    + destruct (dk_good _ _ H z (In0 z Hz')) as [G S]. split; [|exact S].
      apply (good_frame _ (d_len d)); auto. intros c Hc. apply Hf. intro C.
      exact (dk_disjoint _ _ _ _ _ z c H E Hz' C Hc).
    + destruct (Hn z Hz') as (G & S & _). auto.
  - intros z Hz. destruct (In' z Hz) as [Hz'|Hz']; [apply (dk_keane _ _ H); auto|]. apply (Hn z Hz').
  - destruct (dk_inv _ _ H) as (D & C). eapply asteps_inv; eassumption.
Qed.

(** ** How much a call that reached its limit has shortened the lengths *)

Lemma loop_decrease u saf0 limit : (0 < u)%R -> (limit <> -1)%Z ->
  forall fuel n i s i' s', good i s -> integral u (exch_of i s) ->
  induce_loop sample_lens fuel saf0 limit n i s = Ok (Some false, i', s') ->
  (ltot i' s' + IZR (limit - n) * u <= ltot i s)%R.
Proof.
  intros Hu Hl fuel. induction fuel as [|fuel IH]; intros n i s i' s' Hg Hi; pose proof Hg as (H & C & K); [discriminate|].
  rewrite iteration_unfold. destruct (Z.eqb_spec limit (-1)) as [|_]; [contradiction|]. cbn [orb].
  destruct (Z.ltb_spec n limit) as [Hn|Hn]; cbn [negb].
  2:{ injection 1 as <- <-. assert (IZR (limit - n) <= 0)%R by (apply IZR_le; lia). nra. }
  destruct (tracking_ok saf0 i s Hg) as (b & i1 & E1 & R1 & Et1 & Eb1 & K1 & K1' & _). cbn [sample_lens li_base]. rewrite E1. cbn [bind].
  pose proof (r_wf _ _ _ _ R1) as H1. pose proof (r_cache _ _ _ _ R1) as C1.
  assert (Hi1 : integral u (exch_of i1 s)) by exact (path_integral u _ _ (wf_proper _ _ H) (r_path _ _ _ _ R1) Hi).
  destruct b; [discriminate|].
  destruct (iteration_ok i1 s H1 C1) as (f & i2 & s2 & E2 & R2 & Et & _ & Hfd & Hdec). rewrite E2. cbn [bind].
  destruct f; [discriminate|].
  specialize (Hdec eq_refl). pose proof (r_wf _ _ _ _ R2) as H2.
  assert (Hi2 : integral u (exch_of i2 s2)) by exact (path_integral u _ _ (wf_proper _ _ H1) (r_path _ _ _ _ R2) Hi1).
  destruct (integral_total u _ Hi2) as (m2 & Hm2). change (ltot i2 s2 = IZR m2 * u)%R in Hm2.
  destruct (integral_total u _ Hi1) as (m1 & Hm1). change (ltot i1 s = IZR m1 * u)%R in Hm1.
  assert (E12 : ltot i1 s = ltot i s) by (unfold ltot; rewrite Et1; reflexivity).
  assert (Hm : (m2 + 1 <= m1)%Z). { assert (m2 < m1)%Z; [|lia]. apply lt_IZR, (Rmult_lt_reg_r u); [exact Hu | lra]. }
  destruct (Z.eqb_spec n INT_MAX) as [Ei|Ei]; [discriminate|]. intro Ef.
  assert (Hg2 : good i2 s2).
  { split; [exact H2|]. split; [exact (r_cache _ _ _ _ R2)|].
    exact (trk_extend False True i1 s i2 s2 H1 K1 R2 Et ltac:(intros _; right; exact Hdec)). }
  specialize (IH (n + 1)%Z i2 s2 i' s' Hg2 Hi2 Ef).
  assert (ltot i2 s2 + u <= ltot i s)%R.
  { rewrite <- E12, Hm1, Hm2. assert (IZR m2 + 1 <= IZR m1)%R by (rewrite <- plus_IZR; apply IZR_le; exact Hm). nra. }
  replace (limit - n)%Z with ((limit - (n + 1)) + 1)%Z by lia. rewrite plus_IZR. simpl. lra.
Qed.

Lemma finish_found {S} (L : lens T S) i s st i' s' : induce_finish L true i s = Ok (st, i', s') -> is_result st <> LIMIT_REACHED.
Proof.
  unfold induce_finish. destruct (reduce i (li_base L s)) as [[red i1]| | | |]; try discriminate. cbn [bind].
  destruct red as [rgt|].
  - destruct (rev (i_bottom i1)); [discriminate|]. destruct (rev (i_top i1)); [discriminate|]. injection 1 as <- _ _. discriminate.
  - destruct (i_top i1); [discriminate|]. destruct (i_bottom i1); [discriminate|].
    destruct (li_cmp2 L s _ _) as [cm| | | |]; try discriminate. cbn [bind negb assert_]. destruct cm; try discriminate.
    destruct (merge_first i1) as [i2| | | |]; try discriminate. injection 1 as <- _ _. discriminate.
Qed.

Lemma finish_ltot c i (d : decomp T) st i' d' : wf i (d_len d) -> cache_ok i (d_len d) -> trk_ok True i (d_len d) -> i_size i <> 1 ->
  induce_finish (dec_lens c) false i d = Ok (st, i', d') -> is_result st = LIMIT_REACHED ->
  d_len d' = d_len d /\ ltot i' (d_len d') = ltot i (d_len d).
Proof.
  intros H C K Hs E Hr.
  destruct (finish_ok 0 i (d_len d) false i (d_len d) H Hs) as (st1 & i1 & E1 & G & P).
  { split; [apply reach_refl; assumption|]. split; [exact K | lia]. }
  pose proof (finish_sim c false i d) as F. rewrite E1 in F. rewrite E in F. injection F as -> -> ->.
  split; [reflexivity|]. destruct (finish_limit false i (d_len d) st1 i1 (d_len d) H C E1 Hr) as (_ & (v & Ev & _) & _).
  rewrite (iet_saf_ok i (d_len d) H C) in Ev. injection Ev as _ <-. reflexivity.
Qed.

Lemma dinduce_decrease c limit fuel i (d : decomp T) st i' d' u : (limit <= INT_MAX)%Z -> (limit <> -1)%Z -> good i (d_len d) ->
  i_swap i = false -> fits c (i_top i) d -> induce (dec_lens c) fuel limit i d = Ok (st, i', d') ->
  is_result st = LIMIT_REACHED -> (0 < u)%R -> integral u (exch_of i (d_len d)) ->
  (ltot i' (d_len d') + IZR limit * u <= ltot i (d_len d))%R.
Proof.
  intros HL HL1 Hg Hsw Hf E Hr Hu Hi. pose proof Hg as (H & C & K). revert E. unfold induce.
  destruct (Nat.eqb_spec (i_size i) 1) as [E1|E1]; [injection 1 as <- _ _; discriminate|].
  destruct (Z.eqb_spec limit 0) as [E0|E0].
  { cbn [bind]. intro E. destruct (finish_ltot c i d st i' d' H C K E1 E Hr) as [_ ->]. subst limit. simpl. lra. }
  destruct (iet_saf0_ok i (d_len d) H C) as (v & Ev & C' & _). cbn [dec_lens li_base]. rewrite Ev. cbn [bind].
  set (i0 := set_saf i (Some v)) in *.
  assert (Hg' : good i0 (d_len d)) by (apply good_set_saf; assumption).
  pose proof (loop_ok (vis0 (saf_now i (d_len d))) limit HL fuel 0%Z i0 (d_len d) Hg') as L. cbv zeta in L.
  pose proof (loop_sim c (vis0 (saf_now i (d_len d))) limit HL fuel 0%Z i0 d Hg' Hsw Hf) as M. cbv zeta in M.
  change (mklens _ _ _ _ _ _ d_len) with (dec_lens (T := T) c).
  destruct M as [[M1 M2]|[[M1 M2]|(f & i1 & s1 & g & M1 & M2 & M3)]]; rewrite M2; try discriminate. cbn [bind].
  destruct L as [[L1 L2]|[[L1 L2]|(f' & i1' & s1' & L1 & L2)]]; [congruence|congruence|].
  rewrite M1 in L1. injection L1 as <- <- <-. destruct L2 as [R L2].
  destruct f as [[|]|]; intro E.
  - exfalso. exact (finish_found _ _ _ _ _ _ E Hr).
  - pose proof (loop_decrease u _ limit Hu HL1 fuel 0%Z i0 (d_len d) i1 s1 Hg' Hi M1) as Q. rewrite Z.sub_0_r in Q.
    assert (Hs : i_size i1 <> 1).
    { pose proof (Permutation_length (reach_labels _ _ _ _ (proj1 Hg') R)) as Q'. unfold i_size in *. simpl in Q'. congruence. }
    destruct (finish_ltot c i1 (with_lens d s1 g) st i' d' (r_wf _ _ _ _ R) (r_cache _ _ _ _ R) (proj1 L2) Hs E Hr) as [_ ->].
    exact Q.
  - injection E as <- _ _. discriminate Hr.
Qed.

(** ** The loop of [decompositionStep] *)

Lemma creach_trans i d i1 d1 i2 (d2 : decomp T) : wf i (d_len d) -> creach i d i1 d1 -> creach i1 d1 i2 d2 -> creach i d i2 d2.
Proof.
  intros H [R1 C1] [R2 C2]. split; [exact (reach_trans _ _ _ _ _ _ H R1 R2)|]. exact (cpath_trans _ _ _ _ _ _ C1 C2).
Qed.

Lemma creach_refl i (d : decomp T) : wf i (d_len d) -> cache_ok i (d_len d) -> creach i d i d.
Proof. intros H C. split; [apply reach_refl; assumption|]. apply cp_refl; [apply same_exch_refl|reflexivity]. Qed.

Lemma creach_size i d i' (d' : decomp T) : wf i (d_len d) -> creach i d i' d' -> i_size i' = i_size i.
Proof. intros H [R _]. symmetry. exact (Permutation_length (reach_labels _ _ _ _ H R)). Qed.

(** Everything that is said about the state after a call of [induce] is said about its
    lengths and connections. *)
Lemma post_change limit limit' i d st i' (d1 d2 : decomp T) : d_len d2 = d_len d1 -> d_conns d2 = d_conns d1 ->
  is_result st <> CYLINDER -> (limit <> -1)%Z -> (limit' <> -1)%Z -> (limit' <> 0)%Z -> dinduce_post limit i d st i' d1 -> dinduce_post limit' i d st i' d2.
Proof.
  intros E1 E2 N L L' L'' P. unfold dinduce_post in *. cbv zeta in *.
  assert (Q : forall j, creach i d j d1 -> creach i d j d2).
  { intros j [R C]. split; [rewrite E1; exact R|]. rewrite E1, E2. exact C. }
  rewrite E1. destruct (is_result st).
  - destruct P as (P1 & P2 & P3 & P4 & P5 & P6 & P7). exact (conj P1 (conj (Q _ P2) (conj P3 (conj P4 (conj P5 (conj L' P7)))))).
  - contradiction.
  - destruct P as (i1 & k & b & t & P1 & P2 & P3). exists i1, k, b, t. exact (conj P1 (conj (Q _ P2) P3)).
  - destruct P as (i1 & a & b & P1 & P2 & P3). exists i1, a, b. exact (conj P1 (conj (Q _ P2) P3)).
  - destruct P as (P1 & P2 & P3 & P4 & P5 & P6 & P7). exact (conj P1 (conj (Q _ P2) (conj P3 (conj P4 (conj P5 (conj L' P7)))))).
  - destruct P as (P1 & P2 & P3 & P4 & P5). exact (conj P1 (conj (Q _ P2) (conj P3 (conj L'' P5)))).
Qed.

Lemma post_trans limit i d i1 d1 st i' (d2 : decomp T) : wf i (d_len d) -> creach i d i1 d1 -> i_swap i1 = i_swap i ->
  is_result st <> CYLINDER -> dinduce_post limit i1 d1 st i' d2 -> dinduce_post limit i d st i' d2.
Proof.
  intros H R Sw N P. unfold dinduce_post in *. cbv zeta in *.
  pose proof (creach_size _ _ _ _ H R) as Sz.
  assert (Q : forall j, creach i1 d1 j d2 -> creach i d j d2) by (intros j; apply creach_trans; assumption).
  rewrite Sz, Sw in P. destruct (is_result st).
  - destruct P as (P1 & P2 & P3). exact (conj P1 (conj (Q _ P2) P3)).
  - contradiction.
  - destruct P as (j & k & b & t & P1 & P2 & P3). exists j, k, b, t. exact (conj P1 (conj (Q _ P2) P3)).
  - destruct P as (j & a & b & P1 & P2 & P3). exists j, a, b. exact (conj P1 (conj (Q _ P2) P3)).
  - destruct P as (P1 & P2 & P3). exact (conj P1 (conj (Q _ P2) P3)).
  - destruct P as (P1 & P2 & P3). exact (conj P1 (conj (Q _ P2) P3)).
Qed.

Lemma step_loop_ok e0 fuel cost : (cost = None \/ cost = Some 64%Z) ->
  forall rounds d C1 x C2 limit, dec_ok e0 d -> d_comps d = C1 ++ x :: C2 ->
  (limit <= INT_MAX)%Z -> (limit <> -1)%Z ->
  let c := length C1 in
  let r := step_loop rounds fuel cost limit c d in
  (r = OutOfFuel /\ (Z.of_nat rounds <= Z.max 0 limit \/ Z.of_nat fuel <= Z.max 0 limit)%Z) \/
  exists st i' d', r = Ok (st, d') /\ good i' (d_len d') /\
    d_stack d' = [] /\ d_keys d' = d_keys d /\ d_comps d' = C1 ++ iet_set x i' :: C2 /\
    (is_result st = CYLINDER -> i_size (dc_iet x) = 1 /\ i' = dc_iet x /\ d' = d) /\
    (is_result st <> CYLINDER -> dinduce_post 1 (dc_iet x) d st i' d') /\
    (is_result st = LIMIT_REACHED -> forall u, (0 < u)%R -> integral u (exch_of (dc_iet x) (d_len d)) ->
       (ltot i' (d_len d') + IZR limit * u <= ltot (dc_iet x) (d_len d))%R).
Proof.
  intros Hc rounds. induction rounds as [|rounds IH]; intros d C1 x C2 limit H E Hl Hl1 c r; unfold r, c.
  { left. split; [reflexivity|]. left. simpl. lia. }
  cbn [step_loop]. rewrite (comp_at_mid d C1 x C2 E). cbn [bind].
  set (steps := match cost with Some k => if (limit <? 2 * k)%Z then limit else k | None => limit end).
  assert (Hst : (steps <= limit \/ limit < 0)%Z /\ (steps <= INT_MAX)%Z /\ (steps <> -1)%Z /\ (steps = limit \/ (steps = 64 /\ 128 <= limit))%Z).
  { unfold steps. destruct Hc as [->| ->]; [lia|]. destruct (Z.ltb_spec limit (2 * 64)); lia. }
  destruct Hst as (S1 & S2 & S3 & S4).
  assert (Hx : In x (d_comps d)) by (rewrite E; apply in_middle; auto).
  destruct (dk_good _ _ H x Hx) as [G Sw]. pose proof (dk_fits _ _ _ _ _ H E) as F. pose proof G as (Wf & Ca & _).
  pose proof (dinduce_ok (length C1) steps fuel (dc_iet x) d S2 G Sw F) as I. cbv zeta in I.
  destruct I as [(I & I1 & I2)|[(I & I1 & _)|(st & i1 & d1 & I & G1 & St1 & K1 & Cm1 & P)]].
  { left. rewrite I. split; [reflexivity|]. right. destruct S4 as [->|[-> S4]]; [|simpl in I2]; lia. }
  { contradiction. }
  rewrite I. cbn [bind].
  assert (E1 : d_comps d1 = C1 ++ x :: C2) by congruence.
  rewrite (comp_set_mid d1 C1 x C2 (iet_set x i1) E1). cbn [bind].
  set (d2 := set_comps d1 (C1 ++ iet_set x i1 :: C2)).
  assert (Done : is_result st = CYLINDER \/ is_result st <> CYLINDER).
  { destruct (is_result st); (left; reflexivity) || (right; discriminate). }
  destruct Done as [Cy|Ncy].
  { right. exists st, i1, d2. rewrite Cy. split; [reflexivity|].
    unfold dinduce_post in P. rewrite Cy in P. destruct P as (P1 & P2 & P3 & P4). subst i1 d1.
    assert (d2 = d).
    { unfold d2. destruct x as [xi xc xw xk]. unfold iet_set. cbn [dc_iet dc_cylinder dc_wpt dc_keane]. destruct d. simpl in *. subst. reflexivity. }
    rewrite H0 in *. split; [exact G1|]. split; [exact St1|]. split; [exact K1|].
    split; [unfold d2 in H0; rewrite <- H0; reflexivity|]. split; [auto|]. split; [congruence|congruence]. }
  assert (Dec : is_result st = LIMIT_REACHED -> forall u, (0 < u)%R -> integral u (exch_of (dc_iet x) (d_len d)) ->
       (ltot i1 (d_len d1) + IZR steps * u <= ltot (dc_iet x) (d_len d))%R).
  { intros Lr u Hu Hi. exact (dinduce_decrease _ _ _ _ _ _ _ _ u S2 S3 G Sw F I Lr Hu Hi). }
  assert (P' : dinduce_post 1 (dc_iet x) d st i1 d2).
  { apply (post_change steps 1 _ _ _ _ d1); auto; lia. }
  destruct (is_result st) eqn:Er; try contradiction.
  2,3,4,5: right; exists st, i1, d2; rewrite Er; split; [reflexivity|]; split; [exact G1|]; split; [exact St1|]; split; [exact K1|];
    split; [reflexivity|]; split; [discriminate|]; split; [intros _; exact P'|discriminate].
  destruct (Z.eqb_spec (limit - steps) 0) as [Ez|Ez].
  { right. exists st, i1, d2. rewrite Er. split; [reflexivity|]. split; [exact G1|]. split; [exact St1|]. split; [exact K1|].
    split; [reflexivity|]. split; [discriminate|]. split; [intros _; exact P'|]. intros _ u Hu Hi.
    replace limit with steps by lia. exact (Dec eq_refl u Hu Hi). }
  assert (S5 : steps = 64%Z /\ (128 <= limit)%Z) by lia. destruct S5 as [S5 S6].
  assert (R : creach (dc_iet x) d i1 d2).
  { unfold dinduce_post in P'. rewrite Er in P'. apply P'. }
  assert (H2 : dec_ok e0 d2).
  { apply (replace_ok e0 d C1 x C2 (iet_set x i1) [] d2 H E); auto.
    - rewrite app_nil_r. reflexivity.
    - apply G1.
    - apply (r_len _ _ _ _ (proj1 R)).
    - apply (r_frame _ _ _ _ (proj1 R)).
    - intros z [<-|[]]. split; [exact G1|]. split; [cbn [iet_set dc_iet]; rewrite (r_swap _ _ _ _ (proj1 R)); exact Sw|].
      apply (dk_keane _ _ H x Hx).
    - pose proof (asteps_reach e0 d C1 x C2 i1 d2 H E R) as A. unfold pieces at 2.
      change (d_comps d2) with (C1 ++ iet_set x i1 :: C2). rewrite map_app. exact A. }
  specialize (IH d2 C1 (iet_set x i1) C2 (limit - steps)%Z H2 eq_refl ltac:(lia) ltac:(lia)). cbv zeta in IH.
  change (dc_iet (iet_set x i1)) with i1 in IH.
  destruct IH as [(IH & IH1)|(st' & i' & d' & IH & IHg & IHs & IHk & IHc & IHcy & IHp & IHd)].
  { left. rewrite IH. split; [reflexivity|]. rewrite Nat2Z.inj_succ. lia. }
  right. exists st', i', d'. rewrite IH. split; [reflexivity|]. split; [exact IHg|]. split; [exact IHs|].
  split; [rewrite IHk; exact K1|]. split; [exact IHc|].
  assert (Ncy' : is_result st' <> CYLINDER).
  { intro C. destruct (IHcy C) as (Sz & _). rewrite (creach_size _ _ _ _ Wf R) in Sz.
    unfold dinduce_post in P'. rewrite Er in P'. apply (proj1 P'). exact Sz. }
  split; [intro; contradiction|]. split.
  { intros _. apply (post_trans 1 _ _ i1 d2); auto. exact (r_swap _ _ _ _ (proj1 R)). }
  intros Lr u Hu Hi. specialize (Dec eq_refl u Hu Hi).
  assert (Hi2 : integral u (exch_of i1 (d_len d2))) by exact (path_integral u _ _ (wf_proper _ _ Wf) (r_path _ _ _ _ (proj1 R)) Hi).
  specialize (IHd Lr u Hu Hi2). change (d_len d2) with (d_len d1) in IHd. rewrite minus_IZR in IHd. lra.
Qed.

(** ** The beginning of [decompositionStep] *)

Lemma step_start_ok e0 d C1 x C2 : dec_ok e0 d -> d_comps d = C1 ++ x :: C2 ->
  exists cost v, step_start (length C1) d = Ok (cost, set_comps d (C1 ++ iet_set x (set_saf (dc_iet x) (Some v)) :: C2)) /\
    cost = (if vis0 (saf_now (dc_iet x) (d_len d)) then None else Some 64%Z) /\
    dec_ok e0 (set_comps d (C1 ++ iet_set x (set_saf (dc_iet x) (Some v)) :: C2)).
Proof.
  intros H E. assert (Hx : In x (d_comps d)) by (rewrite E; apply in_middle; auto).
  destruct (dk_good _ _ H x Hx) as [G Sw]. pose proof G as (Wf & Ca & _).
  unfold step_start. rewrite (comp_at_mid d C1 x C2 E). cbn [bind].
  assert (Fd : fully_decomposed x = false).
  { pose proof (dk_keane _ _ H x Hx) as K. unfold fully_decomposed. destruct (dc_cylinder x) as [[|]|]; auto.
    destruct (dc_keane x) as [[|]|]; auto. contradiction. }
  rewrite Fd. cbn [negb assert_]. unfold bosh_cost.
  destruct (saf_invariant_ok (dc_iet x) (d_len d) Wf Ca) as (v & Ev & Cv). rewrite Ev. cbn [bind].
  rewrite (comp_set_mid d C1 x C2 _ E). cbn [bind].
  eexists. exists v. split; [reflexivity|]. split; [reflexivity|].
  apply (replace_ok e0 d C1 x C2 (iet_set x (set_saf (dc_iet x) (Some v))) []); auto.
  - apply (dk_stack _ _ H).
  - cbn [set_comps d_comps]. rewrite app_nil_r. reflexivity.
  - apply Wf.
  - intros z [<-|[]]. split; [apply good_set_saf; assumption|]. split; [exact Sw|]. apply (dk_keane _ _ H x Hx).
  - unfold pieces. cbn [set_comps d_comps d_len d_conns]. rewrite E, !map_app. cbn [map]. apply as_refl.
Qed.
End Ref.
