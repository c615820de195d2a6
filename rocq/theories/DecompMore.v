(** More about decompositions: transparency of the recorded connections, flags, injected
    connections. *)
From Coq Require Import Reals Permutation Lia Lra.
From Verif Require Import Base QcTac Spec LenT FM Subspace Lengths IET Api ZorichProof ReduceProof Saf Dyn Path Direct InduceProof InduceCons World Seq.
From Verif Require Import Decomp DecompSim DecompInv DecompNav DecompRef DecompStep DecompAll DecompCons.
Open Scope nat_scope.

Section More.
Context {T : Type} {O : LenOps T} {W : LenLaws T}.

(** * Induction inside a decomposition *)

Lemma induce_same c limit fuel i (d : decomp T) : (limit <= INT_MAX)%Z -> good i (d_len d) ->
  i_swap i = false -> fits c (i_top i) d ->
  match induce sample_lens fuel limit i (d_len d) with
  | Ok (st, i', s') => exists d', induce (dec_lens c) fuel limit i d = Ok (st, i', d') /\ d_len d' = s' /\
      d_keys d' = d_keys d /\ d_comps d' = d_comps d
  | OutOfFuel => induce (dec_lens c) fuel limit i d = OutOfFuel
  | UB => induce (dec_lens c) fuel limit i d = UB
  | _ => False
  end.
Proof.
  intros HL Hg Hsw Hf. pose proof Hg as (H & C & K). unfold induce.
  destruct (Nat.eqb_spec (i_size i) 1) as [E1|E1]; [exists d; auto|].
  assert (Fin : forall found i1 s1 g, loop_post limit i (d_len d) (Some found) i1 s1 ->
    match induce_finish sample_lens found i1 s1 with
    | Ok (st, i', s') => exists d', induce_finish (dec_lens c) found i1 (with_lens d s1 g) = Ok (st, i', d') /\ d_len d' = s' /\
        d_keys d' = d_keys d /\ d_comps d' = d_comps d
    | OutOfFuel => False | UB => False | _ => False
    end).
  { intros found i1 s1 g HP. destruct (finish_ok limit i (d_len d) found i1 s1 H E1 HP) as (st & i' & E & _).
    pose proof (finish_sim c found i1 (with_lens d s1 g)) as F. cbn [with_lens d_len] in F. rewrite E in F |- *.
    exists (with_lens d s1 g). auto. }
  assert (Ed : with_lens d (d_len d) (d_conns d) = d) by (destruct Hf as (E & _); destruct d; simpl in *; subst; reflexivity).
  destruct (Z.eqb_spec limit 0) as [E0|E0].
  { cbn [bind]. assert (HP : loop_post limit i (d_len d) (Some false) i (d_len d)).
    { split; [apply reach_refl; assumption|]. split; [exact K | lia]. }
    specialize (Fin false i (d_len d) (d_conns d) HP). rewrite Ed in Fin.
    destruct (induce_finish sample_lens false i (d_len d)) as [[[st i'] s']| | | |]; auto; contradiction. }
  destruct (iet_saf0_ok i (d_len d) H C) as (v & Ev & C' & _). cbn [dec_lens sample_lens li_base]. rewrite Ev. cbn [bind].
  set (i0 := set_saf i (Some v)) in *.
  assert (Hg' : good i0 (d_len d)) by (apply good_set_saf; assumption).
  pose proof (loop_ok (vis0 (saf_now i (d_len d))) limit HL fuel 0%Z i0 (d_len d) Hg') as L. cbv zeta in L.
  pose proof (loop_sim c (vis0 (saf_now i (d_len d))) limit HL fuel 0%Z i0 d Hg' Hsw Hf) as M. cbv zeta in M.
  change (mklens _ _ _ _ _ _ d_len) with (dec_lens (T := T) c). change (mklens _ _ _ _ _ _ (fun s => s)) with (sample_lens (T := T)).
  destruct M as [[M1 M2]|[[M1 M2]|(f & i1 & s1 & g & M1 & M2 & M3)]]; rewrite M1, M2; cbn [bind]; try reflexivity.
  destruct L as [[L1 L2]|[[L1 L2]|(f' & i1' & s1' & L1 & R & L2)]]; [congruence|congruence|].
  rewrite M1 in L1. injection L1 as <- <- <-.
  assert (Ri : reach i (d_len d) i1 s1).
  { refine (reach_trans i _ i0 _ _ _ H _ R).
    exact (reach_caches i _ i _ (Some v) (i_trk i) (reach_refl i _ H C) C'). }
  destruct f as [found|].
  - specialize (Fin found i1 s1 g (conj Ri L2)).
    destruct (induce_finish sample_lens found i1 s1) as [[[st i'] s']| | | |]; auto; contradiction.
  - exists (with_lens d s1 g). auto.
Qed.

(** * Flags in arbitrary histories *)

Record flags_shape (y : dcomp T) : Prop := {
  fs_cyl : dc_cylinder y = Some true -> i_size (dc_iet y) = 1;
  fs_states : (dc_cylinder y = None /\ dc_wpt y = None /\ dc_keane y = None) \/
              (dc_cylinder y = Some true /\ dc_wpt y = Some false /\ dc_keane y = Some false) \/
              (dc_cylinder y = Some false /\ dc_wpt y = Some true /\ dc_keane y = None);
}.

(** What happens to the flags of the component of a step and of a new one. *)
Definition flags_kept (x y : dcomp T) : Prop :=
  (dc_cylinder x = Some true -> dc_cylinder y = Some true) /\
  (dc_wpt x = Some true -> dc_wpt y = Some true \/ i_size (dc_iet x) = 1).

Lemma step_flags_shape e0 d C1 x C2 st d' : dec_ok e0 d -> d_comps d = C1 ++ x :: C2 -> step_post e0 d C1 x C2 st d' ->
  flags_shape x -> exists y extra, d_comps d' = C1 ++ y :: C2 ++ extra /\ flags_shape y /\ flags_kept x y /\
    (forall z, In z extra -> flags_shape z).
Proof.
  intros H E P [A C].
  assert (Hx : In x (d_comps d)) by (rewrite E; apply in_middle; auto).
  destruct (dk_good _ _ H x Hx) as [Gx Sw]. pose proof (proj1 Gx) as Wx.
  assert (RS : forall i' s', reach (dc_iet x) (d_len d) i' s' -> i_size i' = i_size (dc_iet x)).
  { intros i' s' R. symmetry. exact (Permutation_length (reach_labels _ _ _ _ Wx R)). }
  assert (Same : forall i', i_size (dc_iet x) <> 1 -> flags_shape (iet_set x i') /\ flags_kept x (iet_set x i')).
  { intros i' Hs. split; [|split; auto]. constructor; cbn [dc_iet iet_set dc_cylinder dc_wpt dc_keane]; [|exact C]. intro Q. contradiction (Hs (A Q)). }
  pose proof (sp_case _ _ _ _ _ _ _ P) as Q. unfold dstep_post in Q. destruct (dst_result st) eqn:Er; try contradiction.
  - destruct Q as (i' & Ec & R & Hs & _). exists (iet_set x i'), []. rewrite app_nil_r. destruct (Same i' Hs).
    split; [exact Ec|]. split; [assumption|]. split; [assumption|]. intros z [].
  - destruct Q as (i' & Hs & Ec & Ht & Hb & _). eexists _, []. rewrite app_nil_r. split; [exact Ec|]. split; [|split; [|intros z []]].
    + constructor; cbn [dc_iet iet_set dc_cylinder dc_wpt dc_keane]; [|auto]. intros _. unfold i_size. rewrite Ht. exact Hs.
    + split; [reflexivity|]. intros _. right. exact Hs.
  - destruct Q as (i1 & k & b & t & w & R & Hk & _ & Ec & _).
    assert (Hs : i_size (dc_iet x) <> 1). { rewrite <- (RS _ _ R). destruct Hk as [Hk _]. unfold i_size in *. simpl in Hk. lia. }
    destruct (Same (left_part i1 k) Hs). eexists _, [_]. split; [exact Ec|]. split; [assumption|]. split; [assumption|].
    intros z [<-|[]]. constructor; cbn [dc_iet iet_set dc_cylinder dc_wpt dc_keane]; [discriminate|auto].
  - destruct Q as (i1 & i' & b & t & w & R & M & _ & Ec & _).
    assert (Hs : i_size (dc_iet x) <> 1).
    { rewrite <- (RS _ _ R). intro Q. destruct (merge_labels _ _ M) as [_ ML]. simpl in ML. unfold i_size in *.
      assert (i_top i' = []) by (destruct (i_top i'); [reflexivity|simpl in ML; lia]).
      assert (Hy' : In (iet_set x i') (d_comps d')) by (rewrite Ec; apply in_middle; auto).
      destruct (dk_good _ _ (sp_ok _ _ _ _ _ _ _ P) _ Hy') as [((_ & _ & Ne & _) & _) _]. apply Ne. assumption. }
    exists (iet_set x i'), []. rewrite app_nil_r. destruct (Same i' Hs). split; [exact Ec|]. split; [assumption|]. split; [assumption|]. intros z [].
  - destruct Q as (i' & Ec & R & Hs & _). eexists _, []. rewrite app_nil_r. split; [exact Ec|]. split; [|split; [|intros z []]].
    + constructor; cbn [dc_iet iet_set dc_cylinder dc_wpt dc_keane]; [discriminate|]. right. right. split; [reflexivity|]. split; [reflexivity|].
      destruct C as [C|[C|C]]; try apply C. exfalso. apply Hs. apply A. apply C.
    + split; cbn [dc_cylinder dc_wpt]; [|auto]. intro Q. contradiction (Hs (A Q)).
  - destruct Q as (i' & Ec & R & Hs & _). eexists _, []. rewrite app_nil_r. split; [exact Ec|]. split; [|split; [|intros z []]].
    + constructor; cbn [dc_iet iet_set dc_cylinder dc_wpt dc_keane]; [discriminate|]. right. right. split; [reflexivity|]. split; [reflexivity|].
      destruct C as [C|[C|C]]; try apply C. exfalso. apply Hs. apply A. apply C.
    + split; cbn [dc_cylinder dc_wpt]; [|auto]. intro Q. contradiction (Hs (A Q)).
Qed.

Lemma steps_flags_shape e0 d tr d' : dec_ok e0 d -> steps d tr d' -> (forall y, In y (d_comps d) -> flags_shape y) ->
  (forall y, In y (d_comps d') -> flags_shape y) /\
  (forall c x, nth_error (d_comps d) c = Some x -> dc_cylinder x = Some true ->
     exists y, nth_error (d_comps d') c = Some y /\ dc_cylinder y = Some true).
Proof.
  intros H S. revert H. induction S as [d|d fuel limit c st d1 tr d2 HM Hf Hc E S IH]; intros H HF; [split; eauto|].
  destruct (step_call e0 d c fuel limit st d1 H HM Hf Hc E) as (C1 & x & C2 & Ec & El & P).
  assert (Hx : In x (d_comps d)) by (rewrite Ec; apply in_middle; auto).
  destruct (step_flags_shape e0 d C1 x C2 st d1 H Ec P (HF x Hx)) as (y & extra & Ec1 & Sy & [Ky _] & Se).
  destruct IH as [I1 I2]; [apply P| |].
  - intros z Hz. rewrite Ec1 in Hz. apply in_middle in Hz as [->|Hz]; [exact Sy|]. rewrite app_assoc in Hz. apply in_app_or in Hz as [Hz|Hz]; [|apply Se, Hz].
    apply HF. rewrite Ec. apply in_middle. auto.
  - split; [exact I1|]. intros k z Hk Hz.
    assert (Q : exists z', nth_error (d_comps d1) k = Some z' /\ dc_cylinder z' = Some true).
    { rewrite Ec in Hk. rewrite Ec1. destruct (Nat.lt_trichotomy k (length C1)) as [L|[L|L]].
      - rewrite nth_error_app1 in Hk by exact L. exists z. rewrite nth_error_app1 by exact L. auto.
      - rewrite nth_error_app2 in Hk by lia. replace (k - length C1) with 0 in Hk by lia. injection Hk as <-.
        exists y. rewrite nth_error_app2 by lia. replace (k - length C1) with 0 by lia. auto.
      - exists z. rewrite nth_error_app2 in Hk |- * by lia. destruct (k - length C1) as [|m] eqn:Em; [lia|]. cbn [nth_error] in *.
        rewrite nth_error_app1; [auto|]. apply nth_error_Some. congruence. }
    destruct Q as (z' & Hz1 & Hz2). exact (I2 k z' Hz1 Hz2).
Qed.

(** Without verdicts from self similarity no flag is ever revoked. *)
Lemma steps_wpt_kept e0 d tr d' : dec_ok e0 d -> steps d tr d' ->
  (forall st, In st tr -> dst_result st <> D_WITHOUT_PERIODIC_TRAJECTORY_AUTO_SIMILAR) ->
  (forall y, In y (d_comps d) -> flags_ok d y) ->
  (forall c x, nth_error (d_comps d) c = Some x -> dc_wpt x = Some true ->
     exists y, nth_error (d_comps d') c = Some y /\ dc_wpt y = Some true).
Proof.
  intros H S. revert H. induction S as [d|d fuel limit c st d1 tr d2 HM Hf Hc E S IH]; intros H NA HF; [eauto|].
  destruct (step_call e0 d c fuel limit st d1 H HM Hf Hc E) as (C1 & x & C2 & Ec & El & P).
  assert (Hx : In x (d_comps d)) by (rewrite Ec; apply in_middle; auto).
  assert (Fx : flags_shape x) by (destruct (HF x Hx); constructor; assumption).
  destruct (step_flags_shape e0 d C1 x C2 st d1 H Ec P Fx) as (y & extra & Ec1 & Sy & [_ Ky] & Se).
  intros k z Hk Hz.
  assert (Q : exists z', nth_error (d_comps d1) k = Some z' /\ dc_wpt z' = Some true).
  { rewrite Ec in Hk. rewrite Ec1. destruct (Nat.lt_trichotomy k (length C1)) as [L|[L|L]].
    - rewrite nth_error_app1 in Hk by exact L. exists z. rewrite nth_error_app1 by exact L. auto.
    - rewrite nth_error_app2 in Hk by lia. replace (k - length C1) with 0 in Hk by lia. injection Hk as <-.
      exists y. rewrite nth_error_app2 by lia. replace (k - length C1) with 0 by lia. split; [reflexivity|].
      destruct (Ky Hz) as [Q|Q]; [exact Q|]. exfalso. apply (fl_wpt _ _ (HF x Hx) Hz).
      destruct (dk_good _ _ H x Hx) as [Gx _]. pose proof (proj1 Gx) as Wx. unfold i_size in Q.
      destruct (i_top (dc_iet x)) as [|a [|]] eqn:Et; try discriminate.
      assert (Pr : proper (exch_of (dc_iet x) (d_len d))) by apply wf_proper, Wx.
      assert (Eb : i_bottom (dc_iet x) = [a]).
      { destruct Pr as (_ & Pm & _). simpl in Pm. rewrite Et in Pm. apply Permutation_length_1_inv in Pm. exact Pm. }
      exists 0%R, 1. split; [lia|]. exists 0%R. split; [|reflexivity].
      apply (maps_iff (exch_of (dc_iet x) (d_len d))). exists a, [], [], [], []. simpl. rewrite Et, Eb. repeat split; try lra.
      destruct Pr as (_ & _ & Po). simpl in Po. pose proof (Po a ltac:(rewrite Et; left; reflexivity)). lra.
    - exists z. rewrite nth_error_app2 in Hk |- * by lia. destruct (k - length C1) as [|m] eqn:Em; [lia|]. cbn [nth_error] in *.
      rewrite nth_error_app1; [auto|]. apply nth_error_Some. congruence. }
  destruct Q as (z' & Hz1 & Hz2).
  refine (IH _ _ _ k z' Hz1 Hz2); [apply P|intros s Hs; apply NA; right; exact Hs|].
  eapply step_flags; try eassumption. apply NA. left. reflexivity.
Qed.

(** * Injected connections *)

Lemma inject_result (d : decomp T) at_ ls rs L R d' : inject d at_ ls rs = Ok (L, R, d') ->
  he_left d at_ = Ok [] -> he_right d at_ = Ok [] ->
  L = map left_conn ls /\ R = map right_conn rs /\
  he_cross d' at_ = Ok (if he_top at_ then rev (map SConn R) ++ [SEdge at_] ++ map SConn L
                        else rev (map SConn L) ++ [SEdge at_] ++ map SConn R) /\
  he_left d' at_ = Ok (if he_top at_ then rev L else L) /\ he_right d' at_ = Ok (if he_top at_ then rev R else R) /\
  (forall e, he_label e <> he_label at_ \/ he_top e <> he_top at_ -> he_left d' e = he_left d e /\ he_right d' e = he_right d e) /\
  d_comps d' = d_comps d /\ d_len d' = d_len d /\ d_keys d' = d_keys d.
Proof.
  intros E El Er. unfold inject in E. destruct (dec_check d) as [[]| | | |]; try discriminate. cbn [bind] in E.
  unfold he_left in El. unfold he_right in Er. 
  unfold conns_at in *. destruct (memb (he_label at_) (d_keys d)) eqn:M; [|discriminate]. cbn [bind] in *.
  injection El as El. injection Er as Er.
  assert (Q1 : forall (a b : list connection), (if he_top at_ then topLeft (d_conns d (he_label at_)) else bottomLeft (d_conns d (he_label at_))) ++ a = a) by (intros; rewrite El; reflexivity).
  rewrite El, Er in E. cbn [length app Nat.eqb] in E. rewrite !Bool.orb_true_r in E. cbn [assert_] in E.
  match type of E with context [dec_check ?x] => set (d1 := x) in E end.
  destruct (dec_check d1) as [[]| | | |]; try discriminate. cbn [bind] in E. injection E as <- <- <-.
  assert (Rl : forall {A B} (g : A -> B) l, rev (map g (rev l)) = map g l) by (intros; rewrite map_rev, rev_involutive; reflexivity).
  assert (HL : he_left d1 at_ = Ok (map left_conn (if he_top at_ then rev ls else ls))).
  { unfold he_left, conns_at. unfold d1 at 1. cbn [d_keys set_conns]. rewrite M. cbn [bind]. unfold d1. cbn [d_conns set_conns]. rewrite upd_same.
    destruct (he_top at_); reflexivity. }
  assert (HR : he_right d1 at_ = Ok (map right_conn (if he_top at_ then rev rs else rs))).
  { unfold he_right, conns_at. unfold d1 at 1. cbn [d_keys set_conns]. rewrite M. cbn [bind]. unfold d1. cbn [d_conns set_conns]. rewrite upd_same.
    destruct (he_top at_); reflexivity. }
  split; [destruct (he_top at_); [apply Rl|reflexivity]|]. split; [destruct (he_top at_); [apply Rl|reflexivity]|].
  split; [|split; [|split; [|split; [|auto]]]].
  - unfold he_cross. rewrite HL, HR. cbn [bind]. destruct (he_top at_); rewrite ?Rl, ?map_rev, ?rev_involutive; reflexivity.
  - rewrite HL. destruct (he_top at_); rewrite ?rev_involutive; reflexivity.
  - rewrite HR. destruct (he_top at_); rewrite ?rev_involutive; reflexivity.
  - intros e He. unfold he_left, he_right, conns_at. unfold d1. cbn [d_keys d_conns set_conns].
    destruct (memb (he_label e) (d_keys d)); [|auto]. cbn [bind]. unfold upd. destruct (Nat.eqb_spec (he_label e) (he_label at_)) as [Q|]; [|auto].
    destruct He as [He|He]; [contradiction|]. rewrite Q. destruct (he_top e), (he_top at_); auto; contradiction He; reflexivity.
Qed.

Lemma sep_list_perm l l' : Permutation l l' ->
  match l with [] => true | [_] => true | [x; y] => conn_eqb x (conn_neg y) | _ => false end = true ->
  match l' with [] => true | [_] => true | [x; y] => conn_eqb x (conn_neg y) | _ => false end = true.
Proof.
  intros P H. destruct l as [|x [|y [|z l]]]; try discriminate.
  - apply Permutation_nil in P. subst. reflexivity.
  - apply Permutation_length_1_inv in P. subst. reflexivity.
  - apply Permutation_length_2_inv in P as [->| ->]; [exact H|]. apply conn_eqb_eq in H. subst x. apply conn_eqb_eq. rewrite conn_neg_neg. reflexivity.
Qed.

Lemma separatrix_ok_perm s X Y : Permutation X Y -> separatrix_ok s X = true -> separatrix_ok s Y = true.
Proof. intro P. unfold separatrix_ok. apply sep_list_perm, at_sep_perm, P. Qed.

Lemma flat_upd (g : conns -> list connection) keys f l c' new : NoDup keys -> In l keys -> Permutation (g c') (g (f l) ++ new) ->
  Permutation (flat_map (fun x => g (upd f l c' x)) keys) (flat_map (fun x => g (f x)) keys ++ new).
Proof.
  intros ND Hl P. apply in_split in Hl as (A & B & ->). pose proof (NoDup_remove_2 _ _ _ ND) as Hn.
  rewrite !flat_map_app. cbn [flat_map]. rewrite upd_same.
  rewrite (flat_map_same (fun x => g (upd f l c' x)) (fun x => g (f x)) A), (flat_map_same (fun x => g (upd f l c' x)) (fun x => g (f x)) B).
  - rewrite P, <- !app_assoc. apply Permutation_app_head, Permutation_app_head, Permutation_app_comm.
  - intros x Hx. rewrite upd_other; [reflexivity|]. intros ->. apply Hn, in_or_app. auto.
  - intros x Hx. rewrite upd_other; [reflexivity|]. intros ->. apply Hn, in_or_app. auto.
Qed.

Lemma sep_dec (a b : separatrix) : {a = b} + {a <> b}.
Proof. repeat decide equality. Qed.

Definition ends (cs : list connection) : list separatrix := flat_map (fun c => [cn_source c; cn_target c]) cs.

Lemma in_ends cs c : In c cs -> In (cn_source c) (ends cs) /\ In (cn_target c) (ends cs).
Proof. intro H. split; apply in_flat_map; exists c; (split; [exact H|simpl; auto]). Qed.

Lemma at_sep_none s cs : ~ In s (ends cs) -> at_separatrix s cs = [].
Proof.
  intro H. destruct (at_separatrix s cs) as [|c l] eqn:E; [reflexivity|]. exfalso. apply H.
  assert (Hc : In c (at_separatrix s cs)) by (rewrite E; left; reflexivity).
  apply at_sep_in in Hc as [Hc [<-|<-]]; apply (in_ends cs c Hc).
Qed.

Lemma at_sep_one s cs : NoDup (ends cs) -> exists l, at_separatrix s cs = l /\ (l = [] \/ exists c, l = [c]).
Proof.
  intro ND. exists (at_separatrix s cs). split; [reflexivity|]. induction cs as [|c cs IH]; [left; reflexivity|].
  cbn [ends flat_map app] in ND. inversion ND as [|? ? N1 ND1]; subst. inversion ND1 as [|? ? N2 ND2]; subst.
  cbn [at_separatrix flat_map]. fold (at_separatrix s cs). fold (ends cs) in *.
  destruct (sep_eqb (cn_source c) s) eqn:Q1.
  - apply sep_eqb_eq in Q1. rewrite <- Q1. rewrite (at_sep_none (cn_source c) cs) by (intro C; apply N1; right; exact C).
    destruct (sep_eqb (cn_target c) (cn_source c)) eqn:Q2.
    + apply sep_eqb_eq in Q2. exfalso. apply N1. left. exact Q2.
    + right. exists c. reflexivity.
  - destruct (sep_eqb (cn_target c) s) eqn:Q2; [|exact (IH ND2)]. apply sep_eqb_eq in Q2. rewrite <- Q2, (at_sep_none (cn_target c) cs) by exact N2.
    right. exists c. reflexivity.
Qed.

Theorem inject_succeeds e0 (d : decomp T) at_ ls rs : dec_ok e0 d -> In (he_label at_) (d_keys d) ->
  he_left d at_ = Ok [] -> he_right d at_ = Ok [] ->
  NoDup (ends (map left_conn ls ++ map right_conn rs)) ->
  (forall s, In s (ends (map left_conn ls ++ map right_conn rs)) -> ~ In s (ends (rights d))) ->
  exists L R d', inject d at_ ls rs = Ok (L, R, d').
Proof.
  intros H Hk El Er ND Fr. unfold inject. rewrite (check_ok e0 d H). cbn [bind].
  unfold he_left in El. unfold he_right in Er. rewrite (conns_at_ok d _ Hk) in *. cbn [bind] in *. injection El as El. injection Er as Er.
  rewrite El, Er. cbn [length app Nat.eqb]. rewrite !Bool.orb_true_r. cbn [assert_].
  match goal with |- context [dec_check ?x] => set (d1 := x) end.
  set (newl := map left_conn (if he_top at_ then rev ls else ls)) in *. set (newr := map right_conn (if he_top at_ then rev rs else rs)) in *.
  assert (NK : NoDup (d_keys d)).
  { rewrite (dk_keys _ _ H). destruct (dk_inv _ _ H) as (D & C). apply (ci_start _ _ _ _ C). }
  assert (Pnl : Permutation newl (map left_conn ls)) by (unfold newl; destruct (he_top at_); [apply Permutation_map, Permutation_sym, Permutation_rev|reflexivity]).
  assert (Pnr : Permutation newr (map right_conn rs)) by (unfold newr; destruct (he_top at_); [apply Permutation_map, Permutation_sym, Permutation_rev|reflexivity]).
  assert (PL : Permutation (lefts d1) (lefts d ++ map left_conn ls)).
  { transitivity (lefts d ++ newl); [|apply Permutation_app_head, Pnl].
    unfold lefts, d1. cbn [d_keys d_conns set_conns].
    apply (flat_upd (fun c => topLeft c ++ bottomLeft c)); [exact NK|exact Hk|].
    destruct (he_top at_); cbn [topLeft bottomLeft]; rewrite El; cbn [app]; rewrite ?app_nil_r; [apply Permutation_app_comm|reflexivity]. }
  assert (PR : Permutation (rights d1) (rights d ++ map right_conn rs)).
  { transitivity (rights d ++ newr); [|apply Permutation_app_head, Pnr].
    unfold rights, d1. cbn [d_keys d_conns set_conns].
    apply (flat_upd (fun c => topRight c ++ bottomRight c)); [exact NK|exact Hk|].
    destruct (he_top at_); cbn [topRight bottomRight]; rewrite Er; cbn [app]; rewrite ?app_nil_r; [apply Permutation_app_comm|reflexivity]. }
  set (new := map left_conn ls ++ map right_conn rs) in *.
  assert (PA : Permutation ((lefts d ++ rights d) ++ new) (lefts d1 ++ rights d1)).
  { rewrite PL, PR. unfold new. rewrite <- !app_assoc. apply Permutation_app_head. rewrite !app_assoc. apply Permutation_app_tail. apply Permutation_app_comm. }
  enough (Ck : dec_check d1 = Ok tt) by (rewrite Ck; cbn [bind]; eauto).
  unfold dec_check.
  assert (Q1 : forallb (fun c => negb (conn_parallel c)) (lefts d1) = true).
  { apply forallb_forall. intros c Hc. apply (Permutation_in _ PL) in Hc. apply in_app_or in Hc as [Hc|Hc].
    - destruct (conns_left e0 d H c Hc) as (b & t & -> & _). reflexivity.
    - apply in_map_iff in Hc as (p & <- & _). reflexivity. }
  assert (Q2 : forallb conn_parallel (rights d1) = true).
  { apply forallb_forall. intros c Hc. apply (Permutation_in _ PR) in Hc. apply in_app_or in Hc as [Hc|Hc].
    - destruct (conns_right e0 d H c Hc) as (b & t & -> & _). reflexivity.
    - apply in_map_iff in Hc as (p & <- & _). reflexivity. }
  rewrite Q1, Q2. cbn [assert_].
  assert (EL : forall s, In s (ends (lefts d ++ rights d)) -> In s (ends (rights d))).
  { intros s Hs. apply in_flat_map in Hs as (c & Hc & Hs). apply in_app_or in Hc as [Hc|Hc].
    - apply (Permutation_in _ (conns_reverse e0 d H)) in Hc. apply in_map_iff in Hc as (c' & <- & Hc). apply in_flat_map. exists c'. split; [exact Hc|].
      simpl in *. tauto.
    - apply in_flat_map. exists c. auto. }
  assert (Sep : forall s, separatrix_ok s (lefts d1 ++ rights d1) = true).
  { intro s. apply (separatrix_ok_perm s _ _ PA). unfold separatrix_ok.
    replace (at_separatrix s ((lefts d ++ rights d) ++ new)) with (at_separatrix s (lefts d ++ rights d) ++ at_separatrix s new) by (symmetry; apply flat_map_app).
    destruct (in_dec sep_dec s (ends new)) as [Hn|Hn].
    - rewrite (at_sep_none s (lefts d ++ rights d)) by (intro C; exact (Fr s Hn (EL s C))). cbn [app].
      destruct (at_sep_one s new ND) as (l & -> & [->|(c & ->)]); reflexivity.
    - rewrite (at_sep_none s new Hn), app_nil_r.
      destruct (dk_inv _ _ H) as (D & C). pose proof (ci_separatrix_ok _ _ _ _ C s) as Q. unfold separatrix_ok in Q.
      rewrite <- (lefts_eq e0 d H), <- (rights_eq e0 d H) in Q. exact Q. }
  assert (Q3 : forallb (fun c => separatrix_ok (cn_source c) (lefts d1 ++ rights d1) && separatrix_ok (cn_target c) (lefts d1 ++ rights d1)) (lefts d1 ++ rights d1) = true).
  { apply forallb_forall. intros c _. rewrite !Sep. reflexivity. }
  rewrite Q3. reflexivity.
Qed.

End More.
