(** Consequences for sequences of calls: elementary induction is deterministic, what
    [inducing] preserves, and independence of IETs that share lengths. *)
From Coq Require Import Reals Lra Permutation.
From Verif Require Import Base QcTac LenT FM Subspace Lengths IET Spec SpecLin Api.
From Verif Require Import ZorichProof Dyn Saddle ReduceProof SubspaceProof Saf Bosh Path Similar InduceProof InduceCons World.
Open Scope nat_scope.

Lemma nth_error_ext {A} (l l' : list A) : (forall c, nth_error l c = nth_error l' c) -> l = l'.
Proof.
  revert l'. induction l as [|x l IH]; intros [|y l'] H; [reflexivity | specialize (H 0); discriminate | specialize (H 0); discriminate|].
  pose proof (H 0) as H0. simpl in H0. injection H0 as ->. f_equal. apply IH. intros c. exact (H (S c)).
Qed.

(** * Elementary induction is deterministic *)

Lemma same_exch_proper' e e' : same_exch e e' -> proper e -> proper e'.
Proof. apply same_exch_proper. Qed.

Lemma rauzy_step_det e e1 e2 : proper e -> rauzy_step e e1 -> rauzy_step e e2 -> same_exch e1 e2.
Proof.
  intros P (a & b & X & Y1 & Y2 & Et & Eb & Hlt & Et1 & Eb1 & Ha1 & Hc1)
           (a' & b' & X' & Z1 & Z2 & Et' & Eb' & Hlt' & Et2 & Eb2 & Ha2 & Hc2).
  rewrite Et in Et'. injection Et' as <- <-. pose proof Eb as Eb0. rewrite Eb in Eb'. injection Eb' as <- Eq.
  pose proof (proper_bot_nodup e P) as N. rewrite Eb0 in N.
  assert (Y1 = Z1 /\ Y2 = Z2) as [<- <-].
  { apply (nodup_split_unique (Y1 ++ a :: Y2) a Y1 Y2 Z1 Z2); [inversion N; assumption | reflexivity | exact Eq]. }
  split; [congruence|]. split; [congruence|]. intros c. destruct (Nat.eq_dec c a) as [->|H]; [congruence|].
  rewrite Hc1, Hc2 by exact H. reflexivity.
Qed.

Lemma stuck_same e e' : same_exch e e' -> rauzy_stuck e -> rauzy_stuck e'.
Proof. intros S H [e1 H1]. apply H. exists e1. exact (rauzy_step_same e e' e1 S H1). Qed.

Lemma run_same e e0 e' : same_exch e e0 -> rauzy_run e0 e' -> rauzy_run e e'.
Proof.
  intros S R. destruct R as [e0 e' S'|e0 e1 e' H R].
  - apply run_refl. exact (same_exch_trans _ _ _ S S').
  - eapply run_step; [exact (rauzy_step_same _ _ _ S H) | exact R].
Qed.

Lemma run_unique e e1 e2 : proper e -> rauzy_run e e1 -> rauzy_stuck e1 -> rauzy_run e e2 -> rauzy_stuck e2 ->
  same_exch e1 e2.
Proof.
  intros P R1. revert e2 P. induction R1 as [e e1 S1|e f1 e1 H1 R1 IH]; intros e2 P S R2 S2.
  - apply same_exch_trans with e; [apply same_exch_sym; exact S1|].
    destruct R2 as [e e2 S2'|e f2 e2 H2 R2]; [exact S2'|]. exfalso. apply S. exists f2.
    exact (rauzy_step_same _ _ _ (same_exch_sym _ _ S1) H2).
  - destruct R2 as [e e2 S2'|e f2 e2 H2 R2].
    + exfalso. apply S2. exists f1. exact (rauzy_step_same _ _ _ (same_exch_sym _ _ S2') H1).
    + apply IH; [exact (rauzy_step_proper e f1 P H1) | exact S | | exact S2].
      exact (run_same _ _ _ (rauzy_step_det e f1 f2 P H1 H2) R2).
Qed.

(** The bottom labels in front of the first top label are rotated. *)
Lemma run_rotation e e' a X : proper e -> e_top e = a :: X -> rauzy_run e e' ->
  exists U V Y, e_bot e = U ++ V ++ a :: Y /\ e_bot e' = V ++ U ++ a :: Y.
Proof.
  intros P Et R. revert P Et. induction R as [e e' (S1 & S2 & S3)|e e1 e' H R IH]; intros P Et.
  - assert (In a (e_bot e)) as (V & Y & E)%in_split.
    { destruct P as (_ & Pe & _). apply (Permutation_in a Pe). rewrite Et. left. reflexivity. }
    exists [], V, Y. rewrite <- S2. split; exact E.
  - pose proof (rauzy_step_proper e e1 P H) as P1.
    destruct H as (a' & b & X' & Y1 & Y2 & Et' & Eb & Hlt & Et1 & Eb1 & Ha & Hc).
    rewrite Et in Et'. injection Et' as <- <-.
    destruct (IH P1 ltac:(congruence)) as (U & V & Y & F1 & F2).
    rewrite Eb1 in F1.
    assert (N : NoDup (e_bot e1)) by (apply proper_bot_nodup; exact P1).
    assert (Y1 ++ [b] = U ++ V /\ Y2 = Y) as [Q ->].
    { rewrite Eb1 in N. apply (nodup_split_unique (Y1 ++ b :: a :: Y2) a); [exact N | rewrite <- app_assoc; reflexivity|].
      rewrite <- app_assoc. exact F1. }
    rewrite Eb, F2. destruct V as [|v V] using rev_ind.
    + rewrite app_nil_r in Q. subst U. exists [b], Y1, Y. simpl. rewrite <- app_assoc. split; reflexivity.
    + clear IHV. rewrite app_assoc in Q. apply app_inj_tail in Q. destruct Q as [-> ->].
      exists (v :: U), V, Y. simpl. rewrite <- !app_assoc. split; reflexivity.
Qed.

Section Seq.
Context {T : Type} {O : LenOps T} {W : LenLaws T}.
Implicit Types (i j : iet T) (s t : slen T).

(** * The SAF invariant along any path *)

Lemma vneg_involutive (v : vec) : vneg (vneg v) = v.
Proof. induction v as [|x v IH]; simpl; [reflexivity|]. rewrite IH. f_equal. apply Qcopp_involutive. Qed.

Lemma saf_of_path e e' (len len' : label -> T) :
  rauzy_path e e' -> proper e ->
  (forall c, e_len e c = val (len c)) -> (forall c, e_len e' c = val (len' c)) ->
  saf_of len (e_top e) (e_bot e) = saf_of len' (e_top e') (e_bot e').
Proof.
  intros Hp. revert len. induction Hp as [e e' S|e e1 e' Hs Hr IH|e e1 e' Hs Hr IH]; intros len P Hl Hl'.
  - destruct P as (N & Pe & _). apply saf_of_run; try assumption. apply run_refl. exact S.
  - pose proof (rauzy_step_proper _ _ P Hs) as P1.
    assert (exists len1 : label -> T, forall c, e_len e1 c = val (len1 c)) as [len1 H1].
    { destruct Hs as (a & b & X & Y1 & Y2 & Et & Eb & Hlt & Et' & Eb' & Ea & Ec).
      exists (fun c => if Nat.eqb c a then l_sub (len a) (len b) else len c).
      intros c. destruct (Nat.eqb_spec c a) as [->|Hne].
      - rewrite Ea, val_sub, !Hl. reflexivity.
      - rewrite Ec, Hl by exact Hne. reflexivity. }
    rewrite <- (IH len1 P1 H1 Hl'). destruct P as (N & Pe & _). apply saf_of_run; try assumption.
    eapply run_step; [exact Hs|]. apply run_refl, same_exch_refl.
  - pose proof (proj2 (bot_step_facts e e1 P Hs)) as P1.
    assert (exists len1 : label -> T, forall c, e_len e1 c = val (len1 c)) as [len1 H1].
    { destruct Hs as (a & b & X & Y1 & Y2 & Et & Eb & Hlt & Et' & Eb' & Ea & Ec). simpl in *.
      exists (fun c => if Nat.eqb c a then l_sub (len a) (len b) else len c).
      intros c. destruct (Nat.eqb_spec c a) as [->|Hne].
      - rewrite Ea, val_sub, !Hl. reflexivity.
      - rewrite Ec, Hl by exact Hne. reflexivity. }
    rewrite <- (IH len1 P1 H1 Hl').
    pose proof (flip_proper e P) as Pf.
    pose proof (saf_of_run (flip e) (flip e1) len len1) as G.
    specialize (G ltac:(eapply run_step; [exact Hs | apply run_refl, same_exch_refl]) (proj1 Pf) (proj1 (proj2 Pf)) Hl H1).
    simpl in G. destruct P as (N & Pe & _). destruct P1 as (N1 & Pe1 & _).
    rewrite (saf_of_flip len), (saf_of_flip len1) in G by assumption.
    rewrite <- (vneg_involutive (saf_of len _ _)), G. apply vneg_involutive.
Qed.

Lemma reach_saf i s i' s' : wf i s -> reach i s i' s' -> saf_now i' s' = saf_now i s.
Proof.
  intros H R. unfold saf_now. symmetry.
  apply (saf_of_path (exch_of i s) (exch_of i' s')).
  - exact (r_path _ _ _ _ R).
  - apply wf_proper. exact H.
  - intros c. symmetry. apply val_lamT.
  - intros c. symmetry. apply val_lamT.
Qed.

(** * What [inducing] preserves *)

Definition par {A} (f : A -> A) (n : nat) (x : A) : A := if Nat.even n then x else f x.

Lemma par_S {A} (f : A -> A) n x : f (f x) = x -> par f (S n) (f x) = par f n x.
Proof. intros H. unfold par. rewrite Nat.even_succ, <- Nat.negb_even. destruct (Nat.even n); simpl; auto. Qed.

Lemma vneg_opp (v : vec) : vneg v = map Qcopp v.
Proof. induction v as [|x v IH]; simpl; [reflexivity|]. rewrite IH. reflexivity. Qed.

Lemma vadd_nth (u v : vec) k : length u = length v -> nth k (vadd u v) 0%Qc = (nth k u 0 + nth k v 0)%Qc.
Proof. apply nth_vadd. Qed.

Record related i s n j t : Prop := {
  rel_good : good j t;
  rel_induced : induced (exch_of i s) (par flip n (exch_of j t));
  rel_swap : i_swap j = xorb (i_swap i) (Nat.odd n);
  rel_saf : saf_now j t = par vneg n (saf_now i s);
  rel_size : length (i_top j) <= length (i_top i);
}.

Lemma par_proper n e : proper e -> proper (par flip n e).
Proof. unfold par. destruct (Nat.even n); [auto | apply flip_proper]. Qed.

Lemma par_induced n e e' : proper e -> proper e' -> induced e e' -> induced (par flip n e) (par flip n e').
Proof. unfold par. destruct (Nat.even n); [auto | apply induced_flip]. Qed.

Lemma related_step i s n j t j' t' : good i s -> related i s n j t ->
  good j' t' -> induced (exch_of j t) (exch_of j' t') -> i_swap j' = i_swap j -> saf_now j' t' = saf_now j t ->
  length (i_top j') <= length (i_top j) -> related i s n j' t'.
Proof.
  intros Hg [Rg Ri Rs Rf Rz] G I Sw Sf Sz. constructor; [exact G | | congruence | congruence | lia].
  pose proof (wf_proper _ _ (proj1 Rg)) as P1. pose proof (wf_proper _ _ (proj1 G)) as P2.
  apply (induced_trans (exch_of i s) (par flip n (exch_of j t))); [apply wf_proper, Hg | apply par_proper, P1 | apply par_proper, P2 | exact Ri|].
  apply par_induced; assumption.
Qed.

Lemma reach_induced i s i' s' : wf i s -> reach i s i' s' -> induced (exch_of i s) (exch_of i' s').
Proof. intros H R. apply path_induced; [apply wf_proper, H | apply R]. Qed.

Lemma related_reach i s n j t j' t' : good i s -> related i s n j t -> good j' t' -> reach j t j' t' -> related i s n j' t'.
Proof.
  intros Hg R G Re. pose proof (proj1 (rel_good _ _ _ _ _ R)) as Wj.
  apply (related_step i s n j t); [exact Hg | exact R | exact G | apply reach_induced; assumption | apply Re | apply reach_saf; assumption|].
  rewrite (Permutation_length (reach_labels j t j' t' Wj Re)). lia.
Qed.

Lemma inducing_ok i s n j t : good i s -> inducing i s n j t -> related i s n j t.
Proof.
  intros Hg. induction 1 as [|n j t found j' t' H IH E|n j t fuel limit st j' t' H IH HL E Ea|n j t H IH].
  - constructor; try reflexivity; [exact Hg | | symmetry; apply xorb_false_r].
    unfold par; simpl. apply induced_refl; [apply same_exch_refl | apply wf_proper, Hg].
  - pose proof (rel_good _ _ _ _ _ IH) as G.
    destruct (good_zorich j t G) as (f & j1 & t1 & E1 & G1 & R1). rewrite E in E1. injection E1 as <- <- <-.
    exact (related_reach i s n j t j' t' Hg IH G1 R1).
  - pose proof (rel_good _ _ _ _ _ IH) as G.
    destruct (induce_ok limit fuel j t HL G) as [[E1 _]|[[E1 _]|(st1 & j1 & t1 & E1 & G1 & P1)]];
      rewrite E in E1; try discriminate. injection E1 as <- <- <-.
    unfold induce_post in P1. destruct (is_result st) eqn:Er.
    + destruct P1 as (_ & R1 & _). exact (related_reach i s n j t j' t' Hg IH G1 R1).
    + destruct P1 as (_ & _ & -> & ->). exact IH.
    + destruct P1 as (i1 & k & b & tt & _ & _ & _ & _ & _ & _ & _ & Est & _). rewrite Est in Ea. discriminate.
    + destruct P1 as (j1 & a & b & Hs1 & R1 & _ & Ha & Hb & Hab & M & Ht & Hsw & Hsf & _).
      pose proof (proj1 G) as Wj. pose proof (r_wf _ _ _ _ R1) as W1.
      apply (related_step i s n j t); [exact Hg | exact IH | exact G1 | | exact Hsw | |].
      * apply (induced_trans _ (exch_of j1 t')); [apply wf_proper, Wj | apply wf_proper, W1 | apply wf_proper, G1 | apply reach_induced; assumption|].
        apply merge_step_induced; [apply wf_proper, W1 | exact M].
      * rewrite Hsf. apply reach_saf; assumption.
      * rewrite Ht, (Permutation_length (reach_labels j t j1 t' Wj R1)). destruct (i_top j1); simpl; lia.
    + destruct P1 as (_ & R1 & _). exact (related_reach i s n j t j' t' Hg IH G1 R1).
    + destruct P1 as (_ & R1 & _). exact (related_reach i s n j t j' t' Hg IH G1 R1).
  - destruct IH as [Rg Ri Rs Rf Rz]. constructor.
    + apply good_swap, Rg.
    + change (exch_of (iet_swap j) t) with (flip (exch_of j t)). rewrite par_S by reflexivity. exact Ri.
    + simpl. rewrite Rs, Nat.odd_succ, <- Nat.negb_odd. destruct (i_swap i), (Nat.odd n); reflexivity.
    + rewrite swap_saf by apply Rg. rewrite Rf. unfold par. rewrite Nat.even_succ, <- Nat.negb_even.
      destruct (Nat.even n); simpl; [reflexivity | apply vneg_involutive].
    + simpl. destruct Rg as ((_ & Pe & _) & _). rewrite <- (Permutation_length Pe). exact Rz.
Qed.

(** * Independence *)

Lemma elsewhere_ok j l s l' s' : history l s -> elsewhere j l s l' s' ->
  history l' s' /\ In j l' /\ forall c, In c (i_top j) -> nth_error (sl_lens s') c = nth_error (sl_lens s) c.
Proof.
  intros Hh He. induction He as [l s Hj|l1 i l2 s o i' extra s' l' s'' Hj Ho E He IH]; [auto|].
  pose proof (history_ok _ _ Hh) as (Hg & Hn & _).
  assert (Hh' : history (l1 ++ i' :: extra ++ l2) s') by (eapply h_op; eassumption).
  destruct (IH Hh') as (G1 & G2 & G3). split; [exact G1|]. split; [exact G2|].
  intros c Hc. rewrite (G3 c Hc).
  assert (Gi : good i s) by (apply Hg; apply in_or_app; right; left; reflexivity).
  destruct (op_ok o i s Gi Ho) as [F|(i1 & ex1 & s1 & E1 & Ef)].
  { exfalso. rewrite E in F. destruct o; simpl in F; try contradiction; destruct F as [[F _]|[F _]]; discriminate. }
  rewrite E in E1. injection E1 as <- <- <-. apply (ef_frame _ _ _ _ _ Ef).
  intros Hi. rewrite used_app, used_cons in Hn.
  apply NoDup_app_inv in Hn. destruct Hn as (N1 & N2 & N3). apply NoDup_app_inv in N2. destruct N2 as (N4 & N5 & N6).
  apply in_app_or in Hj. destruct Hj as [Hj|Hj].
  - apply (N3 c); [exact (in_used j l1 c Hj Hc)|]. apply in_or_app. left. exact Hi.
  - apply (N6 c); [exact Hi | exact (in_used j l2 c Hj Hc)].
Qed.

Lemma coordinate_co s k a : coordinate s k a = co (lamT s) k a.
Proof.
  unfold coordinate, co, lamT. destruct (nth_error (sl_lens s) a); [reflexivity|]. symmetry. apply coef_zero_nth.
Qed.

Lemma saf_now_vector i s : wf i s -> saf_now i s = saf_vector (l_deg T) (coordinate s) (i_top i) (i_bottom i).
Proof.
  intros H. unfold saf_now, saf_of, saf_vector. apply map_ext. intros [x y]. simpl.
  unfold saf_entry. apply qsum_ext. intros a _. rewrite !coordinate_co.
  unfold displacement. f_equal; f_equal; f_equal; apply before_ext; intros; symmetry; apply coordinate_co.
Qed.

Lemma maps_agree i s s' : wf i s -> (forall c, In c (i_top i) -> nth_error (sl_lens s') c = nth_error (sl_lens s) c) ->
  forall y z, maps (exch_of i s') y z <-> maps (exch_of i s) y z.
Proof.
  intros (_ & Pe & _) H.
  assert (Q : forall e e', e_top e = e_top e' -> e_bot e = e_bot e' -> Permutation (e_top e) (e_bot e) ->
            (forall c, In c (e_top e) -> e_len e c = e_len e' c) -> forall y z, maps e y z -> maps e' y z).
  { intros e e' E1 E2 P E3 y z (a & X & Y & X' & Y' & F1 & F2 & F3 & F4)%maps_iff.
    apply maps_iff. exists a, X, Y, X', Y'. split; [congruence|]. split; [congruence|].
    assert (In a (e_top e)) as Ia by (rewrite F1; apply in_or_app; right; left; reflexivity).
    assert (T1 : total (e_len e) X = total (e_len e') X).
    { apply Dyn.total_ext. intros c Hc. apply E3. rewrite F1. apply in_or_app. left. exact Hc. }
    assert (T2 : total (e_len e) X' = total (e_len e') X').
    { apply Dyn.total_ext. intros c Hc. apply E3. apply (Permutation_in c (Permutation_sym P)). rewrite F2. apply in_or_app. left. exact Hc. }
    rewrite <- T1, <- T2, <- (E3 a Ia). auto. }
  intros y z. split; apply Q; simpl; auto; intros c Hc; [|symmetry]; apply lamR_agree; auto.
Qed.

(** * Periodic points of the two parts *)

Lemma iter_down {A B} (f : A -> A -> Prop) (g : B -> B -> Prop) (h : A -> B) (D : A -> Prop) :
  (forall x y, D x -> f x y -> D y /\ g (h x) (h y)) ->
  forall n x y, D x -> iter f n x y -> iter g n (h x) (h y).
Proof.
  intros H. induction n as [|n IH]; intros x y Dx; simpl; [intros ->; reflexivity|].
  intros (z & Hz & Hi). destruct (H x z Dx Hz) as [Dz Gz]. exists (h z). split; [exact Gz | apply IH; assumption].
Qed.

Lemma cut_periodic i s k : wf i s -> invariant_prefix (exch_of i s) k ->
  (has_periodic_point (exch_of i s) <->
   has_periodic_point (exch_of (left_part i k) s) \/ has_periodic_point (exch_of (right_part i k) s)).
Proof.
  intros Wf [Hk1 Hk2]. pose proof (wf_proper _ _ Wf) as P.
  assert (Et : e_top (exch_of i s) = firstn k (i_top i) ++ skipn k (i_top i)) by (symmetry; apply firstn_skipn).
  assert (Eb : e_bot (exch_of i s) = firstn k (i_bottom i) ++ skipn k (i_bottom i)) by (symmetry; apply firstn_skipn).
  pose proof (cut_left _ _ _ _ _ P Et Eb Hk2) as CL. pose proof (cut_right _ _ _ _ _ P Et Eb Hk2) as CR.
  pose proof (cut_proper _ _ _ _ _ P Et Eb Hk2) as [PL PR].
  set (e := exch_of i s) in *. set (d := total (e_len e) (firstn k (i_top i))) in *.
  change (exch_of (left_part i k) s) with (mkexch (firstn k (i_top i)) (firstn k (i_bottom i)) (e_len e)).
  change (exch_of (right_part i k) s) with (mkexch (skipn k (i_top i)) (skipn k (i_bottom i)) (e_len e)).
  set (el := mkexch (firstn k (i_top i)) (firstn k (i_bottom i)) (e_len e)) in *.
  set (er := mkexch (skipn k (i_top i)) (skipn k (i_bottom i)) (e_len e)) in *.
  split.
  - intros (x & n & Hn & Hi). destruct (Rlt_le_dec x d) as [Hx|Hx].
    + left. exists x, n. split; [exact Hn|].
      apply (iter_down (maps e) (maps el) (fun x => x) (fun x => x < d)%R); [|exact Hx | exact Hi].
      intros u v Hu M. pose proof (proj2 (CL u v) (conj M Hu)) as ML. split; [|exact ML].
      exact (proj2 (maps_ran el PL _ _ ML)).
    + right. exists (x - d)%R, n. split; [exact Hn|].
      apply (iter_down (maps e) (maps er) (fun x => x - d)%R (fun x => d <= x)%R); [|exact Hx | exact Hi].
      intros u v Hu M.
      assert (MR : maps er (u - d)%R (v - d)%R).
      { apply CR; [lra|]. replace (u - d + d)%R with u by lra. replace (v - d + d)%R with v by lra. exact M. }
      split; [|exact MR]. pose proof (proj1 (maps_ran er PR _ _ MR)). lra.
  - intros [(x & n & Hn & Hi)|(x & n & Hn & Hi)].
    + exists x, n. split; [exact Hn|]. apply (iter_map (maps el) (maps e) (fun x => x)); [|exact Hi].
      intros u v M. apply CL in M. apply M.
    + exists (x + d)%R, n. split; [exact Hn|]. apply (iter_map (maps er) (maps e) (fun x => x + d)%R); [|exact Hi].
      intros u v M. apply CR; [exact (proj1 (maps_dom er PR _ _ M)) | exact M].
Qed.

End Seq.
